(** Proofs for C57: a resolved module is what scoping says, and a well-scoped module is resolved. *)
From Coq Require Import Bool List String Arith Lia.
From Verif.Model Require Import Syntax ScopeMap ResolveDecls.
From Verif.Spec Require Import ModuleScoping.
From Verif.Proofs Require Import ModuleProofs.
Import ListNotations.
Local Open Scope string_scope.
Local Open Scope list_scope.

Definition role_of (j : job) : role := match j with JVisit => Understood | JDeclare => Declared | JKeep => Ignored end.
Lemma map_const {A B} (b : B) (l : list A) : map (fun _ => b) l = repeat b (List.length l).
Proof. induction l; cbn; congruence. Qed.
Lemma map_repeat {A B} (f : A -> B) a n : map f (repeat a n) = repeat (f a) n.
Proof. induction n; cbn; congruence. Qed.
Lemma arg_jobs_roles y k args js : arg_jobs y k (List.length args) = Ok js -> roles y k args (map role_of js).
Proof.
  intros H. unfold arg_jobs in H.
  assert (K : k = KEncoding \/ k <> KEncoding) by (destruct k; auto; right; discriminate).
  destruct K as [->|K].
  - destruct (String.eqb (gname y) "omega_invariant") eqn:E1.
    + apply String.eqb_eq in E1. injection H as <-. destruct args as [|a args]; [apply r_omega_none; auto|].
      cbn. rewrite map_repeat. cbn. rewrite <- (map_const Understood args). apply r_omega. exact E1.
    + destruct (String.eqb (gname y) "ast") eqn:E2.
      * apply String.eqb_eq in E2. destruct (Nat.eqb (List.length args) 5) eqn:L; [|discriminate]. injection H as <-.
        apply Nat.eqb_eq in L. do 6 (destruct args as [|? args]; try discriminate). apply r_ast. exact E2.
      * destruct (String.eqb (gname y) "ost") eqn:E3.
        -- apply String.eqb_eq in E3. destruct (Nat.eqb (List.length args) 4) eqn:L; [|discriminate]. injection H as <-.
           apply Nat.eqb_eq in L. do 5 (destruct args as [|? args]; try discriminate). apply r_ost. exact E3.
        -- injection H as <-. rewrite map_repeat. cbn. rewrite <- (map_const Understood args). apply r_other.
           apply String.eqb_neq in E1, E2, E3. cbn. intuition congruence.
  - assert (js = repeat JKeep (List.length args)) as -> by (destruct k; congruence).
    rewrite map_repeat. cbn. rewrite <- (map_const Ignored args). apply r_ignored. exact K.
Qed.
Lemma roles_arg_jobs y k args rs : roles y k args rs -> exists js, arg_jobs y k (List.length args) = Ok js /\ map role_of js = rs.
Proof.
  intros H. unfold arg_jobs. destruct H as [k args K|N|a args N|a b c d e N|a b c d N|args N].
  - exists (repeat JKeep (List.length args)). rewrite map_repeat. cbn. rewrite map_const. split; [destruct k; congruence|reflexivity].
  - rewrite N. eexists. split; reflexivity.
  - rewrite N. eexists. split; [reflexivity|]. cbn. rewrite map_repeat, map_const. reflexivity.
  - rewrite N. eexists. split; reflexivity.
  - rewrite N. eexists. split; reflexivity.
  - assert (A : gname y <> "omega_invariant" /\ gname y <> "ast" /\ gname y <> "ost").
    { repeat split; intros Q; apply N; rewrite Q; cbn; auto. }
    destruct A as (A1 & A2 & A3). apply String.eqb_neq in A1, A2, A3. rewrite A1, A2, A3.
    eexists. split; [reflexivity|]. rewrite map_repeat, map_const. reflexivity.
Qed.

Definition good {A} (S : stack -> A -> A -> stack -> Prop) (f : A -> rds -> res (A * rds)) (a : A) : Prop :=
  forall r a' r' E, rel r E -> f a r = Ok (a', r') -> exists E', S E a a' E' /\ rel r' E' /\ tl E' = tl E /\ tcx_grows r r'.

Lemma items_sound l : Forall (good sees ditem_res) l -> good sees_all ditems l.
Proof.
  induction 1 as [|i l Hi _ IH]; intros r l' r' E R H; cbn in H.
  - injection H as <- <-. exists E. repeat split; try constructor; try apply R. exists []. now rewrite app_nil_r.
  - destruct (ditem_res i r) as [[i1 r1]| |] eqn:H1; cbn [rbind] in H; try discriminate.
    destruct (ditems l r1) as [[l1 r2]| |] eqn:H2; cbn [rbind] in H; try discriminate. injection H as <- <-.
    destruct (Hi _ _ _ _ R H1) as (E1 & S1 & R1 & T1 & G1). destruct (IH _ _ _ _ R1 H2) as (E2 & S2 & R2 & T2 & G2).
    exists E2. split; [econstructor; eauto|]. split; [exact R2|]. split; [congruence|]. eapply grows_trans; eauto.
Qed.
Lemma sub_items_sound l r E l' r' : good sees_all ditems l -> rel r E -> subscope (ditems l) r = Ok (l', r') ->
  (exists E', sees_all ([] :: E) l l' E') /\ rel r' E /\ tcx_grows r r'.
Proof.
  intros Hl R H. destruct (subscope_sound (ditems l) r E l' r' R H) as (r0 & r1 & R0 & H0 & R' & G & _).
  - intros r0 a0 r1 R0 H0. destruct (Hl _ _ _ _ R0 H0) as (E' & _ & R1 & T & G). exists E'. auto.
  - destruct (Hl _ _ _ _ R0 H0) as (E' & S & _). eauto.
Qed.
Lemma args_sound l : Forall (good sees ditem_res) l -> forall js r l' r' E, rel r E -> List.length js = List.length l ->
  darguments l js r = Ok (l', r') ->
  exists E', sees_args E l (map role_of js) l' E' /\ rel r' E' /\ tl E' = tl E /\ tcx_grows r r'.
Proof.
  induction 1 as [|a l Ha _ IH]; intros js r l' r' E R L H; destruct js as [|j js]; try discriminate; cbn in H.
  - injection H as <- <-. exists E. repeat split; try constructor; try apply R. exists []. now rewrite app_nil_r.
  - cbn in L. apply Nat.succ_inj in L.
    match type of H with rbind ?M _ = _ => destruct M as [[a1 r1]| |] eqn:H1; cbn [rbind] in H; try discriminate end.
    destruct (darguments l js r1) as [[l1 r2]| |] eqn:H2; cbn [rbind] in H; try discriminate. injection H as <- <-.
    destruct j; cbn [map role_of].
    + destruct (Ha _ _ _ _ R H1) as (E1 & S1 & R1 & T1 & G1). destruct (IH _ _ _ _ _ R1 L H2) as (E2 & S2 & R2 & T2 & G2).
      exists E2. split; [econstructor; eauto|]. split; [exact R2|]. split; [congruence|]. eapply grows_trans; eauto.
    + destruct a; try discriminate. destruct (ddeclare KVar x r) as [r0| |] eqn:D; cbn [rbind] in H1; try discriminate.
      injection H1 as <- <-. destruct (ddeclare_sound _ _ _ _ _ R D) as (E1 & S1 & R1 & T1 & G1).
      destruct (IH _ _ _ _ _ R1 L H2) as (E2 & S2 & R2 & T2 & G2).
      exists E2. split; [econstructor; eauto|]. split; [exact R2|]. split; [congruence|]. eapply grows_trans; eauto.
    + injection H1 as <- <-. destruct (IH _ _ _ _ _ R L H2) as (E2 & S2 & R2 & T2 & G2).
      exists E2. split; [econstructor; eauto|]. auto.
Qed.
Lemma arg_jobs_length y k n js : arg_jobs y k n = Ok js -> List.length js = n.
Proof.
  unfold arg_jobs. destruct k; try (intros [= <-]; apply repeat_length).
  destruct (String.eqb (gname y) "omega_invariant"); [intros [= <-]; destruct n; cbn; rewrite ?repeat_length; reflexivity|].
  destruct (String.eqb (gname y) "ast").
  { destruct (Nat.eqb n 5) eqn:L; [|discriminate]. intros [= <-]. apply Nat.eqb_eq in L. subst. reflexivity. }
  destruct (String.eqb (gname y) "ost").
  { destruct (Nat.eqb n 4) eqn:L; [|discriminate]. intros [= <-]. apply repeat_length. }
  intros [= <-]. apply repeat_length.
Qed.

Lemma item_sound i : good sees ditem_res i.
Proof.
  induction i as [x|t|k x|l Hl|l Hl|x args inner Ha Hi] using item_rect'; intros r i' r' E R H.
  - cbn in H. pose proof (dident_spec r E x R) as D. destruct (dident x r) as [y| |]; cbn [rbind] in H; try discriminate.
    injection H as <- <-. destruct D as [k D]. exists E. split; [econstructor; eauto|]. split; [exact R|]. split; [reflexivity|apply grows_refl].
  - cbn in H. destruct (dty t r) as [t'| |] eqn:D; cbn [rbind] in H; try discriminate. injection H as <- <-.
    exists E. split; [constructor; eapply dty_sound; eauto|]. split; [exact R|]. split; [reflexivity|apply grows_refl].
  - cbn in H. destruct (ddeclare k x r) as [r1| |] eqn:D; cbn [rbind] in H; try discriminate. injection H as <- <-.
    destruct (ddeclare_sound _ _ _ _ _ R D) as (E1 & S1 & R1 & T1 & G1). exists E1. split; [constructor; exact S1|auto].
  - rewrite ditem_expr in H. destruct (ditems l r) as [[l' r1]| |] eqn:D; cbn [rbind] in H; try discriminate. injection H as <- <-.
    destruct (items_sound l Hl _ _ _ _ R D) as (E1 & S1 & R1 & T1 & G1). exists E1. split; [constructor; exact S1|auto].
  - rewrite ditem_scope in H. destruct (subscope (ditems l) r) as [[l' r1]| |] eqn:D; cbn [rbind] in H; try discriminate.
    injection H as <- <-. destruct (sub_items_sound l r E l' r1 (items_sound l Hl) R D) as ((E' & S) & R1 & G).
    exists E. split; [econstructor; exact S|]. auto.
  - rewrite ditem_ann in H. destruct (find_annotation (gname x) r) as [[y k]|] eqn:F; [|discriminate].
    destruct (arg_jobs y k (List.length args)) as [js| |] eqn:J; cbn [rbind] in H; try discriminate.
    destruct (darguments args js r) as [[args' r1]| |] eqn:D; cbn [rbind] in H; try discriminate.
    destruct (subscope (ditems inner) r1) as [[inner' r2]| |] eqn:D2; cbn [rbind] in H; try discriminate. injection H as <- <-.
    apply (find_annotation_spec r E) in F; [|exact R].
    destruct (args_sound args Ha js r args' r1 E R (arg_jobs_length _ _ _ _ J) D) as (E1 & S1 & R1 & T1 & G1).
    destruct (sub_items_sound inner r1 E1 inner' r2 (items_sound inner Hi) R1 D2) as ((E' & S) & R2 & G).
    exists E1. split; [|split; [exact R2|split; [exact T1|eapply grows_trans; eauto]]].
    econstructor; [exact F|apply arg_jobs_roles; exact J|exact S1|exact S].
Qed.
Lemma ditems_sound l : good sees_all ditems l.
Proof. apply items_sound. apply Forall_forall. intros i _. apply item_sound. Qed.

Lemma params_sound ps : good sees_params dparams ps.
Proof.
  induction ps as [|[x t] ps IH]; intros r ps' r' E R H; cbn in H.
  - injection H as <- <-. exists E. split; [constructor|]. split; [exact R|]. split; [reflexivity|apply grows_refl].
  - destruct (dty t r) as [t'| |] eqn:D; cbn [rbind] in H; try discriminate.
    destruct (ddeclare KVar x r) as [r1| |] eqn:D1; cbn [rbind] in H; try discriminate.
    destruct (dparams ps r1) as [[ps1 r2]| |] eqn:D2; cbn [rbind] in H; try discriminate. injection H as <- <-.
    destruct (ddeclare_sound _ _ _ _ _ R D1) as (E1 & S1 & R1 & T1 & G1). destruct (IH _ _ _ _ R1 D2) as (E2 & S2 & R2 & T2 & G2).
    exists E2. split; [econstructor; eauto; eapply dty_sound; eauto|]. split; [exact R2|]. split; [congruence|]. eapply grows_trans; eauto.
Qed.

Definition name_opt (x : gid) (r : rds) : res (gid * rds) := let? y := dident x r in Ok (y, r).
Definition proc_inner (p : rproc) (r : rds) : res (rproc * rds) :=
  let? (ins, r1) := dparams (pins p) r in
  let? (outs, r2) := dparams (pouts p) r1 in
  let? (spec, r3) := ditems (pspec p) r2 in
  let? (calc, r4) := dopt name_opt (pcalculus p) r3 in
  let? (body, r5) := dopt ditems (pbody p) r4 in
  Ok (mkproc (pname p) ins outs spec calc body, r5).
Definition func_inner (f : rfunc) (r : rds) : res (rfunc * rds) :=
  let? (ins, r1) := dparams (fins f) r in
  let? out := dty (fout f) r1 in
  let? (body, r2) := dopt ditems (fbody f) r1 in
  Ok (mkfunc (fname f) ins out body, r2).
Lemma dproc_eq p r : dproc p r = (let? _ := assert_declared (pname p) r in
  let? (p', r1) := subscope (proc_inner p) r in let? r2 := ddeclare KProc (pname p) r1 in Ok (p', r2)).
Proof. reflexivity. Qed.
Lemma dfunc_eq p r : dfunc p r = (let? _ := assert_declared (fname p) r in
  let? (p', r1) := subscope (func_inner p) r in let? r2 := ddeclare KFunc (fname p) r1 in Ok (p', r2)).
Proof. reflexivity. Qed.

Lemma name_opt_sound o r o' r' E : rel r E -> dopt name_opt o r = Ok (o', r') -> sees_name E o o' /\ r' = r.
Proof.
  intros R H. unfold dopt, name_opt in H. destruct o as [x|].
  - pose proof (dident_spec r E x R) as D. destruct (dident x r) as [y| |]; cbn [rbind] in H; try discriminate.
    injection H as <- <-. destruct D as [k D]. split; [econstructor; eauto|reflexivity].
  - injection H as <- <-. split; constructor.
Qed.
Lemma body_sound o r o' r' E : rel r E -> dopt ditems o r = Ok (o', r') ->
  sees_body E o o' /\ exists E', rel r' E' /\ tl E' = tl E /\ tcx_grows r r'.
Proof.
  intros R H. unfold dopt in H. destruct o as [l|].
  - destruct (ditems l r) as [[l' r1]| |] eqn:D; cbn [rbind] in H; try discriminate. injection H as <- <-.
    destruct (ditems_sound l _ _ _ _ R D) as (E1 & S1 & R1 & T1 & G1). split; [econstructor; eauto|eauto].
  - injection H as <- <-. split; [constructor|]. exists E. split; [exact R|]. split; [reflexivity|apply grows_refl].
Qed.
Lemma proc_inner_sound p r p' r' E : rel r ([] :: E) -> proc_inner p r = Ok (p', r') ->
  sees_proc E p p' /\ exists E', rel r' E' /\ tl E' = E /\ tcx_grows r r'.
Proof.
  intros R H. destruct p as [x ins outs spec calc body]. unfold proc_inner in H. cbn [pins pouts pspec pcalculus pbody pname] in H.
  destruct (dparams ins r) as [[ins' r1]| |] eqn:D1; cbn [rbind] in H; try discriminate.
  destruct (params_sound _ _ _ _ _ R D1) as (E1 & S1 & R1 & T1 & G1).
  destruct (dparams outs r1) as [[outs' r2]| |] eqn:D2; cbn [rbind] in H; try discriminate.
  destruct (params_sound _ _ _ _ _ R1 D2) as (E2 & S2 & R2 & T2 & G2).
  destruct (ditems spec r2) as [[spec' r3]| |] eqn:D3; cbn [rbind] in H; try discriminate.
  destruct (ditems_sound _ _ _ _ _ R2 D3) as (E3 & S3 & R3 & T3 & G3).
  destruct (dopt name_opt calc r3) as [[calc' r4]| |] eqn:D4; cbn [rbind] in H; try discriminate.
  destruct (name_opt_sound _ _ _ _ _ R3 D4) as [S4 ->].
  destruct (dopt ditems body r3) as [[body' r5]| |] eqn:D5; cbn [rbind] in H; try discriminate.
  destruct (body_sound _ _ _ _ _ R3 D5) as (S5 & E5 & R5 & T5 & G5). injection H as <- <-.
  split; [econstructor; eauto|]. exists E5. split; [exact R5|]. split; [rewrite T5, T3, T2, T1; reflexivity|].
  repeat (eapply grows_trans; [eassumption|]). apply grows_refl.
Qed.
Lemma func_inner_sound p r p' r' E : rel r ([] :: E) -> func_inner p r = Ok (p', r') ->
  sees_func E p p' /\ exists E', rel r' E' /\ tl E' = E /\ tcx_grows r r'.
Proof.
  intros R H. destruct p as [x ins out body]. unfold func_inner in H. cbn [fins fout fbody fname] in H.
  destruct (dparams ins r) as [[ins' r1]| |] eqn:D1; cbn [rbind] in H; try discriminate.
  destruct (params_sound _ _ _ _ _ R D1) as (E1 & S1 & R1 & T1 & G1).
  destruct (dty out r1) as [out'| |] eqn:D2; cbn [rbind] in H; try discriminate.
  destruct (dopt ditems body r1) as [[body' r5]| |] eqn:D5; cbn [rbind] in H; try discriminate.
  destruct (body_sound _ _ _ _ _ R1 D5) as (S5 & E5 & R5 & T5 & G5). injection H as <- <-.
  split; [econstructor; eauto; eapply dty_sound; eauto|]. exists E5. split; [exact R5|]. split; [rewrite T5, T1; reflexivity|].
  eapply grows_trans; eauto.
Qed.

(** Declared again: nothing changes. *)
Lemma assert_declared_ok r E x : rel r E -> assert_declared x r = Ok tt <-> exists k, refers E (gname x) x k.
Proof.
  intros R. unfold assert_declared. rewrite (rel_map _ _ R).
  split.
  - destruct (sm_get String.eqb (gname x) (map lev E)) as [y|] eqn:H; [|discriminate].
    destruct (gid_eqb y x) eqn:Q; [|discriminate]. intros _. apply gid_eqb_eq in Q. subst y.
    apply sm_get_refers in H; [exact H|apply (rel_nodup _ _ R)].
  - intros H. apply sm_get_refers in H; [|apply (rel_nodup _ _ R)]. rewrite H, gid_eqb_refl. reflexivity.
Qed.
Lemma redeclare r r' E k x : rel r E -> (exists sc E0 q, E = sc :: E0 /\ In (x, q) sc) -> ddeclare k x r = Ok r' -> r' = r.
Proof. intros R (sc & E0 & q & -> & H) D. rewrite (ddeclare_again r sc E0 k x q R H) in D. congruence. Qed.

Definition here (x : gid) (E : stack) : Prop := exists sc E0 q, E = sc :: E0 /\ In (x, q) sc.
Lemma dproc_sound p r p' r' E : rel r E -> here (pname p) E -> dproc p r = Ok (p', r') ->
  sees_proc E p p' /\ rel r' E /\ tcx_grows r r'.
Proof.
  intros R Hh H. rewrite dproc_eq in H. destruct (assert_declared (pname p) r) as [[]| |]; cbn [rbind] in H; try discriminate.
  destruct (subscope (proc_inner p) r) as [[p1 r1]| |] eqn:D; cbn [rbind] in H; try discriminate.
  destruct (ddeclare KProc (pname p) r1) as [r2| |] eqn:D2; cbn [rbind] in H; try discriminate. injection H as <- <-.
  destruct (subscope_sound (proc_inner p) r E p1 r1 R D) as (r0 & r3 & R0 & H0 & R' & G & _).
  - intros r0 a0 r3 R0 H0. apply (proc_inner_sound _ _ _ _ _ R0 H0).
  - destruct (proc_inner_sound _ _ _ _ _ R0 H0) as [S _]. rewrite (redeclare _ _ _ _ _ R' Hh D2). auto.
Qed.
Lemma dfunc_sound p r p' r' E : rel r E -> here (fname p) E -> dfunc p r = Ok (p', r') ->
  sees_func E p p' /\ rel r' E /\ tcx_grows r r'.
Proof.
  intros R Hh H. rewrite dfunc_eq in H. destruct (assert_declared (fname p) r) as [[]| |]; cbn [rbind] in H; try discriminate.
  destruct (subscope (func_inner p) r) as [[p1 r1]| |] eqn:D; cbn [rbind] in H; try discriminate.
  destruct (ddeclare KFunc (fname p) r1) as [r2| |] eqn:D2; cbn [rbind] in H; try discriminate. injection H as <- <-.
  destruct (subscope_sound (func_inner p) r E p1 r1 R D) as (r0 & r3 & R0 & H0 & R' & G & _).
  - intros r0 a0 r3 R0 H0. apply (func_inner_sound _ _ _ _ _ R0 H0).
  - destruct (func_inner_sound _ _ _ _ _ R0 H0) as [S _]. rewrite (redeclare _ _ _ _ _ R' Hh D2). auto.
Qed.

(** Forward declarations. *)
Lemma adds_here k x E E' : adds k x E E' -> here x E' /\ (forall y, here y E -> here y E') /\ tl E' = tl E.
Proof.
  intros [sc E0 H|sc E0 k' H].
  - split; [|split; [|reflexivity]].
    + exists (sc ++ [(x, k)]), E0, k. split; [reflexivity|]. apply in_or_app. right. left. reflexivity.
    + intros y (sc' & E'' & q & [= <- <-] & Hy). exists (sc ++ [(x, k)]), E0, q. split; [reflexivity|]. apply in_or_app. auto.
  - split; [|split; [|reflexivity]]; [exists sc, E0, k'; auto|auto].
Qed.
Lemma forward_sound l : forall r E r', rel r E -> forward l r = Ok r' ->
  exists E', adds_all l E E' /\ rel r' E' /\ tl E' = tl E /\ tcx_grows r r'.
Proof.
  induction l as [|[k x] l IH]; intros r E r' R H; cbn in H.
  - injection H as <-. exists E. split; [constructor|]. split; [exact R|]. split; [reflexivity|apply grows_refl].
  - destruct (ddeclare k x r) as [r1| |] eqn:D; cbn [rbind] in H; try discriminate.
    destruct (ddeclare_sound _ _ _ _ _ R D) as (E1 & S1 & R1 & T1 & G1).
    destruct (IH _ _ _ R1 H) as (E2 & S2 & R2 & T2 & G2).
    exists E2. split; [econstructor; eauto|]. split; [exact R2|]. split; [congruence|]. eapply grows_trans; eauto.
Qed.
Lemma adds_all_here l E E' : adds_all l E E' -> (forall k x, In (k, x) l -> here x E') /\ (forall y, here y E -> here y E') /\ tl E' = tl E.
Proof.
  induction 1 as [E|k x l E E1 E2 H1 H2 IH].
  - split; [intros ? ? []|]. auto.
  - destruct (adds_here _ _ _ _ H1) as (A1 & A2 & A3). destruct IH as (B1 & B2 & B3).
    split; [|split; [auto|congruence]]. intros k' y [[= <- <-]|H]; eauto.
Qed.
(** Scopes only gain declarations. *)
Scheme sees_mut := Minimality for sees Sort Prop
  with sees_all_mut := Minimality for sees_all Sort Prop
  with sees_args_mut := Minimality for sees_args Sort Prop.
Combined Scheme sees_all_three from sees_mut, sees_all_mut, sees_args_mut.
Lemma sees_here_all :
  (forall E i i' E', sees E i i' E' -> forall y, here y E -> here y E') /\
  (forall E l l' E', sees_all E l l' E' -> forall y, here y E -> here y E') /\
  (forall E l rs l' E', sees_args E l rs l' E' -> forall y, here y E -> here y E').
Proof.
  apply sees_all_three; auto.
  - intros E k x E' H. apply (adds_here _ _ _ _ H).
  - intros E z E1 l rs l' E2 H1 H2 IH y Hy. apply IH. apply (adds_here _ _ _ _ H1). exact Hy.
Qed.
Lemma sees_here E i i' E' : sees E i i' E' -> forall y, here y E -> here y E'.
Proof. apply sees_here_all. Qed.
Lemma sees_all_here E l l' E' : sees_all E l l' E' -> forall y, here y E -> here y E'.
Proof. induction 1; auto. intros y Hy. apply IHsees_all. eapply sees_here; eauto. Qed.

Lemma ddomain_items_sound l : forall r l' r' E, rel r E -> (forall d, In d l -> here (snd (ditem_decl d)) E) ->
  ddomain_items l r = Ok (l', r') -> exists E', sees_ditems E l l' E' /\ rel r' E' /\ tl E' = tl E /\ tcx_grows r r'.
Proof.
  induction l as [|[f|x e] l IH]; intros r l' r' E R Hh H; cbn in H.
  - injection H as <- <-. exists E. split; [constructor|]. split; [exact R|]. split; [reflexivity|apply grows_refl].
  - destruct (dfunc f r) as [[f' r1]| |] eqn:D; cbn [rbind] in H; try discriminate.
    destruct (ddomain_items l r1) as [[l1 r2]| |] eqn:D2; cbn [rbind] in H; try discriminate. injection H as <- <-.
    destruct (dfunc_sound _ _ _ _ _ R (Hh (DFunc f) (or_introl eq_refl)) D) as (S1 & R1 & G1).
    destruct (IH _ _ _ _ R1 (fun d Hd => Hh d (or_intror Hd)) D2) as (E2 & S2 & R2 & T2 & G2).
    exists E2. split; [constructor; auto|]. split; [exact R2|]. split; [exact T2|eapply grows_trans; eauto].
  - pose proof (dident_spec r E x R) as DI. destruct (dident x r) as [y| |]; cbn [rbind] in H; try discriminate.
    destruct DI as [k DI]. destruct (ditems e r) as [[e' r1]| |] eqn:D; cbn [rbind] in H; try discriminate.
    destruct (ddomain_items l r1) as [[l1 r2]| |] eqn:D2; cbn [rbind] in H; try discriminate. injection H as <- <-.
    destruct (ditems_sound _ _ _ _ _ R D) as (E1 & S1 & R1 & T1 & G1).
    destruct (IH _ _ _ _ R1 (fun d Hd => sees_all_here _ _ _ _ S1 _ (Hh d (or_intror Hd))) D2) as (E2 & S2 & R2 & T2 & G2).
    exists E2. split; [econstructor; eauto|]. split; [exact R2|]. split; [congruence|eapply grows_trans; eauto].
Qed.
Lemma ditems_here E l l' E' : sees_ditems E l l' E' -> forall y, here y E -> here y E'.
Proof. induction 1; auto. intros z Hz. apply IHsees_ditems. eapply sees_all_here; eauto. Qed.

Definition unit_here (E : stack) (u : unit) : Prop :=
  match u with UProc p => here (pname p) E | UDomain x _ => here x E | URaw _ => True end.
Lemma dunit_sound u r u' r' E : rel r E -> unit_here E u -> dunit u r = Ok (u', r') ->
  exists E', sees_unit E u u' E' /\ rel r' E' /\ tl E' = tl E /\ tcx_grows r r' /\ (forall y, here y E -> here y E').
Proof.
  intros R Hh H. destruct u as [p|x l|l]; cbn [dunit] in H.
  - destruct (dproc p r) as [[p' r1]| |] eqn:D; cbn [rbind] in H; try discriminate. injection H as <- <-.
    destruct (dproc_sound _ _ _ _ _ R Hh D) as (S & R1 & G). exists E. split; [constructor; exact S|auto].
  - destruct (assert_declared x r) as [[]| |]; cbn [rbind] in H; try discriminate.
    destruct (forward (map ditem_decl l) r) as [r1| |] eqn:D; cbn [rbind] in H; try discriminate.
    destruct (forward_sound _ _ _ _ R D) as (E1 & S1 & R1 & T1 & G1).
    pose proof (dident_spec r1 E1 x R1) as DI. destruct (dident x r1) as [y| |]; cbn [rbind] in H; try discriminate.
    destruct DI as [k DI]. destruct (ddomain_items l r1) as [[l' r2]| |] eqn:D2; cbn [rbind] in H; try discriminate.
    injection H as <- <-. destruct (adds_all_here _ _ _ S1) as (A1 & A2 & A3).
    destruct (ddomain_items_sound l r1 l' r2 E1 R1) as (E2 & S2 & R2 & T2 & G2); [|exact D2|].
    + intros d Hd. destruct (ditem_decl d) as [k' z] eqn:Q. apply (A1 k'). apply in_map_iff. exists d. split; [rewrite Q; reflexivity|exact Hd].
    + exists E2. split; [econstructor; eauto|]. split; [exact R2|]. split; [congruence|]. split; [eapply grows_trans; eauto|].
      intros z Hz. eapply ditems_here; eauto.
  - destruct (subscope (ditems l) r) as [[l' r1]| |] eqn:D; cbn [rbind] in H; try discriminate. injection H as <- <-.
    destruct (sub_items_sound l r E l' r1 (ditems_sound l) R D) as ((E' & S) & R1 & G).
    exists E. split; [econstructor; exact S|]. auto.
Qed.
Lemma dunits_sound us : forall r us' r' E, rel r E -> Forall (unit_here E) us -> dunits us r = Ok (us', r') ->
  exists E', sees_units E us us' E' /\ rel r' E' /\ tl E' = tl E /\ tcx_grows r r'.
Proof.
  induction us as [|u us IH]; intros r us' r' E R Hh H; cbn in H.
  - injection H as <- <-. exists E. split; [constructor|]. split; [exact R|]. split; [reflexivity|apply grows_refl].
  - apply Forall_cons_iff in Hh as [Hu Hh].
    destruct (dunit u r) as [[u' r1]| |] eqn:D; cbn [rbind] in H; try discriminate.
    destruct (dunits us r1) as [[us1 r2]| |] eqn:D2; cbn [rbind] in H; try discriminate. injection H as <- <-.
    destruct (dunit_sound _ _ _ _ _ R Hu D) as (E1 & S1 & R1 & T1 & G1 & A1).
    destruct (IH r1 us1 r2 E1 R1) with (2 := D2) as (E2 & S2 & R2 & T2 & G2).
    + eapply Forall_impl; [|exact Hh]. intros [p|x l|l]; cbn; auto.
    + exists E2. split; [econstructor; eauto|]. split; [exact R2|]. split; [congruence|eapply grows_trans; eauto].
Qed.

(** The imports. *)
Lemma from_iter_lev I : NoDup (names I) ->
  sm_from_iter String.eqb (map (fun d => (gname (fst d), fst d)) I) = [lev I].
Proof.
  intros N. unfold sm_from_iter. f_equal.
  assert (G : forall I J, NoDup (names (J ++ I)) ->
    fold_left (fun m p => im_insert String.eqb (fst p) (Value (snd p)) m) (map (fun d => (gname (fst d), fst d)) I) (lev J) = lev (J ++ I)).
  { clear. induction I as [|d I IH]; intros J N; cbn.
    - rewrite app_nil_r. reflexivity.
    - rewrite (im_insert_new (gname (fst d)) (fst d) J); [| |reflexivity].
      + replace (J ++ d :: I) with ((J ++ [d]) ++ I) in * by (rewrite <- app_assoc; reflexivity).
        rewrite <- IH; [|exact N]. f_equal. rewrite lev_app. reflexivity.
      + unfold names in *. rewrite map_app in N. cbn in N. apply NoDup_remove_2 in N. intros H. apply N. apply in_or_app. auto. }
  apply (G I []). exact N.
Qed.
Lemma tcx_get_in T x k : NoDup (names T) -> In (x, k) T -> tcx_get T x = Some k.
Proof.
  intros N H. induction T as [|[y q] T IH]; [destruct H|]. cbn. cbn in N. apply NoDup_cons_iff in N as [Hy N].
  destruct H as [[= -> ->]|H]; [rewrite gid_eqb_refl; reflexivity|].
  destruct (gid_eqb x y) eqn:Q; [|auto]. apply gid_eqb_eq in Q. subst y. exfalso. apply Hy. unfold names. apply in_map_iff. exists (x, k). auto.
Qed.
Lemma rel_resolver I : NoDup (names I) -> rel (resolver I) [[]; I].
Proof.
  intros N. constructor; cbn.
  - rewrite (from_iter_lev I N). reflexivity.
  - intros sc x k [<-|[<-|[]]] H; [destruct H|]. apply tcx_get_in; auto.
  - intros sc [<-|[<-|[]]]; [constructor|exact N].
  - exists [], [], I. rewrite app_nil_r. auto.
Qed.

Lemma unit_decl_top us : flat_map unit_decl us = top_names us. Proof. reflexivity. Qed.
Lemma rel2 r E sc I : rel r E -> tl E = tl [sc; I] -> exists G, E = [G; I].
Proof. intros R T. destruct (rel_nonempty _ _ R) as (s & E0 & ->). cbn in T. subst. eauto. Qed.

Lemma module_sound I us us' r : NoDup (names I) -> resolve_module I us = Ok (us', r) ->
  exists top, sees_module I us us' top /\ dglobals r = map fst I ++ map fst top /\
    (forall x k, In (x, k) (I ++ top) -> tcx_get (dtcx r) x = Some k).
Proof.
  intros N H. unfold resolve_module in H. pose proof (rel_resolver I N) as R.
  destruct (forward (flat_map unit_decl us) (resolver I)) as [r0| |] eqn:D; cbn [rbind] in H; try discriminate.
  destruct (forward_sound _ _ _ _ R D) as (E0 & S0 & R0 & T0 & G0).
  destruct (rel2 _ _ _ _ R0 T0) as [top0 ->].
  destruct (adds_all_here _ _ _ S0) as (A & _ & _).
  destruct (dunits_sound us r0 us' r [top0; I] R0) with (2 := H) as (E & S & R1 & T1 & G1).
  - apply Forall_forall. intros u Hu. destruct u as [p|x l|l]; cbn; auto.
    + apply (A KProc). apply in_flat_map. exists (UProc p). split; [exact Hu|left; reflexivity].
    + apply (A KDomain). apply in_flat_map. exists (UDomain x l). split; [exact Hu|left; reflexivity].
  - destruct (rel2 _ _ _ _ R1 T1) as [top ->]. exists top. split; [exists top0; split; auto|]. split.
    + destruct (rel_top _ _ R1) as (up & G & I' & HE & HG). rewrite HG.
      destruct up as [|? [|? up]]; cbn in HE; [injection HE as <- <-; apply map_app| |]; exfalso;
        apply (f_equal (@List.length _)) in HE; cbn in HE; rewrite ?app_length in HE; cbn in HE; lia.
    + intros x k Hx. apply in_app_or in Hx as [Hx|Hx]; [apply (rel_kind _ _ R1 I)|apply (rel_kind _ _ R1 top)]; auto; cbn; auto.
Qed.
