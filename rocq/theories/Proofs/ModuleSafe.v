(** Proofs for C57: sensible modules do not make the resolver panic; the order of the units. *)
From Coq Require Import Bool List String Arith Lia Permutation.
From Verif.Model Require Import Syntax ScopeMap ResolveDecls.
From Verif.Spec Require Import ModuleScoping.
From Verif.Proofs Require Import ModuleProofs ModuleSound ModuleTotal.
Import ListNotations.
Local Open Scope string_scope.
Local Open Scope list_scope.

Definition is_panic {A} (x : res A) : Prop := match x with Panic _ => True | _ => False end.
Lemma bind_safe {A B} (x : res A) (f : A -> res B) : ~ is_panic x -> (forall a, x = Ok a -> ~ is_panic (f a)) -> ~ is_panic (rbind x f).
Proof. intros H1 H2. destruct x; cbn; auto. Qed.

(** All visible declarations are in [D]. *)
Definition within (D : scope) (E : stack) : Prop := forall sc d, In sc E -> In d sc -> In d D.
Lemma within_push D E : within D E -> within D ([] :: E).
Proof. intros H sc d [<-|Hs] Hd; [destruct Hd|]. eapply H; eauto. Qed.
Lemma adds_within D k x E E' : adds k x E E' -> In (x, k) D -> within D E -> within D E'.
Proof.
  intros [sc E0 H|sc E0 q H] HD W; [|exact W]. intros s d [<-|Hs] Hd.
  - apply in_app_or in Hd as [Hd|[<-|[]]]; [|exact HD]. apply (W sc); auto. left. reflexivity.
  - apply (W s); auto. right. exact Hs.
Qed.
Lemma sees_within D :
  (forall E i i' E', sees E i i' E' -> incl (decls_of i) D -> within D E -> within D E') /\
  (forall E l l' E', sees_all E l l' E' -> incl (flat_map decls_of l) D -> within D E -> within D E') /\
  (forall E l rs l' E', sees_args E l rs l' E' -> incl (flat_map arg_decls l) D -> within D E -> within D E').
Proof.
  apply sees_all_three; auto.
  - intros E k x E' H HD. eapply adds_within; eauto. apply HD. left. reflexivity.
  - intros E x y k args rs args' E1 inner inner' E2 _ _ _ IH _ _ HD W. apply IH; [|exact W].
    cbn in HD. intros d Hd. apply HD. apply in_or_app. auto.
  - intros E i i' E1 l l' E2 _ IH1 _ IH2 HD W. cbn in HD. apply incl_app_inv in HD as [D1 D2]. auto.
  - intros E a a' E1 l rs l' E2 _ IH1 _ IH2 HD W. cbn in HD. apply incl_app_inv in HD as [D1 D2].
    apply IH2; [exact D2|]. apply IH1; [|exact W]. eapply incl_tran; [apply arg_decls_incl|exact D1].
  - intros E z E1 l rs l' E2 H _ IH HD W. cbn [flat_map arg_decls] in HD. apply incl_app_inv in HD as [D1 D2].
    apply IH; [exact D2|]. eapply adds_within; eauto. apply D1. left. reflexivity.
  - intros E a l rs l' E2 _ IH HD W. cbn in HD. apply incl_app_inv in HD as [D1 D2]. auto.
Qed.

Lemma dident_safe x r E : rel r E -> ~ is_panic (dident x r).
Proof. intros R. unfold dident. destruct (sm_get _ _ _); cbn; auto. Qed.
Lemma dty_safe D t r E : rel r E -> within D E -> sensible_type D t -> ~ is_panic (dty t r).
Proof.
  intros R W. induction t as [x|t IH| |b|x]; intros S; cbn [dty]; auto.
  - destruct (builtin_ty (gname x)) eqn:B; [auto|]. apply bind_safe; [eapply dident_safe; eauto|].
    intros y Hy. pose proof (dident_spec r E x R) as DI. rewrite Hy in DI. destruct DI as [k Hk].
    rewrite (refers_kind _ _ _ _ _ R Hk). destruct S as [[b S]|S].
    + apply builtin_ty_spec in S. congruence.
    + destruct (refers_in _ _ _ _ Hk) as (sc & H1 & H2 & H3). rewrite (S y k (W _ _ H1 H2) H3). auto.
  - cbn in S. apply bind_safe; [auto|]. intros a _. auto.
Qed.
Lemma declare_safe k x r E : rel r E -> ~ In x (keys r) -> ~ is_panic (ddeclare k x r).
Proof.
  intros R F. destruct (rel_nonempty _ _ R) as (sc & E0 & ->). rewrite (ddeclare_eq _ _ _ _ _ R).
  assert (T : ~ is_panic (let? T := tcx_declare (dtcx r) x k in
    Ok (mkrds (map lev ((sc ++ [(x, k)]) :: E0)) T (if Nat.eqb (List.length (sc :: E0)) 2 then dglobals r ++ [x] else dglobals r)))).
  { unfold tcx_declare. apply tcx_get_none in F. rewrite F. auto. }
  destruct (im_get String.eqb (gname x) (lev sc)) as [[y|]|]; auto. destruct (gid_eqb y x); auto.
Qed.
Lemma subscope_safe {A} (f : rds -> res (A * rds)) r E : rel r E ->
  ~ is_panic (f (mkrds ([] :: dmap r) (dtcx r) (dglobals r))) ->
  (forall a r1, f (mkrds ([] :: dmap r) (dtcx r) (dglobals r)) = Ok (a, r1) -> exists E', rel r1 E' /\ tl E' = E) ->
  ~ is_panic (subscope f r).
Proof.
  intros R H1 H2. unfold subscope, sm_push. apply bind_safe; [exact H1|]. intros [a r1] Ha.
  destruct (H2 _ _ Ha) as (E' & R1 & T). destruct (rel_nonempty _ _ R1) as (sc & E0 & ->). cbn in T. subst E0.
  assert (P : exists r', subscope f r = Ok (a, r')).
  { destruct (subscope_run f r E a r1 sc R Ha R1) as (r' & H & _). eauto. }
  destruct P as [r' P]. unfold subscope, sm_push in P. rewrite Ha in P. cbn [rbind] in P.
  match type of P with ?M = _ => change (~ is_panic M) end. rewrite P. auto.
Qed.

Definition safe (i : item) : Prop := forall D r E, rel r E -> within D E -> incl (decls_of i) D -> fresh (decls_of i) r ->
  sensible D i -> ~ is_panic (ditem_res i r).
Lemma sensible_all D l : (fix all l := match l with [] => True | i :: l' => sensible D i /\ all l' end) l -> Forall (sensible D) l.
Proof. induction l as [|i l IH]; intros H; [constructor|]. destruct H as [H1 H2]. constructor; auto. Qed.
Lemma items_safe l : Forall safe l -> forall D r E, rel r E -> within D E -> incl (flat_map decls_of l) D ->
  fresh (flat_map decls_of l) r -> Forall (sensible D) l -> ~ is_panic (ditems l r).
Proof.
  induction 1 as [|i l Hi _ IH]; intros D r E R W HD F S; cbn [ditems]; [auto|].
  cbn [flat_map] in HD, F. apply incl_app_inv in HD as [D1 D2]. apply fresh_app in F as [F1 F2]. apply Forall_cons_iff in S as [S1 S2].
  apply bind_safe; [eapply Hi; eauto|]. intros [i' r1] H1. destruct (item_sound i _ _ _ _ R H1) as (E1 & Se & R1 & _).
  apply bind_safe; [|intros [? ?]; auto]. eapply IH; eauto; [eapply (proj1 (sees_within D)); eauto|]. apply F2. eapply item_bounded; eauto.
Qed.
Lemma sub_items_safe l : Forall safe l -> forall D r E, rel r E -> within D E -> incl (flat_map decls_of l) D ->
  fresh (flat_map decls_of l) r -> Forall (sensible D) l -> ~ is_panic (subscope (ditems l) r).
Proof.
  intros Hl D r E R W HD F S. apply (subscope_safe _ _ E R).
  - apply (items_safe l Hl D _ ([] :: E)); auto; [apply rel_push; exact R|apply within_push; exact W].
  - intros a r1 H. destruct (ditems_sound l _ _ _ _ (rel_push _ _ R) H) as (E' & _ & R' & T & _). eauto.
Qed.
Lemma args_safe l : Forall safe l -> forall D js r E, rel r E -> within D E -> incl (flat_map arg_decls l) D ->
  fresh (flat_map arg_decls l) r -> Forall (sensible D) l -> ~ is_panic (darguments l js r).
Proof.
  induction 1 as [|a l Ha _ IH]; intros D js r E R W HD F S; destruct js as [|j js]; cbn [darguments]; auto.
  cbn [flat_map] in HD, F. apply incl_app_inv in HD as [D1 D2]. apply fresh_app in F as [F1 F2]. apply Forall_cons_iff in S as [S1 S2].
  apply bind_safe.
  - destruct j; auto.
    + apply (Ha D r E R W); [eapply incl_tran; [apply arg_decls_incl|exact D1]|apply arg_fresh; exact F1|exact S1].
    + destruct a; auto. apply bind_safe; [|intros; auto]. eapply declare_safe; eauto. apply F1. left. reflexivity.
  - intros [a' r1] H1. apply bind_safe; [|intros [? ?]; auto].
    assert (G : exists E1, rel r1 E1 /\ within D E1 /\ incl (dtcx r1) (dtcx r ++ arg_decls a)).
    { destruct j.
      - destruct (item_sound a _ _ _ _ R H1) as (E1 & Se & R1 & _). exists E1. split; [exact R1|]. split.
        + eapply (proj1 (sees_within D)); eauto. eapply incl_tran; [apply arg_decls_incl|exact D1].
        + eapply incl_tran; [eapply item_bounded; eauto|]. apply incl_app; [apply incl_appl, incl_refl|apply incl_appr, arg_decls_incl].
      - destruct a; try discriminate. destruct (ddeclare KVar x r) as [r0| |] eqn:Dd; cbn [rbind] in H1; try discriminate.
        injection H1 as <- <-. destruct (ddeclare_sound _ _ _ _ _ R Dd) as (E1 & Se & R1 & _). exists E1. split; [exact R1|]. split.
        + eapply adds_within; eauto. apply D1. left. reflexivity.
        + apply declare_bounded. exact Dd.
      - injection H1 as <- <-. exists E. split; [exact R|]. split; [exact W|]. apply incl_appl, incl_refl. }
    destruct G as (E1 & R1 & W1 & B). eapply IH; eauto.
Qed.
Lemma find_annotation_name n r y k E : rel r E -> find_annotation n r = Some (y, k) -> gname y = n.
Proof. intros R H. apply (find_annotation_spec r E) in H; [|exact R]. destruct H as (? & ? & ? & _ & _ & H & _). exact H. Qed.
Lemma item_safe i : safe i.
Proof.
  induction i as [x|t|k x|l Hl|l Hl|x args inner Ha Hi] using item_rect'; intros D r E R W HD F S.
  - cbn [ditem_res]. apply bind_safe; [eapply dident_safe; eauto|intros; auto].
  - cbn [ditem_res]. apply bind_safe; [eapply dty_safe; eauto|intros; auto].
  - cbn [ditem_res]. apply bind_safe; [|intros; auto]. eapply declare_safe; eauto. apply F. left. reflexivity.
  - rewrite ditem_expr. apply bind_safe; [|intros [? ?]; auto]. eapply items_safe; eauto. apply sensible_all. exact S.
  - rewrite ditem_scope. apply bind_safe; [|intros [? ?]; auto]. eapply sub_items_safe; eauto. apply sensible_all. exact S.
  - rewrite ditem_ann. destruct (find_annotation (gname x) r) as [[y k]|] eqn:Q; [|auto].
    pose proof (find_annotation_name _ _ _ _ _ R Q) as Hn.
    destruct S as (S1 & S2 & S3 & S4). apply sensible_all in S3, S4. cbn in HD, F.
    apply incl_app_inv in HD as [D1 D2]. apply fresh_app in F as [F1 F2].
    apply bind_safe.
    + unfold arg_jobs. rewrite Hn. destruct k; auto.
      destruct (String.eqb (gname x) "omega_invariant"); [auto|].
      destruct (String.eqb (gname x) "ast") eqn:Q1; [apply String.eqb_eq in Q1; rewrite (S1 Q1); auto|].
      destruct (String.eqb (gname x) "ost") eqn:Q2; [apply String.eqb_eq in Q2; rewrite (S2 Q2); auto|]. auto.
    + intros js J. apply bind_safe; [eapply args_safe; eauto|]. intros [args' r1] H1.
      destruct (args_sound args (proj2 (Forall_forall _ _) (fun i _ => item_sound i)) js r args' r1 E R (arg_jobs_length _ _ _ _ J) H1) as (E1 & Se & R1 & T1 & G1).
      apply bind_safe; [|intros [? ?]; auto]. eapply sub_items_safe; eauto.
      * eapply (proj2 (proj2 (sees_within D))); eauto.
      * apply F2. eapply args_bounded; [|exact H1]. apply Forall_forall. intros. apply item_bounded.
Qed.
Lemma ditems_safe l D r E : rel r E -> within D E -> incl (flat_map decls_of l) D ->
  fresh (flat_map decls_of l) r -> Forall (sensible D) l -> ~ is_panic (ditems l r).
Proof. apply items_safe. apply Forall_forall. intros. apply item_safe. Qed.
Lemma params_within D E ps ps' E' : sees_params E ps ps' E' -> incl (param_decls ps) D -> within D E -> within D E'.
Proof.
  induction 1 as [E|E x t t' E1 ps ps' E2 _ Hx _ IH]; intros HD W; [exact W|]. apply IH; [intros d Hd; apply HD; right; exact Hd|].
  eapply adds_within; eauto. apply HD. left. reflexivity.
Qed.
Lemma params_safe D ps : forall r E, rel r E -> within D E -> incl (param_decls ps) D -> fresh (param_decls ps) r ->
  sensible_params D ps -> ~ is_panic (dparams ps r).
Proof.
  induction ps as [|[x t] ps IH]; intros r E R W HD F S; cbn [dparams]; [auto|]. apply Forall_cons_iff in S as [S1 S2].
  change (param_decls ((x, t) :: ps)) with ([(x, KVar)] ++ param_decls ps) in HD, F.
  apply incl_app_inv in HD as [D1 D2]. apply fresh_app in F as [F1 F2].
  apply bind_safe; [eapply dty_safe; eauto|]. intros t' _. apply bind_safe; [eapply declare_safe; eauto; apply F1; left; reflexivity|].
  intros r1 H1. destruct (ddeclare_sound _ _ _ _ _ R H1) as (E1 & Se & R1 & _). apply bind_safe; [|intros [? ?]; auto].
  eapply IH; eauto; [eapply adds_within; eauto; apply D1; left; reflexivity|]. apply F2. apply declare_bounded. exact H1.
Qed.
Lemma body_safe D b r E : rel r E -> within D E -> incl (body_decls b) D -> fresh (body_decls b) r -> sensible_body D b ->
  ~ is_panic (dopt ditems b r).
Proof. intros R W HD F S. destruct b as [l|]; cbn [dopt]; [|auto]. apply bind_safe; [eapply ditems_safe; eauto|intros [? ?]; auto]. Qed.

Lemma proc_safe D p r E : rel r E -> within D E -> here (pname p) E -> incl (proc_decls p) D -> fresh (proc_decls p) r ->
  sensible_unit D (UProc p) -> ~ is_panic (dproc p r).
Proof.
  intros R W Hh HD F (S1 & S2 & S3 & S4). rewrite dproc_eq.
  rewrite (proj2 (assert_declared_ok r E (pname p) R) (here_refers _ _ Hh)). cbn [rbind].
  assert (I : ~ is_panic (subscope (proc_inner p) r)).
  { apply (subscope_safe _ _ E R).
    - unfold proc_decls in HD, F. apply incl_app_inv in HD as [D1 HD]. apply fresh_app in F as [F1 F].
      apply incl_app_inv in HD as [D2 HD]. apply incl_app_inv in HD as [D3 D4].
      pose proof (rel_push _ _ R) as RP. pose proof (within_push _ _ W) as WP.
      unfold proc_inner. apply bind_safe; [eapply params_safe; eauto|]. intros [ins r1] H1.
      destruct (params_sound _ _ _ _ _ RP H1) as (E1 & Se1 & R1 & _). pose proof (params_within _ _ _ _ _ Se1 D1 WP) as W1.
      specialize (F _ (params_bounded _ _ _ _ H1)). apply fresh_app in F as [F2 F].
      apply bind_safe; [eapply params_safe; eauto|]. intros [outs r2] H2.
      destruct (params_sound _ _ _ _ _ R1 H2) as (E2 & Se2 & R2 & _). pose proof (params_within _ _ _ _ _ Se2 D2 W1) as W2.
      specialize (F _ (params_bounded _ _ _ _ H2)). apply fresh_app in F as [F3 F].
      apply bind_safe; [eapply ditems_safe; eauto|]. intros [spec r3] H3.
      destruct (ditems_sound _ _ _ _ _ R2 H3) as (E3 & Se3 & R3 & _). pose proof (proj1 (proj2 (sees_within D)) _ _ _ _ Se3 D3 W2) as W3.
      specialize (F _ (ditems_bounded _ _ _ _ H3)).
      apply bind_safe.
      + destruct (pcalculus p) as [c|]; cbn [dopt]; [|auto]. apply bind_safe; [|intros [? ?]; auto].
        unfold name_opt. apply bind_safe; [eapply dident_safe; eauto|intros; auto].
      + intros [calc r4] H4. destruct (name_opt_sound _ _ _ _ _ R3 H4) as [_ ->].
        apply bind_safe; [eapply body_safe; eauto|intros [? ?]; auto].
    - intros a r1 H. destruct (proc_inner_sound _ _ _ _ _ (rel_push _ _ R) H) as (_ & E' & R' & T & _). eauto. }
  apply bind_safe; [exact I|]. intros [p' r1] H. 
  destruct (subscope_sound (proc_inner p) r E p' r1 R H) as (r0 & r3 & R0 & H0 & R' & G & _).
  { intros r0 a0 r3 R0 H0. apply (proc_inner_sound _ _ _ _ _ R0 H0). }
  rewrite (redeclare_bounded r1 E KProc (pname p) R' Hh). auto.
Qed.
Lemma func_safe D p r E : rel r E -> within D E -> here (fname p) E -> incl (func_decls p) D -> fresh (func_decls p) r ->
  sensible_ditem D (DFunc p) -> ~ is_panic (dfunc p r).
Proof.
  intros R W Hh HD F (S1 & S2 & S3). rewrite dfunc_eq.
  rewrite (proj2 (assert_declared_ok r E (fname p) R) (here_refers _ _ Hh)). cbn [rbind].
  assert (I : ~ is_panic (subscope (func_inner p) r)).
  { apply (subscope_safe _ _ E R).
    - unfold func_decls in HD, F. apply incl_app_inv in HD as [D1 HD]. apply fresh_app in F as [F1 F].
      pose proof (rel_push _ _ R) as RP. pose proof (within_push _ _ W) as WP.
      unfold func_inner. apply bind_safe; [eapply params_safe; eauto|]. intros [ins r1] H1.
      destruct (params_sound _ _ _ _ _ RP H1) as (E1 & Se1 & R1 & _). pose proof (params_within _ _ _ _ _ Se1 D1 WP) as W1.
      specialize (F _ (params_bounded _ _ _ _ H1)).
      apply bind_safe; [eapply dty_safe; eauto|]. intros out _.
      apply bind_safe; [eapply body_safe; eauto|intros [? ?]; auto].
    - intros a r1 H. destruct (func_inner_sound _ _ _ _ _ (rel_push _ _ R) H) as (_ & E' & R' & T & _). eauto. }
  apply bind_safe; [exact I|]. intros [p' r1] H.
  destruct (subscope_sound (func_inner p) r E p' r1 R H) as (r0 & r3 & R0 & H0 & R' & G & _).
  { intros r0 a0 r3 R0 H0. apply (func_inner_sound _ _ _ _ _ R0 H0). }
  rewrite (redeclare_bounded r1 E KFunc (fname p) R' Hh). auto.
Qed.
Lemma forward_safe l : forall r E, rel r E -> fresh (flip_decls l) r -> ~ is_panic (forward l r).
Proof.
  induction l as [|[k x] l IH]; intros r E R F; cbn [forward]; [auto|].
  change (flip_decls ((k, x) :: l)) with ([(x, k)] ++ flip_decls l) in F. apply fresh_app in F as [F1 F2].
  apply bind_safe; [eapply declare_safe; eauto; apply F1; left; reflexivity|]. intros r1 H1.
  destruct (ddeclare_sound _ _ _ _ _ R H1) as (E1 & Se & R1 & _). eapply IH; eauto. apply F2. apply declare_bounded. exact H1.
Qed.
Lemma adds_all_within D l E E' : adds_all l E E' -> incl (flip_decls l) D -> within D E -> within D E'.
Proof.
  induction 1 as [E|k x l E E1 E2 H1 _ IH]; intros HD W; [exact W|]. apply IH; [intros d Hd; apply HD; right; exact Hd|].
  eapply adds_within; eauto. apply HD. left. reflexivity.
Qed.
Lemma domain_items_safe D l : forall r E, rel r E -> within D E -> (forall d, In d l -> here (snd (ditem_decl d)) E) ->
  incl (flat_map ditem_inner l) D -> fresh (flat_map ditem_inner l) r -> Forall (sensible_ditem D) l -> ~ is_panic (ddomain_items l r).
Proof.
  induction l as [|[f|x e] l IH]; intros r E R W Hh HD F S; cbn [ddomain_items]; [auto| |];
    cbn [flat_map ditem_inner] in HD, F; apply incl_app_inv in HD as [D1 D2]; apply fresh_app in F as [F1 F2]; apply Forall_cons_iff in S as [S1 S2].
  - assert (Hn := Hh (DFunc f) (or_introl eq_refl)). cbn in Hn.
    apply bind_safe; [eapply func_safe; eauto|]. intros [f' r1] H1. destruct (dfunc_sound _ _ _ _ _ R Hn H1) as (Se & R1 & _).
    apply bind_safe; [|intros [? ?]; auto]. apply (IH r1 E R1 W (fun d Hd => Hh d (or_intror Hd)) D2); [|exact S2].
    apply F2. eapply dfunc_bounded; eauto.
  - apply bind_safe; [eapply dident_safe; eauto|]. intros y _. apply bind_safe; [eapply ditems_safe; eauto|]. intros [e' r1] H1.
    destruct (ditems_sound _ _ _ _ _ R H1) as (E1 & Se & R1 & _).
    apply bind_safe; [|intros [? ?]; auto].
    apply (IH r1 E1 R1 (proj1 (proj2 (sees_within D)) _ _ _ _ Se D1 W) (fun d Hd => sees_all_here _ _ _ _ Se _ (Hh d (or_intror Hd))) D2); [|exact S2].
    apply F2. eapply ditems_bounded; eauto.
Qed.
Lemma sees_ditems_within D E l l' E' : sees_ditems E l l' E' -> incl (flat_map ditem_inner l) D -> within D E -> within D E'.
Proof.
  induction 1 as [E|E f f' l l' E' _ _ IH|E x y k e e' E1 l l' E2 _ He _ IH]; intros HD W; [exact W| |];
    cbn [flat_map ditem_inner] in HD; apply incl_app_inv in HD as [D1 D2]; [auto|].
  apply IH; [exact D2|]. eapply (proj1 (proj2 (sees_within D))); eauto.
Qed.
Lemma unit_safe D u r E : rel r E -> within D E -> unit_here E u -> incl (unit_decls u) D -> fresh (unit_decls u) r ->
  sensible_unit D u -> ~ is_panic (dunit u r).
Proof.
  intros R W Hh HD F S. destruct u as [p|x l|l]; cbn [dunit].
  - apply bind_safe; [eapply proc_safe; eauto|intros [? ?]; auto].
  - cbn [unit_decls] in HD, F. apply incl_app_inv in HD as [D1 D2]. apply fresh_app in F as [F1 F2].
    rewrite <- flip_ditems in F1, D1.
    rewrite (proj2 (assert_declared_ok r E x R) (here_refers _ _ Hh)). cbn [rbind].
    apply bind_safe; [eapply forward_safe; eauto|]. intros r1 H1. destruct (forward_sound _ _ _ _ R H1) as (E1 & Se & R1 & _).
    apply bind_safe; [eapply dident_safe; eauto|]. intros y _. apply bind_safe; [|intros [? ?]; auto].
    eapply domain_items_safe; eauto; [eapply adds_all_within; eauto|eapply ditems_here_decl; eauto|].
    apply F2. rewrite <- flip_ditems. apply forward_bounded. exact H1.
  - apply bind_safe; [|intros [? ?]; auto]. eapply sub_items_safe; eauto. apply Forall_forall. intros. apply item_safe.
Qed.
Lemma unit_within D E u u' E' : sees_unit E u u' E' -> incl (unit_decls u) D -> within D E -> within D E'.
Proof.
  intros [E0 p p' _|E0 x y k l l' E1 E2 H1 _ H2|E0 l l' E1 _] HD W; auto.
  cbn [unit_decls] in HD. apply incl_app_inv in HD as [D1 D2]. rewrite <- flip_ditems in D1.
  eapply sees_ditems_within; eauto. eapply adds_all_within; eauto.
Qed.
Lemma units_safe D us : forall r E, rel r E -> within D E -> Forall (unit_here E) us -> incl (flat_map unit_decls us) D ->
  fresh (flat_map unit_decls us) r -> Forall (sensible_unit D) us -> ~ is_panic (dunits us r).
Proof.
  induction us as [|u us IH]; intros r E R W Hh HD F S; cbn [dunits]; [auto|].
  cbn [flat_map] in HD, F. apply incl_app_inv in HD as [D1 D2]. apply fresh_app in F as [F1 F2].
  apply Forall_cons_iff in S as [S1 S2]. apply Forall_cons_iff in Hh as [Hu Hh].
  apply bind_safe; [eapply unit_safe; eauto|]. intros [u' r1] H1. destruct (dunit_sound _ _ _ _ _ R Hu H1) as (E1 & Se & R1 & _ & _ & M).
  apply bind_safe; [|intros [? ?]; auto]. eapply IH; eauto.
  - eapply unit_within; eauto.
  - eapply Forall_impl; [|exact Hh]. intros v. apply unit_here_mono. exact M.
  - apply F2. eapply dunit_bounded; eauto.
Qed.
Lemma module_safe I us : NoDup (names I) -> distinct I us -> Forall (sensible_unit (I ++ module_decls us)) us ->
  forall m, resolve_module I us <> Panic m.
Proof.
  intros N D S m H. apply module_fresh in D. apply fresh_app in D as [F1 F2]. pose proof (rel_resolver I N) as R.
  assert (W : within (I ++ module_decls us) [[]; I]).
  { intros sc d [<-|[<-|[]]] Hd; [destruct Hd|]. apply in_or_app. auto. }
  assert (P : ~ is_panic (resolve_module I us)); [|rewrite H in P; apply P; exact Logic.I].
  unfold resolve_module. rewrite unit_decl_top. apply bind_safe; [eapply forward_safe; eauto|]. intros r0 H0.
  destruct (forward_sound _ _ _ _ R H0) as (E0 & S0 & R0 & T0 & _).
  eapply units_safe; eauto.
  - eapply adds_all_within; eauto. unfold module_decls. apply incl_appr. apply incl_appl. apply incl_refl.
  - eapply units_here_top; eauto.
  - unfold module_decls. apply incl_appr. apply incl_appr. apply incl_refl.
  - apply F2. apply forward_bounded. exact H0.
Qed.
