(** Proofs for C57: a well-scoped module is resolved, and sensible modules do not make the resolver panic. *)
From Coq Require Import Bool List String Arith Lia.
From Verif.Model Require Import Syntax ScopeMap ResolveDecls.
From Verif.Spec Require Import ModuleScoping.
From Verif.Proofs Require Import ModuleProofs ModuleSound.
Import ListNotations.
Local Open Scope string_scope.
Local Open Scope list_scope.

(** What is recorded in the context. *)
Definition bounded {A} (f : A -> rds -> res (A * rds)) (d : A -> list (gid * dkind)) (a : A) : Prop :=
  forall r a' r', f a r = Ok (a', r') -> incl (dtcx r') (dtcx r ++ d a).
Lemma incl_app_trans {A} (a b c d e : list A) : incl b (a ++ d) -> incl c (b ++ e) -> incl c (a ++ d ++ e).
Proof.
  intros H1 H2 x Hx. apply H2 in Hx. apply in_app_or in Hx as [Hx|Hx]; [apply H1 in Hx|].
  - apply in_app_or in Hx as [Hx|Hx]; apply in_or_app; auto. right. apply in_or_app. auto.
  - apply in_or_app. right. apply in_or_app. auto.
Qed.
Lemma declare_bounded k x r r' : ddeclare k x r = Ok r' -> incl (dtcx r') (dtcx r ++ [(x, k)]).
Proof.
  unfold ddeclare. destruct (sm_insert String.eqb (gname x) x (dmap r)) as [[m prev]| |]; cbn [rbind]; try discriminate.
  destruct prev as [y|].
  - destruct (gid_eqb y x); [|discriminate]. intros [= <-]. cbn. apply incl_appl. apply incl_refl.
  - destruct (tcx_declare (dtcx r) x k) as [T| |] eqn:D; cbn [rbind]; try discriminate. intros [= <-]. cbn.
    apply tcx_declare_ok in D as [_ ->]. apply incl_refl.
Qed.
Lemma subscope_bounded {A} (f : rds -> res (A * rds)) d r a r' : subscope f r = Ok (a, r') ->
  (forall r0 a0 r1, f r0 = Ok (a0, r1) -> incl (dtcx r1) (dtcx r0 ++ d)) -> incl (dtcx r') (dtcx r ++ d).
Proof.
  intros H F. unfold subscope, sm_push in H.
  destruct (f (mkrds ([] :: dmap r) (dtcx r) (dglobals r))) as [[a1 r1]| |] eqn:Hf; cbn [rbind] in H; try discriminate.
  match type of H with rbind ?M _ = _ => destruct M; cbn [rbind] in H; try discriminate end.
  injection H as <- <-. cbn. apply (F _ _ _ Hf).
Qed.
Lemma items_bounded l : Forall (bounded ditem_res decls_of) l -> bounded ditems (flat_map decls_of) l.
Proof.
  induction 1 as [|i l Hi _ IH]; intros r l' r' H; cbn in H.
  - injection H as <- <-. cbn. rewrite app_nil_r. apply incl_refl.
  - destruct (ditem_res i r) as [[i1 r1]| |] eqn:H1; cbn [rbind] in H; try discriminate.
    destruct (ditems l r1) as [[l1 r2]| |] eqn:H2; cbn [rbind] in H; try discriminate. injection H as <- <-.
    cbn. eapply incl_app_trans; [eapply Hi; eauto|eapply IH; eauto].
Qed.
Definition arg_decls (a : item) : list (gid * dkind) := match a with IUse z => [(z, KVar)] | _ => decls_of a end.
Lemma arg_decls_incl a : incl (decls_of a) (arg_decls a).
Proof. destruct a; try apply incl_refl. intros ? []. Qed.
Lemma args_bounded l : Forall (bounded ditem_res decls_of) l ->
  forall js r l' r', darguments l js r = Ok (l', r') -> incl (dtcx r') (dtcx r ++ flat_map arg_decls l).
Proof.
  induction 1 as [|a l Ha _ IH]; intros js r l' r' H; destruct js as [|j js]; cbn in H;
    try (injection H as <- <-; apply incl_appl; apply incl_refl).
  match type of H with rbind ?M _ = _ => destruct M as [[a1 r1]| |] eqn:H1; cbn [rbind] in H; try discriminate end.
  destruct (darguments l js r1) as [[l1 r2]| |] eqn:H2; cbn [rbind] in H; try discriminate. injection H as <- <-.
  cbn [flat_map]. eapply incl_app_trans; [|eapply IH; eauto]. destruct j.
  - eapply incl_tran; [eapply Ha; eauto|]. apply incl_app; [apply incl_appl, incl_refl|apply incl_appr, arg_decls_incl].
  - destruct a; try discriminate. destruct (ddeclare KVar x r) as [r0| |] eqn:D; cbn [rbind] in H1; try discriminate.
    injection H1 as <- <-. apply declare_bounded. exact D.
  - injection H1 as <- <-. apply incl_appl. apply incl_refl.
Qed.
Lemma item_bounded i : bounded ditem_res decls_of i.
Proof.
  induction i as [x|t|k x|l Hl|l Hl|x args inner Ha Hi] using item_rect'; intros r i' r' H.
  - cbn in H. destruct (dident x r); cbn [rbind] in H; try discriminate. injection H as <- <-. apply incl_appl, incl_refl.
  - cbn in H. destruct (dty t r); cbn [rbind] in H; try discriminate. injection H as <- <-. apply incl_appl, incl_refl.
  - cbn in H. destruct (ddeclare k x r) as [r1| |] eqn:D; cbn [rbind] in H; try discriminate. injection H as <- <-.
    apply declare_bounded. exact D.
  - rewrite ditem_expr in H. destruct (ditems l r) as [[l' r1]| |] eqn:D; cbn [rbind] in H; try discriminate. injection H as <- <-.
    apply (items_bounded l Hl _ _ _ D).
  - rewrite ditem_scope in H. destruct (subscope (ditems l) r) as [[l' r1]| |] eqn:D; cbn [rbind] in H; try discriminate.
    injection H as <- <-. eapply subscope_bounded; [exact D|]. intros r0 a0 r2. apply (items_bounded l Hl).
  - rewrite ditem_ann in H. destruct (find_annotation (gname x) r) as [[y k]|] eqn:F; [|discriminate].
    destruct (arg_jobs y k (List.length args)) as [js| |] eqn:J; cbn [rbind] in H; try discriminate.
    destruct (darguments args js r) as [[args' r1]| |] eqn:D; cbn [rbind] in H; try discriminate.
    destruct (subscope (ditems inner) r1) as [[inner' r2]| |] eqn:D2; cbn [rbind] in H; try discriminate. injection H as <- <-.
    cbn. eapply incl_app_trans; [apply (args_bounded args Ha _ _ _ _ D)|].
    eapply subscope_bounded; [exact D2|]. intros r0 a0 r3. apply (items_bounded inner Hi).
Qed.
Lemma ditems_bounded l : bounded ditems (flat_map decls_of) l.
Proof. apply items_bounded. apply Forall_forall. intros i _. apply item_bounded. Qed.
Lemma params_bounded ps : bounded dparams param_decls ps.
Proof.
  induction ps as [|[x t] ps IH]; intros r ps' r' H; cbn in H.
  - injection H as <- <-. cbn. rewrite app_nil_r. apply incl_refl.
  - destruct (dty t r) as [t'| |] eqn:D; cbn [rbind] in H; try discriminate.
    destruct (ddeclare KVar x r) as [r1| |] eqn:D1; cbn [rbind] in H; try discriminate.
    destruct (dparams ps r1) as [[ps1 r2]| |] eqn:D2; cbn [rbind] in H; try discriminate. injection H as <- <-.
    change (param_decls ((x, t) :: ps)) with ([(x, KVar)] ++ param_decls ps).
    eapply incl_app_trans; [apply declare_bounded; exact D1|eapply IH; eauto].
Qed.
Lemma body_bounded o : bounded (dopt ditems) body_decls o.
Proof.
  intros r o' r' H. destruct o as [l|]; cbn in H.
  - destruct (ditems l r) as [[l' r1]| |] eqn:D; cbn [rbind] in H; try discriminate. injection H as <- <-. apply (ditems_bounded l _ _ _ D).
  - injection H as <- <-. cbn. rewrite app_nil_r. apply incl_refl.
Qed.

(** New identifiers. *)
Definition fresh (ds : list (gid * dkind)) (r : rds) : Prop :=
  NoDup (map fst ds) /\ forall x, In x (map fst ds) -> ~ In x (keys r).
Lemma fresh_app a b r : fresh (a ++ b) r ->
  fresh a r /\ forall r', incl (dtcx r') (dtcx r ++ a) -> fresh b r'.
Proof.
  intros [N F]. rewrite map_app in N, F. split.
  - split; [|intros x Hx; apply F; apply in_or_app; auto]. clear F. induction (map fst a) as [|z l IH]; [constructor|].
    cbn in N. apply NoDup_cons_iff in N as [H N]. constructor; [|auto]. intros H'. apply H. apply in_or_app. auto.
  - intros r' K. split.
    + clear F. induction (map fst a) as [|z l IH]; [exact N|]. cbn in N. apply NoDup_cons_iff in N as [_ N]. auto.
    + intros x Hx Hk. unfold keys in Hk. apply in_map_iff in Hk as (d & <- & Hd). apply K in Hd. apply in_app_or in Hd as [Hd|Hd].
      * apply (F (fst d)); [apply in_or_app; auto|]. apply in_map. exact Hd.
      * assert (Ha : In (fst d) (map fst a)) by (apply in_map; exact Hd). clear - N Ha Hx.
        induction (map fst a) as [|z l IH]; [destruct Ha|]. cbn in N. apply NoDup_cons_iff in N as [H N].
        destruct Ha as [->|Ha]; [apply H; apply in_or_app; auto|auto].
Qed.
Lemma fresh_incl a r r' : fresh a r -> incl (dtcx r') (dtcx r) -> fresh a r'.
Proof. intros [N F] H. split; [exact N|]. intros x Hx Hk. apply (F x Hx). unfold keys in *. apply in_map_iff in Hk as (d & <- & Hd). apply in_map. auto. Qed.
Lemma fresh_sub a b r : fresh (a ++ b) r -> fresh a r. Proof. intros H. apply (fresh_app _ _ _ H). Qed.
Lemma arg_fresh a r : fresh (arg_decls a) r -> fresh (decls_of a) r.
Proof. destruct a; auto. intros _. split; [constructor|intros ? []]. Qed.

(** Completeness. *)
Lemma declare_complete k x E E' r : adds k x E E' -> rel r E -> ~ In x (keys r) ->
  exists r', ddeclare k x r = Ok r' /\ rel r' E'.
Proof.
  intros H R F. destruct H as [sc E H|sc E q H].
  - destruct (ddeclare_new r sc E k x R H F) as (r' & H1 & H2 & _). eauto.
  - exfalso. apply F. pose proof (rel_kind _ _ R sc x q (or_introl eq_refl) H) as K.
    destruct (in_dec (fun a b => match bool_dec (gid_eqb a b) true with
      | left e => left (proj1 (gid_eqb_eq a b) e) | right n => right (fun q => n (proj2 (gid_eqb_eq a b) q)) end) x (keys r)) as [I|I]; [exact I|].
    apply tcx_get_none in I. congruence.
Qed.
Lemma sees_nonempty_tail :
  (forall E i i' E', sees E i i' E' -> tl E' = tl E) /\
  (forall E l l' E', sees_all E l l' E' -> tl E' = tl E) /\
  (forall E l rs l' E', sees_args E l rs l' E' -> tl E' = tl E).
Proof.
  apply sees_all_three; auto; try congruence.
  - intros E k x E' H. apply (adds_here _ _ _ _ H).
  - intros E z E1 l rs l' E2 H1 H2 IH. rewrite IH. apply (adds_here _ _ _ _ H1).
Qed.
Lemma sub_complete l l' E E' r : sees_all ([] :: E) l l' E' -> rel r E ->
  (forall r, rel r ([] :: E) -> fresh (flat_map decls_of l) r -> exists r', ditems l r = Ok (l', r') /\ rel r' E') ->
  fresh (flat_map decls_of l) r -> exists r', subscope (ditems l) r = Ok (l', r') /\ rel r' E.
Proof.
  intros S R F Fr. destruct (F _ (rel_push _ _ R) Fr) as (r1 & H1 & R1).
  destruct (rel_nonempty _ _ R1) as (sc & E0 & ->).
  pose proof (proj1 (proj2 sees_nonempty_tail) _ _ _ _ S) as T. cbn in T. subst E0.
  destruct (subscope_run (ditems l) r E l' r1 sc R H1 R1) as (r' & H' & R' & _). eauto.
Qed.
Lemma complete_all :
  (forall E i i' E', sees E i i' E' -> forall r, rel r E -> fresh (decls_of i) r ->
     exists r', ditem_res i r = Ok (i', r') /\ rel r' E') /\
  (forall E l l' E', sees_all E l l' E' -> forall r, rel r E -> fresh (flat_map decls_of l) r ->
     exists r', ditems l r = Ok (l', r') /\ rel r' E') /\
  (forall E l rs l' E', sees_args E l rs l' E' -> forall js r, map role_of js = rs -> rel r E -> fresh (flat_map arg_decls l) r ->
     exists r', darguments l js r = Ok (l', r') /\ rel r' E').
Proof.
  apply sees_all_three.
  - intros E x y k H r R _. exists r. cbn. rewrite (dident_ok _ _ _ _ _ R H). auto.
  - intros E t t' H r R _. exists r. cbn. rewrite (dty_complete _ _ _ _ R H). auto.
  - intros E k x E' H r R [_ F]. destruct (declare_complete _ _ _ _ _ H R (F x (or_introl eq_refl))) as (r' & H' & R').
    exists r'. cbn [ditem_res]. rewrite H'. auto.
  - intros E l l' E' H IH r R F. destruct (IH r R F) as (r' & H' & R'). exists r'. rewrite ditem_expr, H'. auto.
  - intros E l l' E' H IH r R F. destruct (sub_complete l l' E E' r H R IH F) as (r' & H' & R').
    exists r'. rewrite ditem_scope, H'. auto.
  - intros E x y k args rs args' E1 inner inner' E2 Hy Hr Ha IHa Hi IHi r R F. rewrite ditem_ann.
    apply (find_annotation_spec r E) in Hy; [|exact R]. rewrite Hy.
    destruct (roles_arg_jobs _ _ _ _ Hr) as (js & J & Hjs). rewrite J. cbn [rbind].
    cbn in F. apply fresh_app in F as [F1 F2]. destruct (IHa js r Hjs R F1) as (r1 & H1 & R1). rewrite H1. cbn [rbind].
    assert (B : incl (dtcx r1) (dtcx r ++ flat_map arg_decls args)).
    { eapply args_bounded; [|exact H1]. apply Forall_forall. intros. apply item_bounded. }
    destruct (sub_complete inner inner' E1 E2 r1 Hi R1 IHi (F2 _ B)) as (r' & H' & R'). exists r'. rewrite H'. auto.
  - intros E r R _. exists r. auto.
  - intros E i i' E1 l l' E2 Hi IHi Hl IHl r R F. cbn in F. apply fresh_app in F as [F1 F2].
    destruct (IHi r R F1) as (r1 & H1 & R1). destruct (IHl r1 R1 (F2 _ (item_bounded i _ _ _ H1))) as (r2 & H2 & R2).
    exists r2. cbn [ditems]. rewrite H1. cbn [rbind]. rewrite H2. auto.
  - intros E js r Hj R _. destruct js; [|discriminate]. exists r. auto.
  - intros E a a' E1 l rs l' E2 Ha IHa Hl IHl js r Hj R F. destruct js as [|j js]; [discriminate|]. destruct j; try discriminate.
    cbn in Hj. injection Hj as Hj. cbn in F. apply fresh_app in F as [F1 F2].
    destruct (IHa r R (arg_fresh _ _ F1)) as (r1 & H1 & R1).
    destruct (IHl js r1 Hj R1) as (r2 & H2 & R2).
    { apply F2. eapply incl_tran; [eapply item_bounded; eauto|]. apply incl_app; [apply incl_appl, incl_refl|apply incl_appr, arg_decls_incl]. }
    exists r2. cbn [darguments]. rewrite H1. cbn [rbind]. rewrite H2. auto.
  - intros E z E1 l rs l' E2 Ha Hl IHl js r Hj R F. destruct js as [|j js]; [discriminate|]. destruct j; try discriminate.
    cbn in Hj. injection Hj as Hj. cbn [flat_map arg_decls] in F. apply fresh_app in F as [F1 F2].
    destruct (declare_complete _ _ _ _ _ Ha R (proj2 F1 z (or_introl eq_refl))) as (r1 & H1 & R1).
    destruct (IHl js r1 Hj R1 (F2 _ (declare_bounded _ _ _ _ H1))) as (r2 & H2 & R2).
    exists r2. cbn [darguments]. rewrite H1. cbn [rbind]. rewrite H2. auto.
  - intros E a l rs l' E2 Hl IHl js r Hj R F. destruct js as [|j js]; [discriminate|]. destruct j; try discriminate.
    cbn in Hj. injection Hj as Hj. cbn in F. apply fresh_app in F as [F1 F2].
    destruct (IHl js r Hj R (F2 _ (incl_appl _ (incl_refl _)))) as (r2 & H2 & R2).
    exists r2. cbn [darguments]. cbn [rbind]. rewrite H2. auto.
Qed.
Lemma items_complete E l l' E' r : sees_all E l l' E' -> rel r E -> fresh (flat_map decls_of l) r ->
  exists r', ditems l r = Ok (l', r') /\ rel r' E'.
Proof. intros H. apply (proj1 (proj2 complete_all) _ _ _ _ H). Qed.
Lemma params_complete E ps ps' E' : sees_params E ps ps' E' -> forall r, rel r E -> fresh (param_decls ps) r ->
  exists r', dparams ps r = Ok (ps', r') /\ rel r' E'.
Proof.
  induction 1 as [E|E x t t' E1 ps ps' E2 Ht Hx Hps IH]; intros r R F.
  - exists r. auto.
  - change (param_decls ((x, t) :: ps)) with ([(x, KVar)] ++ param_decls ps) in F. apply fresh_app in F as [F1 F2].
    destruct (declare_complete _ _ _ _ _ Hx R (proj2 F1 x (or_introl eq_refl))) as (r1 & H1 & R1).
    destruct (IH r1 R1 (F2 _ (declare_bounded _ _ _ _ H1))) as (r2 & H2 & R2).
    exists r2. cbn [dparams]. rewrite (dty_complete _ _ _ _ R Ht). cbn [rbind]. rewrite H1. cbn [rbind]. rewrite H2. auto.
Qed.
Lemma body_complete E o o' r : sees_body E o o' -> rel r E -> fresh (body_decls o) r ->
  exists r' E', dopt ditems o r = Ok (o', r') /\ rel r' E' /\ tl E' = tl E.
Proof.
  intros H R F. destruct H as [E|E l l' E' H].
  - exists r, E. auto.
  - destruct (items_complete _ _ _ _ _ H R F) as (r' & H' & R'). exists r', E'. cbn [dopt]. rewrite H'. cbn [rbind].
    split; [reflexivity|]. split; [exact R'|]. apply (proj1 (proj2 sees_nonempty_tail) _ _ _ _ H).
Qed.
Lemma params_tail E ps ps' E' : sees_params E ps ps' E' -> tl E' = tl E.
Proof. induction 1; [reflexivity|]. rewrite IHsees_params. apply (adds_here _ _ _ _ H0). Qed.
Lemma here_refers E x : here x E -> exists k, refers E (gname x) x k.
Proof. intros (sc & E0 & k & -> & H). exists k. apply refers_cons. auto. Qed.

Definition proc_decls (p : rproc) : list (gid * dkind) :=
  param_decls (pins p) ++ param_decls (pouts p) ++ flat_map decls_of (pspec p) ++ body_decls (pbody p).
Lemma proc_complete E p p' r : sees_proc E p p' -> here (pname p) E -> rel r E -> fresh (proc_decls p) r ->
  exists r', dproc p r = Ok (p', r') /\ rel r' E.
Proof.
  intros H Hh R F. destruct H as [x ins ins' outs outs' spec spec' calc calc' body body' E1 E2 E3 H1 H2 H3 H4 H5].
  unfold proc_decls in F. cbn [pins pouts pspec pbody pname] in *.
  apply fresh_app in F as [F1 F]. pose proof (rel_push _ _ R) as RP.
  destruct (params_complete _ _ _ _ H1 _ RP F1) as (r1 & D1 & R1).
  specialize (F _ (params_bounded _ _ _ _ D1)). apply fresh_app in F as [F2 F].
  destruct (params_complete _ _ _ _ H2 _ R1 F2) as (r2 & D2 & R2).
  specialize (F _ (params_bounded _ _ _ _ D2)). apply fresh_app in F as [F3 F].
  destruct (items_complete _ _ _ _ _ H3 R2 F3) as (r3 & D3 & R3).
  specialize (F _ (ditems_bounded _ _ _ _ D3)).
  destruct (body_complete _ _ _ _ H5 R3 F) as (r5 & E5 & D5 & R5 & T5).
  assert (D4 : dopt name_opt calc r3 = Ok (calc', r3)).
  { destruct H4 as [E'|E' c y k Hc]; [reflexivity|]. cbn [dopt]. unfold name_opt. rewrite (dident_ok _ _ _ _ _ R3 Hc). reflexivity. }
  assert (DI : proc_inner (mkproc x ins outs spec calc body) (mkrds ([] :: dmap r) (dtcx r) (dglobals r)) =
    Ok (mkproc x ins' outs' spec' calc' body', r5)).
  { unfold proc_inner. cbn [pins pouts pspec pcalculus pbody pname]. rewrite D1; cbn [rbind]. rewrite D2; cbn [rbind].
    rewrite D3; cbn [rbind]. rewrite D4; cbn [rbind]. rewrite D5; cbn [rbind]. reflexivity. }
  destruct (rel_nonempty _ _ R5) as (sc & E0 & ->).
  assert (E0 = E).
  { cbn in T5. rewrite T5. rewrite (proj1 (proj2 sees_nonempty_tail) _ _ _ _ H3), (params_tail _ _ _ _ H2), (params_tail _ _ _ _ H1). reflexivity. }
  subst E0. destruct (subscope_run _ r E _ r5 sc R DI R5) as (r' & D & R' & _).
  exists r'. rewrite dproc_eq. cbn [pname]. rewrite (proj2 (assert_declared_ok r E x R) (here_refers _ _ Hh)). cbn [rbind].
  rewrite D. cbn [rbind]. destruct Hh as (s & E' & q & -> & Hx). rewrite (ddeclare_again r' s E' KProc x q R' Hx). auto.
Qed.
Lemma func_complete E p p' r : sees_func E p p' -> here (fname p) E -> rel r E -> fresh (func_decls p) r ->
  exists r', dfunc p r = Ok (p', r') /\ rel r' E.
Proof.
  intros H Hh R F. destruct H as [x ins ins' out out' body body' E1 H1 H2 H5].
  unfold func_decls in F. cbn [fins fout fbody fname] in *.
  apply fresh_app in F as [F1 F]. pose proof (rel_push _ _ R) as RP.
  destruct (params_complete _ _ _ _ H1 _ RP F1) as (r1 & D1 & R1).
  specialize (F _ (params_bounded _ _ _ _ D1)).
  destruct (body_complete _ _ _ _ H5 R1 F) as (r5 & E5 & D5 & R5 & T5).
  assert (DI : func_inner (mkfunc x ins out body) (mkrds ([] :: dmap r) (dtcx r) (dglobals r)) =
    Ok (mkfunc x ins' out' body', r5)).
  { unfold func_inner. cbn [fins fout fbody fname]. rewrite D1; cbn [rbind]. rewrite (dty_complete _ _ _ _ R1 H2); cbn [rbind].
    rewrite D5; cbn [rbind]. reflexivity. }
  destruct (rel_nonempty _ _ R5) as (sc & E0 & ->).
  assert (E0 = E) by (cbn in T5; rewrite T5, (params_tail _ _ _ _ H1); reflexivity).
  subst E0. destruct (subscope_run _ r E _ r5 sc R DI R5) as (r' & D & R' & _).
  exists r'. rewrite dfunc_eq. cbn [fname]. rewrite (proj2 (assert_declared_ok r E x R) (here_refers _ _ Hh)). cbn [rbind].
  rewrite D. cbn [rbind]. destruct Hh as (s & E' & q & -> & Hx). rewrite (ddeclare_again r' s E' KFunc x q R' Hx). auto.
Qed.

Definition flip_decls (l : list (dkind * gid)) : list (gid * dkind) := map (fun d => (snd d, fst d)) l.
Lemma forward_complete l E E' : adds_all l E E' -> forall r, rel r E -> fresh (flip_decls l) r ->
  exists r', forward l r = Ok r' /\ rel r' E'.
Proof.
  induction 1 as [E|k x l E E1 E2 H1 H2 IH]; intros r R F.
  - exists r. auto.
  - change (flip_decls ((k, x) :: l)) with ([(x, k)] ++ flip_decls l) in F. apply fresh_app in F as [F1 F2].
    destruct (declare_complete _ _ _ _ _ H1 R (proj2 F1 x (or_introl eq_refl))) as (r1 & D1 & R1).
    destruct (IH r1 R1 (F2 _ (declare_bounded _ _ _ _ D1))) as (r2 & D2 & R2).
    exists r2. cbn [forward]. rewrite D1. cbn [rbind]. auto.
Qed.
Lemma forward_bounded l : forall r r', forward l r = Ok r' -> incl (dtcx r') (dtcx r ++ flip_decls l).
Proof.
  induction l as [|[k x] l IH]; intros r r' H; cbn in H.
  - injection H as <-. apply incl_appl, incl_refl.
  - destruct (ddeclare k x r) as [r1| |] eqn:D; cbn [rbind] in H; try discriminate.
    change (flip_decls ((k, x) :: l)) with ([(x, k)] ++ flip_decls l).
    eapply incl_app_trans; [apply declare_bounded; eauto|auto].
Qed.
Lemma redeclare_bounded r E k x : rel r E -> here x E -> ddeclare k x r = Ok r.
Proof. intros R (s & E' & q & -> & Hx). apply (ddeclare_again r s E' k x q R Hx). Qed.
Lemma dproc_bounded p r p' r' E : rel r E -> here (pname p) E -> dproc p r = Ok (p', r') -> incl (dtcx r') (dtcx r ++ proc_decls p).
Proof.
  intros R Hh H. rewrite dproc_eq in H. destruct (assert_declared (pname p) r) as [[]| |]; cbn [rbind] in H; try discriminate.
  destruct (subscope (proc_inner p) r) as [[p1 r1]| |] eqn:D; cbn [rbind] in H; try discriminate.
  destruct (subscope_sound (proc_inner p) r E p1 r1 R D) as (r0 & r3 & R0 & H0 & R' & G & _).
  { intros r0 a0 r3 R0 H0. apply (proc_inner_sound _ _ _ _ _ R0 H0). }
  rewrite (redeclare_bounded r1 E KProc (pname p) R' Hh) in H. cbn [rbind] in H. injection H as <- <-.
  eapply subscope_bounded; [exact D|]. clear. intros r a r' H. unfold proc_inner in H.
  destruct (dparams (pins p) r) as [[ins' r1]| |] eqn:D1; cbn [rbind] in H; try discriminate.
  destruct (dparams (pouts p) r1) as [[outs' r2]| |] eqn:D2; cbn [rbind] in H; try discriminate.
  destruct (ditems (pspec p) r2) as [[spec' r3]| |] eqn:D3; cbn [rbind] in H; try discriminate.
  destruct (dopt name_opt (pcalculus p) r3) as [[calc' r4]| |] eqn:D4; cbn [rbind] in H; try discriminate.
  assert (r4 = r3) as ->.
  { unfold dopt, name_opt in D4. destruct (pcalculus p) as [c|]; [destruct (dident c r3)|]; cbn [rbind] in D4; congruence. }
  destruct (dopt ditems (pbody p) r3) as [[body' r5]| |] eqn:D5; cbn [rbind] in H; try discriminate. injection H as <- <-.
  unfold proc_decls. eapply incl_app_trans; [apply (params_bounded _ _ _ _ D1)|].
  eapply incl_app_trans; [apply (params_bounded _ _ _ _ D2)|].
  eapply incl_app_trans; [apply (ditems_bounded _ _ _ _ D3)|apply (body_bounded _ _ _ _ D5)].
Qed.
Lemma dfunc_bounded p r p' r' E : rel r E -> here (fname p) E -> dfunc p r = Ok (p', r') -> incl (dtcx r') (dtcx r ++ func_decls p).
Proof.
  intros R Hh H. rewrite dfunc_eq in H. destruct (assert_declared (fname p) r) as [[]| |]; cbn [rbind] in H; try discriminate.
  destruct (subscope (func_inner p) r) as [[p1 r1]| |] eqn:D; cbn [rbind] in H; try discriminate.
  destruct (subscope_sound (func_inner p) r E p1 r1 R D) as (r0 & r3 & R0 & H0 & R' & G & _).
  { intros r0 a0 r3 R0 H0. apply (func_inner_sound _ _ _ _ _ R0 H0). }
  rewrite (redeclare_bounded r1 E KFunc (fname p) R' Hh) in H. cbn [rbind] in H. injection H as <- <-.
  eapply subscope_bounded; [exact D|]. clear. intros r a r' H. unfold func_inner in H.
  destruct (dparams (fins p) r) as [[ins' r1]| |] eqn:D1; cbn [rbind] in H; try discriminate.
  destruct (dty (fout p) r1) as [out'| |] eqn:D2; cbn [rbind] in H; try discriminate.
  destruct (dopt ditems (fbody p) r1) as [[body' r5]| |] eqn:D5; cbn [rbind] in H; try discriminate. injection H as <- <-.
  unfold func_decls. eapply incl_app_trans; [apply (params_bounded _ _ _ _ D1)|apply (body_bounded _ _ _ _ D5)].
Qed.
Lemma ditems_complete E l l' E' : sees_ditems E l l' E' -> forall r, rel r E -> (forall d, In d l -> here (snd (ditem_decl d)) E) ->
  fresh (flat_map ditem_inner l) r -> exists r', ddomain_items l r = Ok (l', r') /\ rel r' E'.
Proof.
  induction 1 as [E|E f f' l l' E' Hf Hl IH|E x y k e e' E1 l l' E2 Hx He Hl IH]; intros r R Hh F.
  - exists r. auto.
  - cbn [flat_map ditem_inner] in F. apply fresh_app in F as [F1 F2].
    assert (Hn := Hh (DFunc f) (or_introl eq_refl)). cbn in Hn.
    destruct (func_complete _ _ _ _ Hf Hn R F1) as (r1 & D1 & R1).
    destruct (IH r1 R1 (fun d Hd => Hh d (or_intror Hd)) (F2 _ (dfunc_bounded _ _ _ _ _ R Hn D1))) as (r2 & D2 & R2).
    exists r2. cbn [ddomain_items]. rewrite D1. cbn [rbind]. rewrite D2. auto.
  - cbn [flat_map ditem_inner] in F. apply fresh_app in F as [F1 F2].
    destruct (items_complete _ _ _ _ _ He R F1) as (r1 & D1 & R1).
    destruct (IH r1 R1 (fun d Hd => sees_all_here _ _ _ _ He _ (Hh d (or_intror Hd))) (F2 _ (ditems_bounded _ _ _ _ D1))) as (r2 & D2 & R2).
    exists r2. cbn [ddomain_items]. rewrite (dident_ok _ _ _ _ _ R Hx). cbn [rbind]. rewrite D1. cbn [rbind]. rewrite D2. auto.
Qed.
Lemma flip_ditems l : flip_decls (map ditem_decl l) = map ditem_name l.
Proof. unfold flip_decls. rewrite map_map. apply map_ext. intros [f|x e]; reflexivity. Qed.
Lemma ditems_here_decl l E E' : adds_all (map ditem_decl l) E E' -> forall d, In d l -> here (snd (ditem_decl d)) E'.
Proof.
  intros H d Hd. destruct (adds_all_here _ _ _ H) as (A & _). destruct (ditem_decl d) as [k z] eqn:Q. apply (A k).
  apply in_map_iff. exists d. split; [rewrite Q; reflexivity|exact Hd].
Qed.
Lemma unit_complete E u u' E' r : sees_unit E u u' E' -> unit_here E u -> rel r E -> fresh (unit_decls u) r ->
  exists r', dunit u r = Ok (u', r') /\ rel r' E' /\ (forall y, here y E -> here y E').
Proof.
  intros H Hh R F. destruct H as [E p p' H|E x y k l l' E1 E2 H1 H2 H3|E l l' E1 H].
  - destruct (proc_complete _ _ _ _ H Hh R F) as (r1 & D1 & R1). exists r1. cbn [dunit]. rewrite D1. auto.
  - cbn [unit_decls] in F. apply fresh_app in F as [F1 F2]. rewrite <- flip_ditems in F1.
    destruct (forward_complete _ _ _ H1 _ R F1) as (r1 & D1 & R1).
    pose proof (forward_bounded _ _ _ D1) as B. rewrite flip_ditems in B.
    destruct (ditems_complete _ _ _ _ H3 r1 R1 (ditems_here_decl _ _ _ H1) (F2 _ B)) as (r2 & D2 & R2).
    exists r2. cbn [dunit]. rewrite (proj2 (assert_declared_ok r E x R) (here_refers _ _ Hh)). cbn [rbind].
    change (map ditem_decl l) with (map (fun d => match d with DFunc f => (KFunc, fname f) | DAxiom x _ => (KAxiom, x) end) l).
    unfold ditem_decl in D1. rewrite D1. cbn [rbind].
    rewrite (dident_ok _ _ _ _ _ R1 H2). cbn [rbind]. rewrite D2. cbn [rbind].
    split; [reflexivity|]. split; [exact R2|]. intros z Hz. eapply ditems_here; eauto. apply (adds_all_here _ _ _ H1). exact Hz.
  - destruct (sub_complete l l' E E1 r H R) as (r' & D & R').
    + intros r0 R0 F0. apply (items_complete _ _ _ _ _ H R0 F0).
    + exact F.
    + exists r'. cbn [dunit]. rewrite D. auto.
Qed.
Lemma ddomain_bounded l : forall r l' r' E, rel r E -> (forall d, In d l -> here (snd (ditem_decl d)) E) ->
  ddomain_items l r = Ok (l', r') -> incl (dtcx r') (dtcx r ++ flat_map ditem_inner l).
Proof.
  induction l as [|[f|x e] l IH]; intros r l' r' E R Hh H; cbn [ddomain_items] in H.
  - injection H as <- <-. apply incl_appl, incl_refl.
  - destruct (dfunc f r) as [[f' r1]| |] eqn:D; cbn [rbind] in H; try discriminate.
    destruct (ddomain_items l r1) as [[l1 r2]| |] eqn:D2; cbn [rbind] in H; try discriminate. injection H as <- <-.
    assert (Hn := Hh (DFunc f) (or_introl eq_refl)). cbn in Hn.
    destruct (dfunc_sound _ _ _ _ _ R Hn D) as (S1 & R1 & G1).
    cbn [flat_map ditem_inner]. eapply incl_app_trans; [eapply dfunc_bounded; eauto|]. apply (IH _ _ _ _ R1 (fun d Hd => Hh d (or_intror Hd)) D2).
  - destruct (dident x r) as [y| |]; cbn [rbind] in H; try discriminate.
    destruct (ditems e r) as [[e' r1]| |] eqn:D; cbn [rbind] in H; try discriminate.
    destruct (ddomain_items l r1) as [[l1 r2]| |] eqn:D2; cbn [rbind] in H; try discriminate. injection H as <- <-.
    destruct (ditems_sound _ _ _ _ _ R D) as (E1 & S1 & R1 & T1 & G1).
    cbn [flat_map ditem_inner]. eapply incl_app_trans; [eapply ditems_bounded; eauto|].
    apply (IH _ _ _ _ R1 (fun d Hd => sees_all_here _ _ _ _ S1 _ (Hh d (or_intror Hd))) D2).
Qed.
Lemma dunit_bounded u r u' r' E : rel r E -> unit_here E u -> dunit u r = Ok (u', r') -> incl (dtcx r') (dtcx r ++ unit_decls u).
Proof.
  intros R Hh H. destruct u as [p|x l|l]; cbn [dunit] in H.
  - destruct (dproc p r) as [[p' r1]| |] eqn:D; cbn [rbind] in H; try discriminate. injection H as <- <-.
    apply (dproc_bounded _ _ _ _ _ R Hh D).
  - destruct (assert_declared x r) as [[]| |]; cbn [rbind] in H; try discriminate.
    destruct (forward (map ditem_decl l) r) as [r1| |] eqn:D; cbn [rbind] in H; try discriminate.
    destruct (forward_sound _ _ _ _ R D) as (E1 & S1 & R1 & T1 & G1).
    destruct (dident x r1) as [y| |]; cbn [rbind] in H; try discriminate.
    destruct (ddomain_items l r1) as [[l' r2]| |] eqn:D2; cbn [rbind] in H; try discriminate. injection H as <- <-.
    cbn [unit_decls]. rewrite <- flip_ditems. eapply incl_app_trans; [apply forward_bounded; exact D|].
    apply (ddomain_bounded l r1 l' r2 E1 R1 (ditems_here_decl _ _ _ S1) D2).
  - destruct (subscope (ditems l) r) as [[l' r1]| |] eqn:D; cbn [rbind] in H; try discriminate. injection H as <- <-.
    eapply subscope_bounded; [exact D|]. intros r0 a0 r2. apply ditems_bounded.
Qed.
Lemma unit_here_mono E E' u : (forall y, here y E -> here y E') -> unit_here E u -> unit_here E' u.
Proof. intros H. destruct u; cbn; auto. Qed.
Lemma units_complete E us us' E' : sees_units E us us' E' -> forall r, Forall (unit_here E) us -> rel r E ->
  fresh (flat_map unit_decls us) r -> exists r', dunits us r = Ok (us', r') /\ rel r' E'.
Proof.
  induction 1 as [E|E u u' E1 us us' E2 Hu Hus IH]; intros r Hh R F.
  - exists r. auto.
  - apply Forall_cons_iff in Hh as [Hhu Hh]. cbn [flat_map] in F. apply fresh_app in F as [F1 F2].
    destruct (unit_complete _ _ _ _ _ Hu Hhu R F1) as (r1 & D1 & R1 & M1).
    destruct (IH r1) as (r2 & D2 & R2).
    + eapply Forall_impl; [|exact Hh]. intros v. apply unit_here_mono. exact M1.
    + exact R1.
    + apply F2. eapply dunit_bounded; eauto.
    + exists r2. cbn [dunits]. rewrite D1. cbn [rbind]. rewrite D2. auto.
Qed.
Lemma units_here_top us E E' : adds_all (top_names us) E E' -> Forall (unit_here E') us.
Proof.
  intros H. destruct (adds_all_here _ _ _ H) as (A & _ & _). apply Forall_forall. intros u Hu. destruct u as [p|x l|l]; cbn; auto.
  - apply (A KProc). apply in_flat_map. exists (UProc p). split; [exact Hu|left; reflexivity].
  - apply (A KDomain). apply in_flat_map. exists (UDomain x l). split; [exact Hu|left; reflexivity].
Qed.
Lemma module_fresh I us : distinct I us -> fresh (flip_decls (top_names us) ++ flat_map unit_decls us) (resolver I).
Proof. intros [N F]. split; [exact N|exact F]. Qed.
Lemma module_complete I us us' top : NoDup (names I) -> distinct I us -> sees_module I us us' top ->
  exists r, resolve_module I us = Ok (us', r).
Proof.
  intros N D (top0 & H1 & H2). apply module_fresh in D. apply fresh_app in D as [F1 F2].
  destruct (forward_complete _ _ _ H1 _ (rel_resolver I N) F1) as (r0 & D0 & R0).
  destruct (units_complete _ _ _ _ H2 r0 (units_here_top _ _ _ H1) R0 (F2 _ (forward_bounded _ _ _ D0))) as (r & Dr & _).
  exists r. unfold resolve_module. rewrite unit_decl_top, D0. cbn [rbind]. exact Dr.
Qed.
