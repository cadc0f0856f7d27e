(** A statement's pre-expectation only looks at states differing in written variables. *)
From Coq Require Import Bool List String ZArith NArith QArith Reals Lia Lra.
From Verif.Model Require Import Syntax AstUtil.
From Verif.Spec Require Import Eur Sem Wp Frame.
From Verif.Proofs Require Import EurLemmas SemLemmas WpLemmas DistProofs VcGenProofs MonoProofs SubstProofs.
Import ListNotations.

Lemma only_refl M s : env_ok s -> only_changes M s s.
Proof. split; auto. Qed.
Lemma only_trans M a b c : only_changes M a b -> only_changes M b c -> only_changes M a c.
Proof. intros [A1 A2] [B1 B2]. split; auto. intros x Hx. rewrite B2, A2; auto. Qed.

(** [F] is monotone relative to the states reachable by changing [M] only. *)
Definition local_mono (M : ident -> Prop) (F : exp -> exp) : Prop :=
  forall s0 X Y, env_ok s0 -> (forall s, only_changes M s0 s -> ele (X s) (Y s)) ->
  forall s, only_changes M s0 s -> ele (F X s) (F Y s).

Lemma writes_block_eq x b :
  (fix block b := match b with [] => False | s :: b' => writes x s \/ block b' end) b = writes_block x b.
Proof. induction b; simpl; auto; try now rewrite IHb. Qed.

Lemma block_local M I isd k b : Forall (fun st => local_mono M (wp I isd k st)) b -> local_mono M (wp_block I isd k b).
Proof.
  induction 1 as [|st b Hst Hb IH]; intros s0 X Y Hs0 H; [exact H|].
  cbn [wp_block fold_right]. apply Hst; auto. apply IH; auto.
Qed.

Lemma lfp_local M (F G : exp -> exp) s0 : mono F -> mono G ->
  (forall X Y, (forall s, only_changes M s0 s -> ele (X s) (Y s)) -> forall s, only_changes M s0 s -> ele (F X s) (G Y s)) ->
  forall s, only_changes M s0 s -> ele (lfp F s) (lfp G s).
Proof.
  intros HF HG H s Hs.
  set (Z := fun s => if dec (only_changes M s0 s) then lfp G s else etop).
  assert (Zs : forall s, only_changes M s0 s -> Z s = lfp G s) by (intros t Ht; unfold Z; now rewrite dec_true).
  rewrite <- (Zs s Hs). apply lfp_least; [|apply Hs].
  intros t Ht. unfold Z at 2. destruct (dec (only_changes M s0 t)) eqn:D; [|apply ele_top].
  apply (proj1 (dec_iff _)) in D. apply ele_trans with (G (lfp G) t).
  - apply H; auto. intros u Hu. rewrite Zs by auto. apply ele_refl.
  - apply lfp_prefix; auto.
Qed.

Lemma gfp_local M (F G : exp -> exp) s0 : mono F -> mono G ->
  (forall X Y, (forall s, only_changes M s0 s -> ele (X s) (Y s)) -> forall s, only_changes M s0 s -> ele (F X s) (G Y s)) ->
  forall s, only_changes M s0 s -> ele (gfp F s) (gfp G s).
Proof.
  intros HF HG H s Hs.
  set (Z := fun s => if dec (only_changes M s0 s) then gfp F s else ebot).
  assert (Zs : forall s, only_changes M s0 s -> Z s = gfp F s) by (intros t Ht; unfold Z; now rewrite dec_true).
  rewrite <- (Zs s Hs). apply gfp_greatest; [|apply Hs].
  intros t Ht. unfold Z at 1. destruct (dec (only_changes M s0 t)) eqn:D; [|apply ebot_le].
  apply (proj1 (dec_iff _)) in D. apply ele_trans with (F (gfp F) t).
  - apply gfp_postfix; auto.
  - apply H; auto. intros u Hu. rewrite Zs by auto. apply ele_refl.
Qed.

Lemma only_upd (M : ident -> Prop) s0 s x v : only_changes M s0 s -> M x -> has_ty v (ity x) -> only_changes M s0 (upd s x v).
Proof.
  intros [H1 H2] Mx Hv. split; [now apply upd_ok|]. intros y Hy. rewrite upd_other; auto. intros ->. contradiction.
Qed.

Lemma assign_local (M : ident -> Prop) I isd isf x e : interp_ok I -> assign_ok isd isf x e -> M x -> local_mono M (assign_sem I isd [x] e).
Proof.
  intros HI Ha Mx s0 X Y Hs0 H s Hs. pose proof (proj1 Hs) as Hok.
  assert (Plain : forall e, wt e = true -> ty_of e = ity x -> ele (X (upd s x (eval I e s))) (Y (upd s x (eval I e s)))).
  { intros e0 W Ty. apply H. apply only_upd; auto. rewrite <- Ty. now apply eval_ty. }
  destruct e as [y|t f args|t c a b|t op a b|t op a|t a|op xs a|y b a|t l];
    try (destruct Ha as [W Ty]; apply Plain; auto; fail).
  unfold assign_ok in Ha. unfold assign_sem. destruct (isd f).
  - apply in_range_correct in Ha. destruct Ha as (d & _ & _ & Wd & E). rewrite E by auto.
    apply expected_mono. intros p v Hin. apply H. apply only_upd; auto.
    apply in_map_iff in Hin. destruct Hin as ([p' v'] & Epv & Hin). inversion Epv; subst.
    unfold dist_wt in Wd. rewrite Forall_forall in Wd. destruct (Wd _ Hin) as (_ & W & Ty). cbn [snd] in *.
    rewrite <- Ty. now apply eval_ty.
  - destruct Ha as (_ & W & Ty). apply Plain; auto.
Qed.

Lemma havoc_local (M : ident -> Prop) d xs : (forall x, In x xs -> M x) -> local_mono M (havoc_sem d xs).
Proof.
  intros HM s0 X Y Hs0 H s Hs.
  assert (R : forall s', havocked xs s s' -> only_changes M s0 s').
  { intros s' Hh. apply only_trans with s; auto. split; [exact (havocked_ok xs s s' (proj1 Hs) Hh)|].
    intros x Hx. apply Hh. auto. }
  unfold havoc_sem. destruct d.
  - apply einf_glb. intros r (s' & H' & ->). apply ele_trans with (X s'); [apply einf_lb; eauto | apply H; auto].
  - apply esup_lub. intros r (s' & H' & ->). apply ele_trans with (Y s'); [apply H; auto | apply esup_ub; eauto].
Qed.

Theorem frame_mono I isd isf k (M : ident -> Prop) : interp_ok I -> forall st, wts isd isf st -> every not_negate st ->
  (forall x, writes x st -> M x) -> local_mono M (wp I isd k st).
Proof.
  intros HI.
  assert (HB : forall b, Forall (fun st => wts isd isf st -> every not_negate st ->
      (forall x, writes x st -> M x) -> local_mono M (wp I isd k st)) b ->
     All (wts isd isf) b -> All (every not_negate) b -> (forall x, writes_block x b -> M x) -> local_mono M (wp_block I isd k b)).
  { intros b H H1 H2 H3. apply block_local. revert H1 H2 H3.
    induction H as [|s b Hs Hb IH]; intros H1 H2 H3; constructor; destruct H1 as [H1 H1'], H2 as [H2 H2'].
    - apply Hs; auto. intros x Hx. apply H3. now left.
    - apply IH; auto. intros x Hx. apply H3. now right. }
  induction st using stmt_rect'; cbn [wts every writes not_negate]; intros Hw Hn HM.
  - rewrite (fun x => writes_block_eq x b) in HM || setoid_rewrite writes_block_eq in HM.
    apply (HB b); auto; apply Hn.
  - destruct i as [e|]; [|intros s0 X Y Hs0 H; exact H]. apply (assign_local M I isd isf); auto.
  - destruct xs as [|x [|? ?]]; try contradiction. apply (assign_local M I isd isf); auto. apply HM; now left.
  - apply havoc_local; auto.
  - intros s0 X Y Hs0 H s Hs. destruct d; cbn [wp]; [apply emin_mono | apply emax_mono]; auto using ele_refl.
  - intros s0 X Y Hs0 H s Hs. cbn [wp]. apply assume_mono; auto.
  - intros s0 X Y Hs0 H s Hs. cbn [wp]. apply validate_mono, assume_mono; auto.
  - destruct Hn as [[] _].
  - intros s0 X Y Hs0 H s Hs. cbn [wp]. apply validate_mono; auto.
  - intros s0 X Y Hs0 H s Hs. cbn [wp]. apply eadd_mono; auto using ele_refl.
  - intros s0 X Y Hs0 H s Hs. cbn [wp]. apply emul_mono; auto using ele_refl.
  - setoid_rewrite writes_block_eq in HM. destruct Hw as [W1 W2], Hn as (_ & N1 & N2).
    intros s0 X Y Hs0 Hxy s Hs. cbn [wp]. apply emin_mono.
    + apply (HB a H W1 N1 (fun x Hx => HM x (or_introl Hx)) s0); auto.
    + apply (HB b H0 W2 N2 (fun x Hx => HM x (or_intror Hx)) s0); auto.
  - setoid_rewrite writes_block_eq in HM. destruct Hw as [W1 W2], Hn as (_ & N1 & N2).
    intros s0 X Y Hs0 Hxy s Hs. cbn [wp]. apply emax_mono.
    + apply (HB a H W1 N1 (fun x Hx => HM x (or_introl Hx)) s0); auto.
    + apply (HB b H0 W2 N2 (fun x Hx => HM x (or_intror Hx)) s0); auto.
  - setoid_rewrite writes_block_eq in HM. destruct Hw as [W1 W2], Hn as (_ & N1 & N2).
    intros s0 X Y Hs0 Hxy s Hs. cbn [wp]. apply eadd_mono.
    + apply (HB a H W1 N1 (fun x Hx => HM x (or_introl Hx)) s0); auto.
    + apply (HB b H0 W2 N2 (fun x Hx => HM x (or_intror Hx)) s0); auto.
  - setoid_rewrite writes_block_eq in HM. destruct Hw as (_ & W1 & W2), Hn as (_ & N1 & N2).
    intros s0 X Y Hs0 Hxy s Hs. cbn [wp]. destruct (holds I c s).
    + apply (HB a H W1 N1 (fun x Hx => HM x (or_introl Hx)) s0); auto.
    + apply (HB b H0 W2 N2 (fun x Hx => HM x (or_intror Hx)) s0); auto.
  - setoid_rewrite writes_block_eq in HM. destruct Hw as [_ W], Hn as (_ & N).
    intros s0 X Y Hs0 Hxy s Hs. cbn [wp].
    pose proof (wp_block_mono I isd isf k b HI W N) as Mb.
    pose proof (HB b H W N HM) as L.
    assert (St : forall Z Z', (forall s, only_changes M s0 s -> ele (Z s) (Z' s)) -> forall s, only_changes M s0 s ->
       ele (if holds I c s then wp_block I isd k b Z s else X s) (if holds I c s then wp_block I isd k b Z' s else Y s)).
    { intros Z Z' HZ t Ht. destruct (holds I c t); auto. apply (L s0); auto. }
    destruct k.
    + apply (lfp_local M _ _ s0); auto; apply loop_mono; auto.
    + apply (gfp_local M _ _ s0); auto; apply loop_mono; auto.
  - apply IHst; auto. apply Hn.
  - intros s0 X Y Hs0 H. exact H.
Qed.

(** Equality version. *)
Theorem frame_eq I isd isf k (M : ident -> Prop) st : interp_ok I -> wts isd isf st -> every not_negate st ->
  (forall x, writes x st -> M x) -> forall X Y s, env_ok s ->
  (forall s', only_changes M s s' -> X s' = Y s') -> wp I isd k st X s = wp I isd k st Y s.
Proof.
  intros HI Hw Hn HM X Y s Hs H.
  apply ele_antisym; eapply (frame_mono I isd isf k M HI st Hw Hn HM s); auto using only_refl;
    intros s' Hs'; rewrite H; auto using ele_refl.
Qed.

(** * The collector of modified variables *)
Definition no_havoc (st : stmt) : Prop := match st with SHavoc _ _ => False | _ => True end.

Lemma fold_insert_left x xs : forall l, In x (fold_left (fun a y => insert y a) xs l) <-> In x xs \/ In x l.
Proof.
  induction xs as [|y xs IH]; intros l; simpl; [tauto|]. rewrite IH, insert_iff. intuition.
Qed.

Definition in_mvc (m : mvc) (x : ident) : Prop := In x (mmod m) \/ In x (mdecl m).
Lemma in_mvc_expr e m x : in_mvc (mvc_expr e m) x <-> in_mvc m x.
Proof. reflexivity. Qed.
Lemma in_mvc_args args x : forall m, in_mvc (fold_left (fun m e => mvc_expr e m) args m) x <-> in_mvc m x.
Proof. induction args; intros m; cbn [fold_left]; [tauto|]. rewrite IHargs. apply in_mvc_expr. Qed.

(** The collector reports every variable written other than by a havoc. *)
Lemma any_Exists P b : any P b <-> Exists P b.
Proof.
  induction b as [|s b IH]; simpl; [split; [tauto | intros H; inversion H]|]. rewrite Exists_cons, IH. tauto.
Qed.

Lemma mvc_spec st : forall x m,
  (In x (mmod (mvc_stmt st m)) <-> In x (mmod m) \/ assigns x st) /\
  (In x (mdecl (mvc_stmt st m)) <-> In x (mdecl m) \/ declares x st).
Proof.
  assert (HB : forall b, Forall (fun st => forall x m,
      (In x (mmod (mvc_stmt st m)) <-> In x (mmod m) \/ assigns x st) /\
      (In x (mdecl (mvc_stmt st m)) <-> In x (mdecl m) \/ declares x st)) b ->
     forall x m, (In x (mmod (mvc_block b m)) <-> In x (mmod m) \/ any (assigns x) b) /\
      (In x (mdecl (mvc_block b m)) <-> In x (mdecl m) \/ any (declares x) b)).
  { induction 1 as [|s b Hs Hb IH]; intros x m; cbn [mvc_block fold_left any]; [tauto|].
    destruct (IH x (mvc_stmt s m)) as [A1 A2], (Hs x m) as [B1 B2]. unfold mvc_block in *. rewrite A1, A2, B1, B2. tauto. }
  induction st using stmt_rect'; intros y m; cbn [mvc_stmt assigns declares].
  - exact (HB b H y m).
  - destruct i; cbn; rewrite insert_iff; tauto.
  - cbn. rewrite fold_insert_left. tauto.
  - tauto.
  - cbn; tauto.
  - cbn; tauto.
  - cbn; tauto.
  - tauto.
  - tauto.
  - cbn; tauto.
  - cbn; tauto.
  - destruct (HB a H y m) as [A1 A2], (HB b H0 y (mvc_block a m)) as [B1 B2]. unfold mvc_block in *.
    rewrite B1, B2, A1, A2. unfold any. tauto.
  - destruct (HB a H y m) as [A1 A2], (HB b H0 y (mvc_block a m)) as [B1 B2]. unfold mvc_block in *.
    rewrite B1, B2, A1, A2. unfold any. tauto.
  - destruct (HB a H y m) as [A1 A2], (HB b H0 y (mvc_block a m)) as [B1 B2]. unfold mvc_block in *.
    rewrite B1, B2, A1, A2. unfold any. tauto.
  - destruct (HB a H y (mvc_expr c m)) as [A1 A2], (HB b H0 y (mvc_block a (mvc_expr c m))) as [B1 B2]. unfold mvc_block in *.
    rewrite B1, B2, A1, A2. unfold any. cbn [mmod mdecl mvc_expr]. tauto.
  - destruct (HB b H y (mvc_expr c m)) as [A1 A2]. unfold mvc_block in *. rewrite A1, A2. cbn [mmod mdecl mvc_expr]. unfold any. tauto.
  - destruct (IHst y (fold_left (fun m e => mvc_expr e m) args m)) as [A1 A2]. rewrite A1, A2.
    assert (G : forall args m, mmod (fold_left (fun m e => mvc_expr e m) args m) = mmod m /\ mdecl (fold_left (fun m e => mvc_expr e m) args m) = mdecl m).
    { clear. induction args; intros m; cbn [fold_left]; auto. destruct (IHargs (mvc_expr a m)) as [H1 H2]. rewrite H1, H2. auto. }
    destruct (G args m) as [G1 G2]. rewrite G1, G2. tauto.
  - tauto.
Qed.

Lemma writes_cases x st : writes x st -> assigns x st \/ declares x st \/ havocs x st.
Proof.
  assert (HB : forall b, Forall (fun st => writes x st -> assigns x st \/ declares x st \/ havocs x st) b ->
     any (writes x) b -> any (assigns x) b \/ any (declares x) b \/ any (havocs x) b).
  { induction 1; simpl; tauto. }
  induction st using stmt_rect'; cbn [writes assigns declares havocs]; try tauto.
  - exact (HB b H).
  - destruct i; tauto.
  - intros [Hw|Hw]; apply HB in Hw; auto; unfold any in Hw; tauto.
  - intros [Hw|Hw]; apply HB in Hw; auto; unfold any in Hw; tauto.
  - intros [Hw|Hw]; apply HB in Hw; auto; unfold any in Hw; tauto.
  - intros [Hw|Hw]; apply HB in Hw; auto; unfold any in Hw; tauto.
  - exact (HB b H).
Qed.

(** Only a havoc can change a variable that is neither reported as modified nor as declared. *)
Theorem mvc_complete I isd isf k st : interp_ok I -> wts isd isf st -> every not_negate st ->
  (forall x, havocs x st -> In x (mmod (mvc_stmt st mvc0)) \/ In x (mdecl (mvc_stmt st mvc0))) ->
  forall X Y s, env_ok s ->
  (forall s', only_changes (fun x => In x (mmod (mvc_stmt st mvc0)) \/ In x (mdecl (mvc_stmt st mvc0))) s s' -> X s' = Y s') ->
  wp I isd k st X s = wp I isd k st Y s.
Proof.
  intros HI Hw Hn Hh X Y s Hs H. eapply frame_eq; eauto. intros x Hx.
  destruct (mvc_spec st x mvc0) as [M1 M2]. rewrite M1, M2. cbn [mvc0 mmod mdecl].
  apply writes_cases in Hx. destruct Hx as [Hx|[Hx|Hx]]; auto. apply Hh in Hx. now rewrite M1, M2 in Hx.
Qed.

Lemma mvc_havoc_refuted : exists st, mmod (mvc_stmt st mvc0) = [] /\ mdecl (mvc_stmt st mvc0) = [] /\
  (forall isd isf, wts isd isf st) /\ every not_negate st /\
  exists X Y, forall I isd k s, env_ok s -> (forall s', only_changes (fun _ => False) s s' -> X s s' = Y s s') /\
    wp I isd k st (X s) s <> wp I isd k st (Y s) s.
Proof.
  exists (SHavoc Down [mkid "x" 0 TBool]). repeat split.
  set (x := mkid "x" 0 TBool).
  exists (fun _ _ => etop), (fun s s' => if dec (s' x = s x) then etop else ebot).
  intros I isd k s Hs. split.
  - intros s' [H1 H2]. rewrite dec_true; auto.
  - cbn [wp havoc_sem].
    pose proof (Hs x) as Hx. inv_ty Hx.
    assert (E1 : einf (fun r => exists s', havocked [x] s s' /\ r = etop) = etop).
    { apply top_le. apply einf_glb. intros r (s' & _ & ->). apply ele_refl. }
    assert (E2 : einf (fun r => exists s', havocked [x] s s' /\ r = (if dec (s' x = s x) then etop else ebot)) = ebot).
    { apply le_ebot. apply einf_lb. exists (upd s x (VBool (negb b))). split.
      - split.
        + intros y Hy. apply upd_other. intros ->. apply Hy. now left.
        + intros y [<-|[]]. rewrite upd_same. reflexivity.
      - rewrite upd_same, Hx. destruct (dec (VBool (negb b) = VBool b)) eqn:D; auto. apply (proj1 (dec_iff _)) in D. destruct b; discriminate. }
    intros E. assert (etop = ebot); [|discriminate]. rewrite <- E1, <- E2. exact E.
Qed.
