(** Scoping of annotated programs. *)
From Coq Require Import Bool List String Arith Lia Classical.
From Verif.Model Require Import Syntax Builder TyCtx AstUtil ProofRules Procs LoopProcs Encode.
From Verif.Spec Require Import Eur Sem Wp Frame Loops Annotated.
From Verif.Proofs Require Import EurLemmas WpLemmas SimLemmas MonoProofs FrameProofs LoopProofs LoopVc EncodeProofs.
Import ListNotations.
Local Open Scope list_scope.

Definition shrink (V : ident -> Prop) (s : stmt) : ident -> Prop := fun x => V x /\ match s with SVar y (Some _) => x <> y | _ => True end.

Lemma tidy_block_eq b : forall V, (fix block (V : ident -> Prop) (b : list stmt) {struct b} : Prop :=
    match b with
    | [] => True
    | s :: b' => tidy V s /\ block (fun x => V x /\ match s with SVar y (Some _) => x <> y | _ => True end) b'
    end) V b = tidy_block V b.
Proof. induction b as [|s b IH]; intros V; cbn [tidy_block]; auto; now rewrite IH. Qed.
Lemma fits_block_eq b : forall U, (fix block (U : ident -> Prop) (b : list stmt) {struct b} : Prop :=
    match b with
    | [] => True
    | s :: b' => fits (fun x => U x /\ tidy_block (eq x) b') s /\ block U b'
    end) U b = fits_block U b.
Proof. induction b as [|s b IH]; intros U; cbn [fits_block]; auto; now rewrite IH. Qed.
Lemma fits_loop U a args c b : fits U (SAnn a args (SWhile c b)) <->
  (forall x, local b x -> U x) /\ unread (local b) c /\ Forall (unread (local b)) args /\ tidy_block (local b) b /\ fits_block (local b) b.
Proof. cbn [fits]. rewrite fits_block_eq. tauto. Qed.

Lemma unread_sub (V W : ident -> Prop) e : (forall x, W x -> V x) -> unread V e -> unread W e.
Proof. intros H U x Hx Hw. apply (U x Hx). auto. Qed.

(** [scoped] and [tidy] are about single variables. *)
Lemma scoped_sub st : forall V W : ident -> Prop, (forall x, W x -> V x) -> scoped V st -> scoped W st.
Proof.
  assert (HB : forall b, Forall (fun st => forall V W : ident -> Prop, (forall x, W x -> V x) -> scoped V st -> scoped W st) b ->
     forall V W : ident -> Prop, (forall x, W x -> V x) -> scoped_block V b -> scoped_block W b).
  { induction 1 as [|s b Hs Hb IH]; intros V W HW; cbn [scoped_block]; auto. intros [H1 H2]. split; [eapply Hs; eauto|].
    eapply IH; [|exact H2]. cbn. intros x [? ?]; auto. }
  induction st using stmt_rect'; intros V W HW; cbn [scoped]; rewrite ?scoped_block_eq; auto; try (now apply unread_sub).
  - apply HB; auto.
  - destruct i; auto. now apply unread_sub.
  - intros [? ?]; split; eapply HB; eauto.
  - intros [? ?]; split; eapply HB; eauto.
  - intros [? ?]; split; eapply HB; eauto.
  - intros (? & ? & ?); repeat split; [eapply unread_sub; eauto | |]; eapply HB; eauto.
  - intros (? & ?); repeat split; [eapply unread_sub; eauto |]; eapply HB; eauto.
  - apply IHst; auto.
Qed.
Lemma scoped_block_sub b : forall V W : ident -> Prop, (forall x, W x -> V x) -> scoped_block V b -> scoped_block W b.
Proof.
  induction b as [|s b IH]; intros V W HW; cbn [scoped_block]; auto. intros [H1 H2]. split; [eapply scoped_sub; eauto|].
  eapply IH; [|exact H2]. cbn. intros x [? ?]; auto.
Qed.
Lemma scoped_block_app a : forall V b, scoped_block V a -> scoped_block V b -> scoped_block V (a ++ b).
Proof.
  induction a as [|s a IH]; intros V b Ha Hb; cbn [app scoped_block] in *; auto. destruct Ha as [H1 H2]. split; auto. apply IH; auto.
  eapply scoped_block_sub; [|exact Hb]. cbn. tauto.
Qed.

Lemma union_unread (V : ident -> Prop) e : (forall x, V x -> unread (eq x) e) -> unread V e.
Proof. intros H x Hx Hv. exact (H x Hv x Hx eq_refl). Qed.
Lemma scoped_union st : forall V : ident -> Prop, (forall x, V x -> scoped (eq x) st) -> scoped V st.
Proof.
  assert (HB : forall b, Forall (fun st => forall V : ident -> Prop, (forall x, V x -> scoped (eq x) st) -> scoped V st) b ->
     forall V : ident -> Prop, (forall x, V x -> scoped_block (eq x) b) -> scoped_block V b).
  { induction 1 as [|s b Hs Hb IH]; intros V HV; cbn [scoped_block]; auto. split.
    - apply Hs. intros x Hx. apply (HV x Hx).
    - apply IH. intros x [Hx Hn]. destruct (HV x Hx) as [_ H2]. eapply scoped_block_sub; [|exact H2]. cbn. intros y <-. auto. }
  induction st using stmt_rect'; intros V HV; cbn [scoped] in *; rewrite ?scoped_block_eq; try exact Logic.I; try (now apply union_unread); try (now auto).
  - destruct i; auto. now apply union_unread.
  - split; apply HB; auto; intros x Hx; specialize (HV x Hx); rewrite !scoped_block_eq in HV; apply HV.
  - split; apply HB; auto; intros x Hx; specialize (HV x Hx); rewrite !scoped_block_eq in HV; apply HV.
  - split; apply HB; auto; intros x Hx; specialize (HV x Hx); rewrite !scoped_block_eq in HV; apply HV.
  - split; [apply union_unread; intros x Hx; apply (HV x Hx)|].
    split; apply HB; auto; intros x Hx; specialize (HV x Hx); rewrite !scoped_block_eq in HV; apply HV.
  - split; [apply union_unread; intros x Hx; apply (HV x Hx)|].
    apply HB; auto; intros x Hx; specialize (HV x Hx); rewrite !scoped_block_eq in HV; apply HV.
Qed.
Lemma tidy_sub st : forall V W : ident -> Prop, (forall x, W x -> V x) -> tidy V st -> tidy W st.
Proof.
  assert (HB : forall b, Forall (fun st => forall V W : ident -> Prop, (forall x, W x -> V x) -> tidy V st -> tidy W st) b ->
     forall V W : ident -> Prop, (forall x, W x -> V x) -> tidy_block V b -> tidy_block W b).
  { induction 1 as [|s b Hs Hb IH]; intros V W HW; cbn [tidy_block]; auto. intros [H1 H2]. split; [eapply Hs; eauto|].
    eapply IH; [|exact H2]. cbn. intros x [? ?]; auto. }
  induction st using stmt_rect'; intros V W HW; cbn [tidy]; rewrite ?tidy_block_eq; try (now apply scoped_sub).
  - apply HB; auto.
  - intros [? ?]; split; eapply HB; eauto.
  - intros [? ?]; split; eapply HB; eauto.
  - intros [? ?]; split; eapply HB; eauto.
  - intros (? & ? & ?); repeat split; [eapply unread_sub; eauto | |]; eapply HB; eauto.
  - intros (? & ?); repeat split; [eapply unread_sub; eauto |]; eapply HB; eauto.
  - intros [H1 H2]. split; [|eapply IHst; eauto]. intros Hr. eapply Forall_impl; [|apply H1; auto]. intros e. now apply unread_sub.
Qed.
Lemma tidy_block_sub b : forall V W : ident -> Prop, (forall x, W x -> V x) -> tidy_block V b -> tidy_block W b.
Proof.
  induction b as [|s b IH]; intros V W HW; cbn [tidy_block]; auto. intros [H1 H2]. split; [eapply tidy_sub; eauto|].
  eapply IH; [|exact H2]. cbn. intros x [? ?]; auto.
Qed.
Lemma tidy_union st : forall V : ident -> Prop, (forall x, V x -> tidy (eq x) st) -> tidy V st.
Proof.
  assert (HB : forall b, Forall (fun st => forall V : ident -> Prop, (forall x, V x -> tidy (eq x) st) -> tidy V st) b ->
     forall V : ident -> Prop, (forall x, V x -> tidy_block (eq x) b) -> tidy_block V b).
  { induction 1 as [|s b Hs Hb IH]; intros V HV; cbn [tidy_block]; auto. split.
    - apply Hs. intros x Hx. apply (HV x Hx).
    - apply IH. intros x [Hx Hn]. destruct (HV x Hx) as [_ H2]. eapply tidy_block_sub; [|exact H2]. cbn. intros y <-. auto. }
  induction st using stmt_rect'; intros V HV; cbn [tidy] in *; rewrite ?tidy_block_eq; try (now apply scoped_union).
  - apply HB; auto; intros x Hx; specialize (HV x Hx); now rewrite tidy_block_eq in HV.
  - split; apply HB; auto; intros x Hx; specialize (HV x Hx); rewrite !tidy_block_eq in HV; apply HV.
  - split; apply HB; auto; intros x Hx; specialize (HV x Hx); rewrite !tidy_block_eq in HV; apply HV.
  - split; apply HB; auto; intros x Hx; specialize (HV x Hx); rewrite !tidy_block_eq in HV; apply HV.
  - split; [apply union_unread; intros x Hx; apply (HV x Hx)|].
    split; apply HB; auto; intros x Hx; specialize (HV x Hx); rewrite !tidy_block_eq in HV; apply HV.
  - split; [apply union_unread; intros x Hx; apply (HV x Hx)|].
    apply HB; auto; intros x Hx; specialize (HV x Hx); rewrite !tidy_block_eq in HV; apply HV.
  - split; [|apply IHst; intros x Hx; apply (HV x Hx)]. intros Hr. rewrite Forall_forall. intros e He. apply union_unread. intros x Hx.
    destruct (HV x Hx) as [H1 _]. specialize (H1 Hr). rewrite Forall_forall in H1. auto.
Qed.
Lemma tidy_block_union b : forall V : ident -> Prop, (forall x, V x -> tidy_block (eq x) b) -> tidy_block V b.
Proof.
  induction b as [|s b IH]; intros V HV; cbn [tidy_block]; auto. split.
  - apply tidy_union. intros x Hx. apply (HV x Hx).
  - apply IH. intros x [Hx Hn]. destruct (HV x Hx) as [_ H2]. eapply tidy_block_sub; [|exact H2]. cbn. intros y <-. auto.
Qed.
