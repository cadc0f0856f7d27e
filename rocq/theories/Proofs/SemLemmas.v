(** Basic facts about evaluation. *)
From Coq Require Import Bool List String ZArith NArith QArith Reals Qreals ClassicalEpsilon Lia Lra.
From Verif.Model Require Import Syntax.
From Verif.Spec Require Import Eur Sem.
From Verif.Proofs Require Import EurLemmas.
Import ListNotations.

Lemma dec_iff (P : Prop) : dec P = true <-> P.
Proof. unfold dec. destruct (excluded_middle_informative P); split; auto; discriminate. Qed.
Lemma dec_false (P : Prop) : dec P = false <-> ~ P.
Proof. unfold dec. destruct (excluded_middle_informative P); split; auto; try discriminate. contradiction. Qed.
Lemma dec_true (P : Prop) : P -> dec P = true.
Proof. apply dec_iff. Qed.
Lemma dec_ext (P Q : Prop) : (P <-> Q) -> dec P = dec Q.
Proof.
  intros H. destruct (dec Q) eqn:E.
  - apply dec_iff, H, dec_iff, E.
  - apply dec_false. rewrite dec_false in E. tauto.
Qed.

Lemma ty_eqb_eq a b : ty_eqb a b = true <-> a = b.
Proof. destruct (ty_eqb_spec a b); split; auto; discriminate. Qed.
Lemma ident_eqb_eq a b : ident_eqb a b = true <-> a = b.
Proof. destruct (ident_eqb_spec a b); split; auto; discriminate. Qed.
Lemma ident_eqb_refl a : ident_eqb a a = true.
Proof. apply ident_eqb_eq; reflexivity. Qed.
Lemma ident_eqb_neq a b : a <> b -> ident_eqb a b = false.
Proof. destruct (ident_eqb_spec a b); congruence. Qed.

Lemma upd_same s x v : upd s x v x = v.
Proof. unfold upd. now rewrite ident_eqb_refl. Qed.
Lemma upd_other s x y v : x <> y -> upd s x v y = s y.
Proof. intros H. unfold upd. now rewrite ident_eqb_neq. Qed.
Lemma upd_ok s x v : env_ok s -> has_ty v (ity x) -> env_ok (upd s x v).
Proof. intros H Hv y. unfold upd. destruct (ident_eqb_spec x y); subst; auto. Qed.

Lemma havocked_refl xs s : env_ok s -> havocked xs s s.
Proof. intros H; split; auto. Qed.
Lemma havocked_ok xs s s' : env_ok s -> havocked xs s s' -> env_ok s'.
Proof.
  intros H [H1 H2] x. destruct (in_dec ident_dec x xs) as [i|n]; auto. rewrite H1; auto.
Qed.
Lemma havocked_nil s s' : havocked [] s s' <-> forall x, s' x = s x.
Proof. split; [intros [H _] x; apply H; auto | intros H; split; [auto | intros x []]]. Qed.

Lemma has_ty_inv v t : has_ty v t ->
  match t with
  | TBool => exists b, v = VBool b | TInt => exists b, v = VInt b | TUInt => exists b, v = VUInt b
  | TReal => exists b, v = VReal b | TUReal => exists b, v = VUReal b | TEUReal => exists b, v = VEur b
  end.
Proof. unfold has_ty; destruct v; simpl; intros H; inversion H; subst; eauto. Qed.

Ltac inv_ty H := apply has_ty_inv in H; simpl in H; let b := fresh "b" in destruct H as [b H].

Lemma eval_bin_ty I t op v w ta tb : bin_ok t op ta tb = true -> has_ty v ta -> has_ty w tb ->
  has_ty (eval_bin I t op v w) t.
Proof.
  intros Hok Hv Hw.
  destruct t, op; simpl in Hok; try discriminate;
    try (apply andb_prop in Hok; destruct Hok as [H1 H2]);
    repeat match goal with H : ty_eqb _ _ = true |- _ => apply ty_eqb_eq in H; subst end;
    try (destruct ta; simpl in *; try discriminate); try (destruct tb; simpl in *; try discriminate);
    inv_ty Hv; inv_ty Hw; subst; reflexivity.
Qed.

Lemma eval_un_ty t op v ta : un_ok t op ta = true -> has_ty v ta -> has_ty (eval_un t op v) t.
Proof.
  intros Hok Hv.
  destruct t, op; simpl in Hok; try discriminate; apply ty_eqb_eq in Hok; subst;
    pose proof Hv as Hv'; inv_ty Hv; subst; simpl; try reflexivity; now rewrite dec_true.
Qed.

Lemma eval_cast_ty t v ta : cast_ok t ta = true -> has_ty v ta -> has_ty (eval_cast t v) t.
Proof. intros Hok Hv. destruct t, ta; simpl in Hok; try discriminate; inv_ty Hv; subst; reflexivity. Qed.

Lemma eval_lit_ty t l : lit_ok t l = true -> has_ty (eval_lit t l) t.
Proof. destruct t, l; simpl; intros; try discriminate; reflexivity. Qed.

Ltac split_andb := repeat match goal with H : _ && _ = true |- _ => apply andb_prop in H; destruct H end.

(** Type soundness of evaluation. *)
Lemma eval_ty I : interp_ok I -> forall e, wt e = true -> forall s, env_ok s -> has_ty (eval I e s) (ty_of e).
Proof.
  intros HI. induction e using expr_rect'; simpl; intros Hwt s Hs.
  - apply Hs.
  - apply HI.
  - split_andb. repeat match goal with H : ty_eqb _ _ = true |- _ => apply ty_eqb_eq in H end.
    specialize (IHe1 H s Hs). rewrite H2 in IHe1. inv_ty IHe1. rewrite IHe1.
    destruct b; [rewrite <- H1 | rewrite <- H0]; auto.
  - split_andb. eapply eval_bin_ty; eauto.
  - split_andb. eapply eval_un_ty; eauto.
  - split_andb. eapply eval_cast_ty; eauto.
  - split_andb. destruct op, (ty_of e); simpl in *; try discriminate; reflexivity.
  - split_andb. apply ty_eqb_eq in H0. apply IHe2; auto. apply upd_ok; auto. rewrite <- H0; auto.
  - now apply eval_lit_ty.
Qed.

Lemma eval_eur I e s : interp_ok I -> wt e = true -> ty_of e = TEUReal -> env_ok s -> exists r, eval I e s = VEur r.
Proof. intros HI Hw Ht Hs. pose proof (eval_ty I HI e Hw s Hs) as H. rewrite Ht in H. inv_ty H. eauto. Qed.
Lemma eval_bool I e s : interp_ok I -> wt e = true -> ty_of e = TBool -> env_ok s -> exists r, eval I e s = VBool r.
Proof. intros HI Hw Ht Hs. pose proof (eval_ty I HI e Hw s Hs) as H. rewrite Ht in H. inv_ty H. eauto. Qed.

Lemma fv_call x t f args : fv x (ECall t f args) <-> Exists (fv x) args.
Proof.
  simpl. induction args as [|a l IH]; split; intros H.
  - destruct H.
  - inversion H.
  - destruct H; [constructor 1 | constructor 2; apply IH]; auto.
  - inversion H; subst; [left | right; apply IH]; auto.
Qed.

(** Take [s'] on [xs] and [s] elsewhere. *)
Definition splice (xs : list ident) (s s' : env) : env :=
  fun x => if in_dec ident_dec x xs then s' x else s x.
Lemma splice_havocked xs s s' : (forall x, In x xs -> has_ty (s' x) (ity x)) -> havocked xs s (splice xs s s').
Proof.
  intros H; split; intros x Hx; unfold splice; destruct (in_dec ident_dec x xs); try contradiction; auto.
Qed.

Lemma eval_ext I e : forall s s', (forall x, fv x e -> s x = s' x) -> eval I e s = eval I e s'.
Proof.
  assert (Hq : forall e xs, (forall s s', (forall x, fv x e -> s x = s' x) -> eval I e s = eval I e s') ->
    forall s s', (forall x, fv x e /\ ~ In x xs -> s x = s' x) ->
    forall v, (exists s1, havocked xs s s1 /\ eval I e s1 = v) -> (exists s1, havocked xs s' s1 /\ eval I e s1 = v)).
  { clear e. intros e xs IH s s' H v [s1 [[H1 H2] Hv]]. exists (splice xs s' s1). split.
    - apply splice_havocked; auto.
    - rewrite <- Hv. apply IH. intros x Hx. unfold splice.
      destruct (in_dec ident_dec x xs); auto. rewrite H1; auto. symmetry. auto. }
  induction e using expr_rect'; intros s s' H'; simpl.
  - apply H'. reflexivity.
  - f_equal. apply map_ext_in. intros a Ha. rewrite Forall_forall in H. apply H; auto.
    intros x Hx. apply H'. apply fv_call. rewrite Exists_exists. eauto.
  - rewrite (IHe1 s s'), (IHe2 s s'), (IHe3 s s'); auto; intros x Hx; apply H'; simpl; auto.
  - rewrite (IHe1 s s'), (IHe2 s s'); auto; intros x Hx; apply H'; simpl; auto.
  - rewrite (IHe s s'); auto.
  - rewrite (IHe s s'); auto.
  - assert (Hr : forall v, (exists s1, havocked (map qname xs) s s1 /\ eval I e s1 = v) <->
                           (exists s1, havocked (map qname xs) s' s1 /\ eval I e s1 = v)).
    { intros v; split; apply Hq; auto. intros x Hx. symmetry. apply H'. exact Hx. }
    destruct op, (ty_of e); auto; f_equal;
      try (apply dec_ext; first [apply Hr | split; intros Hx v Hv; apply Hx, Hr, Hv]).
    + apply einf_ext; intros; apply Hr.
    + apply esup_ext; intros; apply Hr.
  - apply IHe2. intros z Hz. unfold upd. destruct (ident_eqb_spec x z).
    + apply IHe1. intros y Hy. apply H'. simpl; auto.
    + apply H'. simpl; auto.
  - reflexivity.
Qed.
