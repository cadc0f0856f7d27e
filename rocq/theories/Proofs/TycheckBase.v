(** Subtypes, and the operators' types. *)
From Coq Require Import Bool List String ZArith NArith QArith Reals Lra.
From Verif.Model Require Import Syntax Tycheck.
From Verif.Spec Require Import Eur Sem Wp Typing.
From Verif.Proofs Require Import EurLemmas.
Import ListNotations.

Lemma ty_eqb_eq a b : ty_eqb a b = true <-> a = b.
Proof. destruct (ty_eqb_spec a b); split; congruence. Qed.
Lemma ty_eqb_refl a : ty_eqb a a = true.
Proof. destruct a; reflexivity. Qed.
Lemma tys_eqb_eq a : forall b, tys_eqb a b = true <-> a = b.
Proof.
  induction a as [|x a IH]; intros [|y b]; cbn; split; try congruence; intros H.
  - apply andb_true_iff in H as [H1 H2]. apply ty_eqb_eq in H1. apply IH in H2. congruence.
  - injection H as <- <-. rewrite ty_eqb_refl. cbn. apply IH. reflexivity.
Qed.
Lemma xty_eqb_eq a b : xty_eqb a b = true <-> a = b.
Proof.
  destruct a, b; cbn; rewrite ?ty_eqb_eq, ?tys_eqb_eq; split; congruence.
Qed.
Lemma xty_eqb_refl a : xty_eqb a a = true.
Proof. apply xty_eqb_eq. reflexivity. Qed.

Definition subb (t u : ty) : bool := ty_eqb t u || ty_less t u.
Lemma n2r_nonneg n : (0 <= IZR (Z.of_N n))%R.
Proof. apply IZR_le. apply N2Z.is_nonneg. Qed.

Lemma cast_meaning t v u : has_ty v u -> cast_ok t u = true -> has_ty (eval_cast t v) t /\ meaning_of (eval_cast t v) = meaning_of v.
Proof.
  unfold has_ty. destruct v as [b|z|n|r|x|e|]; intros [=<-]; destruct t; cbn; try discriminate; intros _; (split; [reflexivity|]); unfold n2r, fin; cbn;
    rewrite ?nval_of by apply n2r_nonneg; try reflexivity.
Qed.
Lemma cast_ok_less t u : cast_ok t u = ty_less u t.
Proof. destruct t, u; reflexivity. Qed.

Lemma included_iff t u : included t u <-> subb t u = true.
Proof.
  split.
  - intros H.
    assert (N : forall b, meaning_of (VBool b) = None -> False) by (intros; discriminate).
    pose proof (H (VBool true)) as H1. pose proof (H (VInt (-1))) as H2. pose proof (H (VUInt 0)) as H3.
    pose proof (H (VReal (-1/2))) as H4. pose proof (H (VUReal (nnr_of (1/2)))) as H5. pose proof (H (VEur Inf)) as H6.
    destruct t; destruct u; try reflexivity; exfalso;
      repeat match goal with X : has_ty ?v ?t -> _ |- _ => first [specialize (X eq_refl) | clear X] end;
      repeat match goal with X : exists w, _ |- _ => destruct X as [w [Ew Mw]]; destruct w as [?b|?z|?n|?r|?x|[?x|]|]; try discriminate Ew; cbn in Mw; try discriminate Mw end;
      repeat match goal with X : Some _ = Some _ |- _ => injection X as X end;
      rewrite ?nval_of in * by lra.
    all: try (match goal with X : nval ?x = _ |- _ => pose proof (nval_nonneg x); lra end).
    all: try (match goal with X : IZR (Z.of_N ?x) = _ |- _ => pose proof (n2r_nonneg x); lra end).
    all: try (match goal with X : IZR ?z = (1/2)%R |- _ => assert (IZR (2 * z) = IZR 1) as Q by (rewrite mult_IZR; lra); apply eq_IZR in Q; destruct z; discriminate end).
    all: try (match goal with X : IZR ?z = (-1/2)%R |- _ => assert (IZR (2 * z) = IZR (-1)) as Q by (rewrite mult_IZR; lra); apply eq_IZR in Q; destruct z; discriminate end).
  - unfold subb. intros H v Hv. apply orb_true_iff in H as [H|H].
    + apply ty_eqb_eq in H as <-. exists v. auto.
    + rewrite <- cast_ok_less in H. exists (eval_cast u v). apply (cast_meaning u v t Hv H).
Qed.

Definition joinb (a b : ty) : option ty := if subb a b then Some b else if subb b a then Some a else None.
Lemma join_iff a b t : join a b t <-> joinb a b = Some t.
Proof.
  unfold join. rewrite !included_iff. split.
  - intros (A & B & [->| ->]); destruct a, b; cbn in *; congruence.
  - destruct a, b; cbn; intros [=<-]; auto.
Qed.

Definition bin_res (op : binop) (a b : ty) : option ty :=
  match op with
  | OAdd | OMul | OSub | OInf | OSup => if is_num a && is_num b then joinb a b else None
  | ODiv => if subb a TUReal && subb b TUReal then Some TUReal else if subb a TReal && subb b TReal then Some TReal else None
  | OMod => if is_whole a && is_whole b then joinb a b else None
  | OAnd | OOr => if is_bool a && is_bool b then Some TBool else None
  | OEq | ONe => match joinb a b with Some _ => Some TBool | None => None end
  | OLt | OLe | OGe | OGt => if is_num a && is_num b then match joinb a b with Some _ => Some TBool | None => None end else None
  | OImpl | OCoImpl | OCompare | OCoCompare => if is_lat a && is_lat b then joinb a b else None
  end.
Definition un_res (op : unop) (a : ty) : option ty :=
  match op with
  | ONot | ONon => if is_lat a then Some a else None
  | OEmbed | OIverson => if is_bool a then Some TEUReal else None
  | OParens => Some a
  end.

Section Ty.
Variables (S : sigs) (pre : bool).
Notation types := (types S pre).
Ltac ins := repeat match goal with H : In _ _ |- _ => cbn in H | H : _ \/ _ |- _ => destruct H | H : False |- _ => destruct H end; subst.

Lemma types_bin imp o op a b t : types imp (RBin o op a b) t <->
  exists ta tb u, t = One u /\ types false a (One ta) /\ types false b (One tb) /\ bin_res op ta tb = Some u.
Proof.
  split.
  - intros H; inversion H; subst; ins; do 3 eexists; (split; [reflexivity|]); (split; [eassumption|]); (split; [eassumption|]);
      repeat match goal with X : numeric ?t |- _ => assert (is_num t = true) by (destruct t; cbn; congruence); clear X
        | X : join _ _ _ |- _ => apply join_iff in X | X : included _ _ |- _ => apply included_iff in X
        | X : ~ (included _ _ /\ included _ _) |- _ => rewrite !included_iff in X end; cbn;
      repeat match goal with X : _ = true |- _ => rewrite X | X : joinb _ _ = _ |- _ => rewrite X end; try reflexivity.
    all: try assumption.
    all: try (destruct (subb ta TUReal), (subb tb TUReal); cbn; try reflexivity; match goal with X : ~ _ |- _ => destruct X; auto end).
  - intros (ta & tb & u & -> & A & B & E).
    assert (Hn : forall t, is_num t = true -> numeric t) by (intros [] X; cbn in X; unfold numeric; congruence).
    destruct op; cbn in E.
    all: repeat match type of E with
      | context [is_num ?a && is_num ?b] => destruct (is_num a) eqn:?, (is_num b) eqn:?; cbn in E; try discriminate E
      | context [is_whole ?a && is_whole ?b] => destruct (is_whole a) eqn:?, (is_whole b) eqn:?; cbn in E; try discriminate E
      | context [is_bool ?a && is_bool ?b] => destruct (is_bool a) eqn:?, (is_bool b) eqn:?; cbn in E; try discriminate E
      | context [match joinb ?a ?b with _ => _ end] => destruct (joinb a b) eqn:?; try discriminate E; injection E as <-
      end.
    all: try (eapply ty_arith; [cbn; tauto|eassumption|eassumption|auto|auto|apply join_iff; exact E]).
    all: try (eapply ty_order; [cbn; tauto|eassumption|eassumption|auto|auto|apply join_iff; eassumption]).
    all: try (eapply ty_eq; [cbn; tauto|eassumption|eassumption|apply join_iff; eassumption]).
    all: try (apply ty_eqb_eq in Heqb0, Heqb1; injection E as <-; subst; apply ty_logic; [cbn; tauto|assumption|assumption]).
    + destruct (subb ta TUReal && subb tb TUReal) eqn:X; [injection E as <-|].
      * apply andb_true_iff in X as [X Y]. eapply ty_udiv; eauto; apply included_iff; assumption.
      * destruct (subb ta TReal && subb tb TReal) eqn:X'; [injection E as <-|discriminate]. apply andb_true_iff in X' as [X1 Y1].
        eapply ty_div; eauto; try (apply included_iff; assumption). rewrite !included_iff. intros [U V]. rewrite U, V in X. discriminate.
    + eapply ty_mod; [exact A|exact B| | |apply join_iff; exact E]; [destruct ta|destruct tb]; try discriminate; cbn; auto.
    + destruct ta, tb; try discriminate; injection E as <-; eapply ty_heyting; eauto; cbn; tauto.
    + destruct ta, tb; try discriminate; injection E as <-; eapply ty_heyting; eauto; cbn; tauto.
    + destruct ta, tb; try discriminate; injection E as <-; eapply ty_heyting; eauto; cbn; tauto.
    + destruct ta, tb; try discriminate; injection E as <-; eapply ty_heyting; eauto; cbn; tauto.
Qed.
Lemma types_un imp o op a t : types imp (RUn o op a) t <-> exists ta u, t = One u /\ types false a (One ta) /\ un_res op ta = Some u.
Proof.
  split.
  - intros H; inversion H; subst; ins; do 2 eexists; (split; [reflexivity|]); (split; [eassumption|]); reflexivity.
  - intros (ta & u & -> & A & E). destruct op; cbn in E; try (injection E as <-; apply ty_parens; assumption);
      destruct ta; try discriminate; injection E as <-; first [solve [apply ty_neg; cbn; tauto] | solve [apply ty_embed; cbn; tauto]].
Qed.
Lemma types_ite imp o c a b t : types imp (RIte o c a b) t <->
  exists ta tb u, t = One u /\ types false c (One TBool) /\ types false a (One ta) /\ types false b (One tb) /\ joinb ta tb = Some u.
Proof.
  split.
  - intros H; inversion H; subst. do 3 eexists. repeat (split; [first [reflexivity|eassumption]|]). apply join_iff. assumption.
  - intros (ta & tb & u & -> & C & A & B & E). eapply ty_ite; eauto. apply join_iff. exact E.
Qed.
Definition fitsb (p : param) (a : rexpr) : Prop := (snd p = true -> is_lit a = true) /\ exists t, types false a (One t) /\ subb t (fst p) = true.
Lemma literal_iff a : literal a <-> is_lit a = true.
Proof. unfold literal. destruct a; cbn; split; try discriminate; eauto; intros (? & ? & ?); discriminate. Qed.
Lemma fits_iff ins args :
  Forall2 (fun p a => (snd p = true -> literal a) /\ exists t, types false a (One t) /\ included t (fst p)) ins args <-> Forall2 fitsb ins args.
Proof.
  split; intros H; (induction H as [|p a ins args [L (t & T & E)] _ IH]; constructor; [|exact IH]); split.
  - intros X. apply literal_iff. auto.
  - exists t. split; [exact T|]. apply included_iff. exact E.
  - intros X. apply literal_iff. auto.
  - exists t. split; [exact T|]. apply included_iff. exact E.
Qed.
Lemma types_call imp o f args t : types imp (RCall o f args) t <->
  exists c, s_call S f = Some c /\
  match c with
  | CFunc ins out => t = One out /\ Forall2 fitsb ins args
  | CProc ins outs => imp = true /\ t = Tup outs /\ Forall2 fitsb ins args
  | COther => False
  end.
Proof.
  split.
  - intros H; inversion H; subst; eexists; (split; [eassumption|]); cbn; rewrite <- fits_iff; auto.
  - intros (c & E & H). destruct c; [destruct H as (-> & -> & H)|destruct H as (-> & H)|destruct H]; apply fits_iff in H;
      [eapply ty_proc|eapply ty_func]; eauto.
Qed.
Lemma types_quant imp o op xs a t : types imp (RQuant o op xs a) t <->
  t = One (match op with QInf | QSup => TEUReal | _ => TBool end) /\ types false a t.
Proof.
  split.
  - intros H; inversion H; subst; ins; auto.
  - intros [-> H]. destruct op; first [solve [apply ty_quant; cbn; auto] | solve [apply ty_quantb; cbn; auto]].
Qed.
Lemma types_let imp o x v a t : types imp (RSubst o x v a) t <-> types false v (One (ity x)) /\ types false a t /\ exists u, t = One u.
Proof.
  split.
  - intros H; inversion H; subst; eauto.
  - intros (A & B & u & ->). apply ty_let; assumption.
Qed.
Lemma types_false_one e t : types false e t -> exists u, t = One u.
Proof. intros H; inversion H; subst; eauto. Qed.
End Ty.
