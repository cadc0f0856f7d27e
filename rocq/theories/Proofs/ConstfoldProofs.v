(** Constant folding. *)
From Coq Require Import Bool List String NArith ZArith QArith Qround Qreals Reals Lra Lia.
From Verif.Model Require Import Syntax Builder Lits Constfold.
From Verif.Spec Require Import Eur Sem Exprs Folding.
From Verif.Proofs Require Import EurLemmas SemLemmas SimLemmas UnrollProofs EgraphProofs.
Import ListNotations.
Local Open Scope nat_scope.

(** Literals under casts. *)
Definition zv (t : ty) : val :=
  match t with TBool => VErr | TInt => VInt 0 | TUInt => VUInt 0 | TReal => VReal 0 | TUReal => VUReal (nnr_of 0) | TEUReal => VEur ebot end.
Definition ov (t : ty) : val :=
  match t with TBool => VErr | TInt => VInt 1 | TUInt => VUInt 1 | TReal => VReal 1 | TUReal => VUReal (nnr_of 1) | TEUReal => VEur eone end.

Lemma zero_number e : is_zero_lit e = true -> exists q, const_number e = Some (Some q) /\ Q2R q = 0%R.
Proof.
  unfold is_zero_lit. induction e; simpl; try discriminate; auto. destruct l; try discriminate; intros H.
  - apply N.eqb_eq in H. subst. eexists. split; [reflexivity|]. unfold Q2R; simpl; lra.
  - eexists. split; [reflexivity|]. now apply Q2R_0.
Qed.
Lemma one_number e : is_one_lit e = true -> exists q, const_number e = Some (Some q) /\ Q2R q = 1%R.
Proof.
  unfold is_one_lit. destruct (const_number e) as [[q|]|]; try discriminate. intros H. exists q. split; auto.
  apply Qeq_bool_iff in H. rewrite (Qeq_eqR _ _ H). unfold Q2R; simpl; lra.
Qed.
Lemma inf_number I s e : wt e = true -> const_number e = Some None -> ty_of e = TEUReal /\ eval I e s = VEur Inf.
Proof.
  induction e; intros Hw H; try discriminate; simpl in H.
  - cbn [wt] in Hw. split_andb. destruct (IHe H0 H) as [Ht _]. rewrite Ht in H1. destruct t; discriminate.
  - destruct l; try discriminate. destruct t; try discriminate. split; reflexivity.
Qed.

Lemma number_val (c : Z) I s e q : (0 <= c)%Z -> wt e = true -> const_number e = Some (Some q) -> Q2R q = IZR c ->
  ty_of e <> TBool /\ eval I e s = match ty_of e with TBool => VErr | TInt => VInt c | TUInt => VUInt (Z.to_N c) | TReal => VReal (IZR c)
    | TUReal => VUReal (nnr_of (IZR c)) | TEUReal => VEur (fin (IZR c)) end.
Proof.
  intros Hc Hw Hq E. destruct (const_number_val I e q s Hw Hq) as (_ & Ht & Hv). rewrite E in Hv.
  destruct (ty_of e); inv_ty Ht; rewrite Ht in Hv |- *; (split; [discriminate|]) || (exfalso; exact Hv).
  - apply eq_IZR in Hv. congruence.
  - unfold n2r in Hv. apply eq_IZR in Hv. f_equal. lia.
  - congruence.
  - f_equal. apply nnr_eq. rewrite nval_of; auto. apply IZR_le; auto.
  - congruence.
Qed.
Lemma zero_val I s e : wt e = true -> is_zero_lit e = true -> ty_of e <> TBool /\ eval I e s = zv (ty_of e).
Proof. intros Hw H. destruct (zero_number e H) as (q & Hq & E). apply (number_val 0 I s e q); auto. lia. Qed.
Lemma one_val I s e : wt e = true -> is_one_lit e = true -> ty_of e <> TBool /\ eval I e s = ov (ty_of e).
Proof. intros Hw H. destruct (one_number e H) as (q & Hq & E). apply (number_val 1 I s e q); auto. lia. Qed.

Lemma bot_zero e : wt e = true -> is_bot_lit e = true -> ty_of e <> TBool -> is_zero_lit e = true.
Proof.
  destruct e; simpl; try discriminate.
  - destruct e; try discriminate. unfold is_zero_lit. simpl. destruct l; auto. simpl. intros Hw. split_andb. destruct t, t0; discriminate.
  - unfold is_zero_lit. simpl. destruct l; auto. destruct t; try discriminate. intros _ _ H. congruence.
Qed.

Definition bv (t : ty) : val := match t with TBool => VBool false | _ => zv t end.
Lemma bot_val I s e : wt e = true -> is_bot_lit e = true -> eval I e s = bv (ty_of e).
Proof.
  intros Hw Hb. destruct (ty_eqb_spec (ty_of e) TBool) as [Ht|Ht].
  - rewrite (bot_lit_val I e s Hw Hb) by (rewrite Ht; reflexivity). now rewrite Ht.
  - destruct (zero_val I s e Hw (bot_zero e Hw Hb Ht)) as [_ ->]. destruct (ty_of e); auto. congruence.
Qed.

(** What the builder makes. *)
Lemma zero_ok t : t <> TReal -> exists z, b_zero t = Ok z /\ wt z = true /\ ty_of z = t /\
  forall I s, eval I z s = match t with TBool => VBool false | _ => zv t end.
Proof.
  intros H. destruct t; try congruence; eexists; (split; [reflexivity|]); (split; [reflexivity|]); (split; [reflexivity|]); intros I s; simpl;
    unfold n2r; simpl; auto.
Qed.
Lemma one_ok t : t = TEUReal -> exists z, b_one t = Ok z /\ wt z = true /\ ty_of z = t /\ forall I s, eval I z s = ov t.
Proof. intros ->. eexists; (split; [reflexivity|]); (split; [reflexivity|]); (split; [reflexivity|]). intros I s. reflexivity. Qed.
Lemma bot_ok t z : b_bot t = Ok z -> wt z = true /\ ty_of z = t /\ forall I s, eval I z s = match t with TBool => VBool false | _ => zv t end.
Proof. destruct t; simpl; intros E; inversion E; subst; (split; [reflexivity|]); (split; [reflexivity|]); intros I s; reflexivity. Qed.
Lemma top_ok t z : b_top t = Ok z -> wt z = true /\ ty_of z = t /\ forall I s, eval I z s = vtop t.
Proof. destruct t; simpl; intros E; inversion E; subst; (split; [reflexivity|]); (split; [reflexivity|]); intros I s; reflexivity. Qed.

Lemma n_id (x : nnr) : nnr_of (nval x) = x.
Proof. apply nnr_eq, nval_of, nval_nonneg. Qed.
Lemma nval0 : nval (nnr_of 0) = 0%R. Proof. apply nval_of; lra. Qed.
Lemma nval1 : nval (nnr_of 1) = 1%R. Proof. apply nval_of; lra. Qed.

(** * First phase *)
Ltac tyof e := match goal with Hw : wt e = true, HI : interp_ok ?I, Hs : env_ok ?s |- _ =>
  let V := fresh "V" in pose proof (eval_ty I HI e Hw s Hs) as V;
  match goal with H : ty_of e = _ |- _ => rewrite H in V end; inv_ty V; rewrite V in * end.

Lemma bin_inv t op a b : wt (EBin t op a b) = true -> match op with OAdd | OSub | OMul | ODiv | OAnd | OOr | OInf | OSup => true | _ => false end = true ->
  wt a = true /\ wt b = true /\ ty_of a = t /\ ty_of b = t /\ bin_ok t op t t = true.
Proof.
  intros Hw Ho. cbn [wt] in Hw. split_andb.
  destruct t, op; simpl in *; try discriminate; split_andb;
    repeat match goal with H : ty_eqb _ _ = true |- _ => apply ty_eqb_eq in H end; auto.
Qed.

Lemma nonzero_not_lit a : wt a = true -> nonzero a -> is_zero_lit a = false.
Proof.
  intros Hw (I & s & HI & Hs & N). destruct (is_zero_lit a) eqn:E; auto. exfalso. destruct (zero_val I s a Hw E) as [NB V].
  apply N. rewrite V. unfold is_zero_value. destruct (ty_of a); simpl; auto 10; congruence.
Qed.

Lemma fold_bin_sim t op a b e : wt (EBin t op a b) = true -> bin_foldable t op a -> fold_bin t op a b = Ok e -> sim e (EBin t op a b).
Proof.
  intros Hw Hf E. pose proof (sim_refl _ Hw) as SR.
  destruct op; cbn [fold_bin] in E; try (inversion E; subst; exact SR);
    destruct (bin_inv _ _ _ _ Hw eq_refl) as (W1 & W2 & Y1 & Y2 & Hok).
  - (* add *) destruct (is_zero_lit a) eqn:Z1.
    + inversion E; subst e. split; [auto|split; [auto|]]. intros I s HI Hs. cbn [eval]. destruct (zero_val I s a W1 Z1) as [NB ->]. rewrite Y1 in *.
      destruct t; try discriminate; tyof b; cbn [eval_bin zv ov]; f_equal; rewrite ?Rplus_0_l, ?nval0, ?Rplus_0_l, ?n_id, ?eadd_0_l; auto; lia.
    + destruct (is_zero_lit b) eqn:Z2; inversion E; subst e; auto. split; [auto|split; [auto|]]. intros I s HI Hs. cbn [eval].
      destruct (zero_val I s b W2 Z2) as [NB ->]. rewrite Y2 in *.
      destruct t; try discriminate; tyof a; cbn [eval_bin zv ov]; f_equal; rewrite ?Rplus_0_r, ?nval0, ?Rplus_0_r, ?n_id, ?eadd_0_r; auto; lia.
  - (* sub *) simpl in Hf. rewrite (nonzero_not_lit a W1 Hf) in E.
    destruct (is_zero_lit b) eqn:Z2; inversion E; subst e; auto. split; [auto|split; [auto|]]. intros I s HI Hs. cbn [eval].
    destruct (zero_val I s b W2 Z2) as [NB ->]. rewrite Y2 in *.
    destruct t; try discriminate; tyof a; cbn [eval_bin zv ov]; f_equal; rewrite ?Rminus_0_r, ?nval0, ?Rminus_0_r, ?n_id, ?emonus_0; auto; lia.
  - (* mul *) simpl in Hf.
    destruct (is_zero_lit a || is_zero_lit b) eqn:Z.
    + destruct (zero_ok t Hf) as (z & Ez & Wz & Tz & Vz). rewrite Ez in E. inversion E; subst e. split; [auto|split; [auto|]]. intros I s HI Hs.
      rewrite Vz. cbn [eval]. apply orb_prop in Z as [Z|Z]; [destruct (zero_val I s a W1 Z) as [NB ->]; rewrite Y1 in * | destruct (zero_val I s b W2 Z) as [NB ->]; rewrite Y2 in *];
        destruct t; try discriminate; try congruence; first [tyof b | tyof a]; cbn [eval_bin zv ov]; f_equal;
        rewrite ?nval0, ?Rmult_0_l, ?Rmult_0_r, ?emul_0_l, ?emul_0_r; auto; lia.
    + destruct (is_one_lit a) eqn:Z1.
      { inversion E; subst e. split; [auto|split; [auto|]]. intros I s HI Hs. cbn [eval]. destruct (one_val I s a W1 Z1) as [NB ->]. rewrite Y1 in *.
        destruct t; try discriminate; tyof b; cbn [eval_bin zv ov]; f_equal; rewrite ?nval1, ?Rmult_1_l, ?n_id, ?emul_1_l; auto; lia. }
      destruct (is_one_lit b) eqn:Z2; inversion E; subst e; auto. split; [auto|split; [auto|]]. intros I s HI Hs. cbn [eval].
      destruct (one_val I s b W2 Z2) as [NB ->]. rewrite Y2 in *.
      destruct t; try discriminate; tyof a; cbn [eval_bin zv ov]; f_equal; rewrite ?nval1, ?Rmult_1_r, ?n_id, ?emul_1_r; auto; lia.
  - (* div *) simpl in Hf. rewrite (nonzero_not_lit a W1 Hf) in E.
    destruct (is_one_lit b) eqn:Z2; inversion E; subst e; auto. split; [auto|split; [auto|]]. intros I s HI Hs. cbn [eval].
    destruct (one_val I s b W2 Z2) as [NB ->]. rewrite Y2 in *.
    destruct t; try discriminate; tyof a; simpl; f_equal.
    + replace (dec (1%R = 0%R)) with false by (symmetry; apply dec_false; lra). lra.
    + rewrite nval1. replace (dec (1%R = 0%R)) with false by (symmetry; apply dec_false; lra). unfold Rdiv. rewrite Rinv_1, Rmult_1_r, n_id. auto.
  - (* and *) destruct t; try discriminate. destruct (is_bot_lit a || is_bot_lit b) eqn:Z.
    + simpl in E. inversion E; subst e. split; [auto|split; [auto|]]. intros I s HI Hs. cbn [eval].
      apply orb_prop in Z as [Z|Z]; [rewrite (bot_val I s a W1 Z), Y1; tyof b | rewrite (bot_val I s b W2 Z), Y2; tyof a]; simpl; auto.
      now rewrite andb_false_r.
    + destruct (is_top_lit a) eqn:Z1.
      { inversion E; subst e. split; [auto|split; [auto|]]. intros I s HI Hs. cbn [eval]. destruct (top_lit_val I a s W1 Z1) as [_ ->].
        rewrite Y1. tyof b. reflexivity. }
      destruct (is_top_lit b) eqn:Z2; inversion E; subst e; auto. split; [auto|split; [auto|]]. intros I s HI Hs. cbn [eval].
      destruct (top_lit_val I b s W2 Z2) as [_ ->]. rewrite Y2. tyof a. simpl. now rewrite andb_true_r.
  - (* or *) destruct t; try discriminate. destruct (is_top_lit a || is_top_lit b) eqn:Z.
    + simpl in E. inversion E; subst e. split; [auto|split; [auto|]]. intros I s HI Hs. cbn [eval].
      apply orb_prop in Z as [Z|Z]; [destruct (top_lit_val I a s W1 Z) as [_ ->]; rewrite Y1; tyof b | destruct (top_lit_val I b s W2 Z) as [_ ->]; rewrite Y2; tyof a]; simpl; auto.
      now rewrite orb_true_r.
    + destruct (is_bot_lit a) eqn:Z1.
      { inversion E; subst e. split; [auto|split; [auto|]]. intros I s HI Hs. cbn [eval]. rewrite (bot_val I s a W1 Z1).
        rewrite Y1. tyof b. reflexivity. }
      destruct (is_bot_lit b) eqn:Z2; inversion E; subst e; auto. split; [auto|split; [auto|]]. intros I s HI Hs. cbn [eval].
      rewrite (bot_val I s b W2 Z2), Y2. tyof a. simpl. now rewrite orb_false_r.
  - (* inf *) simpl in Hf. destruct Hf as [F1 F2]. destruct (is_bot_lit a || is_bot_lit b) eqn:Z.
    + destruct (bot_ok t e E) as (Wz & Tz & Vz). split; [auto|split; [auto|]]. intros I s HI Hs. rewrite Vz. cbn [eval].
      apply orb_prop in Z as [Z|Z]; [rewrite (bot_val I s a W1 Z), Y1 | rewrite (bot_val I s b W2 Z), Y2]; destruct t; try congruence; try discriminate;
        first [tyof b | tyof a]; simpl; auto; f_equal; rewrite ?nval0, ?andb_false_r; auto; try lia.
      * f_equal. rewrite Rmin_left; auto using nval_nonneg.
      * unfold emin. now rewrite eleb_bot.
      * f_equal. rewrite Rmin_right; auto using nval_nonneg.
      * symmetry. apply le_ebot, emin_r.
    + destruct (is_top_lit a) eqn:Z1.
      { inversion E; subst e. split; [auto|split; [auto|]]. intros I s HI Hs. cbn [eval]. destruct (top_lit_val I a s W1 Z1) as [Hl ->]. rewrite Y1 in *.
        destruct t; try discriminate; tyof b; simpl; auto. now rewrite emin_top_l. }
      destruct (is_top_lit b) eqn:Z2; inversion E; subst e; auto. split; [auto|split; [auto|]]. intros I s HI Hs. cbn [eval].
      destruct (top_lit_val I b s W2 Z2) as [Hl ->]. rewrite Y2 in *. destruct t; try discriminate; tyof a; simpl; rewrite ?emin_top_r, ?andb_true_r; auto.
  - (* sup *) simpl in Hf. destruct Hf as [F1 F2]. destruct (is_top_lit a || is_top_lit b) eqn:Z.
    + destruct (top_ok t e E) as (Wz & Tz & Vz). split; [auto|split; [auto|]]. intros I s HI Hs. rewrite Vz. cbn [eval].
      apply orb_prop in Z as [Z|Z]; [destruct (top_lit_val I a s W1 Z) as [Hl ->]; rewrite Y1 in * | destruct (top_lit_val I b s W2 Z) as [Hl ->]; rewrite Y2 in *];
        destruct t; try discriminate; first [tyof b | tyof a]; simpl; auto; rewrite ?orb_true_r; auto; f_equal; symmetry.
      * apply top_le, emax_l.
      * apply top_le, emax_r.
    + destruct (is_bot_lit a) eqn:Z1.
      { inversion E; subst e. split; [auto|split; [auto|]]. intros I s HI Hs. cbn [eval]. rewrite (bot_val I s a W1 Z1), Y1.
        destruct t; try congruence; try discriminate; tyof b; simpl; auto; f_equal; rewrite ?nval0; auto; try lia.
        - rewrite Rmax_right, n_id; auto using nval_nonneg.
        - now rewrite emax_comm, emax_bot_r. }
      destruct (is_bot_lit b) eqn:Z2; inversion E; subst e; auto. split; [auto|split; [auto|]]. intros I s HI Hs. cbn [eval]. rewrite (bot_val I s b W2 Z2), Y2.
      destruct t; try congruence; try discriminate; tyof a; simpl; auto; f_equal; rewrite ?nval0, ?orb_false_r; auto; try lia.
      * rewrite Rmax_left, n_id; auto using nval_nonneg.
      * now rewrite emax_bot_r.
Qed.

Lemma fold_un_sim t op a e : wt (EUn t op a) = true -> fold_un t op a = Ok e -> sim e (EUn t op a).
Proof.
  intros Hw E. pose proof (sim_refl _ Hw) as SR. pose proof Hw as Hw0. cbn [wt] in Hw. split_andb.
  destruct op; cbn [fold_un] in E.
  - destruct (is_zero_lit a) eqn:Z; [|inversion E; subst; auto]. destruct (top_ok t e E) as (Wz & Tz & Vz). split; [auto|split; [auto|]]. intros I s HI Hs.
    rewrite Vz. cbn [eval]. destruct (zero_val I s a H Z) as [NB ->]. destruct t; try discriminate; apply ty_eqb_eq in H0; rewrite H0 in *; [congruence|].
    cbn [eval_un zv]. now rewrite eleb_refl.
  - destruct (is_top_lit a) eqn:Z; [|inversion E; subst; auto]. destruct (bot_ok t e E) as (Wz & Tz & Vz). split; [auto|split; [auto|]]. intros I s HI Hs.
    rewrite Vz. cbn [eval]. destruct (top_lit_val I a s H Z) as [Hl ->]. destruct t; try discriminate; apply ty_eqb_eq in H0; rewrite H0 in *; reflexivity.
  - destruct t; try discriminate. apply ty_eqb_eq in H0. destruct (is_bot_lit a) eqn:Z.
    { simpl in E. inversion E; subst e. split; [auto|split; [auto|]]. intros I s HI Hs. cbn [eval]. rewrite (bot_val I s a H Z), H0. reflexivity. }
    destruct (is_top_lit a) eqn:Z1; [|inversion E; subst; auto]. simpl in E. inversion E; subst e. split; [auto|split; [auto|]]. intros I s HI Hs.
    cbn [eval]. destruct (top_lit_val I a s H Z1) as [Hl ->]. rewrite H0. reflexivity.
  - destruct t; try discriminate. apply ty_eqb_eq in H0. destruct (is_zero_lit a) eqn:Z.
    { exfalso. pose (I0 := {| ifun := fun _ t _ => VErr; idiv0 := fun r => r; iudiv0 := fun r => r; imod0 := fun z => z; iumod0 := fun n => n |}).
      destruct (zero_val I0 (fun _ => VErr) a H Z). congruence. }
    destruct (is_one_lit a) eqn:Z1; [|inversion E; subst; auto].
    { exfalso. pose (I0 := {| ifun := fun _ t _ => VErr; idiv0 := fun r => r; iudiv0 := fun r => r; imod0 := fun z => z; iumod0 := fun n => n |}).
      destruct (one_val I0 (fun _ => VErr) a H Z1). congruence. }
  - inversion E; subst e. assert (Ht : ty_of a = t) by (destruct t; simpl in H0; apply ty_eqb_eq in H0; auto).
    split; [auto|split; [auto|]]. intros I s HI Hs. cbn [eval]. pose proof (eval_ty I HI a H s Hs) as V. rewrite Ht in V. pose proof V as V'.
    destruct t; inv_ty V; rewrite V in *; simpl; now rewrite dec_true.
Qed.

(** * Second phase: two literals *)
Lemma qle_dec x y : Qle_bool x y = true <-> (Q2R x <= Q2R y)%R.
Proof. rewrite Qle_bool_iff. split; [apply Qle_Rle | apply Rle_Qle]. Qed.
Lemma qle_dec_f x y : Qle_bool x y = false -> (Q2R y < Q2R x)%R.
Proof. intros H. apply Rnot_le_lt. intros K. apply qle_dec in K. congruence. Qed.
Lemma q0 : Q2R 0 = 0%R. Proof. unfold Q2R; simpl; lra. Qed.

Definition rop (op : binop) (x y : R) : R :=
  match op with OAdd => (x + y)%R | OSub => Rmax 0 (x - y) | OMul => (x * y)%R | OInf => Rmin x y | OSup => Rmax x y | _ => 0%R end.
Definition arith (op : binop) : bool := match op with OAdd | OSub | OMul | OInf | OSup => true | _ => false end.
Definition cop (op : binop) (x y : option Q) : option (option Q) :=
  match op with
  | OAdd => Some (c_add x y) | OSub => c_sub x y | OMul => Some (c_mul x y)
  | OAnd | OInf => Some (c_min x y) | OOr | OSup => Some (c_max x y)
  | _ => None
  end.
Lemma cop_fin op x y r : arith op = true -> cop op (Some x) (Some y) = Some r -> exists q, r = Some q /\ Q2R q = rop op (Q2R x) (Q2R y).
Proof.
  intros Ha H. destruct op; try discriminate; simpl in H.
  - inversion H. eexists. split; [reflexivity|]. apply Q2R_plus.
  - destruct (Qle_bool y x) eqn:L; inversion H; eexists; (split; [reflexivity|]).
    + apply qle_dec in L. simpl. rewrite Q2R_minus, Rmax_right; lra.
    + apply qle_dec_f in L. simpl. rewrite q0, Rmax_left; lra.
  - inversion H. unfold c_mul, c_zero. destruct (Qeq_bool x 0) eqn:X; [|destruct (Qeq_bool y 0) eqn:Y]; eexists; (split; [reflexivity|]); simpl.
    + rewrite (Q2R_0 _ X), q0. lra.
    + rewrite (Q2R_0 _ Y), q0. lra.
    + apply Q2R_mult.
  - inversion H. unfold c_min. simpl. destruct (Qle_bool x y) eqn:L; eexists; (split; [reflexivity|]); simpl.
    + apply qle_dec in L. now rewrite Rmin_left.
    + apply qle_dec_f in L. rewrite Rmin_right; lra.
  - inversion H. unfold c_max. simpl. destruct (Qle_bool x y) eqn:L; eexists; (split; [reflexivity|]); simpl.
    + apply qle_dec in L. now rewrite Rmax_right.
    + apply qle_dec_f in L. rewrite Rmax_left; lra.
Qed.

Lemma fin_min x y : (0 <= x)%R -> (0 <= y)%R -> emin (fin x) (fin y) = fin (Rmin x y).
Proof.
  intros. unfold emin. destruct (eleb (fin x) (fin y)) eqn:L.
  - apply eleb_iff in L. apply (proj1 (ele_fin x y H H0)) in L. now rewrite Rmin_left.
  - apply eleb_false in L. rewrite Rmin_right; auto. apply Rnot_lt_le. intros K. apply L, (proj2 (ele_fin x y H H0)). lra.
Qed.
Lemma fin_max x y : (0 <= x)%R -> (0 <= y)%R -> emax (fin x) (fin y) = fin (Rmax x y).
Proof.
  intros. unfold emax. destruct (eleb (fin x) (fin y)) eqn:L.
  - apply eleb_iff in L. apply (proj1 (ele_fin x y H H0)) in L. now rewrite Rmax_right.
  - apply eleb_false in L. rewrite Rmax_left; auto. apply Rnot_lt_le. intros K. apply L, (proj2 (ele_fin x y H H0)). lra.
Qed.
Lemma fin_rmax0 r : fin (Rmax 0 r) = fin r.
Proof. unfold fin. f_equal. apply nnr_eq. unfold nnr_of, nval. simpl. apply Rmax_right, Rmax_l. Qed.
Lemma nnr_rmax0 r : nnr_of (Rmax 0 r) = nnr_of r.
Proof. apply nnr_eq. unfold nnr_of, nval. simpl. apply Rmax_right, Rmax_l. Qed.

Lemma rop_nonneg op x y : (0 <= x)%R -> (0 <= y)%R -> (0 <= rop op x y)%R.
Proof.
  intros. destruct op; simpl; try lra.
  - apply Rmax_l.
  - now apply Rmult_le_pos.
  - now apply Rmin_glb.
  - apply Rle_trans with x; auto. apply Rmax_l.
Qed.
Lemma floor_IZR q z : Q2R q = IZR z -> Qfloor q = z.
Proof.
  intros H. rewrite <- (Qfloor_Z z). apply Qfloor_comp, eqR_Qeq. rewrite H. unfold Q2R, inject_Z; simpl; lra.
Qed.
Definition nop (op : binop) (x y : N) : N :=
  match op with OAdd => (x + y)%N | OSub => (x - y)%N | OMul => (x * y)%N | OInf => N.min x y | OSup => N.max x y | _ => 0%N end.
Lemma nop_rop op x y : n2r (nop op x y) = rop op (n2r x) (n2r y).
Proof.
  unfold n2r. destruct op; simpl; auto.
  - now rewrite N2Z.inj_add, plus_IZR.
  - rewrite N2Z.inj_sub_max, <- minus_IZR. destruct (Z.le_gt_cases 0 (Z.of_N x - Z.of_N y)).
    + rewrite Z.max_r, Rmax_right; auto. now apply IZR_le.
    + rewrite Z.max_l, Rmax_left; auto; [apply IZR_le|]; lia.
  - now rewrite N2Z.inj_mul, mult_IZR.
  - rewrite N2Z.inj_min. destruct (Z.le_gt_cases (Z.of_N x) (Z.of_N y)).
    + rewrite Z.min_l, Rmin_left; auto. now apply IZR_le.
    + rewrite Z.min_r, Rmin_right; auto; [apply IZR_le|]; lia.
  - rewrite N2Z.inj_max. destruct (Z.le_gt_cases (Z.of_N x) (Z.of_N y)).
    + rewrite Z.max_r, Rmax_right; auto. now apply IZR_le.
    + rewrite Z.max_l, Rmax_left; auto; [apply IZR_le|]; lia.
Qed.

Lemma fin_cop op x y : arith op = true -> (0 <= x)%R -> (0 <= y)%R -> forall I, eval_bin I TEUReal op (VEur (fin x)) (VEur (fin y)) = VEur (fin (rop op x y)).
Proof.
  intros Ha Hx Hy I. destruct op; try discriminate; cbn [eval_bin rop]; f_equal.
  - now apply eadd_fin.
  - rewrite emonus_fin; auto. now rewrite fin_rmax0.
  - now apply emul_fin.
  - now apply fin_min.
  - now apply fin_max.
Qed.
Local Arguments emul : simpl never.
Lemma inf_cop op x y r : arith op = true -> (match x with Some q => (0 <= Q2R q)%R | None => True end) -> (match y with Some q => (0 <= Q2R q)%R | None => True end) ->
  cop op x y = Some r -> forall I,
  let v c := VEur (match c with Some q => fin (Q2R q) | None => Inf end) in eval_bin I TEUReal op (v x) (v y) = v r /\ match r with Some q => (0 <= Q2R q)%R | None => True end.
Proof.
  intros Ha Hx Hy H I v. unfold v. destruct x as [x|], y as [y|].
  - destruct (cop_fin op x y r Ha H) as (q & -> & E). rewrite E, fin_cop; auto using rop_nonneg.
  - destruct op; try discriminate; simpl in H; inversion H; subst; cbn [eval_bin]; unfold emin, emax, c_min, c_max; simpl; auto.
    unfold c_mul. simpl. destruct (Qeq_bool x 0) eqn:E; split; auto.
    + rewrite (Q2R_0 _ E), q0. change (fin 0) with ebot. now rewrite emul_0_l.
    + rewrite q0. lra.
    + rewrite emul_Inf_r; auto. destruct Hx as [|E0]; auto. exfalso. assert (Qeq x 0) by (apply eqR_Qeq; rewrite q0; auto). apply Qeq_bool_iff in H0. congruence.
  - destruct op; try discriminate; simpl in H; inversion H; subst; cbn [eval_bin]; unfold emin, emax, c_min, c_max; simpl; auto.
    unfold c_mul. simpl. destruct (Qeq_bool y 0) eqn:E; split; auto.
    + rewrite (Q2R_0 _ E), q0. change (fin 0) with ebot. now rewrite emul_0_r.
    + rewrite q0. lra.
    + rewrite emul_Inf_l; auto. destruct Hy as [|E0]; auto. exfalso. assert (Qeq y 0) by (apply eqR_Qeq; rewrite q0; auto). apply Qeq_bool_iff in H0. congruence.
  - destruct op; try discriminate; simpl in H; inversion H; subst; cbn [eval_bin]; unfold emin, emax, c_min, c_max; simpl; auto.
Qed.

Lemma const_val I s e c : wt e = true -> const_number e = Some c -> ty_of e = TEUReal ->
  eval I e s = VEur (match c with Some q => fin (Q2R q) | None => Inf end) /\ match c with Some q => (0 <= Q2R q)%R | None => True end.
Proof.
  intros Hw Hc Ht. destruct c as [q|].
  - destruct (const_number_val I e q s Hw Hc) as (Hq & Hy & Hv). rewrite Ht in Hy. inv_ty Hy. rewrite Hy in *. subst. auto.
  - destruct (inf_number I s e Hw Hc) as [_ ->]. auto.
Qed.

Lemma const_binop_sim t op a b e : wt (EBin t op a b) = true -> const_binop t op a b = Ok (Some e) -> sim e (EBin t op a b).
Proof.
  intros Hw H. unfold const_binop in H.
  destruct (const_number a) as [x|] eqn:X; [|discriminate]. destruct (const_number b) as [y|] eqn:Y; [|discriminate].
  destruct (negb _ || negb _) eqn:N; [discriminate|]. apply orb_false_elim in N as [N1 N2]. apply negb_false_iff in N1, N2.
  fold (cop op x y) in H. destruct (cop op x y) as [r|] eqn:R; [|discriminate].
  assert (Ha : arith op = true).
  { destruct op; try discriminate; auto; destruct (bin_inv _ _ _ _ Hw eq_refl) as (W1 & W2 & Y1 & Y2 & Hok);
      rewrite Y1 in N1; destruct t; discriminate. }
  assert (B : wt a = true /\ wt b = true /\ ty_of a = t /\ ty_of b = t /\ bin_ok t op t t = true) by (apply bin_inv; auto; destruct op; auto; discriminate).
  destruct B as (W1 & W2 & Y1 & Y2 & Hok). rewrite Y1 in *. rewrite Y2 in *.
  pose (I0 := {| ifun := fun _ t _ => VErr; idiv0 := fun r => r; iudiv0 := fun r => r; imod0 := fun z => z; iumod0 := fun n => n |}).
  assert (FIN : t <> TEUReal -> exists p q, x = Some p /\ y = Some q).
  { intros NE. destruct x as [x|]; [|destruct (inf_number I0 (fun _ => VErr) a W1 X); congruence].
    destruct y as [y|]; [|destruct (inf_number I0 (fun _ => VErr) b W2 Y); congruence]. eauto. }
  destruct t; try discriminate.
  - destruct FIN as (p & q & -> & ->); [discriminate|]. destruct (cop_fin op p q r Ha R) as (c & -> & E).
    destruct (N.leb _ u128_max); [|discriminate]. inversion H; subst e. split; [auto|split; [auto|]]. intros I s HI Hs. cbn [eval b_uint eval_lit].
    destruct (const_number_val I a p s W1 X) as (_ & T1 & V1). destruct (const_number_val I b q s W2 Y) as (_ & T2 & V2).
    rewrite Y1 in T1. rewrite Y2 in T2. inv_ty T1. inv_ty T2. rewrite T1, T2 in *. rewrite <- V1, <- V2, <- nop_rop in E. unfold n2r in E.
    rewrite (floor_IZR _ _ E), N2Z.id. destruct op; try discriminate; reflexivity.
  - destruct FIN as (p & q & -> & ->); [discriminate|]. destruct (cop_fin op p q r Ha R) as (c & -> & E).
    destruct (const_number_val I0 a p (fun _ => VErr) W1 X) as (P1 & _ & _). destruct (const_number_val I0 b q (fun _ => VErr) W2 Y) as (P2 & _ & _).
    inversion H; subst e. split; [|split; [auto|]].
    { simpl. apply qle_dec. rewrite q0, E. now apply rop_nonneg. }
    intros I s HI Hs. cbn [eval eval_lit].
    destruct (const_number_val I a p s W1 X) as (_ & T1 & V1). destruct (const_number_val I b q s W2 Y) as (_ & T2 & V2).
    rewrite Y1 in T1. rewrite Y2 in T2. inv_ty T1. inv_ty T2. rewrite T1, T2 in *. rewrite <- V1, <- V2 in E. rewrite E.
    destruct op; try discriminate; cbn [rop eval_bin]; rewrite ?nnr_rmax0; reflexivity.
  - pose proof (const_val I0 (fun _ => VErr) a x W1 X Y1) as [_ P1]. pose proof (const_val I0 (fun _ => VErr) b y W2 Y Y2) as [_ P2].
    pose proof (inf_cop op x y r Ha P1 P2 R) as K. cbv zeta in K.
    assert (V : forall I s, eval I (EBin TEUReal op a b) s = VEur (match r with Some q => fin (Q2R q) | None => Inf end)).
    { intros I s. cbn [eval]. destruct (const_val I s a x W1 X Y1) as [-> _]. destruct (const_val I s b y W2 Y Y2) as [-> _]. apply K. }
    destruct (K I0) as [_ Pr]. destruct r as [q|]; inversion H; subst e; (split; [|split; [auto|]]); auto.
    + simpl. apply qle_dec. now rewrite q0.
Qed.

(** * Equal branches *)
Lemma deref_lit_val I s e t l : wt e = true -> deref_cast e = ELit t l -> wt (ELit t l) = true /\
  match const_number e with
  | Some (Some q) => True | Some None => ty_of e = TEUReal
  | None => ty_of e = TBool /\ exists c, l = LBool c /\ eval I e s = VBool c
  end.
Proof.
  induction e; intros Hw H; try discriminate; simpl in H.
  - cbn [wt] in Hw. split_andb. destruct (IHe H0 H) as [K1 K2]. split; auto. simpl. destruct (const_number e) as [[q|]|].
    + auto.
    + rewrite K2 in H1. destruct t0; discriminate.
    + destruct K2 as [K2 _]. rewrite K2 in H1. destruct t0; discriminate.
  - inversion H; subst. split; auto. destruct l, t; try discriminate; simpl; eauto.
Qed.
Lemma const_number_deref e : const_number e = const_number (deref_cast e).
Proof. induction e; auto. Qed.

Lemma lit_branch a b t l t' m I s : wt a = true -> wt b = true -> ty_of a = ty_of b -> deref_cast a = ELit t l -> deref_cast b = ELit t' m ->
  lit_eqb l m = true -> eval I a s = eval I b s.
Proof.
  intros W1 W2 Y D1 D2 E. destruct (deref_lit_val I s a t l W1 D1) as [L1 K1]. destruct (deref_lit_val I s b t' m W2 D2) as [L2 K2].
  pose proof (const_number_deref a) as N1. pose proof (const_number_deref b) as N2. rewrite D1 in N1. rewrite D2 in N2.
  assert (Q : forall p q, const_number a = Some (Some p) -> const_number b = Some (Some q) -> Q2R p = Q2R q -> eval I a s = eval I b s).
  { intros p q A B EQ. destruct (const_number_val I a p s W1 A) as (_ & T1 & V1). destruct (const_number_val I b q s W2 B) as (_ & T2 & V2).
    rewrite <- Y in T2. rewrite EQ in V1. destruct (ty_of a); inv_ty T1; inv_ty T2; rewrite T1, T2 in *; try contradiction; f_equal.
    - apply eq_IZR. congruence.
    - unfold n2r in *. rewrite <- V2 in V1. apply eq_IZR in V1. lia.
    - congruence.
    - apply nnr_eq. congruence.
    - congruence. }
  destruct l, m; try discriminate; simpl in E, N1, N2.
  - apply N.eqb_eq in E. subst. eapply Q; eauto.
  - apply Qeq_bool_iff in E. eapply Q; eauto. now apply Qeq_eqR.
  - destruct (inf_number I s a W1 N1) as [_ ->]. destruct (inf_number I s b W2 N2) as [_ ->]. auto.
  - rewrite N1 in K1. rewrite N2 in K2. destruct K1 as (_ & c & Hc & ->). destruct K2 as (_ & d & Hd & ->). apply eqb_prop in E. congruence.
Qed.

Lemma fold_node_sim e e' : wt e = true -> (match e with EBin t op a _ => bin_foldable t op a | _ => True end) -> fold_node e = Ok e' -> sim e' e.
Proof.
  intros Hw Hf H. unfold fold_node in H. apply rbind_ok in H as [e1 [E1 H]].
  assert (S1 : sim e1 e).
  { destruct e; try (inversion E1; subst; now apply sim_refl).
    - apply (fold_bin_sim _ _ _ _ _ Hw Hf E1).
    - apply (fold_un_sim _ _ _ _ Hw E1). }
  destruct S1 as (W1 & T1 & V1). assert (S1 : sim e1 e) by (split; auto). clear E1.
  destruct e1; try (inversion H; subst; auto; fail).
  - destruct (deref_cast e1_2) eqn:D1; try (inversion H; subst; auto; fail). destruct (deref_cast e1_3) eqn:D2; try (inversion H; subst; auto; fail).
    destruct (lit_eqb l l0) eqn:E; inversion H; subst; auto. eapply sim_trans; [|exact S1]. cbn [wt] in W1. split_andb.
    repeat match goal with H : ty_eqb _ _ = true |- _ => apply ty_eqb_eq in H end.
    split; [auto|split; [simpl; congruence|]]. intros I s HI Hs. cbn [eval].
    assert (VC : exists c, eval I e1_1 s = VBool c).
    { match goal with Hw : wt e1_1 = true |- _ => pose proof (eval_ty I HI e1_1 Hw s Hs) as V end. replace (ty_of e1_1) with TBool in V by congruence. inv_ty V. eauto. }
    destruct VC as [[|] ->]; auto. eapply lit_branch; eauto. congruence.
  - apply rbind_ok in H as [o [Ho H]]. destruct o as [c|]; inversion H; subst; auto. eapply sim_trans; [|exact S1]. simpl in T1. subst t. now apply const_binop_sim.
Qed.

Lemma foldable_sim a a' : sim a' a -> nonzero a -> nonzero a'.
Proof. intros (_ & _ & V) (I & s & HI & Hs & N). exists I, s. rewrite V; auto. Qed.

Lemma fold_after e0 e e' : sim e0 e -> (match e0 with EBin t op a _ => bin_foldable t op a | _ => True end) -> fold_node e0 = Ok e' -> sim e' e.
Proof. intros S F H. eapply sim_trans; [|exact S]. apply fold_node_sim; auto. apply S. Qed.

Theorem constfold_sim e : forall e', wt e = true -> foldable e -> constfold e = Ok e' -> sim e' e.
Proof.
  induction e using expr_rect'; intros e' Hw Hf HF; cbn [constfold] in HF; apply rbind_ok in HF as [e0 [E1 HF]]; pose proof Hw as Hw0;
    cbn [foldable] in Hf; cbn [wt] in Hw; split_andb; binv E1; inversion E1; subst e0; clear E1; eapply fold_after; try exact HF; try exact Logic.I; auto using sim_refl.
  - apply sim_call; auto. clear HF Hw0.
    match goal with HA : fold_right _ _ _ = Ok _ |- _ => revert HA end. match goal with |- fold_right _ _ _ = Ok ?l -> _ => revert l end.
    induction args as [|x args IH]; intros l HA; simpl in HA.
    + inversion HA; constructor.
    + binv HA. inversion HA; subst. inversion H; subst. simpl in Hw, Hf. split_andb. destruct Hf. constructor; auto.
  - destruct Hf as (F1 & F2 & F3). apply sim_ite; auto.
  - destruct Hf as (F1 & F2 & F3). apply sim_bin; auto.
  - destruct Hf as (F1 & F2 & F3). simpl. destruct op; simpl in *; auto; eapply foldable_sim; eauto.
  - apply sim_un; auto.
  - apply sim_cast; auto.
  - apply sim_quant; auto.
  - destruct Hf. apply sim_subst; auto.
Qed.

(** * Totality *)
Lemma top_has a b t : wt a = true -> wt b = true -> ty_of a = t -> ty_of b = t -> is_top_lit a || is_top_lit b = true -> exists e, b_top t = Ok e.
Proof.
  intros W1 W2 Y1 Y2 Z. pose (I0 := {| ifun := fun _ t _ => VErr; idiv0 := fun r => r; iudiv0 := fun r => r; imod0 := fun z => z; iumod0 := fun n => n |}).
  apply orb_prop in Z as [Z|Z].
  - destruct (top_lit_val I0 a (fun _ => VErr) W1 Z) as [L _]. rewrite Y1 in L. destruct t; try discriminate; eexists; reflexivity.
  - destruct (top_lit_val I0 b (fun _ => VErr) W2 Z) as [L _]. rewrite Y2 in L. destruct t; try discriminate; eexists; reflexivity.
Qed.
Lemma bin_total t op a b : wt (EBin t op a b) = true -> bin_foldable t op a -> exists e, fold_bin t op a b = Ok e.
Proof.
  intros Hw Hf. destruct op; cbn [fold_bin]; try (eexists; reflexivity);
    destruct (bin_inv _ _ _ _ Hw eq_refl) as (W1 & W2 & Y1 & Y2 & Hok).
  1-4: repeat match goal with |- context [if ?c then _ else _] => destruct c end; try (eexists; reflexivity); destruct t; try discriminate; eexists; reflexivity.
  1,3: repeat match goal with |- context [if ?c then _ else _] => destruct c end; try (eexists; reflexivity); destruct t; try discriminate; simpl in Hf; try (eexists; reflexivity); destruct Hf; congruence.
  all: destruct (is_top_lit a || is_top_lit b) eqn:Z; [eauto using top_has|]; 
    repeat match goal with |- context [if ?c then _ else _] => destruct c end; eexists; reflexivity.
Qed.
Lemma un_total t op a : wt (EUn t op a) = true -> exists e, fold_un t op a = Ok e.
Proof.
  intros Hw. cbn [wt] in Hw. split_andb. destruct op; cbn [fold_un];
  repeat match goal with |- context [if ?c then _ else _] => destruct c end; try (eexists; reflexivity); destruct t; try discriminate; eexists; reflexivity.
Qed.
Lemma const_total t op a b : wt (EBin t op a b) = true -> (t = TUInt -> below_u128 (EBin t op a b)) -> exists o, const_binop t op a b = Ok o.
Proof.
  intros Hw Hb. unfold const_binop.
  destruct (const_number a) as [x|] eqn:X; [|eauto]. destruct (const_number b) as [y|] eqn:Y; [|eauto].
  destruct (negb _ || negb _) eqn:N; [eauto|]. apply orb_false_elim in N as [N1 N2]. apply negb_false_iff in N1, N2.
  fold (cop op x y). destruct (cop op x y) as [r|] eqn:R; [|eauto].
  assert (Ha : arith op = true).
  { destruct op; try discriminate; auto; destruct (bin_inv _ _ _ _ Hw eq_refl) as (W1 & W2 & Y1 & Y2 & Hok);
      rewrite Y1 in N1; destruct t; discriminate. }
  assert (B : wt a = true /\ wt b = true /\ ty_of a = t /\ ty_of b = t /\ bin_ok t op t t = true) by (apply bin_inv; auto; destruct op; auto; discriminate).
  destruct B as (W1 & W2 & Y1 & Y2 & Hok). rewrite Y1 in *. rewrite Y2 in *.
  pose (I0 := {| ifun := fun _ t _ => VErr; idiv0 := fun r => r; iudiv0 := fun r => r; imod0 := fun z => z; iumod0 := fun n => n |}).
  assert (FIN : t <> TEUReal -> exists p q, x = Some p /\ y = Some q).
  { intros NE. destruct x as [x|]; [|destruct (inf_number I0 (fun _ => VErr) a W1 X); congruence].
    destruct y as [y|]; [|destruct (inf_number I0 (fun _ => VErr) b W2 Y); congruence]. eauto. }
  destruct t; try discriminate; [| |destruct r; eauto].
  - destruct FIN as (p & q & -> & ->); [discriminate|]. destruct (cop_fin op p q r Ha R) as (c & -> & E).
    destruct (Hb eq_refl) as (I & s & HI & Hs & Hn). cbn [eval] in Hn.
    destruct (const_number_val I a p s W1 X) as (_ & T1 & V1). destruct (const_number_val I b q s W2 Y) as (_ & T2 & V2).
    rewrite Y1 in T1. rewrite Y2 in T2. inv_ty T1. inv_ty T2. rewrite T1, T2 in *. rewrite <- V1, <- V2, <- nop_rop in E. unfold n2r in E.
    rewrite (floor_IZR _ _ E), N2Z.id.
    match goal with |- context [nop op ?m ?n] =>
      assert (K : (nop op m n < 2 ^ 128)%N) by (apply Hn; destruct op; try discriminate; reflexivity);
      assert (L : N.leb (nop op m n) u128_max = true) by (apply N.leb_le; unfold u128_max; lia) end.
    rewrite L; eauto.
  - destruct FIN as (p & q & -> & ->); [discriminate|]. destruct (cop_fin op p q r Ha R) as (c & -> & E). eauto.
Qed.
Definition small (e : expr) : Prop := match e with EBin t _ _ _ => t = TUInt -> below_u128 e | _ => True end.
Lemma b_small t e : b_top t = Ok e \/ b_bot t = Ok e \/ b_zero t = Ok e \/ b_one t = Ok e -> small e.
Proof. destruct t; simpl; intros [H|[H|[H|H]]]; inversion H; subst; exact Logic.I. Qed.
Lemma bin_small t op a b e : small a -> small b -> small (EBin t op a b) -> fold_bin t op a b = Ok e -> small e.
Proof.
  intros Sa Sb S H. destruct op; cbn [fold_bin] in H;
    repeat match goal with H : context [if ?c then _ else _] |- _ => destruct c end; try (inversion H; subst; auto; fail); eauto using b_small.
Qed.
Lemma un_small t op a e : small a -> fold_un t op a = Ok e -> small e.
Proof.
  intros Sa H. destruct op; cbn [fold_un] in H;
    repeat match goal with H : context [if ?c then _ else _] |- _ => destruct c end; try (inversion H; subst; simpl; auto; fail); eauto using b_small.
Qed.
Lemma const_small t op a b e : const_binop t op a b = Ok (Some e) -> small e.
Proof.
  unfold const_binop. intros H.
  repeat match goal with H : context [match ?c with _ => _ end] |- _ => destruct c; try discriminate end; inversion H; subst; exact Logic.I.
Qed.
Lemma below_sim a b : sim a b -> below_u128 b -> below_u128 a.
Proof. intros (_ & _ & V) (I & s & HI & Hs & H). exists I, s. rewrite V; auto. Qed.

Lemma node_total e : wt e = true -> (match e with EBin t op a _ => bin_foldable t op a | _ => True end) -> small e ->
  (match e with EBin _ _ a b => small a /\ small b | EUn _ _ a => small a | _ => True end) ->
  exists e', fold_node e = Ok e' /\ small e'.
Proof.
  intros Hw Hf Hs Hc. unfold fold_node.
  assert (S : exists e1, match e with EBin _ op a b => fold_bin (ty_of e) op a b | EUn _ op a => fold_un (ty_of e) op a | _ => Ok e end = Ok e1 /\ sim e1 e /\ small e1).
  { destruct e; try (exists e; split; [reflexivity|]; split; [now apply sim_refl|auto]; fail);
      try (eexists; split; [reflexivity|]; split; [now apply sim_refl|auto]; fail).
    - destruct Hc. destruct (bin_total t op e1 e2 Hw Hf) as [e E]. exists e. split; auto. split; [now apply fold_bin_sim|eauto using bin_small].
    - destruct (un_total t op e Hw) as [e0 E]. exists e0. split; auto. split; [now apply fold_un_sim|eauto using un_small]. }
  destruct S as (e1 & -> & S & Sm). cbn [rbind]. destruct S as (W & T & V). destruct e1; eauto.
  - destruct (deref_cast e1_2) eqn:D; eauto. destruct (deref_cast e1_3); eauto. destruct (lit_eqb l l0); eauto.
    exists e1_2. split; auto. destruct e1_2; try discriminate; exact Logic.I.
  - simpl in T. subst t. destruct (const_total _ _ _ _ W Sm) as [o Ho]. rewrite Ho. simpl. exists (match o with Some c => c | None => EBin (ty_of e) op e1_1 e1_2 end).
    split; auto. destruct o; auto. eauto using const_small.
Qed.

Lemma after_total e0 e : sim e0 e -> (match e0 with EBin t op a _ => bin_foldable t op a | _ => True end) -> small e0 ->
  (match e0 with EBin _ _ a b => small a /\ small b | EUn _ _ a => small a | _ => True end) ->
  exists e', fold_node e0 = Ok e' /\ small e' /\ sim e' e.
Proof.
  intros S F K C. destruct (node_total e0 (proj1 S) F K C) as (e' & E & K'). exists e'. split; auto. split; auto. eapply fold_after; eauto.
Qed.

Theorem constfold_total e : wt e = true -> foldable e -> fits e -> exists e', constfold e = Ok e' /\ small e' /\ sim e' e.
Proof.
  induction e using expr_rect'; intros Hw Hf Hb; pose proof Hw as Hw0; cbn [foldable] in Hf; cbn [wt] in Hw; cbn [fits] in Hb; split_andb; cbn [constfold].
  - cbn [rbind]. apply after_total; simpl; auto using sim_refl.
  - assert (L : exists l, fold_right (fun a r => let? a' := constfold a in let? r' := r in Ok (a' :: r')) (Ok []) args = Ok l /\ Forall2 (fun a a' => sim a' a) args l).
    { clear Hw0. induction args as [|x args IH]; simpl.
      - eexists; split; [reflexivity|constructor].
      - inversion H; subst. simpl in Hw, Hf, Hb. split_andb. destruct Hf, Hb. destruct H2 as (x' & Hx & _ & Sx); auto. destruct IH as (l & Hl & Fl); auto.
        rewrite Hx. cbn [rbind]. rewrite Hl. cbn [rbind]. eexists; split; [reflexivity|]. constructor; auto. }
    destruct L as (l & Hl & Fl). rewrite Hl. cbn [rbind]. apply after_total; simpl; auto. apply sim_call; auto.
  - destruct Hf as (F1 & F2 & F3), Hb as (B1 & B2 & B3).
    destruct IHe1 as (c' & Hc & _ & Sc); auto. destruct IHe2 as (a' & Ha & _ & Sa); auto. destruct IHe3 as (b' & Hb' & _ & Sb); auto.
    rewrite Hc. cbn [rbind]. rewrite Ha. cbn [rbind]. rewrite Hb'. cbn [rbind]. apply after_total; simpl; auto. apply sim_ite; auto.
  - destruct Hf as (F1 & F2 & F3), Hb as (B1 & B2 & B3).
    destruct IHe1 as (a' & Ha & Ka & Sa); auto. destruct IHe2 as (b' & Hb' & Kb & Sb); auto.
    rewrite Ha. cbn [rbind]. rewrite Hb'. cbn [rbind]. assert (S : sim (EBin t op a' b') (EBin t op e1 e2)) by (apply sim_bin; auto). apply after_total; auto.
    + destruct op; simpl in *; auto; eapply foldable_sim; eauto.
    + intros Ht. eapply below_sim; eauto.
  - destruct IHe as (a' & Ha & Ka & Sa); auto. rewrite Ha. cbn [rbind]. apply after_total; simpl; auto. apply sim_un; auto.
  - destruct IHe as (a' & Ha & Ka & Sa); auto. rewrite Ha. cbn [rbind]. apply after_total; simpl; auto. apply sim_cast; auto.
  - destruct IHe as (a' & Ha & Ka & Sa); auto. rewrite Ha. cbn [rbind]. apply after_total; simpl; auto. apply sim_quant; auto.
  - destruct Hf, Hb. destruct IHe1 as (a' & Ha & Ka & Sa); auto. destruct IHe2 as (b' & Hb' & Kb & Sb); auto. rewrite Ha. cbn [rbind]. rewrite Hb'. cbn [rbind].
    apply after_total; simpl; auto. apply sim_subst; auto.
  - cbn [rbind]. apply after_total; simpl; auto using sim_refl.
Qed.
