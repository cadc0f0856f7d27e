(** Associativity of the operators on each type, and that conversions preserve them (C45). *)
From Coq Require Import Bool List String ZArith NArith QArith Reals Lra Lia.
From Verif.Model Require Import Syntax Tycheck Precedence.
From Verif.Spec Require Import Eur Sem Wp Typing.
From Verif.Proofs Require Import EurLemmas SemLemmas TycheckBase.
Import ListNotations.

(** the types at which an associative operator works *)
Definition opat (op : binop) (t : ty) : bool :=
  match op with OAnd | OOr => ty_eqb t TBool | OAdd | OMul | OInf | OSup => is_num t | _ => false end.
Definition cval (t u : ty) (v : val) : val := if ty_eqb t u then v else eval_cast u v.

Lemma emul_assoc a b c : emul a (emul b c) = emul (emul a b) c.
Proof.
  destruct (eur_cases a) as [(r & Hr & ->)| ->], (eur_cases b) as [(s & Hs & ->)| ->], (eur_cases c) as [(q & Hq & ->)| ->];
    repeat rewrite emul_fin by (auto; apply Rmult_le_pos; auto).
  1: f_equal; lra.
  all: try (destruct (Req_EM_T r 0) as [->|Nr]); try (destruct (Req_EM_T s 0) as [->|Ns]); try (destruct (Req_EM_T q 0) as [->|Nq]);
    rewrite ?Rmult_0_l, ?Rmult_0_r; change (fin 0) with ebot; rewrite ?emul_0_l, ?emul_0_r; auto; rewrite ?emul_0_l, ?emul_0_r; auto;
    repeat (rewrite ?emul_fin by lra; rewrite ?emul_Inf_r by (try apply Rmult_lt_0_compat; lra); rewrite ?emul_Inf_l by (try apply Rmult_lt_0_compat; lra)); auto;
    change (emul Inf Inf) with Inf; repeat (rewrite ?emul_Inf_r by lra; rewrite ?emul_Inf_l by lra); auto; rewrite ?emul_0_l, ?emul_0_r; auto.
Qed.
Ltac three a b c :=
  destruct (eleb a b) eqn:E1, (eleb b c) eqn:E2, (eleb a c) eqn:E3; rewrite ?E1, ?E2, ?E3; auto;
  rewrite ?eleb_iff, ?eleb_false in *; exfalso; match goal with H : ~ ele _ _ |- _ => apply H end; eauto using ele_trans, not_ele.
Lemma emin_assoc a b c : emin a (emin b c) = emin (emin a b) c.
Proof. unfold emin. three a b c. Qed.
Lemma emax_assoc a b c : emax a (emax b c) = emax (emax a b) c.
Proof. unfold emax. three a b c. Qed.
Lemma nv_min a b : nval (nnr_of (Rmin (nval a) (nval b))) = Rmin (nval a) (nval b).
Proof. apply nval_of. apply Rmin_glb; apply nval_nonneg. Qed.
Lemma nv_max a b : nval (nnr_of (Rmax (nval a) (nval b))) = Rmax (nval a) (nval b).
Proof. apply nval_of. eapply Rle_trans; [apply nval_nonneg|apply Rmax_l]. Qed.
Lemma nv_add a b : nval (nnr_of (nval a + nval b)) = (nval a + nval b)%R.
Proof. apply nval_of. apply Rplus_le_le_0_compat; apply nval_nonneg. Qed.
Lemma nv_mul a b : nval (nnr_of (nval a * nval b)) = (nval a * nval b)%R.
Proof. apply nval_of. apply Rmult_le_pos; apply nval_nonneg. Qed.

Lemma op_ty I op t v w : opat op t = true -> has_ty v t -> has_ty w t -> has_ty (eval_bin I t op v w) t.
Proof. intros O. apply (eval_bin_ty I t op v w t t). destruct op, t; cbn in *; try discriminate; auto. Qed.
Lemma op_assoc I op t a b c : opat op t = true -> has_ty a t -> has_ty b t -> has_ty c t ->
  eval_bin I t op (eval_bin I t op a b) c = eval_bin I t op a (eval_bin I t op b c).
Proof.
  intros O Ha Hb Hc. destruct t; inv_ty Ha; inv_ty Hb; inv_ty Hc; subst; destruct op; try discriminate O; cbn [eval_bin]; f_equal;
    rewrite ?nv_min, ?nv_max, ?nv_add, ?nv_mul; try apply (f_equal nnr_of); try lra; try lia; auto using eq_sym, eadd_assoc, emul_assoc, emin_assoc, emax_assoc, andb_assoc, orb_assoc, Rmin_assoc, Rmax_assoc.
  all: unfold Rmin, Rmax; repeat destruct (Rle_dec _ _); lra.
Qed.

Lemma cval_refl t v : cval t t v = v.
Proof. unfold cval. destruct t; reflexivity. Qed.
Lemma sub_refl t : subb t t = true.
Proof. destruct t; reflexivity. Qed.
Lemma sub_trans a b c : subb a b = true -> subb b c = true -> subb a c = true.
Proof. destruct a, b, c; cbn; auto. Qed.
Lemma sub_antisym a b : subb a b = true -> subb b a = true -> a = b.
Proof. destruct a, b; cbn; congruence. Qed.
Lemma opat_sub op t u : opat op t = true -> subb t u = true -> opat op u = true.
Proof. destruct op, t, u; cbn; congruence. Qed.
Lemma cval_ty t u v : subb t u = true -> has_ty v t -> has_ty (cval t u v) u.
Proof. intros S H. destruct t, u; try discriminate S; inv_ty H; subst; reflexivity. Qed.
Lemma n2r_pos n : (0 <= n2r n)%R.
Proof. unfold n2r. apply IZR_le. lia. Qed.
Lemma cval_trans t u w v : subb t u = true -> subb u w = true -> has_ty v t -> cval u w (cval t u v) = cval t w v.
Proof.
  intros S S' H. destruct t, u; try discriminate S; inv_ty H; subst; destruct w; try discriminate S'; unfold cval; cbn; auto.
  f_equal. apply nval_of. apply n2r_pos.
Qed.
Lemma n2r_add a b : n2r (a + b) = (n2r a + n2r b)%R.
Proof. unfold n2r. rewrite N2Z.inj_add, plus_IZR. reflexivity. Qed.
Lemma n2r_mul a b : n2r (a * b) = (n2r a * n2r b)%R.
Proof. unfold n2r. rewrite N2Z.inj_mul, mult_IZR. reflexivity. Qed.
Lemma izr_min a b : IZR (Z.min a b) = Rmin (IZR a) (IZR b).
Proof.
  destruct (Z.min_spec a b) as [[L ->]|[L ->]]; unfold Rmin; destruct (Rle_dec _ _) as [K|K]; auto.
  - destruct K. apply IZR_le. lia.
  - apply le_IZR in K. f_equal. lia.
Qed.
Lemma izr_max a b : IZR (Z.max a b) = Rmax (IZR a) (IZR b).
Proof.
  destruct (Z.max_spec a b) as [[L ->]|[L ->]]; unfold Rmax; destruct (Rle_dec _ _) as [K|K]; auto.
  - destruct K. apply IZR_le. lia.
  - apply le_IZR in K. f_equal. lia.
Qed.
Lemma n2r_min a b : n2r (N.min a b) = Rmin (n2r a) (n2r b).
Proof. unfold n2r. rewrite N2Z.inj_min. apply izr_min. Qed.
Lemma n2r_max a b : n2r (N.max a b) = Rmax (n2r a) (n2r b).
Proof. unfold n2r. rewrite N2Z.inj_max. apply izr_max. Qed.
Lemma emin_fin r s : (0 <= r)%R -> (0 <= s)%R -> emin (fin r) (fin s) = fin (Rmin r s).
Proof.
  intros Hr Hs. unfold emin. cbn. rewrite !nval_of by auto. unfold Rmin. destruct (Rle_dec r s); reflexivity.
Qed.
Lemma emax_fin r s : (0 <= r)%R -> (0 <= s)%R -> emax (fin r) (fin s) = fin (Rmax r s).
Proof.
  intros Hr Hs. unfold emax. cbn. rewrite !nval_of by auto. unfold Rmax. destruct (Rle_dec r s); reflexivity.
Qed.
(** conversions preserve the operators *)
Lemma cval_hom I op t u v w : opat op t = true -> subb t u = true -> has_ty v t -> has_ty w t ->
  cval t u (eval_bin I t op v w) = eval_bin I u op (cval t u v) (cval t u w).
Proof.
  intros O S Hv Hw. destruct t, u; try discriminate S; inv_ty Hv; inv_ty Hw; subst; destruct op; try discriminate O; unfold cval; cbn [ty_eqb eval_bin eval_cast]; auto; f_equal;
    rewrite ?(Fin_fin b), ?(Fin_fin b0), ?(Fin_fin b1), ?eadd_fin, ?emul_fin, ?emin_fin, ?emax_fin by (auto using n2r_pos, nval_nonneg);
    rewrite ?nval_of by (auto using n2r_pos); rewrite ?n2r_add, ?n2r_mul, ?n2r_min, ?n2r_max, ?izr_min, ?izr_max, ?nv_min, ?nv_max, ?nv_add, ?nv_mul; auto; try lia.
  all: try (apply plus_IZR); try apply mult_IZR.
Qed.

Section Big.
Variables (I : interp) (op : binop) (u : ty).
Hypothesis O : opat op u = true.
Fixpoint bigop (l : list val) : val := match l with [] => VErr | [v] => v | v :: l' => eval_bin I u op v (bigop l') end.
Lemma big_cons v l : l <> [] -> bigop (v :: l) = eval_bin I u op v (bigop l).
Proof. destruct l; [congruence|reflexivity]. Qed.
Lemma big_ty l : l <> [] -> (forall v, In v l -> has_ty v u) -> has_ty (bigop l) u.
Proof.
  induction l as [|v l IH]; intros N H; [congruence|]. destruct l as [|w l]; [apply H; cbn; auto|].
  rewrite big_cons by discriminate. apply op_ty; auto; [apply H; cbn; auto|apply IH; [discriminate|intros x Hx; apply H; cbn in *; auto]].
Qed.
Lemma big_app l l' : l <> [] -> l' <> [] -> (forall v, In v l -> has_ty v u) -> (forall v, In v l' -> has_ty v u) ->
  bigop (l ++ l') = eval_bin I u op (bigop l) (bigop l').
Proof.
  intros N N' H H'. induction l as [|v l IH]; [congruence|]. destruct l as [|w l].
  - cbn [app]. rewrite (big_cons v l') by auto. reflexivity.
  - change ((v :: w :: l) ++ l') with (v :: ((w :: l) ++ l')). rewrite (big_cons v (w :: l)), (big_cons v ((w :: l) ++ l')) by discriminate.
    rewrite IH; [|discriminate|intros x Hx; apply H; cbn in *; auto]. symmetry. apply op_assoc; auto.
    + apply H; cbn; auto.
    + apply big_ty; [discriminate|intros x Hx; apply H; cbn in *; auto].
    + apply big_ty; auto.
Qed.
End Big.
