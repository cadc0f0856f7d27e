(** Inputs on which constant folding and relational rewriting go wrong. *)
From Coq Require Import Bool List String NArith ZArith QArith Qreals Reals Lra Lia.
From Verif.Model Require Import Syntax Builder Lits Constfold Relational.
From Verif.Spec Require Import Eur Sem Exprs Folding.
From Verif.Proofs Require Import EurLemmas SemLemmas SimLemmas ConstfoldProofs.
Import ListNotations.
Local Open Scope string_scope.

Definition I5 : interp := {| ifun := fun _ t _ => match t with TBool => VBool true | TInt => VInt 0 | TUInt => VUInt 0
      | TReal => VReal 0 | TUReal => VUReal (nnr_of 0) | TEUReal => VEur ebot end;
    idiv0 := fun _ => 5%R; iudiv0 := fun _ => nnr_of 5; imod0 := fun z => z; iumod0 := fun n => n |}.
Lemma I5_ok : interp_ok I5.
Proof. intros f t vs; destruct t; reflexivity. Qed.
(** [n] for unsigned integers, [z] for integers, 0 for the rest *)
Definition st (n : N) (z : Z) : env := fun x => match ity x with TBool => VBool true | TInt => VInt z | TUInt => VUInt n
      | TReal => VReal 0 | TUReal => VUReal (nnr_of 0) | TEUReal => VEur ebot end.
Lemma st_ok n z : env_ok (st n z).
Proof. intros x; unfold st; destruct (ity x); reflexivity. Qed.

Definition vx (t : ty) : expr := EVar (mkid "x" 0 t).
Definition differs (e' e : expr) : Prop := exists I s, interp_ok I /\ env_ok s /\ eval I e' s <> eval I e s.

Ltac wit n z := split; [reflexivity|]; split; [reflexivity|]; exists I5, (st n z); split; [apply I5_ok|]; split; [apply st_ok|].

(** [0 - x] becomes [x] *)
Theorem constfold_sub_refuted : exists e e', wt e = true /\ constfold e = Ok e' /\ differs e' e.
Proof. exists (EBin TUInt OSub (b_uint 0) (vx TUInt)), (vx TUInt). wit 5%N 0%Z. cbn. discriminate. Qed.

(** [0 / x] becomes [0], also when [x] is 0 *)
Theorem constfold_div_refuted : exists e e', wt e = true /\ constfold e = Ok e' /\ differs e' e.
Proof.
  exists (EBin TUReal ODiv (ECast TUReal (b_uint 0)) (vx TUReal)), (ECast TUReal (b_uint 0)). wit 0%N 0%Z. cbn.
  rewrite dec_true by apply nval0. intros H. inversion H as [K]. unfold n2r in K. simpl in K. rewrite !Rmax_right in K by lra. lra.
Qed.

(** [0 ⊔ x] becomes [x] on integers, which may be negative *)
Theorem constfold_sup_refuted : exists e e', wt e = true /\ constfold e = Ok e' /\ differs e' e.
Proof. exists (EBin TInt OSup (ECast TInt (b_uint 0)) (vx TInt)), (vx TInt). wit 0%N (-1)%Z. cbn. discriminate. Qed.

(** [0 ⊓ x] on integers panics: there is no bottom *)
Theorem constfold_inf_refuted : exists e m, wt e = true /\ constfold e = Panic m.
Proof. exists (EBin TInt OInf (ECast TInt (b_uint 0)) (vx TInt)). eexists. split; reflexivity. Qed.

(** [0 * x] on reals becomes an expression that is not well-typed *)
Theorem constfold_mul_refuted : exists e e', wt e = true /\ constfold e = Ok e' /\ wt e' = false.
Proof. exists (EBin TReal OMul (ECast TReal (b_uint 0)) (vx TReal)). eexists. repeat split. Qed.

(** The sum of two unsigned integers that does not fit into 128 bits panics *)
Theorem constfold_u128_refuted : exists e m, wt e = true /\ foldable e /\ constfold e = Panic m.
Proof.
  exists (EBin TUInt OAdd (b_uint (2 ^ 128 - 1)) (b_uint 1)). eexists. split; [reflexivity|]. split; [simpl; auto|]. vm_compute. reflexivity.
Qed.

(** [0 <= x] becomes [true] on integers *)
Theorem relational_le_refuted : exists e, wt e = true /\ relational e = b_bool true /\ differs (relational e) e.
Proof. exists (EBin TBool OLe (ECast TInt (b_uint 0)) (vx TInt)). wit 0%N (-1)%Z. cbn. discriminate. Qed.
(** [0 == x] becomes [x <= 0] on integers *)
Theorem relational_eq_refuted : exists e, wt e = true /\ relational e = EBin TBool OLe (vx TInt) (ECast TInt (b_uint 0)) /\ differs (relational e) e.
Proof.
  exists (EBin TBool OEq (ECast TInt (b_uint 0)) (vx TInt)). wit 0%N (-1)%Z. cbn. unfold veq. simpl. rewrite (proj2 (dec_false _)); discriminate.
Qed.
(** [true == !x] becomes the comparison of a Boolean with the number 0 *)
Theorem relational_type_refuted : exists e, wt e = true /\ relational e = EBin TBool OLe (vx TBool) (b_frac 0) /\ wt (relational e) = false.
Proof. exists (EBin TBool OEq (b_bool true) (EUn TBool ONot (vx TBool))). repeat split. Qed.
