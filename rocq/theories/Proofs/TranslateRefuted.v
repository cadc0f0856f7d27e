(** Where the translation to SMT is not exact, and an expression for which it is. *)
From Coq Require Import Bool List String ZArith NArith QArith Qreals Reals Lra Lia.
From Verif.Model Require Import EurEncodings Syntax Translate.
From Verif.Spec Require Import Eur EncSpec Sem Exprs Translated.
From Verif.Proofs Require Import EurLemmas SemLemmas EncProofs TranslateTerms TranslateProps.
Import ListNotations.
Local Open Scope string_scope.
Local Open Scope nat_scope.

Definition all_vars (x : ident) : bool := true.
Definition no_funs (f : string) : option (list ty * ty) := None.
Definition M_with (d : R -> R) (m : Z -> Z) : strct :=
  mkstr (fun _ => true) (fun _ => 0%Z) (fun _ => 0%R) (fun _ _ => pair_zero) (fun _ _ => DyB true) d m.

(** [5 - \infty == 4] *)
Definition five_minus_inf : expr :=
  EBin TBool OEq (EBin TEUReal OSub (ELit TEUReal (LFrac 5)) (ELit TEUReal LInf)) (ELit TEUReal (LFrac 4)).
Lemma sub_refuted : exists t, translatable all_vars no_funs five_minus_inf = true /\ translate all_vars no_funs plain_call five_minus_inf = Ok (t, []) /\
  (forall M, t M = true) /\ forall I s, eval I five_minus_inf s = VBool false.
Proof.
  eexists. split; [reflexivity|]. split; [reflexivity|]. split.
  - intros M. unfold lift2, pair_eq, pair_sub, pair_infinity, pair_from_ureal. cbn [p_inf p_num negb andb Bool.eqb orb].
    unfold real_monus, real_cmp. replace (Q2R 5) with 5%R by (unfold Q2R; simpl; lra). replace (Q2R 4) with 4%R by (unfold Q2R; simpl; lra).
    assert (L : Rleb 1 5 = true) by (apply Rleb_iff; lra). rewrite ?L. simpl. 
    apply Reqb_iff. lra.
  - intros I s. cbn. unfold veq. cbn. f_equal. unfold dec. destruct (ClassicalEpsilon.excluded_middle_informative _) as [E|]; auto.
    exfalso. injection E as E. rewrite !Rmax_right in E by (unfold Q2R; simpl; lra). unfold Q2R in E. simpl in E. lra.
Qed.

Definition rx : ident := mkid "x" 0 TUReal.
Definition nx : ident := mkid "n" 0 TUInt.
(** [x / 0 >= 0] with [x] of type UReal, [n % 0 >= 0] with [n] of type UInt *)
Definition div_zero : expr := EBin TBool OGe (EBin TUReal ODiv (EVar rx) (ELit TUReal (LFrac 0))) (ELit TUReal (LFrac 0)).
Definition mod_zero : expr := EBin TBool OGe (EBin TUInt OMod (EVar nx) (ELit TUInt (LUInt 0))) (ELit TUInt (LUInt 0)).
Definition spurious (e : expr) : Prop := translatable all_vars no_funs e = true /\ some eur_sub e = false /\ ty_of e = TBool /\
  (forall I s, interp_ok I -> env_ok s -> eval I e s = VBool true) /\
  exists t cs M, translate all_vars no_funs plain_call e = Ok (t, cs) /\ Forall (fun c => c M = true) cs /\ t M = false.
Lemma div_zero_refuted : spurious div_zero.
Proof.
  split; [reflexivity|]. split; [reflexivity|]. split; [reflexivity|]. split.
  - intros I s _ Hs. specialize (Hs rx). cbn [ity rx] in Hs. cbn. destruct (s rx) as [| | | |x| |]; try discriminate Hs. cbn.
    f_equal. apply dec_iff. replace (Q2R 0) with 0%R by (unfold Q2R; simpl; lra). rewrite ?nval_of by lra. apply nval_nonneg.
  - eexists _, _, (M_with (fun _ => -1)%R (fun z => z)). split; [reflexivity|]. split.
    + repeat constructor. unfold ureal_inv. apply Rleb_iff. simpl. lra.
    + cbn. unfold lift2, liftM2, smt_div. replace (Q2R 0) with 0%R by (unfold Q2R; simpl; lra).
      replace (Reqb 0 0) with true by (symmetry; now apply Reqb_iff). cbn. apply not_true_iff_false. rewrite Rleb_iff. lra.
Qed.
Lemma mod_zero_refuted : spurious mod_zero.
Proof.
  split; [reflexivity|]. split; [reflexivity|]. split; [reflexivity|]. split.
  - intros I s _ Hs. specialize (Hs nx). cbn [ity nx] in Hs. cbn. destruct (s nx) as [| |n| | | |]; try discriminate Hs. cbn.
    f_equal. apply N.leb_le. lia.
  - eexists _, _, (M_with (fun r => r) (fun _ => -1)%Z). split; [reflexivity|]. split.
    + repeat constructor.
    + reflexivity.
Qed.

(** [true <= false] *)
Definition bool_le : expr := EBin TBool OLe (ELit TBool (LBool true)) (ELit TBool (LBool false)).
Lemma bool_cmp_refuted : wt bool_le = true /\ translate all_vars no_funs plain_call bool_le = Panic "illegal smtpair".
Proof. split; reflexivity. Qed.

(** [\forall y. y + b == (\inf x. x + y) + f(y, x)] with a free [b] and a function [f], all of type EUReal *)
Definition ex_y : ident := mkid "y" 1 TEUReal.
Definition ex_x : ident := mkid "x" 2 TEUReal.
Definition ex_b : ident := mkid "b" 3 TEUReal.
Definition ex_fsig (f : string) : option (list ty * ty) := if String.eqb f "f" then Some ([TEUReal; TEUReal], TEUReal) else None.
Definition ex_formula : expr :=
  EQuant QForall [QFresh ex_y] (EBin TBool OEq (EBin TEUReal OAdd (EVar ex_y) (EVar ex_b))
    (EBin TEUReal OAdd (EQuant QInf [QFresh ex_x] (EBin TEUReal OAdd (EVar ex_x) (EVar ex_y))) (ECall TEUReal "f" [EVar ex_y; EVar ex_x]))).
Lemma ex_formula_ok : translatable all_vars ex_fsig ex_formula = true /\ ty_of ex_formula = TBool /\ some eur_sub ex_formula = false.
Proof. repeat split. Qed.
Definition ex_interp : interp := {| ifun := fun _ t _ => some_val t; idiv0 := fun _ => 0%R; iudiv0 := fun _ => nnr_of 0; imod0 := fun z => z; iumod0 := fun n => n |}.
Lemma ex_interp_ok : interp_ok ex_interp /\ agreeing ex_interp.
Proof.
  split; [intros f t vs; apply some_val_ty|]. split; simpl; auto. intros x. rewrite nval_of; lra.
Qed.
