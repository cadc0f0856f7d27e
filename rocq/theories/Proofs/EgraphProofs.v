(** The e-graph rewrite rules, one by one. *)
From Coq Require Import Bool List String QArith Reals Qreals Lra.
From Verif.Model Require Import Syntax Builder Egraph.
From Verif.Spec Require Import Eur Sem.
From Verif.Proofs Require Import EurLemmas SemLemmas SimLemmas.
Import ListNotations.
Local Open Scope string_scope.

Definition rule_sound (r : rule) : Prop :=
  forall I s, interp_ok I -> env_ok s -> eval I (fst (snd r)) s = eval I (snd (snd r)) s.

Lemma fin_q0 : fin (Q2R 0) = ebot.
Proof. unfold Q2R. simpl. rewrite Rmult_0_l. reflexivity. Qed.
Lemma fin_q1 : fin (Q2R 1) = eone.
Proof. unfold Q2R, eone. simpl. f_equal. lra. Qed.

Lemma eb (p q : bool) : (p = true <-> q = true) -> p = q.
Proof. destruct p, q; intuition. Qed.
Lemma emin_comm a b : emin a b = emin b a.
Proof. apply ele_antisym; apply emin_glb; auto using emin_l, emin_r. Qed.
Lemma emax_comm a b : emax a b = emax b a.
Proof. apply ele_antisym; apply emax_lub; auto using emax_l, emax_r. Qed.
Lemma emin_top_r a : emin a etop = a.
Proof. apply ele_antisym; [apply emin_l | apply emin_glb; auto using ele_refl, ele_top]. Qed.
Lemma emin_top_l a : emin etop a = a.
Proof. rewrite emin_comm. apply emin_top_r. Qed.
Lemma emax_bot_r a : emax a ebot = a.
Proof. apply ele_antisym; [apply emax_lub; auto using ele_refl, ebot_le | apply emax_l]. Qed.
Lemma leb_min a b c : eleb a (emin b c) = eleb a b && eleb a c.
Proof. apply eb. rewrite andb_true_iff, !eleb_iff. apply le_emin_iff. Qed.
Lemma min_leb a b c : eleb (emin a b) c = eleb a c || eleb b c.
Proof. apply eb. rewrite orb_true_iff, !eleb_iff. apply emin_le_iff. Qed.
Lemma leb_max a b c : eleb a (emax b c) = eleb a b || eleb a c.
Proof. apply eb. rewrite orb_true_iff, !eleb_iff. apply le_emax_iff. Qed.
Lemma max_leb a b c : eleb (emax a b) c = eleb a c && eleb b c.
Proof. apply eb. rewrite andb_true_iff, !eleb_iff. apply emax_le_iff. Qed.
Lemma emonus_0 a : emonus a ebot = a.
Proof. destruct a as [x|]; auto. unfold emonus, ebot, fin. rewrite nval_ebot_proof, Rminus_0_r. now rewrite (Fin_fin x). Qed.
Lemma if_min (p q : bool) : emin (if p then etop else ebot) (if q then etop else ebot) = if p && q then etop else ebot.
Proof. destruct p; simpl; [apply emin_top_l|]. apply le_ebot, emin_l. Qed.
Lemma if_max (p q : bool) : emax (if p then ebot else etop) (if q then ebot else etop) = if p && q then ebot else etop.
Proof. destruct p; simpl; [rewrite emax_comm; apply emax_bot_r|]. apply top_le, emax_l. Qed.

Theorem egraph_rules : Forall (fun r => fst r <> "add-sub" -> fst r <> "sub-add" -> rule_sound r) rules.
Proof.
  assert (W : forall s, env_ok s -> exists a b c p q r, s (mkid "a" 0 TEUReal) = VEur a /\ s (mkid "b" 0 TEUReal) = VEur b /\
    s (mkid "c" 0 TEUReal) = VEur c /\ s (mkid "a" 0 TBool) = VBool p /\ s (mkid "b" 0 TBool) = VBool q /\ s (mkid "c" 0 TBool) = VBool r).
  { intros s Hs. pose proof (Hs (mkid "a" 0 TEUReal)) as A. pose proof (Hs (mkid "b" 0 TEUReal)) as B. pose proof (Hs (mkid "c" 0 TEUReal)) as C.
    pose proof (Hs (mkid "a" 0 TBool)) as P. pose proof (Hs (mkid "b" 0 TBool)) as Q. pose proof (Hs (mkid "c" 0 TBool)) as R.
    simpl in *. inv_ty A. inv_ty B. inv_ty C. inv_ty P. inv_ty Q. inv_ty R. do 6 eexists. eauto 10. }
  Local Opaque eleb.
  unfold rules.
  repeat (apply Forall_cons; [intros N1 N2 I s HI Hs; destruct (W s Hs) as (a & b & c & p & q & r & A & B & C & P & Q & R);
    try (exfalso; apply N1; reflexivity); try (exfalso; apply N2; reflexivity); clear N1 N2;
    cbn; rewrite ?A, ?B, ?C, ?P, ?Q, ?R; cbn [eval_bin eval_un eval_lit vle obool]; rewrite ?fin_q0, ?fin_q1 |]); [..|apply Forall_nil].
  Local Transparent eleb.
  all: try reflexivity.
  all: rewrite ?eleb_refl, ?eleb_bot, ?eleb_top, ?leb_min, ?min_leb, ?leb_max, ?max_leb, ?emin_top_r, ?emax_bot_r, ?eadd_0_r, ?emonus_0, ?emul_0_r, ?emul_1_r,
    ?if_min, ?if_max; try reflexivity.
  all: try (destruct p; try destruct q; try destruct r; reflexivity).
  all: try (f_equal; first [apply emin_comm | apply emax_comm]).
  - f_equal. apply veq_sym.
  - f_equal. apply veq_sym.
  - f_equal. destruct (eleb etop a) eqn:L; auto. apply eleb_iff in L. apply top_le in L. auto.
  - rewrite veq_sym. unfold veq. simpl. rewrite eq_top_dec, e_comp_top. reflexivity.
  - rewrite veq_sym. unfold veq. simpl. rewrite eq_bot_dec, e_cocomp_bot. reflexivity.
  - rewrite veq_sym, (veq_sym (VEur a)). unfold veq. simpl. rewrite eq_top_dec, e_not_top, eq_bot_dec. reflexivity.
  - rewrite !e_truth_impl. destruct p; cbn [negb]; rewrite ?emin_top_r, ?emin_top_l; reflexivity.
  - destruct p; cbn [negb]; rewrite ?emul_1_l, ?emul_0_l, ?eadd_0_l, ?eadd_0_r; reflexivity.
Qed.

Theorem egraph_subtraction_refuted : exists r1 r2, In ("add-sub", r1) rules /\ In ("sub-add", r2) rules /\
  ~ rule_sound ("add-sub", r1) /\ ~ rule_sound ("sub-add", r2).
Proof.
  exists (e2 OAdd (e2 OSub va vb) vb, va), (e2 OSub (e2 OAdd va vb) vb, va).
  split; [unfold rules; simpl; auto 60|]. split; [unfold rules; simpl; auto 60|].
  pose (I0 := {| ifun := fun _ t _ => match t with TBool => VBool true | TInt => VInt 0 | TUInt => VUInt 0
      | TReal => VReal 0 | TUReal => VUReal (nnr_of 0) | TEUReal => VEur ebot end;
    idiv0 := fun r => r; iudiv0 := fun r => r; imod0 := fun z => z; iumod0 := fun n => n |}).
  assert (HI : interp_ok I0) by (intros f t vs; destruct t; reflexivity).
  pose (s0 := fun x : ident => match ity x with TBool => VBool true | TInt => VInt 0 | TUInt => VUInt 0
      | TReal => VReal 0 | TUReal => VUReal (nnr_of 0) | TEUReal => VEur (if String.eqb (iname x) "b" then Inf else eone) end).
  assert (Hs : env_ok s0) by (intros x; unfold s0; destruct (ity x); reflexivity).
  split; intros H; specialize (H I0 s0 HI Hs); cbn in H; [discriminate H|].
  apply eone_neq_ebot. symmetry. exact (f_equal (fun v => match v with VEur x => x | _ => ebot end) H).
Qed.
