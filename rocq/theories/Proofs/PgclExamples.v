(** Examples and counterexamples for the translation from pGCL. *)
From Coq Require Import Bool List String ZArith NArith QArith Reals Lia Lra.
From Verif.Model Require Import Syntax Builder Dist ProofRules Pgcl.
From Verif.Spec Require Import Eur Sem Wp Frame Loops PgclSem.
From Verif.Proofs Require Import EurLemmas SemLemmas WpLemmas LoopProofs PgclProofs PgclSound PgclMore.
Import ListNotations.
Local Open Scope string_scope.
Local Open Scope nat_scope.
Local Open Scope list_scope.

Definition vpc := mkid "prob_choice" 0 TBool.
Definition vb := mkid "b" 0 TBool.
Definition vx := mkid "x" 0 TUInt.
Definition half : expr := ELit TUReal (LFrac (1 # 2)%Q).
Definition one : expr := ECast TEUReal (b_uint 1).
Definition iverson (e : expr) : expr := EIte TEUReal e one (ECast TEUReal (b_uint 0)).
Definition next_x : expr := EBin TUInt OAdd (EVar vx) (b_uint 1).

(** Toss coins until one shows heads, after each of which a second loop counts down and up. *)
Definition inner : pinstr := PWhile (EBin TBool OLt (EVar vx) (b_uint 3)) [PAsgn vx next_x; PTick one].
Definition geo : list pinstr :=
  [PAsgn vb (b_bool true);
   PWhile (EVar vb) [PChoice half [PAsgn vb (b_bool false)] [PAsgn vx next_x; inner]; PTick one];
   PIf (EVar vb) [PSkip] [PAsgn vx (b_uint 0)]].

Ltac clean_tac := let y := fresh in let H := fresh in let N := fresh in intros y H N; cbn in H; subst y; intuition discriminate.
Ltac pok_tac := cbn; repeat split; try reflexivity; try discriminate; try clean_tac.

Lemma geo_ok : All (pok is_dist vpc) geo.
Proof. pok_tac. Qed.
(** The outer loop with two copies needs the inner loop's annotation twice. *)
Definition geo_annots : list annot := [(2, iverson (EVar vb)); (1, one); (3, b_inf)].
Lemma geo_good : Forall (good_annot vpc) geo_annots.
Proof. repeat (constructor; [split; [cbn; lia|]; split; [split; reflexivity | clean_tac]|]). constructor. Qed.
Lemma geo_direct : exists b, directs false vpc Down geo geo_annots = Some (b, []) /\ b <> [].
Proof. eexists. split; [vm_compute; reflexivity | discriminate]. Qed.
Lemma geo_unroll : exists b, directs true vpc Up geo geo_annots = Some (b, []) /\ b <> [].
Proof. eexists. split; [vm_compute; reflexivity | discriminate]. Qed.
Lemma one_free I pc : free_of pc (ev I one).
Proof. intros s s' _ _ _. reflexivity. Qed.

(** * Counterexamples *)
Definition off : list pinstr := [PWhile (EVar vb) [PAsgn vb (b_bool false)]].
Lemma off_ok : All (pok is_dist vpc) off.
Proof. pok_tac. Qed.

Section Off.
  Variable I : interp.
  Hypothesis HI : interp_ok I.
  Let X := ev I (iverson (EVar vb)).
  Let F := body_map I Greatest (EVar vb) [PAsgn vb (b_bool false)] X.
  Lemma X_true s : s vb = VBool true -> X s = eone.
  Proof. intros E. unfold X, ev, iverson. cbn [eval]. rewrite E. cbn. unfold eone. reflexivity. Qed.
  Lemma X_false s : s vb = VBool false -> X s = ebot.
  Proof. intros E. unfold X, ev, iverson. cbn [eval]. rewrite E. exact (ev_extreme I Down s). Qed.

  (** The loop always ends with [b] being false. *)
  Lemma off_zero k s : env_ok s -> pwps I k off X s = ebot.
  Proof.
    intros Hs.
    assert (M : forall k, mono (body_map I k (EVar vb) [PAsgn vb (b_bool false)] X)) by (intros k'; apply (body_mono I is_dist vpc HI); pok_tac).
    assert (V : forall t, env_ok t -> exists c, t vb = VBool c).
    { intros t Ht. specialize (Ht vb). unfold has_ty in Ht. destruct (t vb); try discriminate; eauto. }
    assert (B : forall k Y t, t vb = VBool true -> body_map I k (EVar vb) [PAsgn vb (b_bool false)] X Y t = Y (upd t vb (VBool false))).
    { intros k' Y t E. unfold body_map, holds. cbn [eval]. rewrite E. reflexivity. }
    assert (B' : forall k Y t, t vb = VBool false -> body_map I k (EVar vb) [PAsgn vb (b_bool false)] X Y t = ebot).
    { intros k' Y t E. unfold body_map, holds. cbn [eval]. rewrite E. now apply X_false. }
    assert (U : forall t, env_ok t -> env_ok (upd t vb (VBool false))) by (intros t Ht; apply upd_ok; auto; reflexivity).
    assert (Us : forall t, upd t vb (VBool false) vb = VBool false) by (intros; apply upd_same).
    destruct k.
    - change (lfp (body_map I Least (EVar vb) [PAsgn vb (b_bool false)] X) s = ebot).
      apply ele_antisym; [|apply ebot_le]. apply (lfp_least _ (fun _ => ebot)); auto.
      intros t Ht. destruct (V t Ht) as [[|] E]; [rewrite B by auto | rewrite B' by auto]; apply ele_refl.
    - change (gfp (body_map I Greatest (EVar vb) [PAsgn vb (b_bool false)] X) s = ebot).
      set (G := body_map I Greatest (EVar vb) [PAsgn vb (b_bool false)] X).
      apply ele_antisym; [|apply ebot_le].
      assert (S1 : forall t, env_ok t -> ele (gfp G t) (G (gfp G) t)) by (intros t Ht; apply (gfp_postfix G (M Greatest)); auto).
      destruct (V s Hs) as [[|] E].
      + eapply ele_trans; [apply S1; auto|]. unfold G at 1. rewrite B by auto.
        eapply ele_trans; [apply S1; auto|]. unfold G at 1. rewrite B' by auto. apply ele_refl.
      + eapply ele_trans; [apply S1; auto|]. unfold G at 1. rewrite B' by auto. apply ele_refl.
  Qed.

  (** Zero copies: no iteration of the loop is looked at. *)
  Lemma zero_unsound s : env_ok s -> s vb = VBool true -> exists b, directs false vpc Down off [(0, iverson (EVar vb))] = Some (b, []) /\
    wp_block I is_dist Greatest b X s = eone.
  Proof.
    intros Hs E. exists (pgcl_spec Down (iverson (EVar vb)) [vb]). split; [reflexivity|]. unfold pgcl_spec, wp_block. cbn [fold_right].
    rewrite wp_assert. cbn [wp]. change (ev I (iverson (EVar vb))) with X.
    destruct (havoc_check Down [vb] (fun s' => dle Down (X s') (X s')) (fun s' => validate_sem Down (assume_sem Down (X s') (X s'))) s) as [[H _]|[_ (s' & _ & N)]].
    - intros s' _. apply validate_assume_sem.
    - cbn [havoc_sem] in *. rewrite H, dmeet_top. now apply X_true.
    - exfalso. apply N, dle_refl.
  Qed.
  Lemma zero_unroll_unsound s : s vb = VBool true -> exists b, directs true vpc Up off [(0, iverson (EVar vb))] = Some (b, []) /\
    wp_block I is_dist Least b X s = eone.
  Proof. intros E. exists []. split; [reflexivity|]. now apply X_true. Qed.
End Off.

Lemma one_not_zero : ~ ele eone ebot.
Proof. intros H. unfold eone, ebot in H. rewrite ele_fin in H by lra. lra. Qed.

(** Two loops, two annotations, and no encoding. *)
Definition nested : list pinstr := [PWhile (EVar vb) [inner; PAsgn vb (b_bool false)]].
Definition two : list annot := [(2, one); (1, one)].
Lemma nested_crash : directs false vpc Down nested two = None.
Proof. reflexivity. Qed.
Lemma nested_ok : All (pok is_dist vpc) nested.
Proof. pok_tac. Qed.
Lemma two_good : Forall (good_annot vpc) two.
Proof. repeat (constructor; [split; [cbn; lia|]; split; [split; reflexivity | clean_tac]|]). constructor. Qed.

(** A loop that is not at the top level gets no annotation, and the next one gets it. *)
Definition branch : list pinstr := [PIf (EVar vb) [inner] []; PWhile (EVar vb) [PAsgn vb (b_bool false)]].
Definition rules : list rule := [("invariant", [b_inf]); ("invariant", [one])].
Lemma branch_marks : exists b, annotate (plains vpc branch) rules = Some (b, [("invariant", [one])]) /\
  flat_map marks b = [None; Some ("invariant", [b_inf])].
Proof. eexists. split; reflexivity. Qed.

(** A loop that assigns nothing. *)
Definition spin : list pinstr := [PWhile (EVar vb) [PSkip]].
Lemma spin_havoc : exists b, directs false vpc Down spin [(1, one)] = Some (b, []) /\ existsb has_empty_havoc b = true.
Proof. eexists. split; reflexivity. Qed.

Definition default (t : ty) : val :=
  match t with TBool => VBool true | TInt => VInt 0 | TUInt => VUInt 0 | TReal => VReal 0 | TUReal => VUReal (nnr_of 0) | TEUReal => VEur ebot end.
Definition I1 : interp := {| ifun := fun _ t _ => default t; idiv0 := fun r => r; iudiv0 := fun x => x; imod0 := fun z => z; iumod0 := fun n => n |}.
Definition s1 : env := fun x => default (ity x).
Lemma I1_ok : interp_ok I1.
Proof. intros f t vs. destruct t; reflexivity. Qed.
Lemma s1_ok : env_ok s1.
Proof. intros x. unfold s1. destruct (ity x); reflexivity. Qed.

Lemma iverson_exp : is_exp (iverson (EVar vb)) /\ clean vpc (iverson (EVar vb)).
Proof. split; [split; reflexivity | clean_tac]. Qed.
Lemma iverson_free I : free_of vpc (ev I (iverson (EVar vb))).
Proof. apply unread_blind, iverson_exp. Qed.

Theorem zero_refuted : exists I l inv b X s, interp_ok I /\ All (pok is_dist vpc) l /\ is_exp inv /\ clean vpc inv /\ free_of vpc X /\ env_ok s /\
  directs false vpc Down l [(0, inv)] = Some (b, []) /\ ~ dle Down (wp_block I is_dist Greatest b X s) (pwps I Greatest l X s).
Proof.
  destruct (zero_unsound I1 s1 s1_ok eq_refl) as (b & E & W).
  exists I1, off, (iverson (EVar vb)), b, (ev I1 (iverson (EVar vb))), s1.
  repeat (split; [first [exact I1_ok | exact off_ok | apply iverson_exp | apply iverson_free | exact s1_ok | exact E]|]).
  rewrite W, (off_zero I1 I1_ok Greatest s1 s1_ok). exact one_not_zero.
Qed.
Theorem zero_unroll_refuted : exists I l inv b X s, interp_ok I /\ All (pok is_dist vpc) l /\ is_exp inv /\ clean vpc inv /\ free_of vpc X /\ env_ok s /\
  directs true vpc Up l [(0, inv)] = Some (b, []) /\ ~ ele (wp_block I is_dist Least b X s) (pwps I Least l X s).
Proof.
  destruct (zero_unroll_unsound I1 s1 eq_refl) as (b & E & W).
  exists I1, off, (iverson (EVar vb)), b, (ev I1 (iverson (EVar vb))), s1.
  repeat (split; [first [exact I1_ok | exact off_ok | apply iverson_exp | apply iverson_free | exact s1_ok | exact E]|]).
  rewrite W, (off_zero I1 I1_ok Least s1 s1_ok). exact one_not_zero.
Qed.
Theorem annotate_refuted : exists l r1 r2 b, All (pok is_dist vpc) l /\ r1 <> r2 /\ list_sum (map loops l) = 2 /\
  annotate (plains vpc l) [r1; r2] = Some (b, [r2]) /\ flat_map marks b = [None; Some r1].
Proof.
  destruct branch_marks as (b & E & M). exists branch, ("invariant", [b_inf]), ("invariant", [one]), b.
  split; [pok_tac|]. split; [discriminate|]. split; [reflexivity|]. split; [exact E | exact M].
Qed.
Theorem havoc_refuted : exists l st b, All (pok is_dist vpc) l /\ Forall (good_annot vpc) st /\
  directs false vpc Down l st = Some (b, []) /\ existsb has_empty_havoc b = true.
Proof.
  destruct spin_havoc as (b & E & M). exists spin, [(1, one)], b.
  split; [pok_tac|]. split; [|split; [exact E | exact M]].
  constructor; [split; [cbn; lia|]; split; [split; reflexivity | clean_tac] | constructor].
Qed.

Definition vc := mkid "c" 0 TBool.
Definition s2 : env := upd s1 vc (VBool false).
Theorem harmonize_refuted : exists c I s, is_guard c /\ interp_ok I /\ env_ok s /\ is_guard (printed_not c) /\
  holds I c s = false /\ holds I (printed_not c) s = false.
Proof.
  exists (EBin TBool OAnd (EVar vb) (EVar vc)), I1, s2. split; [split; reflexivity|]. split; [exact I1_ok|].
  split; [apply upd_ok; [exact s1_ok | reflexivity]|]. split; [split; reflexivity|]. split; reflexivity.
Qed.
