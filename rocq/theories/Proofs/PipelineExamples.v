(** Examples for the whole path from statements to the question. *)
From Coq Require Import Bool List String NArith QArith Reals Qreals Lra.
From Verif.Model Require Import Syntax Builder Lits TyCtx AstUtil Dist VcGen Subst Unfolder Qelim Boolify Relational Pipeline.
From Verif.Spec Require Import Eur Sem Wp Linear Valid Reach.
From Verif.Proofs Require Import EurLemmas SemLemmas WpLemmas VcGenProofs SubstProofs SimLemmas QelimProofs UnfolderProofs SimplifyRefuted UnfolderExamples PipelineProofs.
Import ListNotations.
Local Open Scope string_scope.
Local Open Scope nat_scope.

(** A solver that never finds anything. *)
Definition orc_unknown : oracle := fun _ _ => false.
Lemma orc_unknown_sound : sound_oracle orc_unknown.
Proof. intros n G H. discriminate. Qed.

(** [assume 1/2; b = ber(1, 1); assert inf x: Bool. [x == b]] *)
Definition ex_isd (f : string) : bool := String.eqb f "ber".
Definition ex_isf (f : string) : bool := false.
Definition ex_A (a : string) : bool := false.
Definition ex_C : tcx := fun f => if String.eqb f "ber" then Some DProcIntrin else None.
Definition ex_call : expr := ECall TBool "ber" [b_uint 1; b_uint 1].
Definition ex_inf : expr := EQuant QInf [QFresh dup_x] (EUn TEUReal OIverson (EBin TBool OEq (EVar dup_x) (EVar vb))).
Definition ex_prog : list stmt := [SAssume Down half; SAssign [vb] ex_call; SAssert Down ex_inf].
Definition ex_T : tyctx := mktcx [(vb, true); (dup_x, true)] [].
Definition ex_term (c : bool) : expr := ESubst vb (b_bool c) (EBin TEUReal OInf ex_inf b_inf).
Definition ex_vc : expr :=
  EBin TEUReal OImpl half (EBin TEUReal OAdd (EBin TEUReal OMul half (ex_term true)) (EBin TEUReal OMul half (ex_term false))).
Lemma ex_vc_ok : vcgen ex_C (SSeq ex_prog) (terminal Down) = Ok ex_vc.
Proof. reflexivity. Qed.

Local Arguments eleb : simpl never.
Lemma ex_term_bot I s c : env_ok s -> eval I (ex_term c) s = VEur ebot.
Proof.
  intros Hs. unfold ex_term, ex_inf. simpl. f_equal. unfold emin.
  match goal with |- (if eleb ?a ?b then _ else _) = _ => assert (Z : a = ebot) end.
  { apply le_ebot. apply einf_lb. exists (upd (upd s vb (VBool c)) dup_x (VBool (negb c))). split.
    - split; [intros y Hy; apply upd_other; simpl in Hy; tauto | intros y [<-|[]]; reflexivity].
    - rewrite upd_same. rewrite upd_other by discriminate. rewrite upd_same. unfold veq. cbn. rewrite bool_dec_eq. destruct c; reflexivity. }
  rewrite Z, eleb_bot. reflexivity.
Qed.

Lemma ex_facts : tcx_ok ex_C ex_isd ex_isf ex_A /\ wts ex_isd ex_isf (SSeq ex_prog) /\ every not_while (SSeq ex_prog) /\
  vguard (SSeq ex_prog) /\ every (anns_in ex_A) (SSeq ex_prog) /\
  every (fun st => forall x, In x (node_ids st) -> is_var ex_T x) (SSeq ex_prog).
Proof.
  split. { repeat split; try discriminate. intros f H. apply String.eqb_eq in H. subst. reflexivity. }
  split. { cbn. repeat split; try reflexivity. apply dr_ber; [discriminate | reflexivity]. }
  split. { cbn. repeat split; try reflexivity. }
  split. { cbn. repeat split; try reflexivity. }
  split. { cbn. repeat split; try reflexivity. }
  cbn. repeat split; intros z Hz; repeat (destruct Hz as [<-|Hz]; [reflexivity|]); destruct Hz.
Qed.

Lemma half_num : nval (nnr_of (Q2R (1#2))) = (1/2)%R.
Proof. rewrite nval_of; unfold Q2R; simpl; lra. Qed.

Theorem question_refuted : exists q, question default_options orc_unknown (fun _ => 0) ex_C Down ex_T ex_prog = Ok q /\
  forall I, interp_ok I -> (forall s, env_ok s -> eval I q s = VBool true) /\
    forall k s, env_ok s -> wp I ex_isd k (SSeq ex_prog) (fun _ => etop) s = ebot.
Proof.
  eexists. split; [vm_compute; reflexivity|]. intros I HI. split.
  - intros s Hs. pose proof (Hs dup_x) as Hx. unfold has_ty in Hx. simpl in Hx.
    assert (Hb : exists b, s dup_x = VBool b) by (destruct (s dup_x); inversion Hx; eauto). destruct Hb as [b Hb].
    unfold dup_x in Hb. cbn [eval]. rewrite Hb. simpl. unfold veq. simpl. rewrite !bool_dec_eq.
    unfold emin. rewrite !eleb_top.
    match goal with |- VBool ?a = _ => assert (L : a = true); [|rewrite L; reflexivity] end.
    apply eleb_iff. unfold eone, ebot. destruct b; simpl; unfold emul, fin; simpl; rewrite ?nval_ebot_proof, ?Rmult_0_r, ?nval_ebot_proof, ?Rplus_0_r, ?Rplus_0_l;
      repeat (rewrite nval_of; unfold Q2R; simpl; try lra).
  - intros k s Hs. destruct ex_facts as (F1 & F2 & F3 & F4 & F5 & F6).
    destruct (VcGenProofs.vcgen_correct ex_C I ex_isd ex_isf ex_A k F1 HI (SSeq ex_prog) F2 F3 F4 F5 (terminal Down)) as (e & E & _ & V).
    { split; reflexivity. }
    rewrite ex_vc_ok in E. injection E as <-. rewrite <- (V (fun _ => etop)) by auto.
    unfold ev, ex_vc. cbn [eval]. rewrite !ex_term_bot by auto. simpl.
    match goal with |- context [eleb ?a ?c] => destruct (eleb a c) eqn:L end; [exfalso | ].
    + apply eleb_iff in L. unfold emul, ebot, fin in L. simpl in L. rewrite !nval_ebot_proof, !Rmult_0_r, !nval_ebot_proof, Rplus_0_r, nval_ebot_proof in L.
      rewrite nval_of in L; unfold Q2R in *; simpl in *; lra.
    + unfold emul, ebot, fin. simpl. f_equal. apply nnr_eq.
      rewrite !nval_ebot_proof, !Rmult_0_r, !nval_ebot_proof, Rplus_0_r, nval_ebot_proof. reflexivity.
Qed.

(** [assume 1/2; b = ber(1, 1); assert ?(forall x: Bool. x == b || x != b)]: the quantifier sits inside of an embedding. *)
Definition ex_all : expr := EUn TEUReal OEmbed (EQuant QForall [QFresh dup_x]
  (EBin TBool OOr (EBin TBool OEq (EVar dup_x) (EVar vb)) (EBin TBool ONe (EVar dup_x) (EVar vb)))).
Definition ex_good : list stmt := [SAssume Down half; SAssign [vb] ex_call; SAssert Down ex_all].
Lemma ex_good_facts : tcx_ok ex_C ex_isd ex_isf ex_A /\ wts ex_isd ex_isf (SSeq ex_good) /\ every not_while (SSeq ex_good) /\
  vguard (SSeq ex_good) /\ every (anns_in ex_A) (SSeq ex_good) /\
  every (fun st => forall x, In x (node_ids st) -> is_var ex_T x) (SSeq ex_good) /\ every guarded_node (SSeq ex_good).
Proof.
  split; [apply ex_facts|].
  split. { cbn. repeat split; try reflexivity. apply dr_ber; [discriminate | reflexivity]. }
  split. { cbn. repeat split; try reflexivity. }
  split. { cbn. repeat split; try reflexivity. }
  split. { cbn. repeat split; try reflexivity. }
  split. { cbn. repeat split; intros z Hz; repeat (destruct Hz as [<-|Hz]; [reflexivity|]); destruct Hz. }
  cbn. repeat split; intros z d Hz; cbn in Hz; repeat (destruct Hz as [<-|Hz]; [destruct d; exact Logic.I|]); destruct Hz.
Qed.

(** [((x))] *)
Theorem remove_parens_refuted : exists e, wt e = true /\ remove_parens e = EUn TBool OParens (EVar vb) /\ remove_parens e <> EVar vb.
Proof. exists (EUn TBool OParens (EUn TBool OParens (EVar vb))). split; [reflexivity|]. split; [reflexivity | discriminate]. Qed.
