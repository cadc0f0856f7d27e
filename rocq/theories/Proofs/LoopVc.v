(** Loop encodings are programs the verification condition generator handles. *)
From Coq Require Import Bool List String ZArith NArith QArith Reals Lia Lra Classical.
From Verif.Model Require Import Syntax Builder AstUtil ProofRules Dist VcGen.
From Verif.Spec Require Import Eur Sem Wp Frame Loops.
From Verif.Proofs Require Import EurLemmas SemLemmas WpLemmas DistProofs VcGenProofs MonoProofs SubstProofs FrameProofs LoopProofs ValidateProofs UnrollProofs OmegaProofs.
Import ListNotations.

Lemma All_app {A} (P : A -> Prop) a b : All P (a ++ b) <-> All P a /\ All P b.
Proof. induction a as [|x a IH]; cbn; [tauto|]. rewrite IH. tauto. Qed.
Lemma opens_app d a b : opens_with_assume d a -> opens_with_assume d (a ++ b).
Proof. destruct a; cbn; tauto. Qed.
Lemma vguard_app a b : vguard_block a -> vguard_block b -> vguard_block (a ++ b).
Proof.
  induction a as [|s a IH]; cbn [app vguard_block]; auto. intros [H1 H2] Hb. split; auto.
  destruct s; auto. now apply opens_app.
Qed.

Section Good.
  Variables (isd isf A : string -> bool).
  Hypothesis AE : A "error_msg"%string = true.
  Hypothesis AS : A "success_msg"%string = true.

  (** what the generator's correctness asks of a block *)
  Definition good (b : list stmt) : Prop :=
    All (wts isd isf) b /\ All (every not_while) b /\ vguard_block b /\ All (every (anns_in A)) b.

  Lemma good_app a b : good a -> good b -> good (a ++ b).
  Proof.
    intros (A1 & A2 & A3 & A4) (B1 & B2 & B3 & B4). unfold good. rewrite !All_app. repeat split; auto using vguard_app.
  Qed.
  Lemma good_nil : good [].
  Proof. repeat split. Qed.
  Lemma good_iter c body next : is_guard c -> good body -> good next -> good [encode_iter c body next].
  Proof.
    intros Hc Hb Hn. destruct (good_app body next Hb Hn) as (H1 & H2 & H3 & H4).
    unfold good, encode_iter. cbn [All wts every vguard_block not_while anns_in].
    cbn [vguard]. rewrite !vguard_block_eq. repeat split; auto; apply Hc.
  Qed.
  Lemma good_assert d e next : is_exp e -> good next -> good (SAssert d e :: next).
  Proof. intros He (H1 & H2 & H3 & H4). unfold good. cbn. repeat split; auto; apply He. Qed.
  Lemma good_hey d e : is_exp e -> good (hey_const e d).
  Proof. intros He. unfold good. cbn. repeat split; auto; try apply He; apply extreme_exp. Qed.
  Lemma good_park d e : is_exp e -> good (park_terminator e d).
  Proof. intros He. unfold good. cbn. repeat split; auto; try apply He; apply extreme_exp. Qed.
  Lemma good_extend c body k inv d next : is_guard c -> good body -> is_exp inv -> good next -> good (encode_extend c body k inv d next).
  Proof.
    intros Hc Hb Hi Hn. induction k as [|k IH]; auto. cbn [encode_extend]. apply good_assert; auto. now apply good_iter.
  Qed.
  Lemma good_k_induction c body d k inv : is_guard c -> good body -> is_exp inv -> good (transform_k_induction c body d k inv).
  Proof.
    intros Hc Hb Hi. unfold transform_k_induction. apply good_app.
    - unfold good. cbn. repeat split; auto; apply Hi.
    - apply good_iter; auto. apply good_extend; auto. destruct (Nat.eqb k 1); [now apply good_park | now apply good_hey].
  Qed.
  Lemma good_unroll c body k t d : is_guard c -> good body -> is_exp t -> good (encode_unroll c body k (hey_const t d)).
  Proof. intros Hc Hb Ht. induction k as [|k IH]; [now apply good_hey | now apply good_iter]. Qed.

  Lemma good_vc T I k b post : tcx_ok T isd isf A -> interp_ok I -> good b -> is_exp post ->
    exists e, vcgen T (SSeq b) post = Ok e /\ is_exp e /\ forall s, env_ok s -> ev I e s = wp_block I isd k b (ev I post) s.
  Proof.
    intros HT HI (H1 & H2 & H3 & H4) Hp.
    assert (G1 : wts isd isf (SSeq b)) by exact H1.
    assert (G2 : every not_while (SSeq b)) by (split; [exact Logic.I | exact H2]).
    assert (G3 : vguard (SSeq b)) by (cbn [vguard]; now rewrite vguard_block_eq).
    assert (G4 : every (anns_in A) (SSeq b)) by (split; [exact Logic.I | exact H4]).
    exact (vcgen_is_semantics T I isd isf A k (SSeq b) post HT HI G1 G2 G3 G4 Hp).
  Qed.
End Good.

(** The verification condition of an induction encoding bounds the loop's fixpoint. *)
Lemma k_induction_vc T I isd isf A c body d n inv post k :
  tcx_ok T isd isf A -> interp_ok I -> A "error_msg"%string = true -> A "success_msg"%string = true ->
  is_guard c -> good isd isf A body -> All (every not_negate) body -> is_exp inv -> is_exp post -> (1 <= n)%nat ->
  unread (unhavocked c body) c -> scoped_block (unhavocked c body) body -> unread (unhavocked c body) inv -> unread (unhavocked c body) post ->
  exists e, vcgen T (SSeq (transform_k_induction c body d n inv)) post = Ok e /\ is_exp e /\
    dexp_le d (ev I e) (dfix d (Phi I isd k c body (ev I post))).
Proof.
  intros HT HI AE AS Hc Hb Nb Hi Hp Hn U1 U2 U3 U4.
  destruct (good_vc isd isf A T I k (transform_k_induction c body d n inv) post) as (e & E1 & E2 & E3); auto.
  { now apply good_k_induction. }
  exists e. split; auto. split; auto. intros s Hs. rewrite E3 by auto.
  apply (k_induction_sound I isd isf k c body (ev I post) HI (proj1 Hb) Nb d inv n); auto. now apply unread_blind.
Qed.

(** Invariants only use the LFP/GFP their direction is about, unless a calculus says otherwise. *)
Lemma induction_claim I isd isf k c body d n inv X : interp_ok I -> All (wts isd isf) body -> All (every not_negate) body -> (1 <= n)%nat ->
  unread (unhavocked c body) c -> scoped_block (unhavocked c body) body -> unread (unhavocked c body) inv -> blind (unhavocked c body) X ->
  let F := Phi I isd k c body X in
  let a := induction_approx (induction_default d) EXACT in
  approx_holds (a_under a) (a_over a) (wp_block I isd k (transform_k_induction c body d n inv) X)
    (match induction_default d with LFP => lfp F | GFP => gfp F end).
Proof.
  intros HI W N Hn U1 U2 U3 U4. pose proof (k_induction_sound I isd isf k c body X HI W N d inv n Hn U1 U2 U3 U4) as H.
  unfold approx_holds. destruct d; cbn; split; intros K; try discriminate K; exact H.
Qed.
(** Under @wp an invariant of a proc is claimed to be an over-approximation; the invariant 0 is none. *)
Lemma induction_wp_refuted : exists inv b, is_exp inv /\ a_over (induction_approx LFP EXACT) = true /\
  invariant_transform [inv] (ELit TBool (LBool false)) [] Down = Ok b /\
  forall I isd k s, interp_ok I -> env_ok s ->
    wp_block I isd k b (fun _ => eone) s = ebot /\ lfp (Phi I isd k (ELit TBool (LBool false)) [] (fun _ => eone)) s = eone.
Proof.
  exists (ECast TEUReal (b_uint 0)). eexists. split; [split; reflexivity|]. split; [reflexivity|]. split; [reflexivity|].
  intros I isd k s HI Hs. split.
  - rewrite (wp_k_induction I isd (fun _ => false) k (ELit TBool (LBool false)) [] (fun _ => eone) HI Logic.I Logic.I) by auto.
    apply le_ebot. eapply ele_trans; [apply (dmeet_l Down)|]. apply ele_refl.
  - set (F := Phi _ _ _ _ _ _). assert (HF : mono F) by (intros Y Z _ t Ht; apply ele_refl).
    apply ele_antisym.
    + apply (lfp_least F (fun _ => eone)); auto. intros t Ht. apply ele_refl.
    + exact (lfp_prefix F HF s Hs).
Qed.
Lemma induction_wlp_refuted : exists inv b, is_exp inv /\ a_under (induction_approx GFP EXACT) = true /\
  invariant_transform [inv] (ELit TBool (LBool false)) [] Up = Ok b /\
  forall I isd k s, interp_ok I -> env_ok s ->
    wp_block I isd k b (fun _ => eone) s = etop /\ gfp (Phi I isd k (ELit TBool (LBool false)) [] (fun _ => eone)) s = eone.
Proof.
  exists b_inf. eexists. split; [split; reflexivity|]. split; [reflexivity|]. split; [reflexivity|].
  intros I isd k s HI Hs. split.
  - rewrite (wp_k_induction I isd (fun _ => false) k (ELit TBool (LBool false)) [] (fun _ => eone) HI Logic.I Logic.I) by auto.
    apply top_le. eapply ele_trans; [|apply (dmeet_l Up)]. apply ele_refl.
  - set (F := Phi _ _ _ _ _ _). assert (HF : mono F) by (intros Y Z _ t Ht; apply ele_refl).
    apply ele_antisym.
    + exact (gfp_postfix F HF s Hs).
    + apply (gfp_greatest F (fun _ => eone)); auto. intros t Ht. apply ele_refl.
Qed.

Lemma induction_transforms c body d inv t n :
  invariant_transform [inv] c body d = Ok (transform_k_induction c body d 1 inv) /\
  ((1 <= n)%N -> (n < 2 ^ 128)%N ->
   k_induction_transform [ELit t (LUInt n); inv] c body d = Ok (transform_k_induction c body d (N.to_nat n) inv)).
Proof.
  split; [reflexivity|]. intros H1 H2. unfold k_induction_transform, ProofRules.lit_u128. rewrite (proj2 (N.ltb_lt n (2^128)%N) H2). unfold rbind.
  destruct (N.eqb_spec n 0); [lia | reflexivity].
Qed.
