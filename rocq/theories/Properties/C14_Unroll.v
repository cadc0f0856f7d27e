(** C14: loop unrolling is classified with the right approximation. *)
From Coq Require Import Bool List String NArith QArith Reals.
From Verif.Model Require Import Syntax Builder AstUtil Lits ProofRules.
From Verif.Spec Require Import Eur Sem Wp Loops.
From Verif.Proofs Require Import WpLemmas UnrollProofs.
Import ListNotations.

(** For all loops, depths and posts.  Terminator 0: the fixpoint chosen by default is the least one,
    and the claimed UNDER holds.  Terminator infinity: the greatest one, and OVER holds.
    Terminator 1: OVER holds for the one-bounded greatest fixpoint. *)
Theorem C14_unroll_claims_partial : forall I isd isf k c body X n t d b,
  interp_ok I -> All (wts isd isf) body -> All (every not_negate) body -> is_exp t ->
  unroll_transform [ELit TUInt (LUInt n); t] c body d = Ok b ->
  let F := Phi I isd k c body X in let enc := wp_block I isd k b X in
  (is_bot_lit t = true -> unroll_default d t = LFP /\
     approx_holds (a_under (unroll_approx LFP EXACT)) (a_over (unroll_approx LFP EXACT)) enc (lfp F)) /\
  (is_top_lit t = true -> unroll_default d t = GFP /\
     approx_holds (a_under (unroll_approx GFP EXACT)) (a_over (unroll_approx GFP EXACT)) enc (gfp F)) /\
  (is_one_lit t = true -> unroll_default d t = GFP /\
     approx_holds (a_under (unroll_approx GFP EXACT)) (a_over (unroll_approx GFP EXACT)) enc (gfp1 F)).
Proof. exact unroll_claims. Qed.
Print Assumptions C14_unroll_claims_partial.

(** The claims are made for every terminator, though.  Under a least-fixpoint calculus with terminator infinity: *)
Theorem C14_lfp_terminator_refuted : exists t b, is_exp t /\ a_under (unroll_approx LFP EXACT) = true /\
  unroll_transform [ELit TUInt (LUInt 1); t] tt_e [] Down = Ok b /\
  forall I isd k X s, env_ok s -> wp_block I isd k b X s = etop /\ lfp (Phi I isd k tt_e [] X) s = ebot.
Proof. exact unroll_lfp_refuted. Qed.
Print Assumptions C14_lfp_terminator_refuted.

Theorem C14_gfp_terminator_refuted : exists t b, is_exp t /\ a_over (unroll_approx GFP EXACT) = true /\
  unroll_transform [ELit TUInt (LUInt 1); t] tt_e [] Up = Ok b /\
  forall I isd k X s, env_ok s -> wp_block I isd k b X s = ebot /\ gfp (Phi I isd k tt_e [] X) s = etop.
Proof. exact unroll_gfp_refuted. Qed.
Print Assumptions C14_gfp_terminator_refuted.

(** Without a calculus and with terminator 5. *)
Theorem C14_default_terminator_refuted : exists t b, is_exp t /\ unroll_default Down t = LFP /\
  unroll_transform [ELit TUInt (LUInt 1); t] tt_e [] Down = Ok b /\
  forall I isd k X s, env_ok s -> wp_block I isd k b X s = fin 5%R /\ lfp (Phi I isd k tt_e [] X) s = ebot.
Proof. exact unroll_default_refuted. Qed.
Print Assumptions C14_default_terminator_refuted.

(** Terminator 1 for the unbounded greatest fixpoint. *)
Theorem C14_one_terminator_refuted : exists t b, is_exp t /\ unroll_default Up t = GFP /\
  unroll_transform [ELit TUInt (LUInt 1); t] tt_e [] Up = Ok b /\
  forall I isd k X s, env_ok s -> wp_block I isd k b X s = eone /\ gfp (Phi I isd k tt_e [] X) s = etop.
Proof. exact unroll_one_refuted. Qed.
Print Assumptions C14_one_terminator_refuted.

Definition c14_x := mkid "x" 0 TUInt.
Definition c14_body : list stmt := [SAssign [c14_x] (EBin TUInt OSub (EVar c14_x) (ELit TUInt (LUInt 1%N)))].
Definition c14_c : expr := EBin TBool OLt (ELit TUInt (LUInt 0%N)) (EVar c14_x).
Example C14_nonvacuous : forall isd isf, All (wts isd isf) c14_body /\ All (every not_negate) c14_body /\
  is_exp (ECast TEUReal (ELit TUInt (LUInt 0%N))) /\ is_bot_lit (ECast TEUReal (ELit TUInt (LUInt 0%N))) = true /\
  is_top_lit (ELit TEUReal LInf) = true /\ is_one_lit (ECast TEUReal (ELit TUInt (LUInt 1%N))) = true /\
  exists b, unroll_transform [ELit TUInt (LUInt 3); ECast TEUReal (ELit TUInt (LUInt 0%N))] c14_c c14_body Up = Ok b.
Proof. intros. repeat split; eauto. eexists. reflexivity. Qed.
