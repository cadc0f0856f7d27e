(** The ranking rule for a loop whose body is a loop with a choice: [while b { while b { if ⊓ { b = flip(0.5) } else { b = false } } }]. *)
From Coq Require Import Bool List String Reals QArith Lra.
From Verif.Model Require Import Syntax Builder TyCtx Dist Procs LoopProcs.
From Verif.Spec Require Import Eur Sem Wp Loops Calls Termination.
From Verif.Proofs Require Import EurLemmas SemLemmas WpLemmas LoopProofs TermExamples TermRefuted.
Import ListNotations.
Local Open Scope list_scope.
Local Open Scope R_scope.

Definition nested_coin := [SWhile (EVar vb) [SDemonic coin [SAssign [vb] (ELit TBool (LBool false))]]].
Definition nested_inv := EIte TEUReal (EVar vb) (elit 2) (elit 0).
Lemma nested_zero I s : env_ok s -> wp_block I is_dist Least nested_coin (ev I nested_inv) s = ebot.
Proof.
  intros Hs. apply le_ebot. refine (lfp_least _ (fun _ => ebot) _ s Hs). intros t Ht. cbv beta.
  destruct (bool_of t vb Ht eq_refl) as [bb E]. unfold holds. cbn [eval]. rewrite E. destruct bb.
  - cbn [fold_right wp]. eapply ele_trans; [apply emin_r|]. apply ele_refl.
  - unfold nested_inv. rewrite (ev_two I t false E). apply ele_refl.
Qed.
Lemma nested_past I : interp_ok I -> exists blk ps T',
  All (wts is_dist (fun _ => false)) nested_coin /\ All (every scalable) nested_coin /\
  past_transform S 2 T0 "main" [nested_inv; lit (1#2); lit 1] (EVar vb) nested_coin = Ok (blk, ps, T') /\
  verified I is_dist Least (map coerced (firstn 2 ps)) /\
  forall s, env_ok s -> holds I (EVar vb) s = true ->
    ele (wp_block I is_dist Least nested_coin (ev I nested_inv) s) (emonus (ev I nested_inv s) (ev I (b_cast TEUReal (lit (1#2))) s)).
Proof.
  intros HI. eexists. eexists. eexists. split; [cbn; repeat split; try constructor; reflexivity|]. split; [cbn; tauto|]. split; [reflexivity|].
  split; [exact (coin_past I Least)|]. intros s Hs _. rewrite nested_zero by exact Hs. apply ebot_le.
Qed.
