(** C60: the rule for positive almost-sure termination in the translator from pGCL. *)
From Coq Require Import Bool List String QArith Qreals Reals.
From Verif.Model Require Import Syntax Builder Dist Pgcl PgclProc PgclOmega PgclPast.
From Verif.Spec Require Import Eur Sem Wp PgclSem PgclCost PgclProcSpec PgclIter.
From Verif.Proofs Require Import PgclExamples PgclOmegaExample PgclPastProofs PgclPastExample.
Import ListNotations.
Local Open Scope list_scope.

(** If the second and the third procedure verify and [eps] is positive, the expected number of iterations is at most
    [inv / eps], hence finite where [inv] is.  The first procedure is not needed. *)
Theorem C60_past_sound : forall I isd pc kd vars c b inv eps k c1 c2 p3 b3,
  interp_ok I -> isd "flip"%string = true -> ity pc = TBool ->
  (forall x, x = pc \/ In x (map init_var vars) -> pok isd x (PWhile c b)) ->
  (forall x y, In x vars -> In y vars -> x <> init_var y) -> simple inv -> simple c ->
  (forall x, fv x inv -> In x vars) -> (forall x, fv x c -> In x vars) -> clean pc inv -> is_exp inv -> (0 < eps)%Q ->
  past_procs pc vars [PWhile c b] inv eps k = Some (c1, c2, (p3, b3)) ->
  (forall s, env_ok s -> ele etop (wp_block I isd kd [SAssert Down c2] (fun _ => etop) s)) ->
  (forall s, env_ok s -> ele (wp_block I isd kd b3 (fun _ => ebot) s) (ev I p3 s)) ->
  forall s, env_ok s -> ele (pgcl_iterations I c b s) (if holds I c s then emul (fin (/ Q2R eps)) (ev I inv s) else ebot).
Proof. exact past_bound. Qed.
Print Assumptions C60_past_sound.
(** Non-vacuity: counting down, with [x], 0.5 and 1. *)
Example C60_past_case : interp_ok I1 /\ is_dist "flip"%string = true /\ ity vpc = TBool /\
  ((forall x, x = vpc \/ In x (map init_var [vx]) -> pok is_dist x (PWhile down_c down_b)) /\
   (forall x y, In x [vx] -> In y [vx] -> x <> init_var y) /\ simple cd_inv /\ simple down_c /\ (forall x, fv x cd_inv -> In x [vx]) /\
   (forall x, fv x down_c -> In x [vx]) /\ clean vpc cd_inv /\ is_exp cd_inv /\ (0 < 1 # 2)%Q) /\
  past_procs vpc [vx] [PWhile down_c down_b] cd_inv (1 # 2) 1 = Some (cd_c1, cd_c2, (cd_p3, cd_b3)) /\
  (forall s, env_ok s -> ele etop (wp_block I1 is_dist Least [SAssert Down cd_c2] (fun _ => etop) s)) /\
  (forall s, env_ok s -> ele (wp_block I1 is_dist Least cd_b3 (fun _ => ebot) s) (ev I1 cd_p3 s)).
Proof.
  split; [exact I1_ok|]. split; [reflexivity|]. split; [reflexivity|]. split; [exact cd_ok|]. split; [exact cd_procs|].
  split; [intros s; exact (cd_second I1 Least s I1_ok) | intros s; exact (cd_third I1 Least s I1_ok)].
Qed.

(** That [eps] is positive is not checked: with zero, all three procedures of [while (true) { skip }] verify. *)
Theorem C60_zero_refuted : exists I c b inv eps k c1 c2 p3 b3 s, interp_ok I /\ env_ok s /\ pok is_dist vpc (PWhile c b) /\ is_exp inv /\
  past_procs vpc [] [PWhile c b] inv eps k = Some (c1, c2, (p3, b3)) /\
  (forall s, env_ok s -> ele etop (wp_block I is_dist Least [SAssert Down c1] (fun _ => etop) s)) /\
  (forall s, env_ok s -> ele etop (wp_block I is_dist Least [SAssert Down c2] (fun _ => etop) s)) /\
  (forall s, env_ok s -> ele (wp_block I is_dist Least b3 (fun _ => ebot) s) (ev I p3 s)) /\
  ev I inv s <> etop /\ pgcl_iterations I c b s = etop.
Proof. exact past_zero. Qed.
Print Assumptions C60_zero_refuted.

(** What is checked: [eps] is less than [k], and the program has exactly one loop, without loops in it. *)
Theorem C60_rejects : forall pc vars l inv eps k, past_procs pc vars l inv eps k <> None ->
  (eps < k)%Q /\ exists l1 c b l2, l = l1 ++ PWhile c b :: l2 /\ (forall c' b', ~ In (PWhile c' b') (l1 ++ l2)) /\ list_sum (map loops b) = 0%nat.
Proof. exact past_rejects. Qed.
Print Assumptions C60_rejects.
Example C60_rejects_case : past_procs vpc [vx] (PSkip :: [PWhile down_c down_b]) cd_inv (1 # 2) 1 <> None.
Proof. discriminate. Qed.
