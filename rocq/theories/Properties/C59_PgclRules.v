(** C59: omega-invariants and bounded model checking for pGCL. *)
From Coq Require Import Bool List String NArith Reals.
From Verif.Model Require Import Syntax Builder Dist Pgcl PgclProc PgclOmega.
From Verif.Spec Require Import Eur Sem Wp Loops PgclSem PgclCost PgclProcSpec PgclWlp.
From Verif.Proofs Require Import PgclExamples PgclOmegaProofs PgclOmegaMain PgclOmegaExample PgclBmcProofs PgclLiberal PgclProcExample PgclWlpProofs PgclWlpExample.
Import ListNotations.
Local Open Scope list_scope.

(** If both procedures for an omega-invariant verify (wp or ert), each member of the sequence is a lower bound of what the loop
    yields, hence so is their supremum. *)
Theorem C59_omega_lower : forall I isd pc n kd k vars c b inv post p1 p2 b1 b2,
  interp_ok I -> isd "flip"%string = true -> ity pc = TBool -> ity n = TUInt ->
  (forall x, x = pc \/ x = n \/ In x (map init_var (vars ++ [n])) -> pok isd x (PWhile c b) /\ clean x post) ->
  (forall x y, In x (vars ++ [n]) -> In y (vars ++ [n]) -> x <> init_var y) ->
  simple inv -> (forall x, fv x inv -> In x (vars ++ [n])) -> clean pc inv ->
  omega_procs pc n k vars [PWhile c b] inv = Some ((p1, b1), (p2, b2)) ->
  (forall s, env_ok s -> dle (omega_dir k) (ev I p1 s) (wp_block I isd kd b1 (ev I post) s)) ->
  (forall s, env_ok s -> dle (omega_dir k) (ev I p2 s) (wp_block I isd kd b2 (ev I post) s)) ->
  k <> CWlp -> forall m s, env_ok s ->
  ele (ev I inv (upd s n (VUInt m))) ((match k with CErt => pwps | _ => pwps0 end) I Least [PWhile c b] (ev I post) s).
Proof. exact omega_lower. Qed.
Print Assumptions C59_omega_lower.

(** For wlp, each member is an upper bound of every expectation below one that the loop does not decrease, so of the greatest one. *)
Theorem C59_omega_upper : forall I isd pc n kd k vars c b inv post p1 p2 b1 b2,
  interp_ok I -> isd "flip"%string = true -> ity pc = TBool -> ity n = TUInt ->
  (forall x, x = pc \/ x = n \/ In x (map init_var (vars ++ [n])) -> pok isd x (PWhile c b) /\ clean x post) ->
  (forall x y, In x (vars ++ [n]) -> In y (vars ++ [n]) -> x <> init_var y) ->
  simple inv -> (forall x, fv x inv -> In x (vars ++ [n])) -> clean pc inv ->
  omega_procs pc n k vars [PWhile c b] inv = Some ((p1, b1), (p2, b2)) ->
  (forall s, env_ok s -> dle (omega_dir k) (ev I p1 s) (wp_block I isd kd b1 (ev I post) s)) ->
  (forall s, env_ok s -> dle (omega_dir k) (ev I p2 s) (wp_block I isd kd b2 (ev I post) s)) ->
  k = CWlp -> forall Y, free_of n Y -> (forall s, env_ok s -> ele (Y s) eone) ->
  (forall s, env_ok s -> ele (Y s) (if holds I c s then pwps0 I Greatest b Y s else ev I post s)) ->
  forall m s, env_ok s -> ele (Y s) (ev I inv (upd s n (VUInt m))).
Proof. exact omega_upper. Qed.
Print Assumptions C59_omega_upper.

(** Non-vacuity: counting down ends after [n] iterations if it starts with at most [n]. *)
Example C59_omega_case : interp_ok I1 /\ is_dist "flip"%string = true /\ ity vpc = TBool /\ ity vn = TUInt /\
  ((forall x, x = vpc \/ x = vn \/ In x (map init_var ([vx] ++ [vn])) -> pok is_dist x (PWhile down_c down_b) /\ clean x one) /\
   (forall x y, In x ([vx] ++ [vn]) -> In y ([vx] ++ [vn]) -> x <> init_var y) /\ simple down_inv /\
   (forall x, fv x down_inv -> In x ([vx] ++ [vn])) /\ clean vpc down_inv) /\
  omega_procs vpc vn CWp [vx] [PWhile down_c down_b] down_inv = Some ((down_p1, down_1), (down_p2, down_2)) /\
  (forall s, env_ok s -> ele (ev I1 down_p1 s) (wp_block I1 is_dist Least down_1 (ev I1 one) s) /\
                         ele (ev I1 down_p2 s) (wp_block I1 is_dist Least down_2 (ev I1 one) s)).
Proof.
  split; [exact I1_ok|]. split; [reflexivity|]. split; [reflexivity|]. split; [reflexivity|].
  split; [exact down_ok|]. split; [exact down_procs|]. exact (down_verified I1).
Qed.
(** For wlp: procedures that verify for the same loop, and an expectation that meets the conditions. *)
Example C59_omega_upper_case : omega_procs vpc vn CWlp [vx] [PWhile down_c down_b] one = Some ((one, down_3), (one, down_3)) /\
  (forall s, env_ok s -> dle Up (ev I1 one s) (wp_block I1 is_dist Least down_3 (ev I1 one) s)) /\
  free_of vn (ev I1 one) /\ (forall s, env_ok s -> ele (ev I1 one s) eone) /\
  (forall s, env_ok s -> ele (ev I1 one s) (if holds I1 down_c s then pwps0 I1 Greatest down_b (ev I1 one) s else ev I1 one s)).
Proof. exact down_wlp. Qed.

(** In a state in which the parameters have the values of the variables, the two bodies mean one iteration of the loop: before
    the end of the sequence, with ticks if and only if run-times are asked for, and before the member given. *)
Theorem C59_omega_meaning : forall I isd pc n kd k vars c b inv post p1 p2 b1 b2 s, interp_ok I -> isd "flip"%string = true -> ity pc = TBool ->
  pok isd pc (PWhile c b) -> clean pc inv -> omega_procs pc n k vars [PWhile c b] inv = Some ((p1, b1), (p2, b2)) ->
  env_ok s -> (forall x, In x (vars ++ [n]) -> s (init_var x) = s x) ->
  wp_block I isd kd b1 (ev I post) s =
    (if holds I c s then (match k with CErt => pwps | _ => pwps0 end) I kd b (fun _ => match k with CWlp => eone | _ => ebot end) s else ev I post s) /\
  wp_block I isd kd b2 (ev I post) s =
    (if holds I c s then (match k with CErt => pwps | _ => pwps0 end) I kd b (ev I inv) s else ev I post s).
Proof. exact omega_meaning. Qed.
Print Assumptions C59_omega_meaning.
Example C59_omega_meaning_case : pok is_dist vpc (PWhile down_c (PTick one :: down_b)) /\ clean vpc down_inv /\
  omega_procs vpc vn CErt [vx] [PWhile down_c (PTick one :: down_b)] down_inv <> None /\
  env_ok s1 /\ forall x, In x ([vx] ++ [vn]) -> s1 (init_var x) = s1 x.
Proof. exact meaning_case. Qed.

(** The instructions around the loop are ignored: the procedures verify, and the bound does not hold for the program. *)
Theorem C59_rest_refuted : exists I l vars inv post p1 b1 p2 b2 s, interp_ok I /\ env_ok s /\ All (pok is_dist vpc) l /\ All (pok is_dist vn) l /\
  omega_procs vpc vn CWp vars l inv = Some ((p1, b1), (p2, b2)) /\
  (forall s, env_ok s -> ele (ev I p1 s) (wp_block I is_dist Least b1 (ev I post) s)) /\
  (forall s, env_ok s -> ele (ev I p2 s) (wp_block I is_dist Least b2 (ev I post) s)) /\
  ~ ele (ev I inv (upd s vn (VUInt 0))) (pwps0 I Least l (ev I post) s).
Proof. exact rest_refuted. Qed.
Print Assumptions C59_rest_refuted.

(** For wlp the comment in the generated file claims a lower bound; the procedures do not prove it. *)
Theorem C59_text_refuted : exists I l inv post p1 b1 p2 b2 s, interp_ok I /\ env_ok s /\ All (pok is_dist vpc) l /\ All (pok is_dist vn) l /\
  omega_procs vpc vn CWlp [] l inv = Some ((p1, b1), (p2, b2)) /\
  (forall s, env_ok s -> dle Up (ev I p1 s) (wp_block I is_dist Greatest b1 (ev I post) s)) /\
  (forall s, env_ok s -> dle Up (ev I p2 s) (wp_block I is_dist Greatest b2 (ev I post) s)) /\
  ~ ele (ev I inv (upd s vn (VUInt 0))) (pwps0 I Greatest l (ev I post) s).
Proof. exact text_refuted. Qed.
Print Assumptions C59_text_refuted.

(** Programs without a loop and programs with several loops are rejected. *)
Theorem C59_one_loop : forall pc n k vars l inv, omega_procs pc n k vars l inv <> None ->
  exists l1 c b l2, l = l1 ++ PWhile c b :: l2 /\ forall c' b', ~ In (PWhile c' b') (l1 ++ l2).
Proof. exact one_loop. Qed.
Print Assumptions C59_one_loop.
Example C59_one_loop_case : omega_procs vpc vn CWp [vb] rest rest_inv <> None.
Proof. discriminate. Qed.

(** A loop inside the loop makes the translator fail. *)
Theorem C59_omega_nested : forall pc n k vars c b inv, list_sum (map loops b) <> 0%nat -> omega_procs pc n k vars [PWhile c b] inv = None.
Proof. exact omega_nested. Qed.
Print Assumptions C59_omega_nested.
Example C59_omega_nested_case : list_sum (map loops [PIf (EVar vb) [PWhile (EVar vb) []] []]) <> 0%nat.
Proof. discriminate. Qed.

(** Bounded model checking of upper bounds: if the procedure has a counterexample, the bound does not hold for the program in
    the state in which the variables have the values of the parameters. *)
Theorem C59_counterexample : forall I isd pc kd ert vars l pre post st pre' b st' s, interp_ok I -> isd "flip"%string = true -> ity pc = TBool ->
  All (pok isd pc) l -> Forall (good_annot pc) st -> clean pc post ->
  (forall x y, In x vars -> In y vars -> x <> init_var y) -> simple pre -> (forall x, fv x pre -> In x vars) ->
  bmc_proc pc Up ert vars l pre st = Some (pre', b, st') -> env_ok s ->
  ~ ele (wp_block I isd kd b (ev I post) s) (ev I pre' s) ->
  exists t, env_ok t /\ (forall x, In x vars -> t x = s (init_var x)) /\
    ~ ele ((if ert then pwps else pwps0) I Least l (ev I post) t) (ev I pre t).
Proof. exact bmc_refutes. Qed.
Print Assumptions C59_counterexample.
Example C59_counterexample_case : interp_ok I1 /\
  (All (pok is_dist vpc) stop /\ Forall (good_annot vpc) [(2%nat, one)] /\ clean vpc one /\
   (forall x y, In x [vb] -> In y [vb] -> x <> init_var y) /\ simple nought /\ (forall x, fv x nought -> In x [vb])) /\
  bmc_proc vpc Up false [vb] stop nought [(2%nat, one)] = Some (nought, stop_body, []) /\ env_ok s0 /\
  ~ ele (wp_block I1 is_dist Least stop_body (ev I1 one) s0) (ev I1 nought s0).
Proof. exact (conj I1_ok (conj stop_ok (conj stop_proc (conj s0_ok stop_fails)))). Qed.

(** Lower bounds for wlp: nothing checks that invariants are at most one, so that a bound above one may be verified, which
    no liberal pre-expectation has. *)
Theorem C59_wlp_refuted : exists I l vars inv b s, interp_ok I /\ env_ok s /\ All (pok is_dist vpc) l /\ good_annot vpc (1%nat, inv) /\
  k_ind_proc vpc Down false vars l inv [(1%nat, inv)] = Some (to_init inv, b, []) /\
  (forall s, env_ok s -> ele (ev I (to_init inv) s) (wp_block I is_dist Greatest b (ev I one) s)) /\
  ~ ele (ev I inv s) eone.
Proof. exact liberal_refuted. Qed.
Print Assumptions C59_wlp_refuted.

(** Lower bounds for wlp: if invariants and post-expectation are at most one and probabilities are probabilities, a verified
    procedure gives a lower bound of the weakest liberal pre-expectation, in every state in which the parameters have the
    values of the variables. *)
Theorem C59_wlp_lower : forall I isd pc kd vars l pre post st pre' b st', interp_ok I -> isd "flip"%string = true -> ity pc = TBool ->
  All (pok isd pc) l -> All (proper I) l -> Forall (fun a => good_annot pc a /\ forall s, env_ok s -> ele (ev I (snd a) s) eone) st ->
  clean pc post -> (forall s, env_ok s -> ele (ev I post s) eone) -> simple pre -> (forall x, fv x pre -> In x vars) ->
  k_ind_proc pc Down false vars l pre st = Some (pre', b, st') ->
  (forall s, env_ok s -> ele (ev I pre' s) (wp_block I isd kd b (ev I post) s)) ->
  forall s, env_ok s -> (forall x, In x vars -> s (init_var x) = s x) -> ele (ev I pre s) (pwlps I l (ev I post) s).
Proof. exact wlp_proc. Qed.
Print Assumptions C59_wlp_lower.
(** Non-vacuity: a coin is tossed until it shows heads. *)
Example C59_wlp_lower_case : interp_ok I1 /\ is_dist "flip"%string = true /\ ity vpc = TBool /\ All (pok is_dist vpc) toss /\ All (proper I1) toss /\
  Forall (fun a => good_annot vpc a /\ forall s, env_ok s -> ele (ev I1 (snd a) s) eone) [(1%nat, one)] /\ clean vpc one /\
  (forall s, env_ok s -> ele (ev I1 one s) eone) /\ simple one /\ (forall x, fv x one -> In x [vb]) /\
  k_ind_proc vpc Down false [vb] toss one [(1%nat, one)] = Some (one, lib_body, []) /\
  (forall s, env_ok s -> ele (ev I1 one s) (wp_block I1 is_dist Least lib_body (ev I1 one) s)) /\
  exists s, env_ok s /\ forall x, In x [vb] -> s (init_var x) = s x.
Proof. exact lib_case. Qed.
