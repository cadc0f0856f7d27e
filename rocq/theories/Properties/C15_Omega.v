(** C15: omega-invariants bound the loop. *)
From Coq Require Import Bool List String NArith QArith.
From Verif.Model Require Import Syntax Builder AstUtil ProofRules.
From Verif.Spec Require Import Eur Sem Wp Frame Loops.
From Verif.Proofs Require Import WpLemmas LoopProofs UnrollProofs OmegaProofs.
Import ListNotations.

(** Down: if the encoding is positive in every state that the loop can reach from [s] by changing the
    variables it writes, then it is a lower bound of the least fixpoint in [s].
    Missing: the code checks the conditions only in the state in front of the loop, see below. *)
Theorem C15_omega_down_partial : forall I isd isf k c body X, interp_ok I ->
  All (wts isd isf) body -> All (every not_negate) body -> forall d n inv, ity n = TUInt ->
  unread (fun x => x = n) c -> scoped_block (fun x => x = n) body -> blind (fun x => x = n) X -> ~ writes_block n body ->
  forall b s, is_exp inv -> d = Down -> omega_transform [EVar n; inv] c body d = Ok b -> env_ok s ->
  (forall t, only_changes (fun x => writes_block x body) s t -> wp_block I isd k b X t <> ebot) ->
  ele (wp_block I isd k b X s) (lfp (Phi I isd k c body X) s).
Proof. exact omega_sound_down. Qed.
Print Assumptions C15_omega_down_partial.

(** Both directions, with the documented conditions I_0 <= Phi(0) and I_(n+1) <= Phi(I_n) (for Up: I_0 >= Phi(oo),
    I_(n+1) >= Phi(I_n)) holding in every reachable state. *)
Theorem C15_omega_rule_partial : forall I isd isf k c body X, interp_ok I ->
  All (wts isd isf) body -> All (every not_negate) body -> forall d n inv, ity n = TUInt ->
  unread (fun x => x = n) c -> scoped_block (fun x => x = n) body -> blind (fun x => x = n) X -> ~ writes_block n body ->
  forall b s, is_exp inv -> omega_transform [EVar n; inv] c body d = Ok b -> env_ok s ->
  let F := Phi I isd k c body X in
  (forall t, only_changes (fun x => writes_block x body) s t ->
     dle d (ev I inv (upd t n (VUInt 0))) (F (fun _ => match d with Down => ebot | Up => etop end) t) /\
     forall m, dle d (ev I inv (upd t n (VUInt (m + 1)))) (F (ev I inv) (upd t n (VUInt m)))) ->
  dle d (wp_block I isd k b X s) (match d with Down => lfp F s | Up => gfp F s end).
Proof. exact omega_rule. Qed.
Print Assumptions C15_omega_rule_partial.

(** The conditions are not checked after a change of the program variables. *)
Theorem C15_omega_no_havoc_refuted : exists c body inv b, omega_transform [EVar nn; inv] c body Down = Ok b /\
  is_guard c /\ is_exp inv /\ (forall isd isf, All (wts isd isf) body) /\ All (every not_negate) body /\
  a_under (unroll_approx (omega_default Down) EXACT) = true /\
  forall I isd k X s, interp_ok I -> env_ok s -> s xb = VBool false -> blind (fun x => x = nn) X ->
    wp_block I isd k b X s = eone /\ lfp (Phi I isd k c body X) s = ebot.
Proof. exact omega_refuted. Qed.
Print Assumptions C15_omega_no_havoc_refuted.

(** In a coproc the first condition starts from 0, so that [while true {}] gets the upper bound 0 of infinity. *)
Theorem C15_omega_up_refuted : exists inv b, omega_transform [EVar nn; inv] tt_e [] Up = Ok b /\ is_exp inv /\
  a_over (unroll_approx (omega_default Up) EXACT) = true /\
  forall I isd k X s, interp_ok I -> env_ok s ->
    wp_block I isd k b X s = ebot /\ gfp (Phi I isd k tt_e [] X) s = etop.
Proof. exact omega_up_refuted. Qed.
Print Assumptions C15_omega_up_refuted.

(** while 0 < x { x = x - 1 } with post 1: the sequence ite(x < n, 1, 0) has the required shape and scoping *)
Definition c15_x := mkid "x" 0 TUInt.
Definition c15_n := mkid "n" 1 TUInt.
Definition c15_body : list stmt := [SAssign [c15_x] (EBin TUInt OSub (EVar c15_x) (ELit TUInt (LUInt 1%N)))].
Definition c15_c : expr := EBin TBool OLt (ELit TUInt (LUInt 0%N)) (EVar c15_x).
Definition c15_inv : expr := EUn TEUReal OIverson (EBin TBool OLt (EVar c15_x) (EVar c15_n)).
Example C15_nonvacuous : forall I isd k, interp_ok I ->
  let post := ECast TEUReal (ELit TUInt (LUInt 1%N)) in let F := Phi I isd k c15_c c15_body (ev I post) in
  All (wts isd (fun _ => false)) c15_body /\ is_exp c15_inv /\ unread (fun x => x = c15_n) c15_c /\
  scoped_block (fun x => x = c15_n) c15_body /\ blind (fun x => x = c15_n) (ev I post) /\ ~ writes_block c15_n c15_body /\
  forall t, env_ok t ->
    dle Down (ev I c15_inv (upd t c15_n (VUInt 0))) (F (fun _ => ebot) t) /\
    forall m, dle Down (ev I c15_inv (upd t c15_n (VUInt (m + 1)))) (F (ev I c15_inv) (upd t c15_n (VUInt m))).
Proof. exact omega_example. Qed.
