(** C38: replacing annotated loops leaves no loop and no proof rule behind. *)
From Coq Require Import Bool List String NArith.
From Verif.Model Require Import Syntax Builder TyCtx ProofRules Procs LoopProcs Encode VcGen.
From Verif.Spec Require Import Eur Sem Wp Annotated.
From Verif.Proofs Require Import EncodeProofs EncodeExamples.
Import ListNotations.
Local Open Scope nat_scope.

(** No proof rule is left in the procedure or in the procedures generated for side conditions ... *)
Theorem C38_no_rule : forall variant cspan dspan n T p b' v, encode_proc variant cspan dspan n T p = Ok (Some b', v) ->
  All (every not_rule) b' /\ Forall (fun q => match pbody q with Some b => All (every not_rule) b | None => True end) (v_new v).
Proof. exact encode_no_rule. Qed.
Print Assumptions C38_no_rule.
(** ... and no loop, if every loop had a rule. *)
Theorem C38_no_loop : forall variant cspan dspan n T p b b' v, pbody p = Some b -> All annotated b ->
  encode_proc variant cspan dspan n T p = Ok (Some b', v) ->
  All (every not_while) b' /\ Forall (fun q => match pbody q with Some b => All (every not_while) b | None => True end) (v_new v).
Proof. exact encode_no_loop. Qed.
Print Assumptions C38_no_loop.
(** A loop without a rule stays where it is and is reported when the verification condition is generated. *)
Theorem C38_bare_loop_kept : forall variant cspan dspan n T p b b' v, pbody p = Some b -> All (every not_rule) b ->
  encode_proc variant cspan dspan n T p = Ok (Some b', v) -> b' = b /\ v_new v = [] /\ v_tcx v = T.
Proof. exact encode_unchanged. Qed.
Print Assumptions C38_bare_loop_kept.
Theorem C38_bare_loop_stays_loop : forall variant cspan dspan n ctx nest c b v s' v',
  visit variant cspan dspan n ctx nest (SWhile c b) v = Ok (s', v') -> exists b', s' = SWhile c b'.
Proof. exact bare_loop_kept. Qed.
Print Assumptions C38_bare_loop_stays_loop.
Theorem C38_loops_reported : forall C b, (forall a, is_rule a = true -> C a <> Some DSlicingAnn) ->
  forall post e, vcgen_block C b post = Ok e -> All (every not_while) b /\ All (every not_rule) b.
Proof. exact vcgen_block_accepts. Qed.
Print Assumptions C38_loops_reported.
(** Loops are encoded inside-out: a rule is applied to the loop whose body is already encoded. *)
Theorem C38_inside_out : forall variant cspan dspan n ctx nest name args c b v s' v',
  is_rule name = true -> visit variant cspan dspan n ctx nest (SAnn name args (SWhile c b)) v = Ok (s', v') ->
  exists m e base d b1 v1 g T2, ctx = Some (base, d) /\ enc_of name = Some e /\
    visit_block variant cspan dspan m ctx (S nest) b v = Ok (b1, v1) /\
    transform variant cspan dspan e (v_tcx v1) base d args c b1 = Ok (g, T2) /\ s' = SSeq (fst g) /\
    v_new v' = v_new v1 ++ snd g /\ v_tcx v' = T2.
Proof. exact inside_out. Qed.
Print Assumptions C38_inside_out.
(** The visitor terminates although it also visits what it generated: with enough fuel the result no longer changes. *)
Theorem C38_terminates : forall variant cspan dspan b ctx nest v,
  exists N r, r <> Panic "visitor fuel" /\ forall n, N <= n -> visit_block variant cspan dspan n ctx nest b v = r.
Proof. exact visit_block_ends. Qed.
Print Assumptions C38_terminates.
(** The rule @ost, whose encoding replaces the specification, is only accepted on the last statement of a procedure. *)
Theorem C38_ost_is_last : forall variant cspan dspan n T p b b' v, pbody p = Some b -> All annotated b ->
  encode_proc variant cspan dspan n T p = Ok (Some b', v) -> All (every not_ost) b \/
  exists b1 args c body, b = b1 ++ [SAnn "ost" args (SWhile c body)] /\ All (every not_ost) b1 /\ All (every not_ost) body.
Proof. exact encode_ost. Qed.
Print Assumptions C38_ost_is_last.

(** A procedure with nested rules, one of which generates procedures, is encoded. *)
Example C38_example : All annotated enc_body /\ exists b' v, encode_proc (fun n => n + 10) (fun _ => 5) (fun _ => 6) 9 enc_tcx (enc_proc enc_body) = Ok (Some b', v) /\
  List.length (v_new v) = 3.
Proof. exact enc_example. Qed.
