(** C25: exploring the subsets of statements for slices that verify. *)
From Coq Require Import List String Arith.
From Verif.Model Require Import Syntax Prover SliceSearch Subsets.
From Verif.Spec Require Import SubsetSpec.
From Verif.Proofs Require Import SubsetProofs SubsetVerdict SubsetExamples.
Import ListNotations.

(** Exactly the sets reached by adding extensive and removing reductive statements (or the other way round) are blocked. *)
Theorem C25_block_unsat : forall x s a, satisfies (fun v => mem v a) (asserted (block_unsat s x)) <->
  satisfies (fun v => mem v a) (asserted x) /\
  ~ ((forall v, In v s -> ~ In v (reductive x) -> In v a) /\ (forall v, In v a -> In v (variables x) -> ~ In v s -> In v (extensive x))).
Proof. exact block_unsat_iff. Qed.
Print Assumptions C25_block_unsat.
Theorem C25_block_sat : forall x s a, satisfies (fun v => mem v a) (asserted (block_sat s x)) <->
  satisfies (fun v => mem v a) (asserted x) /\
  ~ ((forall v, In v s -> ~ In v (extensive x) -> In v a) /\ (forall v, In v a -> In v (variables x) -> ~ In v s -> In v (reductive x))).
Proof. exact block_sat_iff. Qed.
Print Assumptions C25_block_sat.
(** The exploration that the code starts with. *)
Theorem C25_start : forall stmts, NoDup (variables (enumerate_start stmts)) /\ incl (extensive (enumerate_start stmts)) (variables (enumerate_start stmts)).
Proof. exact start_ok. Qed.
Print Assumptions C25_start.
(** The search never panics, ends after at most as many rounds as there are sets, and what it returns verifies, also with unknown answers. *)
Theorem C25_sound : forall vars ext red (proof : vset -> Prop) check core minl unk picks,
  NoDup vars -> incl ext vars -> extensional proof -> monotone_in vars ext red proof ->
  right_answer proof check -> right_core proof check core -> right_picks vars picks ->
  forall fuel, 2 ^ List.length vars < fuel -> (unk = Accept -> forall k s, check k s <> ProveUnknown) ->
  exists r, unsat_search check core minl unk picks fuel (new_exploration vars ext red) None 0 0 = Ok r /\
    match r with Some s => incl s vars /\ NoDup s /\ proof s | None => True end.
Proof. exact enumerate_sound. Qed.
Print Assumptions C25_sound.
(** With definite answers, some slice is found if there is any. *)
Theorem C25_complete : forall vars ext red (proof : vset -> Prop) check core minl unk picks,
  NoDup vars -> incl ext vars -> extensional proof -> monotone_in vars ext red proof ->
  right_answer proof check -> right_core proof check core -> right_picks vars picks ->
  forall fuel, 2 ^ List.length vars < fuel -> (forall k s, check k s <> ProveUnknown) -> (exists a, incl a vars /\ proof a) ->
  unsat_search check core minl unk picks fuel (new_exploration vars ext red) None 0 0 <> Ok None.
Proof. exact enumerate_complete. Qed.
Print Assumptions C25_complete.
(** With definite answers and without reductive candidates, the slice is as small as asked for. *)
Theorem C25_minimal : forall vars ext red (proof : vset -> Prop) check core minl unk picks,
  NoDup vars -> incl ext vars -> extensional proof -> monotone_in vars ext red proof ->
  right_answer proof check -> right_core proof check core -> right_picks vars picks ->
  forall fuel s, 2 ^ List.length vars < fuel -> (forall k s, check k s <> ProveUnknown) -> (forall v, In v vars -> ~ In v red) ->
  unsat_search check core minl unk picks fuel (new_exploration vars ext red) None 0 0 = Ok (Some s) ->
  match minl with
  | AnySlice => True
  | SubsetMinimal => forall a, incl a s -> proof a -> incl s a
  | SizeMinimal => forall a, incl a vars -> NoDup a -> proof a -> List.length s <= List.length a
  end.
Proof. exact enumerate_minimal. Qed.
Print Assumptions C25_minimal.
Example C25_case : exists vars ext red, enumerate_start ex_stmts = new_exploration vars ext red /\ extensional ex_proof /\ monotone_in vars ext red ex_proof /\
  right_answer ex_proof ex_check /\ right_core ex_proof ex_check (fun _ s => nodup Nat.eq_dec s) /\ right_picks vars (brute vars) /\
  unsat_search ex_check (fun _ s => nodup Nat.eq_dec s) SubsetMinimal Continue (brute vars) (S (S (2 ^ List.length vars))) (enumerate_start ex_stmts) None 0 0 = Ok (Some [2; 1]).
Proof. exact ex_case. Qed.

(** Reductive candidates are never removed, so the slice need not be minimal. *)
Theorem C25_reductive_refuted : exists stmts vars ext red proof check core s, enumerate_start stmts = new_exploration vars ext red /\
  extensional proof /\ monotone_in vars ext red proof /\ right_answer proof check /\ right_core proof check core /\ (forall k s, check k s <> ProveUnknown) /\
  unsat_search check core SizeMinimal Continue (brute vars) (S (S (2 ^ List.length vars))) (enumerate_start stmts) None 0 0 = Ok (Some s) /\
  ~ minimal_subset vars proof s /\ ~ smallest vars proof s.
Proof. exact not_minimal. Qed.
Print Assumptions C25_reductive_refuted.
