(** Model of z3rro/src/prover.rs: a stack of assertions around an SMT solver.
    Formulas are an arbitrary type with a negation.  The solver is an oracle: it may answer the same question differently each
    time, so the number of questions asked so far is part of the state.  Not modelled: timeouts, statistics, SMT-LIB output,
    the model itself (only whether it is marked as consistent). *)
From Coq Require Import Bool List String.
From Verif.Model Require Import Syntax.
Import ListNotations.
Local Open Scope list_scope.

(** z3::SatResult *)
Inductive satres := Sat | Unsat | Unknown.
(** prover.rs 18-23; the reason of Unknown is not modelled *)
Inductive prove_result := Proof | Counterexample | ProveUnknown.
(** z3rro/src/model.rs: ModelConsistency, as far as [cache_result] makes them *)
Inductive consistency := Consistent | CUnknown.

Section Prover.
Variable F : Type.
Variable neg : F -> F.
(** [answer n asserted assumed]: the [n]-th question. *)
Variable answer : nat -> list F -> list F -> satres.

(** prover.rs 45-49.  The most recent level is the head.  [Native]: Z3's own levels; [Emulated]: what is asserted in the current
    Z3 solver, and the prover's copy of the levels. *)
Inductive stack_solver :=
| Native (levels : list (list F))
| Emulated (asserted : list F) (levels : list (list F)).

(** prover.rs 76-88 *)
Record prover := mkprover {
  solver : stack_solver;
  plevel : nat;
  min_level : option nat;
  last_result : option satres;
  questions : nat
}.

(** prover.rs 92-107 *)
Definition new_prover (emulated : bool) : prover :=
  mkprover (if emulated then Emulated [] [[]] else Native [[]]) 0 None None 0.

(** prover.rs 121-123 *)
Definition get_assertions (p : prover) : list F :=
  match solver p with Native ls => List.concat ls | Emulated a _ => a end.

Definition push_top (f : F) (ls : list (list F)) : res (list (list F)) :=
  match ls with top :: rest => Ok ((f :: top) :: rest) | [] => Panic "called Option::unwrap() on a None value" end.

(** prover.rs 132-143 *)
Definition add_assumption (f : F) (p : prover) : res prover :=
  let? s := match solver p with
            | Native ls => let? ls' := push_top f ls in Ok (Native ls')
            | Emulated a ls => let? ls' := push_top f ls in Ok (Emulated (f :: a) ls')
            end in
  Ok (mkprover s (plevel p) (min_level p) None (questions p)).

(** prover.rs 151-154 *)
Definition add_provable (f : F) (p : prover) : res prover :=
  let? p' := add_assumption (neg f) p in
  Ok (mkprover (solver p') (plevel p') (match min_level p' with Some l => Some l | None => Some (plevel p') end) (last_result p') (questions p')).

(** prover.rs 193-195 *)
Definition has_provables (p : prover) : bool := match min_level p with Some _ => true | None => false end.

(** prover.rs 208-218 *)
Definition ask (assumptions : list F) (p : prover) : satres * prover :=
  let r := answer (questions p) (get_assertions p) assumptions in
  (r, mkprover (solver p) (plevel p) (min_level p) (Some r) (S (questions p))).

(** prover.rs 163-187 *)
Definition check_proof_assuming (assumptions : list F) (p : prover) : prove_result * prover :=
  if negb (has_provables p) then (Proof, p)
  else
    let (r, p') := match last_result p, assumptions with
                   | Some r, [] => (r, p)
                   | _, _ => ask assumptions p
                   end in
    (match r with Unsat => Proof | Unknown => ProveUnknown | Sat => Counterexample end, p').
(** prover.rs 157-159 *)
Definition check_proof : prover -> prove_result * prover := check_proof_assuming [].

(** prover.rs 198-205 *)
Definition check_sat (p : prover) : satres * prover :=
  match last_result p with Some r => (r, p) | None => ask [] p end.

(** prover.rs 227-231: [None] if there is no model or Z3 has none *)
Definition model_consistency (p : prover) : option consistency :=
  match last_result p with Some Sat => Some Consistent | Some Unknown => Some CUnknown | _ => None end.

(** prover.rs 246-252 *)
Definition push (p : prover) : prover :=
  mkprover (match solver p with Native ls => Native ([] :: ls) | Emulated a ls => Emulated a ([] :: ls) end)
    (S (plevel p)) (min_level p) (last_result p) (questions p).

(** prover.rs 255-287 *)
Definition pop (p : prover) : res prover :=
  match plevel p with
  | O => Panic "cannot pop level 0"
  | S l =>
      let ml := match min_level p with Some m => if Nat.ltb l m then None else Some m | None => None end in
      match solver p with
      | Native [] => Panic "index out of bounds"
      | Native (_ :: ls) => Ok (mkprover (Native ls) l ml None (questions p))
      | Emulated _ [] => Panic "stack was empty, cannot call pop"
      | Emulated a (top :: ls) =>
          if negb (Nat.eqb (List.length ls) (S l)) then Panic "assertion failed"
          else match top with
               | [] => Ok (mkprover (Emulated a ls) l ml (last_result p) (questions p))
               | _ => Ok (mkprover (Emulated (List.concat ls) ls) l ml None (questions p))
               end
      end
  end.

(** What a user of the prover can do. *)
Inductive op := OPush | OPop | OAssume (f : F) | OProvable (f : F) | OCheckProof (assumptions : list F) | OCheckSat.
Definition step (o : op) (p : prover) : res prover :=
  match o with
  | OPush => Ok (push p)
  | OPop => pop p
  | OAssume f => add_assumption f p
  | OProvable f => add_provable f p
  | OCheckProof a => Ok (snd (check_proof_assuming a p))
  | OCheckSat => Ok (snd (check_sat p))
  end.
Fixpoint run (os : list op) (p : prover) : res prover :=
  match os with [] => Ok p | o :: os' => let? p' := step o p in run os' p' end.
End Prover.

Arguments OPush {F}. Arguments OPop {F}. Arguments OAssume {F}. Arguments OProvable {F}. Arguments OCheckProof {F}. Arguments OCheckSat {F}.
