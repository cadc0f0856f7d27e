(** Models of src/slicing/util.rs (SubsetExploration) and of the search for verifying slices in src/slicing/solver.rs. *)
From Coq Require Import Bool List String Arith.
From Verif.Model Require Import Syntax Prover SliceSearch.
Import ListNotations.
Local Open Scope list_scope.
Local Open Scope nat_scope.

(** Slice variables are numbers, an [IndexSet] is a list without repetition, and an assertion of the exploration's solver is a
    condition on assignments. *)
Definition vset := list nat.
Definition assignment := nat -> bool.
Definition constraint := assignment -> bool.

Definition diff (a b : vset) : vset := filter (fun v => negb (mem v b)) a.
Definition inter (a b : vset) : vset := filter (fun v => mem v b) a.
Definition subset (a b : vset) : bool := forallb (fun v => mem v b) a.

(** util.rs 149-171 *)
Record exploration := mkexp { asserted : list constraint; variables : vset; extensive : vset; reductive : vset }.
Definition new_exploration (v e r : vset) : exploration := mkexp [] v e r.
Definition assert_c (x : exploration) (c : constraint) : exploration := mkexp (c :: asserted x) (variables x) (extensive x) (reductive x).

(** The exploration's solver: no model, no answer, or a partial model. *)
Inductive pick := PNone | PUnknown | PModel (m : nat -> option bool).

(** util.rs 180-199 *)
Definition next_set (p : pick) (x : exploration) : res (option vset) :=
  match p with
  | PNone => Ok None
  | PUnknown => Panic "solver returned unknown"
  | PModel m => Ok (Some (filter (fun v => match m v with Some b => b | None => true end) (variables x)))
  end.

(** util.rs 202-206; the conversion of the size to 32 bits is not modelled *)
Definition block_at_least (size : nat) (x : exploration) : exploration :=
  assert_c x (fun s => negb (size <=? List.length (filter s (variables x)))).
(** util.rs 209-216 *)
Definition block_non_subset (set : vset) (x : exploration) : exploration :=
  assert_c x (fun s => forallb (fun v => negb (s v)) (diff (variables x) set)).
(** util.rs 220-229 *)
Definition block (all_on all_off : vset) (x : exploration) : exploration :=
  assert_c x (fun s => negb (forallb s all_on && forallb (fun v => negb (s v)) all_off)).
(** util.rs 234-243 *)
Definition block_this (set : vset) (x : exploration) : exploration :=
  block (inter (variables x) set) (diff (variables x) set) x.
(** util.rs 255-275 *)
Definition block_unsat (all_true : vset) (x : exploration) : exploration :=
  let all_false := diff (variables x) all_true in
  block (diff all_true (reductive x)) (diff all_false (extensive x)) x.
(** util.rs 288-309 *)
Definition block_sat (all_true : vset) (x : exploration) : exploration :=
  let all_false := diff (variables x) all_true in
  block (diff all_true (extensive x)) (diff all_false (reductive x)) x.

Definition remove (v : nat) (s : vset) : vset := filter (fun w => negb (Nat.eqb v w)) s.
Definition insert (v : nat) (s : vset) : vset := if mem v s then s else s ++ [v].

Section Solver.
(** The prover: the answer to the [k]-th question whether the slice with exactly these statements verifies, and the unsat core, restricted to
    the slice variables (solver.rs 650-684). *)
Variable check : nat -> vset -> prove_result.
Variable core : nat -> vset -> vset.

(** util.rs 347-364 and 371-389 (the same code twice) *)
Definition use_core (x : exploration) (current shrunk : vset) : res vset :=
  if negb (subset shrunk current) then Panic "assertion failed: shrunk_set.is_subset(&current)"
  else Ok (match diff (diff current shrunk) (extensive x) with [] => shrunk | _ => current end).
(** solver.rs 604-611 *)
Definition get_core (k : nat) (s : vset) : option vset := match check k s with Proof => Some (core k s) | _ => None end.

(** util.rs 366-394 *)
Fixpoint shrink_loop (x : exploration) (todo : vset) (current : vset) (k : nat) : res (vset * nat) :=
  match todo with
  | [] => Ok (current, k)
  | v :: todo =>
      if mem v current then
        let removed := remove v current in
        match get_core k removed with
        | Some c => let? cur := use_core x removed c in shrink_loop x todo cur (S k)
        | None => shrink_loop x todo (insert v removed) (S k)
        end
      else shrink_loop x todo current k
  end.
(** util.rs 330-398 *)
Definition shrink_block_unsat (x : exploration) (all_true : vset) (k : nat) : res (vset * nat * exploration) :=
  let? cur := match get_core k all_true with Some c => use_core x all_true c | None => Ok all_true end in
  let? r := shrink_loop x (inter all_true (extensive x)) cur (S k) in
  Ok (fst r, snd r, block_unsat (fst r) x).

(** util.rs 419-436 *)
Fixpoint grow_loop (todo : vset) (current : vset) (k : nat) : vset * nat :=
  match todo with
  | [] => (current, k)
  | v :: todo =>
      match check k (insert v current) with
      | Counterexample => grow_loop todo (insert v current) (S k)
      | _ => grow_loop todo (remove v (insert v current)) (S k)
      end
  end.
Definition grow_block_sat (x : exploration) (all_true : vset) (k : nat) : vset * nat * exploration :=
  let (cur, k') := grow_loop (diff (extensive x) all_true) all_true k in (cur, k', block_sat cur x).

(** solver.rs 415-437 (found_active, without statistics) *)
Definition found_active (best : option vset) (s : vset) : option vset :=
  match best with Some b => if List.length s <? List.length b then Some s else best | None => Some s end.

Variables (minl : minimality) (unk : unknown_handling).
(** The solver of the exploration, asked for the [j]-th time. *)
Variable picks : nat -> list constraint -> pick.

(** solver.rs 588-646.  The time limit is not modelled. *)
Fixpoint unsat_search (fuel : nat) (x : exploration) (best : option vset) (j k : nat) : res (option vset) :=
  match fuel with
  | O => Panic "fuel"
  | S fuel =>
      let? seed := next_set (picks j (asserted x)) x in
      match seed with
      | None => Ok best
      | Some seed =>
          match check k seed with
          | Proof =>
              let? r := shrink_block_unsat x seed (S k) in
              let '(s, k', x') := r in
              let best := found_active best s in
              match minl with
              | AnySlice => Ok best
              | SubsetMinimal => unsat_search fuel (block_non_subset s x') best (S j) k'
              | SizeMinimal => unsat_search fuel (block_at_least (List.length s) x') best (S j) k'
              end
          | Counterexample =>
              let '(_, k', x') := grow_block_sat x seed (S k) in unsat_search fuel x' best (S j) k'
          | ProveUnknown =>
              let x' := block_this seed x in
              match unk with
              | Continue => unsat_search fuel x' best (S j) (S k)
              | Stop => Ok best
              | Accept => Panic "UnknownHandling::Accept is not sensible to find verifying slices"
              end
          end
      end
  end.
End Solver.

(** selection.rs 136-147: the parts of a selection that [enables] looks at, 187-192 *)
Record selection := mksel { concordant : bool; discordant : bool; in_verify : bool; in_error : bool }.
Definition enables (a b : selection) : bool :=
  (concordant a && concordant b) || (discordant a && discordant b) || (in_verify a && in_verify b) || (in_error a && in_error b).
(** selection.rs 157-185 *)
Definition verified_selection : selection := mksel true false true false.
Definition failure_selection : selection := mksel false true false true.

(** solver.rs 117-128, 269-303: statement [i] has variable [i] *)
Definition with_flag (f : selection -> bool) (stmts : list selection) : vset :=
  map fst (filter (fun p => f (snd p)) (combine (seq 0 (List.length stmts)) stmts)).
Definition enumerate_start (stmts : list selection) : exploration :=
  new_exploration (with_flag (enables verified_selection) stmts) (with_flag concordant stmts) (with_flag discordant stmts).
