(** Models of src/slicing/util.rs (PartialMinimizer) and of the search for an error slice in src/slicing/solver.rs, which is also the
    main call of the SMT solver for every verification task (src/driver/smt_proof.rs 342-362). *)
From Coq Require Import Bool List String Arith.
From Verif.Model Require Import Syntax Prover.
Import ListNotations.
Local Open Scope list_scope.
Local Open Scope nat_scope.

(** util.rs 13-17 *)
Inductive trial_result := AcceptUpwards | RejectDownwards | TrialUnknown.

(** util.rs 33-38; the range is [lo..=hi] *)
Record minimizer := mkmin { lo : nat; hi : nat; max_reject : option nat; min_accept : option nat; unknowns : list nat }.
(** util.rs 42-49 *)
Definition new_min (a b : nat) : minimizer := mkmin a b None None [].

Definition mem (n : nat) (l : list nat) : bool := existsb (Nat.eqb n) l.

(** util.rs 53-79; the debug assertion is modelled as a panic *)
Definition add_result (m : minimizer) (n : nat) (r : trial_result) : res minimizer :=
  if negb ((lo m <=? n) && (n <=? hi m)) then Panic "assertion failed"
  else match r with
       | RejectDownwards =>
           let x := match max_reject m with Some y => Nat.max y n | None => n end in
           match min_accept m with
           | Some a => if x <? a then Ok (mkmin (lo m) (hi m) (Some x) (min_accept m) (unknowns m)) else Panic "assertion failed: max_reject < min_accept"
           | None => Ok (mkmin (lo m) (hi m) (Some x) (min_accept m) (unknowns m))
           end
       | AcceptUpwards =>
           let x := match min_accept m with Some y => Nat.min y n | None => n end in
           match max_reject m with
           | Some r => if r <? x then Ok (mkmin (lo m) (hi m) (max_reject m) (Some x) (unknowns m)) else Panic "assertion failed: max_reject < min_accept"
           | None => Ok (mkmin (lo m) (hi m) (max_reject m) (Some x) (unknowns m))
           end
       | TrialUnknown =>
           if mem n (unknowns m) then Panic "assertion failed" else Ok (mkmin (lo m) (hi m) (max_reject m) (min_accept m) (n :: unknowns m))
       end.

(** util.rs 117-123 *)
Definition exclude_to (r : nat * nat) (v : nat) : nat * nat := (Nat.max (fst r) (v + 1), snd r).
(** util.rs 125-136 *)
Definition exclude_from (r : nat * nat) (v : nat) : nat * nat :=
  match v with O => (1, 0) | S v' => (fst r, Nat.min (snd r) v') end.
Definition range_list (a b : nat) : list nat := seq a (S b - a).
(** util.rs 138-146.  [usize] additions do not overflow: the bounds are numbers of statements. *)
Definition from_mid (r : nat * nat) : list nat :=
  let (a, b) := r in
  if b - a <=? 1 then range_list a b
  else let mid := Nat.div2 (a + b) in range_list mid b ++ seq a (b - a).

(** util.rs 83-101 *)
Definition next_trial (m : minimizer) : option nat :=
  let r := (lo m, hi m) in
  let r := match max_reject m with Some i => exclude_to r i | None => r end in
  let r := match min_accept m with Some i => exclude_from r i | None => r end in
  if ((fst r <=? hi m) && (hi m <=? snd r)) && negb (mem (hi m) (unknowns m)) then Some (hi m)
  else find (fun i => negb (mem i (unknowns m))) (from_mid r).

(** solver.rs 34-53 *)
Inductive minimality := AnySlice | SubsetMinimal | SizeMinimal.
Inductive unknown_handling := Continue | Stop | Accept.

Section Search.
Variables (minl : minimality) (unk : unknown_handling).
(** The solver: the answer to the [k]-th question "is there a counterexample with at most [n] statements?", and the number of statements
    in the model it has, if any.  The real question also contains the program; this is fixed during the search. *)
Variable check : nat -> nat -> satres.
Variable model : nat -> nat -> option nat.

(** prover.rs 227-231: no model after Unsat *)
Definition the_model (k n : nat) : option nat := match check k n with Unsat => None | _ => model k n end.

(** solver.rs 462-586.  [cur]: cur_solver_n; [last]: the most recent question (number and bound).  The time limit can end the search
    at any point with an error, which is not modelled. *)
Fixpoint search (fuel : nat) (m : minimizer) (cur : option nat) (k : nat) (last : option (nat * nat)) : res (minimizer * option nat * nat * option (nat * nat)) :=
  match fuel with
  | O => Panic "fuel"
  | S fuel' =>
      match next_trial m with
      | None => Ok (m, cur, k, last)
      | Some n =>
          let r := check k n in
          let take := match the_model k n with
                      | Some a => if match r with Sat => true | _ => match unk with Accept => true | _ => false end end then Some a else None
                      | None => None
                      end in
          match take with
          | Some a =>
              if n <? a then Panic "assertion failed: num_actually_true <= n"
              else let? m' := add_result m a AcceptUpwards in
                   match minl with
                   | AnySlice => Ok (m', Some a, S k, Some (k, n))
                   | _ => match r, unk with
                          | Unsat, _ | Unknown, Stop => let? m'' := add_result m' n RejectDownwards in search fuel' m'' (Some a) (S k) (Some (k, n))
                          | _, _ => search fuel' m' (Some a) (S k) (Some (k, n))
                          end
                   end
          | None =>
              let choice := match r, unk with Unsat, _ | Unknown, Stop => RejectDownwards | _, _ => TrialUnknown end in
              let? m' := add_result m n choice in
              search fuel' m' (Some n) (S k) (Some (k, n))
          end
      end
  end.

(** solver.rs 554-583 *)
Definition enabled (m : minimizer) : nat :=
  match min_accept m with Some a => a | None => match max_reject m with Some r => r | None => hi m end end.
Definition satb (a b : satres) : bool := match a, b with Sat, Sat | Unsat, Unsat | Unknown, Unknown => true | _, _ => false end.
Definition reset (vars : nat) (st : minimizer * option nat * nat * option (nat * nat)) : res (option (nat * nat)) :=
  let '(m, cur, k, last) := st in
  match cur with
  | None => Ok last
  | Some c =>
      if c =? enabled m then Ok last
      else
        let r := check k (enabled m) in
        let bad := match min_accept m, max_reject m with
                   | Some _, _ => satb r Unsat
                   | None, Some _ => negb (satb r Unsat)
                   | None, None => negb (vars =? 0) && negb (satb r Unknown)
                   end in
        if bad then Panic "assertion failed" else Ok (Some (k, enabled m))
  end.
(** solver.rs 462-586: the whole search for [vars] statements; what remains in the solver is its last question. *)
Definition sat_binary_search (vars : nat) : res (option (nat * nat)) :=
  let? st := search (S (S vars)) (new_min 0 vars) None 0 None in reset vars st.

(** solver.rs 335-371: the verdict and the size of the slice.  There is an obligation (smt_proof.rs 448). The result of the last check is
    cached by the prover, so [check_proof] does not ask again. *)
Definition slice_failing (vars : nat) : res (prove_result * option nat) :=
  let? last := sat_binary_search vars in
  match last with
  | None => Panic "no question was asked"
  | Some (k, n) => Ok (match check k n with Unsat => Proof | Sat => Counterexample | Unknown => ProveUnknown end, the_model k n)
  end.
End Search.
