(** Model of src/ast/shared.rs: expressions as nodes with shared, copy-on-write children.

    Everywhere else in this model an expression is a tree.  Here it is an address in a heap of
    counted cells.  A cell has a label (of type [L]: the kind, operator, names, type and span of
    src/ast/expr.rs) and the addresses of its children in the order of [walk_expr]
    (src/ast/visit.rs 173-213).  Rc has a strong count only, since no weak pointers are made.
    Simplified: addresses are never used again; while a child is visited mutably, it is taken out
    of its parent and put back afterwards; allocation does not fail. *)
From Coq Require Import List String Arith.
From Verif.Model Require Import Syntax.
Import ListNotations.
Local Open Scope string_scope.
Local Open Scope list_scope.

Section Heap.
Context {L : Type}.
Record cell := mkcell { strong : nat; lab : L; kids : list nat }.
Definition heap := list (option cell).
Definition get (h : heap) (a : nat) : option cell := nth a h None.
Fixpoint put (h : heap) (a : nat) (c : option cell) : heap :=
  match h, a with
  | [], _ => []
  | _ :: h, O => c :: h
  | x :: h, S a => x :: put h a c
  end.
Definition live (a : nat) (h : heap) : res cell := match get h a with Some c => Ok c | None => Panic "use after free" end.

(** Shared::new, 15-18 *)
Definition h_new (d : L) (ks : list nat) (h : heap) : nat * heap := (List.length h, h ++ [Some (mkcell 1 d ks)]).
(** clone, 35-39 *)
Definition h_clone (a : nat) (h : heap) : res heap :=
  let? c := live a h in Ok (put h a (Some (mkcell (S (strong c)) (lab c) (kids c)))).
Fixpoint h_clones (l : list nat) (h : heap) : res heap :=
  match l with [] => Ok h | a :: l => let? h := h_clone a h in h_clones l h end.
(** Dropping an Rc: the last owner frees the cell and drops its children. *)
Definition total (h : heap) : nat := list_sum (map (fun o => match o with Some c => strong c | None => 0 end) h).
Fixpoint h_drops (fuel : nat) (l : list nat) (h : heap) : res heap :=
  match l, fuel with
  | [], _ => Ok h
  | _ :: _, O => Panic "out of fuel"
  | a :: l, S fuel =>
      let? c := live a h in
      if Nat.leb (strong c) 1 then h_drops fuel (kids c ++ l) (put h a None)
      else h_drops fuel l (put h a (Some (mkcell (strong c - 1) (lab c) (kids c))))
  end.
Definition h_drop (a : nat) (h : heap) : res heap := h_drops (total h) [a] h.
(** deref_mut, 49-58: Rc::make_mut.  The clone of the data clones the children; the count of the
    original was more than one, so nothing is freed. *)
Definition make_mut (a : nat) (h : heap) : res (nat * heap) :=
  let? c := live a h in
  if Nat.eqb (strong c) 1 then Ok (a, h)
  else
    let? h := h_clones (kids c) h in
    let? c' := live a h in
    let h := put h a (Some (mkcell (strong c' - 1) (lab c') (kids c'))) in
    Ok (h_new (lab c) (kids c) h).
(** ref_count, 20-22 *)
Definition ref_count (a : nat) (h : heap) : res nat := let? c := live a h in Ok (strong c).

Definition set_kids (a : nat) (ks : list nat) (h : heap) : res heap :=
  let? c := live a h in Ok (put h a (Some (mkcell (strong c) (lab c) ks))).
Definition set_label (a : nat) (d : L) (h : heap) : res heap :=
  let? c := live a h in Ok (put h a (Some (mkcell (strong c) d (kids c)))).
Fixpoint set_nth (i : nat) (x : nat) (l : list nat) : list nat :=
  match l, i with [], _ => [] | _ :: l, O => x :: l | y :: l, S i => y :: set_nth i x l end.

(** Mutable access to the place at the end of a path: every node on the way is dereferenced
    mutably.  [f] works on the handle in that place and on handles [xs] of its own. *)
Fixpoint modify (p : list nat) (f : nat -> list nat -> heap -> res (nat * list nat * heap)) (a : nat) (xs : list nat) (h : heap) :
  res (nat * list nat * heap) :=
  match p with
  | [] => f a xs h
  | i :: p =>
      let? r := make_mut a h in
      let? c := live (fst r) (snd r) in
      match nth_error (kids c) i with
      | None => Err "no such child"
      | Some k =>
          let? h := set_kids (fst r) [] (snd r) in
          let? r' := modify p f k xs h in
          let? h := set_kids (fst r) (set_nth i (fst (fst r')) (kids c)) (snd r') in
          Ok (fst r, snd (fst r'), h)
      end
  end.
(** Shared access does not change anything. *)
Fixpoint look (p : list nat) (a : nat) (h : heap) : res nat :=
  match p with
  | [] => Ok a
  | i :: p => let? c := live a h in match nth_error (kids c) i with None => Err "no such child" | Some k => look p k h end
  end.

(** What code outside of shared.rs can do with the handles it owns; the latest one comes first. *)
Inductive op :=
| Dup (i : nat) (p : list nat)          (* clone the handle at a path of the i-th *)
| Relabel (i : nat) (p : list nat) (d : L) (* assign to a field through deref_mut *)
| Swap (i : nat) (p : list nat)         (* swap the first handle with the place at a path of the i-th other *)
| Drop                                  (* drop the first *)
| Build (d : L) (n : nat)               (* a new node whose children are the first n *)
| Pull (i : nat).                       (* move the i-th to the front *)

Definition extract {X} (i : nat) (l : list X) : option (X * list X) :=
  match nth_error l i with Some x => Some (x, firstn i l ++ skipn (S i) l) | None => None end.
Definition insert_at {X} (i : nat) (x : X) (l : list X) : list X := firstn i l ++ x :: skipn i l.
Definition relabel (d : L) (a : nat) (xs : list nat) (h : heap) : res (nat * list nat * heap) :=
  let? r := make_mut a h in let? h := set_label (fst r) d (snd r) in Ok (fst r, xs, h).
Definition swap (a : nat) (xs : list nat) (h : heap) : res (nat * list nat * heap) :=
  match xs with x :: xs => Ok (x, a :: xs, h) | [] => Err "nothing to swap" end.

Definition exec (o : op) (st : list nat * heap) : res (list nat * heap) :=
  let (R, h) := st in
  match o with
  | Dup i p =>
      match nth_error R i with
      | None => Err "no such handle"
      | Some a => let? k := look p a h in let? h := h_clone k h in Ok (k :: R, h)
      end
  | Relabel i p d =>
      match extract i R with
      | None => Err "no such handle"
      | Some (a, R) => let? r := modify p (relabel d) a [] h in Ok (insert_at i (fst (fst r)) R, snd r)
      end
  | Swap i p =>
      match R with
      | [] => Err "no such handle"
      | s :: R =>
          match extract i R with
          | None => Err "no such handle"
          | Some (a, R) => let? r := modify p swap a [s] h in Ok (snd (fst r) ++ insert_at i (fst (fst r)) R, snd r)
          end
      end
  | Drop => match R with [] => Err "no such handle" | a :: R => let? h := h_drop a h in Ok (R, h) end
  | Build d n =>
      if Nat.leb n (List.length R) then let (a, h) := h_new d (firstn n R) h in Ok (a :: skipn n R, h) else Err "no such handle"
  | Pull i => match extract i R with None => Err "no such handle" | Some (a, R) => Ok (a :: R, h) end
  end.
Fixpoint execs (l : list op) (st : list nat * heap) : res (list nat * heap) :=
  match l with [] => Ok st | o :: l => let? st := exec o st in execs l st end.

(** A mutable walk (visit.rs 173-213) that keeps handles of some of the nodes in a set, after
    their children were visited, and may take the children out of the set then, as
    LiteralExprCollector does (src/smt/funcs/fuel/literals.rs 120-190).  Which ones is left open. *)
Fixpoint remove_one (a : nat) (l : list nat) : list nat :=
  match l with [] => [] | b :: l => if Nat.eqb a b then l else b :: remove_one a l end.
Fixpoint unkeep (ks : list nat) (kept : list nat) (h : heap) : res (list nat * heap) :=
  match ks with
  | [] => Ok (kept, h)
  | k :: ks =>
      if existsb (Nat.eqb k) kept then let? h := h_drop k h in unkeep ks (remove_one k kept) h
      else unkeep ks kept h
  end.
Fixpoint walk_list (w : nat -> list nat -> heap -> res (nat * list nat * heap)) (l : list nat) (kept : list nat) (h : heap) : res (list nat * list nat * heap) :=
  match l with
  | [] => Ok ([], kept, h)
  | k :: l =>
      let? r := w k kept h in
      let? rs := walk_list w l (snd (fst r)) (snd r) in
      Ok (fst (fst r) :: fst (fst rs), snd (fst rs), snd rs)
  end.
Fixpoint walk (keep strip : nat -> heap -> bool) (fuel : nat) (a : nat) (kept : list nat) (h : heap) : res (nat * list nat * heap) :=
  match fuel with
  | O => Panic "out of fuel"
  | S fuel =>
      let? r := make_mut a h in
      let? c := live (fst r) (snd r) in
      let? h := set_kids (fst r) [] (snd r) in
      let? rs := walk_list (walk keep strip fuel) (kids c) kept h in
      let? h := set_kids (fst r) (fst (fst rs)) (snd rs) in
      if keep (fst r) h then
        let? h' := h_clone (fst r) h in
        if strip (fst r) h then let? u := unkeep (fst (fst rs)) (fst r :: snd (fst rs)) h' in Ok (fst r, fst u, snd u)
        else Ok (fst r, fst r :: snd (fst rs), h')
      else Ok (fst r, snd (fst rs), h)
  end.
End Heap.
Arguments cell : clear implicits. Arguments heap : clear implicits. Arguments op : clear implicits.
