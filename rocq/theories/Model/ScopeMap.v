(** Model of src/scope_map.rs: a map with nested scopes.  An IndexMap is a list of entries in insertion order. *)
From Coq Require Import Bool List String.
From Verif.Model Require Import Syntax.
Import ListNotations.
Local Open Scope string_scope.

Section Map.
Context {K V : Type} (eqb : K -> K -> bool).

(** indexmap: replace in place, or append *)
Fixpoint im_get {A} (k : K) (m : list (K * A)) : option A :=
  match m with [] => None | (k', a) :: m' => if eqb k k' then Some a else im_get k m' end.
Fixpoint im_insert {A} (k : K) (a : A) (m : list (K * A)) : list (K * A) :=
  match m with
  | [] => [(k, a)]
  | (k', a') :: m' => if eqb k k' then (k', a) :: m' else (k', a') :: im_insert k a m'
  end.

(** scope_map.rs 9-13 *)
Inductive entry := Value (v : V) | Deleted.
(** 21-28: the innermost scope comes first. *)
Definition level := list (K * entry).
Definition smap := list level.

(** 34-38 *)
Definition sm_new : smap := [[]].
(** 40-43 *)
Definition sm_depth (m : smap) : nat := List.length m.
(** 55-61: the new map and the parent token *)
Definition sm_push (m : smap) : smap * nat := ([] :: m, S (List.length m)).
(** 75-83 *)
Definition sm_unchecked_pop (m : smap) : res smap :=
  match m with _ :: (l :: m') => Ok (l :: m') | _ => Panic "assertion failed: self.scopes.len() > 1" end.
(** 69-72 *)
Definition sm_pop (m : smap) (parent : nat) : res smap :=
  if Nat.eqb parent (List.length m) then sm_unchecked_pop m else Panic "assertion failed: parent.depth == self.scopes.len()".
Definition value_of (o : option entry) : option V := match o with Some (Value v) => Some v | _ => None end.
(** 85-94 and 101-108; returns the previous value of this level *)
Definition sm_put (k : K) (e : entry) (m : smap) : res (smap * option V) :=
  match m with
  | l :: m' => Ok (im_insert k e l :: m', value_of (im_get k l))
  | [] => Panic "called Option::unwrap() on a None value"
  end.
Definition sm_insert (k : K) (v : V) (m : smap) : res (smap * option V) := sm_put k (Value v) m.
Definition sm_remove (k : K) (m : smap) : res (smap * option V) := sm_put k Deleted m.
(** 112-129 *)
Fixpoint sm_find_map {A} (k : K) (f : entry -> option A) (m : smap) : option A :=
  match m with
  | [] => None
  | l :: m' => match im_get k l with
               | Some e => match f e with Some r => Some r | None => sm_find_map k f m' end
               | None => sm_find_map k f m'
               end
  end.
(** 132-145 *)
Fixpoint sm_get (k : K) (m : smap) : option V :=
  match m with
  | [] => None
  | l :: m' => match im_get k l with Some e => value_of (Some e) | None => sm_get k m' end
  end.
(** 148-154 *)
Definition sm_contains (k : K) (m : smap) : bool := match sm_get k m with Some _ => true | None => false end.
(** 158-168 *)
Definition sm_local_iter (m : smap) : res (list (K * V)) :=
  match m with
  | l :: _ => Ok (flat_map (fun p => match snd p with Value v => [(fst p, v)] | Deleted => [] end) l)
  | [] => Panic "called Option::unwrap() on a None value"
  end.
(** 172-179: IndexMap::from_iter inserts one after the other. *)
Definition sm_from_iter (l : list (K * V)) : smap := [fold_left (fun m p => im_insert (fst p) (Value (snd p)) m) l []].
End Map.
Arguments entry : clear implicits.
Arguments level : clear implicits.
Arguments smap : clear implicits.
