(** Expressions as values, and what it means that a heap of shared nodes stands for them. *)
From Coq Require Import List Arith.
From Verif.Model Require Import Syntax SharedHeap.
Import ListNotations.

Inductive tree (L : Type) := T (d : L) (ts : list (tree L)).
Arguments T {L}.

Section Spec.
Context {L : Type}.
(** The tree below an address. *)
Inductive denotes (h : heap L) : nat -> tree L -> Prop :=
| den a c ts : get h a = Some c -> Forall2 (denotes h) (kids c) ts -> denotes h a (T (lab c) ts).
Definition occ (l : list nat) (a : nat) : nat := count_occ Nat.eq_dec l a.
(** The owners of an address among the nodes of the heap. *)
Definition refs (h : heap L) (a : nat) : nat := list_sum (map (fun o => match o with Some c => occ (kids c) a | None => 0 end) h).
(** All handles outside of the heap being [R]: counts are the numbers of owners, nodes are owned,
    owned nodes exist, and there are no cycles. *)
Record wf (h : heap L) (R : list nat) : Prop := {
  w_count : forall a c, get h a = Some c -> strong c = occ R a + refs h a /\ 1 <= strong c;
  w_live : forall a, 0 < occ R a + refs h a -> exists c, get h a = Some c;
  w_tree : forall a c, get h a = Some c -> exists t, denotes h a t
}.
Inductive reach (h : heap L) : nat -> nat -> Prop :=
| reach_refl a : reach h a a
| reach_step a c k b : get h a = Some c -> In k (kids c) -> reach h k b -> reach h a b.

(** No two paths lead to the same node. *)
Definition unshared (h : heap L) (a : nat) := forall p q b, look p a h = Ok b -> look q a h = Ok b -> p = q.
Fixpoint depth (t : tree L) : nat := match t with T _ ts => S (list_max (map depth ts)) end.

(** The same operations on values. *)
Fixpoint t_look (p : list nat) (t : tree L) : option (tree L) :=
  match p, t with
  | [], _ => Some t
  | i :: p, T _ ts => match nth_error ts i with Some k => t_look p k | None => None end
  end.
Fixpoint replace_nth {X} (i : nat) (x : X) (l : list X) : list X :=
  match l, i with [], _ => [] | _ :: l, O => x :: l | y :: l, S i => y :: replace_nth i x l end.
Fixpoint t_update (p : list nat) (u : tree L) (t : tree L) : option (tree L) :=
  match p, t with
  | [], _ => Some u
  | i :: p, T d ts => match nth_error ts i with
                      | Some k => match t_update p u k with Some k => Some (T d (replace_nth i k ts)) | None => None end
                      | None => None
                      end
  end.
Definition t_exec (o : op L) (ts : list (tree L)) : option (list (tree L)) :=
  match o with
  | Dup i p => match nth_error ts i with
               | Some t => match t_look p t with Some k => Some (k :: ts) | None => None end
               | None => None
               end
  | Relabel i p d => match nth_error ts i with
                     | Some t => match t_look p t with
                                 | Some (T _ ks) => match t_update p (T d ks) t with Some t => Some (replace_nth i t ts) | None => None end
                                 | None => None
                                 end
                     | None => None
                     end
  | Swap i p => match ts with
                | s :: ts => match nth_error ts i with
                             | Some t => match t_look p t, t_update p s t with Some k, Some t => Some (k :: replace_nth i t ts) | _, _ => None end
                             | None => None
                             end
                | [] => None
                end
  | Drop => match ts with _ :: ts => Some ts | [] => None end
  | Build d n => if Nat.leb n (length ts) then Some (T d (firstn n ts) :: skipn n ts) else None
  | Pull i => match nth_error ts i with Some t => Some (t :: firstn i ts ++ skipn (S i) ts) | None => None end
  end.
Fixpoint t_execs (l : list (op L)) (ts : list (tree L)) : option (list (tree L)) :=
  match l with [] => Some ts | o :: l => match t_exec o ts with Some ts => t_execs l ts | None => None end end.
End Spec.
