(** C52: shared expressions behave like values. *)
From Coq Require Import List String Arith.
From Verif.Model Require Import Syntax SharedHeap.
From Verif.Spec Require Import SharedSpec.
From Verif.Proofs Require Import SharedRefine SharedWalk SharedProps.
Import ListNotations.

(** Whatever is cloned, built, changed below a path, moved and dropped: the handles stand for what
    the same operations make of trees, and what trees refuse is refused. *)
Theorem C52_values : forall (L : Type) (os : list (op L)) ts, t_execs os [] = Some ts ->
  exists R h, execs os ([], []) = Ok (R, h) /\ wf h R /\ Forall2 (denotes h) R ts.
Proof. exact (@c52_values). Qed.
Print Assumptions C52_values.
Theorem C52_refused : forall (L : Type) (os : list (op L)), t_execs os [] = None -> exists e, execs os ([], []) = Err e.
Proof. exact (@c52_refused). Qed.
Print Assumptions C52_refused.
(** No handle is used after its node was freed. *)
Theorem C52_no_panic : forall (L : Type) (os : list (op L)) e, execs os ([], []) <> Panic e.
Proof. exact (@c52_no_panic). Qed.
Print Assumptions C52_no_panic.
(** Handles held elsewhere, as by a cache, stand for what they stood for. *)
Theorem C52_others : forall (L : Type) os (h : heap L) R K ts R' h', wf h (R ++ K) -> Forall2 (denotes h) R ts ->
  execs os (R, h) = Ok (R', h') -> forall b t, In b K -> denotes h b t -> denotes h' b t.
Proof. exact (@c52_others). Qed.
Print Assumptions C52_others.
(** When all handles are dropped, no node is left. *)
Theorem C52_no_leak : forall (L : Type) os (h : heap L), execs os ([], []) = Ok ([], h) -> forall a, get h a = None.
Proof. exact (@all_dropped). Qed.
Print Assumptions C52_no_leak.
(** ref_count is the number of owners. *)
Theorem C52_owners : forall (L : Type) (os : list (op L)) R h a, execs os ([], []) = Ok (R, h) -> In a R ->
  exists n, ref_count a h = Ok n /\ n = occ R a + refs h a.
Proof. exact (@c52_owners). Qed.
Print Assumptions C52_owners.
(** A node is copied if there is another owner, and only then. *)
Theorem C52_copies : forall (L : Type) (h : heap L) R a t, wf h (a :: R) -> denotes h a t -> In a R \/ 0 < refs h a ->
  exists a' h', make_mut a h = Ok (a', h') /\ get h a' = None /\ wf h' (a' :: R) /\ denotes h' a' t /\ denotes h' a t.
Proof. exact (@c52_copies). Qed.
Print Assumptions C52_copies.
Theorem C52_in_place : forall (L : Type) (h : heap L) R a t, wf h (a :: R) -> denotes h a t -> ~ In a R -> refs h a = 0 -> make_mut a h = Ok (a, h).
Proof. exact (@c52_in_place). Qed.
Print Assumptions C52_in_place.
Example C52_example : exists R h, execs (share ++ [Relabel 0 [0] "y"%string]) ([], []) = Ok (R, h) /\ R = [2; 1] /\
  denotes h 2 (T "+" [T "y" []; T "x" []])%string /\ denotes h 1 (T "+" [T "x" []; T "x" []])%string.
Proof. exact share_change. Qed.
Example C52_example_dropped : exists h, execs (share ++ [Relabel 0 [0] "y"%string; Drop; Drop]) ([], []) = Ok ([], h) /\ h = [None; None; None; None].
Proof. exact share_drop. Qed.

(** A mutable walk keeps the meaning and leaves a tree without sharing: every node below has its
    place and at most one of the handles kept in the walk as owners.  So nothing is worth caching
    afterwards (more than two owners, src/smt/translate_exprs.rs 812-814). *)
Theorem C52_walk : forall (L : Type) keep strip n (h : heap L) a R kept t, wf h (a :: kept ++ R) -> denotes h a t -> depth t <= n ->
  exists a' kept' h', walk keep strip n a kept h = Ok (a', kept', h') /\ wf h' (a' :: kept' ++ R) /\ denotes h' a' t /\
    (forall b u, In b (kept ++ R) -> denotes h b u -> denotes h' b u) /\ unshared h' a' /\
    forall b c, reach h' a' b -> get h' b = Some c -> strong c = 1 + occ kept' b /\ strong c <= 2 /\ ~ In b (kept ++ R).
Proof. exact (@walk_unshares). Qed.
Print Assumptions C52_walk.
Example C52_walk_example : exists R h, execs (removelast share) ([], []) = Ok (R, h) /\ R = [1] /\
  exists h', walk keep_all (fun a h => false) 2 1 [] h = Ok (1, [1; 0; 2], h') /\ look [0] 1 h' = Ok 2 /\ look [1] 1 h' = Ok 0 /\ ref_count 2 h' = Ok 2.
Proof. exact share_walk. Qed.
