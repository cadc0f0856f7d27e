(** C28: lexical scoping. *)
From Coq Require Import Bool List String.
From Verif.Model Require Import Syntax TyCtx ScopeMap Resolve.
From Verif.Spec Require Import Scoping.
From Verif.Proofs Require Import ScopeProofs.
Import ListNotations.
Local Open Scope string_scope.

(** Looking up after writing in the innermost scope: the written key changes, no other. *)
Theorem C28_lookup : forall (K V : Type) (eqb : K -> K -> bool), (forall a b, eqb a b = true <-> a = b) ->
  forall k (e : entry V) (m m' : smap K V) prev, sm_put eqb k e m = Ok (m', prev) ->
  forall k', sm_get eqb k' m' = if eqb k' k then value_of (Some e) else sm_get eqb k' m.
Proof. exact (fun K V => @get_put K V). Qed.
Print Assumptions C28_lookup.

(** Entering a scope hides nothing; leaving it after any balanced history of insertions, removals and inner scopes gives
    back exactly the map before; the assertions of the code never fire. *)
Theorem C28_enter : forall (K V : Type) (eqb : K -> K -> bool) k (m : smap K V), sm_get eqb k (fst (sm_push m)) = sm_get eqb k m.
Proof. exact (fun K V => @get_push K V). Qed.
Print Assumptions C28_enter.
Theorem C28_leave : forall (K V : Type) (eqb : K -> K -> bool) (ops : list (sop (K := K) (V := V))) (m : smap K V),
  m <> [] -> run eqb (OBlock ops) m = Ok m.
Proof. exact (fun K V => @scope_restores K V). Qed.
Print Assumptions C28_leave.
(** A pop that does not belong to the innermost push is refused. *)
Theorem C28_pop_mismatch : forall (K V : Type) (m : smap K V) p, p <> List.length m \/ List.length m <= 1 ->
  exists msg, sm_pop m p = Panic msg.
Proof. exact (fun K V => @pop_mismatch K V). Qed.
Print Assumptions C28_pop_mismatch.
(** Iterating over the innermost scope: every live key once, with its value, in the order of its first use. *)
Theorem C28_local_iter : forall (K V : Type) (eqb : K -> K -> bool), (forall a b, eqb a b = true <-> a = b) ->
  forall (l : level K V) (m : smap K V) r, level_ok l -> sm_local_iter (l :: m) = Ok r ->
  NoDup (map fst r) /\ (forall k v, In (k, v) r <-> value_of (im_get eqb k l) = Some v) /\ exists ks, map fst r = filter ks (map fst l).
Proof. exact (fun K V => @local_iter_spec K V). Qed.
Print Assumptions C28_local_iter.

(** The resolver replaces every occurrence of a name by the declaration that lexical scoping assigns to it and leaves the
    table as it found it. *)
Theorem C28_resolve_expr : forall e r e' r' E l m, rexpr e r = Ok (e', r') -> rmap r = l :: m -> view (rmap r) E ->
  rmap r' = rmap r /\ lex E e e'.
Proof. exact rexpr_sound. Qed.
Print Assumptions C28_resolve_expr.
Theorem C28_resolve_stmt : forall s r s' r' E l m, rstmt s r = Ok (s', r') -> rmap r = l :: m -> view (rmap r) E ->
  exists E', lexs E s s' E' /\ (exists l', rmap r' = l' :: m) /\ view (rmap r') E'.
Proof. exact rstmt_sound. Qed.
Print Assumptions C28_resolve_stmt.
(** Conversely every well-scoped program is resolved, without a diagnostic and without a panic, if the positions of its
    binders are new and distinct. *)
Theorem C28_resolve_complete : forall s E s' E', lexs E s s' E' -> forall r l m, rmap r = l :: m -> view (rmap r) E ->
  new_in (rtcx r) (sbinders s) ->
  exists r', rstmt s r = Ok (s', r') /\ (exists l', rmap r' = l' :: m) /\ view (rmap r') E' /\ grows (rtcx r) (rtcx r') (sbinders s).
Proof. exact rstmt_complete. Qed.
Print Assumptions C28_resolve_complete.

(** Not vacuous: [var x; { var x = x + 1; x = x }; x = inf x. x], with one span per occurrence. *)
Local Definition X n := mkid "x" n TEUReal.
Example C28_example : exists T,
  rblock [SVar (X 1) None;
          SSeq [SVar (X 2) (Some (EBin TEUReal OAdd (EVar (X 3)) (EVar (X 4)))); SAssign [X 5] (EVar (X 6))];
          SAssign [X 7] (EQuant QInf [QFresh (X 8)] (EVar (X 9)))] (mkrs sm_new empty_tcx) =
  Ok ([SVar (X 1) None;
       SSeq [SVar (X 2) (Some (EBin TEUReal OAdd (EVar (X 1)) (EVar (X 1)))); SAssign [X 2] (EVar (X 2))];
       SAssign [X 1] (EQuant QInf [QFresh (X 8)] (EVar (X 8)))], T).
Proof. eexists. reflexivity. Qed.
Example C28_view : view sm_new (mksc (fun _ => None) (fun _ => None)).
Proof. split; reflexivity. Qed.
(** Two declarations in one scope are refused. *)
Example C28_twice : rblock [SVar (X 1) None; SVar (X 2) None] (mkrs sm_new empty_tcx) = Err "AlreadyDefined".
Proof. reflexivity. Qed.
