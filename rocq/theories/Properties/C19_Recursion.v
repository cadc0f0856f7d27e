(** C19: finding recursive procedures, and the restrictions of the calculus annotations. *)
From Coq Require Import Bool List String.
From Verif.Model Require Import Syntax TyCtx AstUtil Dist Procs Encode Recursion.
From Verif.Spec Require Import Eur Sem Wp Calls Recursion.
From Verif.Proofs Require Import SpecCallProofs RecProofs CallRefuted RecursionProofs UniqueProofs RecursionExamples CallExamples.
Import ListNotations.

(** The components are computed by a library.  For every function that returns the strongly connected components of the call
    graph: the procedures reported are exactly those that reach themselves, and the call that is blamed is part of such a cycle. *)
Theorem C19_recursive_found : forall T ps sccs,
  (forall g, call_graph T ps = Ok g -> is_sccs (cg_nodes g) (gedge g) (sccs g)) ->
  declared T ps -> resolved T ps -> directed ps ->
  exists m, find_recursive_procs sccs T ps = Ok m /\
    (forall f, In f (map fst m) <-> recursive (map cp_proc ps) f) /\
    (forall f called, In (f, called) m ->
       calls_proc (map cp_proc ps) f called /\ (called = f \/ reaches (map cp_proc ps) called f)).
Proof. exact recursive_found. Qed.
Print Assumptions C19_recursive_found.
(** There is such a function. *)
Theorem C19_components_exist : forall g, nodes_ok g -> exists l, is_sccs (cg_nodes g) (gedge g) l.
Proof. exact sccs_exist. Qed.
Print Assumptions C19_components_exist.

(** Two of three procedures call each other. *)
Example C19_mutual : declared mutual_tcx mutual /\ resolved mutual_tcx mutual /\ directed mutual /\
  recursive (map cp_proc mutual) "even" /\ recursive (map cp_proc mutual) "odd" /\ ~ recursive (map cp_proc mutual) "main".
Proof. exact mutual_facts. Qed.

(** A program is accepted iff every annotation is declared, no procedure is recursive under a calculus that does not allow induction in
    its direction, and no call goes from one annotation to a different one. *)
Theorem C19_calculus_checked : forall T ps sccs,
  (forall g, call_graph T ps = Ok g -> is_sccs (cg_nodes g) (gedge g) (sccs g)) ->
  declared T ps -> resolved T ps -> directed ps ->
  exists r, check_calculus_rules sccs T ps = Ok r /\
    (r = Accepted <-> forall p, In p ps -> accepts T ps (recursive (map cp_proc ps)) p).
Proof. exact calculus_checked. Qed.
Print Assumptions C19_calculus_checked.

(** Without recursion there is one solution only, so the calculus does not matter. *)
Theorem C19_nonrecursive_unique : forall I isd isf k procs variant (Tm : ident -> Prop), interp_ok I ->
  forall d E ps, program_ok I isd isf k procs variant Tm d E ->
  (forall f p, procs f = Some p <-> In p ps /\ pname p = f) ->
  forall D D', solution I isd k procs E D -> solution I isd k procs E D' ->
  forall f p v Y, bounded ps f -> procs f = Some p -> typed (pins p) v -> D f v Y = D' f v Y.
Proof. exact unique. Qed.
Print Assumptions C19_nonrecursive_unique.
Theorem C19_greatest_is_least : forall I isd isf k procs variant (Tm : ident -> Prop), interp_ok I ->
  forall d E ps, program_ok I isd isf k procs variant Tm d E ->
  (forall f p, procs f = Some p <-> In p ps /\ pname p = f) ->
  forall f p v Y, bounded ps f -> procs f = Some p -> typed (pins p) v ->
  greatest I isd k procs E f v Y = least I isd k procs E f v Y.
Proof. exact greatest_is_least. Qed.
Print Assumptions C19_greatest_is_least.

(** If all procedures carry the same calculus annotation, the checker accepts, and all of them verify, then they satisfy their
    specifications in the solution that belongs to the calculus. *)
Theorem C19_accepted_sound : forall I isd isf k procs variant (Tm : ident -> Prop), interp_ok I ->
  (forall m n, variant m = variant n -> m = n) -> (forall x, Tm (temp variant x)) ->
  forall d E T ps sccs a c, program_ok I isd isf k procs variant Tm d E ->
  (forall f p, procs f = Some p <-> In p (map cp_proc ps) /\ pname p = f) ->
  (forall g, call_graph T ps = Ok g -> is_sccs (cg_nodes g) (gedge g) (sccs g)) ->
  declared T ps -> resolved T ps -> directed ps ->
  (forall p, In p ps -> cp_calculus p = Some a) -> T a = Some (RCalculus c) ->
  forall f p, check_calculus_rules sccs T ps = Ok Accepted -> procs f = Some p ->
  satisfies I p (match c with Wlp => greatest I isd k procs E f | _ => least I isd k procs E f end).
Proof. exact accepted_sound. Qed.
Print Assumptions C19_accepted_sound.
Example C19_accepted : forall I, interp_ok I -> (forall m n, shift m = shift n -> m = n) /\ (forall x, temps (temp shift x)) /\
  program_ok I is_dist (fun _ => false) Least (table (map cp_proc strict)) shift temps Down (fun _ _ _ => ebot) /\
  (forall f p, table (map cp_proc strict) f = Some p <-> In p (map cp_proc strict) /\ pname p = f) /\
  declared (rtable strict) strict /\ resolved (rtable strict) strict /\ directed strict /\
  (forall p, In p strict -> cp_calculus p = Some "wp"%string) /\ rtable strict "wp"%string = Some (RCalculus Wp) /\
  forall sccs, (forall g, call_graph (rtable strict) strict = Ok g -> is_sccs (cg_nodes g) (gedge g) (sccs g)) ->
    check_calculus_rules sccs (rtable strict) strict = Ok Accepted.
Proof. exact strict_facts. Qed.

(** All must be annotated: [proc f() pre 1 post 1 { f() }  @wp proc g() pre 1 post 1 { f() }] is accepted and verifies, but [g] has the
    value 0 in the least solution. *)
Theorem C19_unannotated_callee_refuted : exists T ps g, declared T ps /\ resolved T ps /\ directed ps /\
  (forall sccs, (forall h, call_graph T ps = Ok h -> is_sccs (cg_nodes h) (gedge h) (sccs h)) ->
     check_calculus_rules sccs T ps = Ok Accepted) /\
  In (mkcproc g (Some "wp"%string)) ps /\
  (forall p b, In p ps -> pbody (cp_proc p) = Some b -> exists T0 b' T', sc_block (table (map cp_proc ps)) shift Down b T0 = Ok (b', T') /\
     forall I, meets I (cp_proc p) (wp_block I is_dist Least b')) /\
  forall I E, ~ satisfies I g (least I is_dist Least (table (map cp_proc ps)) E (pname g)).
Proof. exact (ex_intro _ (rtable loose) (ex_intro _ loose (ex_intro _ call_f unannotated_refuted))). Qed.
Print Assumptions C19_unannotated_callee_refuted.

(** The check sees the selected procedures only.  Of [@wp proc f() pre 1 post 1 { g() }] and [@wp proc g() pre 1 post 1 { f() }] each one
    is accepted and verifies if it is selected alone; together they are rejected, and neither meets its specification. *)
Theorem C19_filter_refuted :
  declared (rtable pair_ps) pair_ps /\ resolved (rtable pair_ps) pair_ps /\ directed pair_ps /\
  (forall sccs, (forall g, call_graph (rtable pair_ps) pair_ps = Ok g -> is_sccs (cg_nodes g) (gedge g) (sccs g)) ->
     check_calculus_rules sccs (rtable pair_ps) pair_ps <> Ok Accepted) /\
  (forall p, In p pair_ps -> cp_calculus p = Some "wp"%string /\
     (forall sccs, (forall g, call_graph (rtable pair_ps) [p] = Ok g -> is_sccs (cg_nodes g) (gedge g) (sccs g)) ->
        check_calculus_rules sccs (rtable pair_ps) [p] = Ok Accepted) /\
     (forall b, pbody (cp_proc p) = Some b -> exists T b' T', sc_block (table (map cp_proc pair_ps)) shift Down b T = Ok (b', T') /\
        forall I, meets I (cp_proc p) (wp_block I is_dist Least b')) /\
     forall I E, ~ satisfies I (cp_proc p) (least I is_dist Least (table (map cp_proc pair_ps)) E (pname (cp_proc p)))).
Proof. exact filter_refuted. Qed.
Print Assumptions C19_filter_refuted.
