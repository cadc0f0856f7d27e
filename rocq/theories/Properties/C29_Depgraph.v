(** C29: the declarations passed to the solver. *)
From Coq Require Import List String Relations.
From Verif.Model Require Import Syntax Procs Depgraph.
From Verif.Spec Require Import Recursion Needs.
From Verif.Proofs Require Import DepgraphProofs DepgraphExamples.
Import ListNotations.
Local Open Scope string_scope.
Local Open Scope list_scope.

(** For every file and both ways of instantiation the graph is built without a failing assertion; the only error is an axiom that
    mentions nothing. *)
Theorem C29_graph : forall m us,
  (exists a, has_axiom us a /\ forall x, ~ axiom_refers a x) /\ (exists w, generate_depgraph m us = Err w) \/
  ~ (exists a, has_axiom us a /\ forall x, ~ axiom_refers a x) /\ (exists g, generate_depgraph m us = Ok g).
Proof. exact graph_errors. Qed.
Print Assumptions C29_graph.

(** The search for the dependencies of a unit ends, for any graph. *)
Theorem C29_terminates : forall g u, exists N, forall n, N <= n -> exists deps, unit_deps g n u = Some deps.
Proof. exact unit_stops. Qed.
Print Assumptions C29_terminates.

(** Its result is exactly what the unit needs. *)
Theorem C29_dependencies : forall m us g, generate_depgraph m us = Ok g -> forall u n deps, unit_deps g n u = Some deps ->
  forall x, In x deps <-> needed m us (starts u) x.
Proof. exact unit_needs. Qed.
Print Assumptions C29_dependencies.

(** Every sort, function and axiom that the unit mentions, ... *)
Theorem C29_unit_closed : forall m us g u n deps, generate_depgraph m us = Ok g -> unit_deps g n u = Some deps ->
  forall x, (match u with
             | UDecl (DeclProc p doms) => has_proc us p doms /\ proc_refers p doms x
             | UDecl _ => False
             | URaw b doms => block_refers b doms x
             end) -> passed_on us deps x.
Proof. exact unit_closed. Qed.
Print Assumptions C29_unit_closed.
(** ... that the specification of a called procedure mentions, ... *)
Theorem C29_callees_closed : forall m us g u n deps, generate_depgraph m us = Ok g -> unit_deps g n u = Some deps ->
  forall p doms x, has_proc us p doms -> In (pname p) deps -> proc_refers p doms x -> passed_on us deps x.
Proof. exact callee_closed. Qed.
Print Assumptions C29_callees_closed.
(** ... or that something passed on mentions is passed on, ... *)
Theorem C29_closed : forall m us g u n deps, generate_depgraph m us = Ok g -> unit_deps g n u = Some deps ->
  forall s x, In s (emitted_specs deps (domains_of us)) -> spec_refers s x -> passed_on us deps x.
Proof. exact spec_closed. Qed.
Print Assumptions C29_closed.
(** ... and every axiom about something passed on is passed on as well. *)
Theorem C29_axioms_closed : forall m us g u n deps, generate_depgraph m us = Ok g -> unit_deps g n u = Some deps ->
  forall a x d specs, In (UDecl (DeclDomain d specs)) us -> In (DAxiom a) specs -> axiom_refers a x ->
  In x (emitted_sorts deps (domains_of us)) \/ (exists s, In s (emitted_specs deps (domains_of us)) /\ spec_name s = x) ->
  In (DAxiom a) (emitted_specs deps (domains_of us)).
Proof. exact axiom_closed. Qed.
Print Assumptions C29_axioms_closed.

(** Nothing else is passed on. *)
Theorem C29_only_needed : forall m us g u n deps, generate_depgraph m us = Ok g -> unit_deps g n u = Some deps ->
  forall s, In s (emitted_specs deps (domains_of us)) -> needed m us (starts u) (spec_name s).
Proof. exact emitted_needed. Qed.
Print Assumptions C29_only_needed.
Theorem C29_only_needed_sorts : forall m us g u n deps, generate_depgraph m us = Ok g -> unit_deps g n u = Some deps ->
  forall x, In x (emitted_sorts deps (domains_of us)) -> needed m us (starts u) x.
Proof. exact sorts_needed. Qed.
Print Assumptions C29_only_needed_sorts.

(** A name is called potentially recursive exactly if its instantiation leads to itself, or, with bidirectional instantiation, if
    it is a function at all. *)
Theorem C29_recursive : forall m us g, generate_depgraph m us = Ok g -> forall x, exists N, forall n, N <= n ->
  exists b, is_potentially_recursive g n x = Some b /\
    (b = true <-> self_needed m us x \/ (m = Bidirectional /\ exists f, has_func us f /\ df_name f = x)).
Proof. exact recursive_spec. Qed.
Print Assumptions C29_recursive.
(** In particular every function defined in terms of itself is recognised. *)
Theorem C29_self_defined : forall m us g x, generate_depgraph m us = Ok g -> self_defined us x ->
  exists N, forall n, N <= n -> is_potentially_recursive g n x = Some true.
Proof. exact self_defined_recursive. Qed.
Print Assumptions C29_self_defined.
(** The converse fails: a function whose definition mentions nothing is recognised because an axiom mentions it. *)
Theorem C29_recursive_exact_refuted : exists us g x, generate_depgraph Decreasing us = Ok g /\ ~ self_defined us x /\
  (exists f, has_func us f /\ df_name f = x /\ forall y, ~ func_refers f y) /\
  exists N, forall n, N <= n -> is_potentially_recursive g n x = Some true.
Proof. exact recursive_not_exact. Qed.
Print Assumptions C29_recursive_exact_refuted.

(** Not vacuous: a file with a domain [D], mutually recursive functions, an axiom, a function nobody uses and a procedure. *)
Example C29_example : exists g deps, generate_depgraph Decreasing file1 = Ok g /\ unit_deps g (20) (UDecl (DeclProc proc1 [])) = Some deps /\
  emitted_sorts deps (domains_of file1) = ["D"] /\ map spec_name (emitted_specs deps (domains_of file1)) = ["even"; "odd"; "ax"; "h"] /\
  is_potentially_recursive g 20 "even" = Some true /\ is_potentially_recursive g 20 "unused" = Some false.
Proof. exact file1_emitted. Qed.
