(** What a verification unit needs, by rules. *)
From Coq Require Import List String Relations.
From Verif.Model Require Import Syntax Procs Depgraph.
From Verif.Spec Require Import Recursion.
Import ListNotations.

(** The functions, axioms and procedures declared in a list of source units. *)
Definition has_func (us : list dunit) (f : dfunc) : Prop :=
  In (UDecl (DeclFunc f)) us \/ exists n specs, In (UDecl (DeclDomain n specs)) us /\ In (DFunc f) specs.
Definition has_axiom (us : list dunit) (a : daxiom) : Prop :=
  exists n specs, In (UDecl (DeclDomain n specs)) us /\ In (DAxiom a) specs.
Definition has_proc (us : list dunit) (p : proc) (doms : list string) : Prop := In (UDecl (DeclProc p doms)) us.

(** A declaration refers to a domain by a type and to everything else by a call. *)
Definition func_refers (f : dfunc) (x : string) : Prop := In x (df_doms f) \/ exists e, df_body f = Some e /\ calls x e.
Definition axiom_refers (a : daxiom) (x : string) : Prop := In x (da_doms a) \/ calls x (da_expr a).
Definition block_refers (b : list stmt) (doms : list string) (x : string) : Prop := In x doms \/ some_expr_block (calls x) b.
Definition proc_refers (p : proc) (doms : list string) (x : string) : Prop :=
  In x doms \/ (exists e, (In (Requires e) (pspecs p) \/ In (Ensures e) (pspecs p)) /\ calls x e) \/
  exists b, pbody p = Some b /\ some_expr_block (calls x) b.

Section Needs.
  Variable m : axiom_instantiation.
  Variable us : list dunit.
  (** One declaration asks for another.  An axiom may constrain everything it mentions: it is needed as soon as one of those
      names is.  With [Bidirectional] instantiation the definition of a function is such an axiom. *)
  Inductive asks : string -> string -> Prop :=
  | AskProc p doms x : has_proc us p doms -> proc_refers p doms x -> asks (pname p) x
  | AskFunc f x : has_func us f -> func_refers f x -> asks (df_name f) x
  | AskAxiom a x : has_axiom us a -> axiom_refers a x -> asks (da_name a) x
  | AskedAxiom a x : has_axiom us a -> axiom_refers a x -> asks x (da_name a)
  | AskedFunc f x : m = Bidirectional -> has_func us f -> func_refers f x -> asks x (df_name f).
  (** What is needed if the names in [R] are. *)
  Inductive needed (R : string -> Prop) : string -> Prop :=
  | NeedRoot x : R x -> needed R x
  | NeedAsk x y : needed R x -> asks x y -> needed R y.
End Needs.

(** The names a unit starts from. *)
Definition starts (u : dunit) (x : string) : Prop :=
  match u with UDecl d => x = decl_name d | URaw b doms => block_refers b doms x end.

(** A name whose definition instantiates itself through definitions and axioms. *)
Definition self_needed (m : axiom_instantiation) (us : list dunit) (x : string) : Prop := clos_trans string (asks m us) x x.
(** A function defined in terms of itself. *)
Definition defined_by (us : list dunit) (x y : string) : Prop := exists f, has_func us f /\ df_name f = x /\ func_refers f y.
Definition self_defined (us : list dunit) (x : string) : Prop := clos_trans string (defined_by us) x x.

(** The domains of the file, and what a member of one refers to. *)
Definition domains_of (us : list dunit) : list (string * list dspec) :=
  flat_map (fun u => match u with UDecl (DeclDomain n specs) => [(n, specs)] | _ => [] end) us.
Definition spec_refers (s : dspec) : string -> Prop := match s with DFunc f => func_refers f | DAxiom a => axiom_refers a end.
(** If [x] is the name of a domain, a function or an axiom, then that is passed on to the solver. *)
Definition passed_on (us : list dunit) (deps : list string) (x : string) : Prop :=
  (forall specs, In (UDecl (DeclDomain x specs)) us -> In x (emitted_sorts deps (domains_of us))) /\
  (forall s d specs, In (UDecl (DeclDomain d specs)) us -> In s specs -> spec_name s = x -> In s (emitted_specs deps (domains_of us))).
