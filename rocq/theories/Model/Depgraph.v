(** Which declarations a verification unit needs: src/depgraph.rs, and its uses in src/driver/front.rs 269-283 and 463-473,
    src/driver/core_verify.rs 81-92 and src/smt/mod.rs 73-152.
    Sets are lists; spans are left out.  Domains are no part of [ty], so a declaration comes with the names of the domains that
    [visit_ty] meets in it (types of parameters, outputs and declared variables). *)
From Coq Require Import Bool List String.
From Verif.Model Require Import Syntax Procs Recursion.
Import ListNotations.
Local Open Scope list_scope.

(** ast/decl.rs 451-463, 473-480 and 503-520 *)
Record dfunc := mkdfunc { df_name : string; df_doms : list string; df_body : option expr }.
Record daxiom := mkdaxiom { da_name : string; da_doms : list string; da_expr : expr }.
Inductive dspec := DFunc (f : dfunc) | DAxiom (a : daxiom).
(** The declarations that can be items of a file: ast/decl.rs 17-36 *)
Inductive ddecl := DeclProc (p : proc) (doms : list string) | DeclDomain (name : string) (specs : list dspec) | DeclFunc (f : dfunc).
(** front.rs: SourceUnit *)
Inductive dunit := UDecl (d : ddecl) | URaw (b : list stmt) (doms : list string).

(** depgraph.rs 23-41 *)
Inductive axiom_instantiation := Bidirectional | Decreasing.
Record depgraph := mkdg { dg_inst : axiom_instantiation; dg_edges : list (string * list string);
                          dg_scc : list (list string); dg_deps : list string }.
(** 44-51 *)
Definition depgraph_new (m : axiom_instantiation) : depgraph := mkdg m [] [] [].

Definition mem (x : string) (l : list string) : bool := existsb (String.eqb x) l.
Definition set_add (x : string) (l : list string) : list string := if mem x l then l else x :: l.
Definition set_extend (xs l : list string) : list string := fold_left (fun a x => set_add x a) xs l.

(** 53-57 *)
Fixpoint entry_extend (m : list (string * list string)) (x : string) (ds : list string) : list (string * list string) :=
  match m with
  | [] => [(x, set_extend ds [])]
  | (y, l) :: m' => if String.eqb x y then (y, set_extend ds l) :: m' else (y, l) :: entry_extend m' x ds
  end.
Definition collect_directed_deps (g : depgraph) (from : string) : depgraph :=
  mkdg (dg_inst g) (entry_extend (dg_edges g) from (dg_deps g)) (dg_scc g) [].
(** 60-64 *)
Definition collect_mutual_deps (g : depgraph) (from : string) : depgraph :=
  mkdg (dg_inst g) (dg_edges g) (dg_scc g ++ [set_add from (dg_deps g)]) [].
(** 68-87 *)
Fixpoint edges_of (m : list (string * list string)) (x : string) : list string :=
  match m with [] => [] | (y, l) :: m' => if String.eqb x y then l else edges_of m' x end.
Definition get_successors (g : depgraph) (x : string) : list string :=
  edges_of (dg_edges g) x ++ flat_map (fun c => if mem x c then c else []) (dg_scc g).

(** 91-103.  The head of the list is the end of the vector.  [None]: not yet finished after [n] rounds. *)
Fixpoint reach_loop (g : depgraph) (n : nat) (worklist reachable : list string) {struct n} : option (list string) :=
  match worklist with
  | [] => Some reachable
  | x :: rest =>
      match n with
      | O => None
      | S n' =>
          if mem x reachable then reach_loop g n' rest reachable
          else let reachable' := x :: reachable in
               reach_loop g n' (rev (filter (fun s => negb (mem s reachable')) (get_successors g x)) ++ rest) reachable'
      end
  end.
Definition get_reachable (g : depgraph) (n : nat) (xs : list string) : option (list string) := reach_loop g n (rev xs) [].
(** 109-112 *)
Definition is_potentially_recursive (g : depgraph) (n : nat) (x : string) : option bool :=
  option_map (mem x) (get_reachable g n (get_successors g x)).

(** 174-186 and ast/visit.rs 160-222 *)
Fixpoint expr_deps (e : expr) (s : list string) {struct e} : list string :=
  match e with
  | EVar _ | ELit _ _ => s
  | ECall _ f args => fold_left (fun s a => expr_deps a s) args (set_add f s)
  | EIte _ c a b => expr_deps b (expr_deps a (expr_deps c s))
  | EBin _ _ a b => expr_deps b (expr_deps a s)
  | EUn _ _ a | ECast _ a | EQuant _ _ a => expr_deps a s
  | ESubst _ b a => expr_deps a (expr_deps b s)
  end.
Definition exprs_deps (es : list expr) (s : list string) : list string := fold_left (fun s e => expr_deps e s) es s.

Definition with_deps (g : depgraph) (s : list string) : depgraph := mkdg (dg_inst g) (dg_edges g) (dg_scc g) s.
Definition assert_no_deps {A} (g : depgraph) (k : res A) : res A :=
  match dg_deps g with [] => k | _ => Panic "assertion failed: self.current_deps.is_empty()" end.

Definition spec_expr (c : pspec) : expr := match c with Requires e | Ensures e => e end.
(** 118-123 and ast/visit.rs 110-123 *)
Definition dg_proc (g : depgraph) (p : proc) (doms : list string) : res depgraph :=
  assert_no_deps g (
    let s := set_extend doms (dg_deps g) in
    let s := exprs_deps (map spec_expr (pspecs p)) s in
    let s := match pbody p with Some b => exprs_deps (block_exprs b) s | None => s end in
    Ok (collect_directed_deps (with_deps g s) (pname p))).
(** 143-151 and ast/visit.rs 125-138 *)
Definition dg_func (g : depgraph) (f : dfunc) : res depgraph :=
  assert_no_deps g (
    let s := set_extend (df_doms f) (dg_deps g) in
    let s := match df_body f with Some e => expr_deps e s | None => s end in
    let g := with_deps g s in
    match dg_inst g with
    | Decreasing => Ok (collect_directed_deps g (df_name f))
    | Bidirectional => Ok (collect_mutual_deps g (df_name f))
    end).
(** 153-165 *)
Definition dg_axiom (g : depgraph) (a : daxiom) : res depgraph :=
  assert_no_deps g (
    let s := expr_deps (da_expr a) (set_extend (da_doms a) (dg_deps g)) in
    match s with
    | [] => Err "axiom must mention at least one function or domain"
    | _ => Ok (collect_mutual_deps (with_deps g s) (da_name a))
    end).
(** 125-141 *)
Definition dg_spec (g : depgraph) (s : dspec) : res depgraph :=
  match s with DFunc f => dg_func g f | DAxiom a => dg_axiom g a end.
Definition dg_decl (g : depgraph) (d : ddecl) : res depgraph :=
  match d with
  | DeclProc p doms => dg_proc g p doms
  | DeclDomain _ specs => rfold dg_spec specs g
  | DeclFunc f => dg_func g f
  end.
(** front.rs 463-473 *)
Definition populate_depgraph (g : depgraph) (u : dunit) : res depgraph :=
  assert_no_deps g (match u with UDecl d => dg_decl g d | URaw _ _ => Ok g end).
(** front.rs 274-283 *)
Definition generate_depgraph (m : axiom_instantiation) (us : list dunit) : res depgraph :=
  rfold populate_depgraph us (depgraph_new m).

(** core_verify.rs 81-92: the dependencies of a unit *)
Definition decl_name (d : ddecl) : string :=
  match d with DeclProc p _ => pname p | DeclDomain n _ => n | DeclFunc f => df_name f end.
Definition unit_deps (g : depgraph) (n : nat) (u : dunit) : option (list string) :=
  match u with
  | UDecl d => get_reachable g n [decl_name d]
  | URaw b doms => get_reachable g n (exprs_deps (block_exprs b) (set_extend doms []))
  end.

(** smt/mod.rs 73-152 with DepConfig::Set: the sorts, the functions and the axioms that are passed on, in order; [domains] are the
    declarations of the TyCtx (tyctx.rs 135-144).  A function is declared iff its definition is passed on. *)
Definition emitted_sorts (deps : list string) (domains : list (string * list dspec)) : list string :=
  filter (fun x => mem x deps) (map fst domains).
Definition spec_name (s : dspec) : string := match s with DFunc f => df_name f | DAxiom a => da_name a end.
Definition emitted_specs (deps : list string) (domains : list (string * list dspec)) : list dspec :=
  filter (fun s => mem (spec_name s) deps) (flat_map snd domains).
