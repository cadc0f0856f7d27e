(** What names in a module refer to, independent of how scopes are stored: a list of scopes, the innermost first, each
    of which is a collection of declarations. *)
From Coq Require Import List String.
From Verif.Model Require Import Syntax ResolveDecls.
Import ListNotations.
Local Open Scope string_scope.
Local Open Scope list_scope.

Definition scope := list (gid * dkind).
Definition stack := list scope.
Definition declares_name (n : string) (sc : scope) : Prop := exists x k, In (x, k) sc /\ gname x = n.
(** A name refers to its declaration in the innermost scope that declares it. *)
Definition refers (E : stack) (n : string) (x : gid) (k : dkind) : Prop :=
  exists inner sc outer, E = inner ++ sc :: outer /\ In (x, k) sc /\ gname x = n /\
    forall sc', In sc' inner -> ~ declares_name n sc'.
(** The name of an annotation refers to the innermost annotation of this name; other declarations do not hide it. *)
Definition annotation (k : dkind) : Prop := k = KCalculus \/ k = KEncoding \/ k = KSlicing.
Definition refers_annotation (E : stack) (n : string) (x : gid) (k : dkind) : Prop :=
  exists inner sc outer, E = inner ++ sc :: outer /\ In (x, k) sc /\ gname x = n /\ annotation k /\
    forall sc' y k', In sc' inner -> In (y, k') sc' -> gname y = n -> ~ annotation k'.

(** A declaration belongs to the innermost scope; it must be the first one of its name there, or the same one again. *)
Inductive adds (k : dkind) (x : gid) : stack -> stack -> Prop :=
| adds_new sc E : ~ declares_name (gname x) sc -> adds k x (sc :: E) ((sc ++ [(x, k)]) :: E)
| adds_again sc E k' : In (x, k') sc -> adds k x (sc :: E) (sc :: E).
Inductive adds_all : list (dkind * gid) -> stack -> stack -> Prop :=
| aa_nil E : adds_all [] E E
| aa_cons k x l E E1 E2 : adds k x E E1 -> adds_all l E1 E2 -> adds_all ((k, x) :: l) E E2.

(** Names that always mean a built-in type. *)
Inductive builtin : string -> string -> Prop :=
| b_bool : builtin "Bool" "Bool" | b_int : builtin "Int" "Int"
| b_uint : builtin "UInt" "UInt" | b_uint' : builtin "Uint" "UInt"
| b_real : builtin "Real" "Real" | b_ureal : builtin "UReal" "UReal"
| b_eureal : builtin "EUReal" "EUReal" | b_eureal' : builtin "Realplus" "EUReal".
Inductive means (E : stack) : rty -> rty -> Prop :=
| m_builtin x b : builtin (gname x) b -> means E (TUnresolved x) (TBuiltin b)
| m_domain x y : (forall b, ~ builtin (gname x) b) -> refers E (gname x) y KDomain -> means E (TUnresolved x) (TDomain y)
| m_list t t' : means E t t' -> means E (TList t) (TList t')
| m_spec : means E TSpec (TBuiltin "EUReal")
| m_done b : means E (TBuiltin b) (TBuiltin b)
| m_done' x : means E (TDomain x) (TDomain x).

(** What the arguments of an annotation are: names and expressions to be understood, the declaration of a variable, or
    something that is not looked at. *)
Inductive role := Understood | Declared | Ignored.
Inductive roles (y : gid) : dkind -> list item -> list role -> Prop :=
| r_ignored k args : k <> KEncoding -> roles y k args (map (fun _ => Ignored) args)
| r_omega_none : gname y = "omega_invariant" -> roles y KEncoding [] []
| r_omega a args : gname y = "omega_invariant" ->
    roles y KEncoding (a :: args) (Declared :: map (fun _ => Understood) args)
| r_ast a b c d e : gname y = "ast" ->
    roles y KEncoding [a; b; c; d; e] [Understood; Understood; Declared; Understood; Understood]
| r_ost a b c d : gname y = "ost" -> roles y KEncoding [a; b; c; d] [Understood; Understood; Understood; Understood]
| r_other args : ~ In (gname y) ["omega_invariant"; "ast"; "ost"] ->
    roles y KEncoding args (map (fun _ => Understood) args).

(** [sees E i i' E']: in the scopes [E], [i] means [i']; after it the scopes are [E']. *)
Inductive sees : stack -> item -> item -> stack -> Prop :=
| s_use E x y k : refers E (gname x) y k -> sees E (IUse x) (IUse y) E
| s_type E t t' : means E t t' -> sees E (IType t) (IType t') E
| s_decl E k x E' : adds k x E E' -> sees E (IDecl k x) (IDecl k x) E'
| s_expr E l l' E' : sees_all E l l' E' -> sees E (IExpr l) (IExpr l') E'
| s_scope E l l' E' : sees_all ([] :: E) l l' E' -> sees E (IScope l) (IScope l') E
| s_ann E x y k args rs args' E1 inner inner' E2 :
    refers_annotation E (gname x) y k -> roles y k args rs ->
    sees_args E args rs args' E1 -> sees_all ([] :: E1) inner inner' E2 ->
    sees E (IAnn x args inner) (IAnn y args' inner') E1
with sees_all : stack -> list item -> list item -> stack -> Prop :=
| sl_nil E : sees_all E [] [] E
| sl_cons E i i' E1 l l' E2 : sees E i i' E1 -> sees_all E1 l l' E2 -> sees_all E (i :: l) (i' :: l') E2
with sees_args : stack -> list item -> list role -> list item -> stack -> Prop :=
| sa_nil E : sees_args E [] [] [] E
| sa_understood E a a' E1 l rs l' E2 : sees E a a' E1 -> sees_args E1 l rs l' E2 ->
    sees_args E (a :: l) (Understood :: rs) (a' :: l') E2
| sa_declared E z E1 l rs l' E2 : adds KVar z E E1 -> sees_args E1 l rs l' E2 ->
    sees_args E (IUse z :: l) (Declared :: rs) (IUse z :: l') E2
| sa_ignored E a l rs l' E2 : sees_args E l rs l' E2 -> sees_args E (a :: l) (Ignored :: rs) (a :: l') E2.

Inductive sees_params : stack -> list (gid * rty) -> list (gid * rty) -> stack -> Prop :=
| sp_nil E : sees_params E [] [] E
| sp_cons E x t t' E1 ps ps' E2 : means E t t' -> adds KVar x E E1 -> sees_params E1 ps ps' E2 ->
    sees_params E ((x, t) :: ps) ((x, t') :: ps') E2.
Inductive sees_body : stack -> option (list item) -> option (list item) -> Prop :=
| sb_none E : sees_body E None None
| sb_some E l l' E' : sees_all E l l' E' -> sees_body E (Some l) (Some l').
Inductive sees_name : stack -> option gid -> option gid -> Prop :=
| sn_none E : sees_name E None None
| sn_some E x y k : refers E (gname x) y k -> sees_name E (Some x) (Some y).

(** Parameters, results, specification and body of a procedure share one scope; nothing of it is visible outside. *)
Inductive sees_proc (E : stack) : rproc -> rproc -> Prop :=
| sees_proc_intro x ins ins' outs outs' spec spec' calc calc' body body' E1 E2 E3 :
    sees_params ([] :: E) ins ins' E1 -> sees_params E1 outs outs' E2 -> sees_all E2 spec spec' E3 ->
    sees_name E3 calc calc' -> sees_body E3 body body' ->
    sees_proc E (mkproc x ins outs spec calc body) (mkproc x ins' outs' spec' calc' body').
Inductive sees_func (E : stack) : rfunc -> rfunc -> Prop :=
| sees_func_intro x ins ins' out out' body body' E1 :
    sees_params ([] :: E) ins ins' E1 -> means E1 out out' -> sees_body E1 body body' ->
    sees_func E (mkfunc x ins out body) (mkfunc x ins' out' body').

(** Units.  The functions and axioms of a domain are declared for the domain and for everything that comes after it. *)
Inductive sees_ditems : stack -> list ditem -> list ditem -> stack -> Prop :=
| sd_nil E : sees_ditems E [] [] E
| sd_func E f f' l l' E' : sees_func E f f' -> sees_ditems E l l' E' -> sees_ditems E (DFunc f :: l) (DFunc f' :: l') E'
| sd_axiom E x y k e e' E1 l l' E2 : refers E (gname x) y k -> sees_all E e e' E1 -> sees_ditems E1 l l' E2 ->
    sees_ditems E (DAxiom x e :: l) (DAxiom y e' :: l') E2.
Inductive sees_unit : stack -> unit -> unit -> stack -> Prop :=
| su_proc E p p' : sees_proc E p p' -> sees_unit E (UProc p) (UProc p') E
| su_domain E x y k l l' E1 E2 :
    adds_all (map (fun d => match d with DFunc f => (KFunc, fname f) | DAxiom x _ => (KAxiom, x) end) l) E E1 ->
    refers E1 (gname x) y k -> sees_ditems E1 l l' E2 -> sees_unit E (UDomain x l) (UDomain y l') E2
| su_raw E l l' E1 : sees_all ([] :: E) l l' E1 -> sees_unit E (URaw l) (URaw l') E.
Inductive sees_units : stack -> list unit -> list unit -> stack -> Prop :=
| sus_nil E : sees_units E [] [] E
| sus_cons E u u' E1 us us' E2 : sees_unit E u u' E1 -> sees_units E1 us us' E2 ->
    sees_units E (u :: us) (u' :: us') E2.

(** The declarations at the top of a module, in the order of the text. *)
Definition top_names (us : list unit) : list (dkind * gid) :=
  flat_map (fun u => match u with UProc p => [(KProc, pname p)] | UDomain x _ => [(KDomain, x)] | URaw _ => [] end) us.
(** A module: the imports are around the declarations of the module, all of which are visible everywhere in it. *)
Definition sees_module (imports : scope) (us us' : list unit) (top : scope) : Prop :=
  exists top0, adds_all (top_names us) [[]; imports] [top0; imports] /\
    sees_units [top0; imports] us us' [top; imports].

(** All declarations in items, in the order of the text; [args]: the declared arguments of annotations are counted, too. *)
Fixpoint decls_of (i : item) : list (gid * dkind) :=
  match i with
  | IUse _ | IType _ => []
  | IDecl k x => [(x, k)]
  | IExpr l | IScope l => flat_map decls_of l
  | IAnn x args inner =>
      flat_map (fun a => match a with IUse z => [(z, KVar)] | _ => decls_of a end) args ++ flat_map decls_of inner
  end.
Definition body_decls (b : option (list item)) : list (gid * dkind) :=
  match b with None => [] | Some l => flat_map decls_of l end.
Definition param_decls (ps : list (gid * rty)) : list (gid * dkind) := map (fun p => (fst p, KVar)) ps.
Definition func_decls (f : rfunc) : list (gid * dkind) := param_decls (fins f) ++ body_decls (fbody f).
Definition ditem_inner (d : ditem) : list (gid * dkind) :=
  match d with DFunc f => func_decls f | DAxiom _ l => flat_map decls_of l end.
Definition ditem_name (d : ditem) : gid * dkind :=
  match d with DFunc f => (fname f, KFunc) | DAxiom x _ => (x, KAxiom) end.
Definition unit_decls (u : unit) : list (gid * dkind) :=
  match u with
  | UProc p => param_decls (pins p) ++ param_decls (pouts p) ++ flat_map decls_of (pspec p) ++ body_decls (pbody p)
  | UDomain _ l => map ditem_name l ++ flat_map ditem_inner l
  | URaw l => flat_map decls_of l
  end.
(** Everything that is declared in a module. *)
Definition module_decls (us : list unit) : list (gid * dkind) :=
  map (fun d => (snd d, fst d)) (top_names us) ++ flat_map unit_decls us.

(** Modules that a resolver can be expected to answer for.  A type is a built-in type or the name of domains only;
    the annotations ast and ost have five and four arguments. *)
Fixpoint sensible_type (D : scope) (t : rty) : Prop :=
  match t with
  | TUnresolved x => (exists b, builtin (gname x) b) \/ forall y k, In (y, k) D -> gname y = gname x -> k = KDomain
  | TList t' => sensible_type D t'
  | _ => True
  end.
Fixpoint sensible (D : scope) (i : item) : Prop :=
  match i with
  | IUse _ | IDecl _ _ => True
  | IType t => sensible_type D t
  | IExpr l | IScope l => (fix all l := match l with [] => True | i :: l' => sensible D i /\ all l' end) l
  | IAnn x args inner =>
      (gname x = "ast" -> List.length args = 5) /\ (gname x = "ost" -> List.length args = 4) /\
      (fix all l := match l with [] => True | i :: l' => sensible D i /\ all l' end) args /\
      (fix all l := match l with [] => True | i :: l' => sensible D i /\ all l' end) inner
  end.
Definition sensible_params (D : scope) (ps : list (gid * rty)) : Prop := Forall (fun p => sensible_type D (snd p)) ps.
Definition sensible_body (D : scope) (b : option (list item)) : Prop :=
  match b with None => True | Some l => Forall (sensible D) l end.
Definition sensible_ditem (D : scope) (d : ditem) : Prop :=
  match d with
  | DFunc f => sensible_params D (fins f) /\ sensible_type D (fout f) /\ sensible_body D (fbody f)
  | DAxiom _ l => Forall (sensible D) l
  end.
Definition sensible_unit (D : scope) (u : unit) : Prop :=
  match u with
  | UProc p => sensible_params D (pins p) /\ sensible_params D (pouts p) /\ Forall (sensible D) (pspec p) /\
               sensible_body D (pbody p)
  | UDomain _ l => Forall (sensible_ditem D) l
  | URaw l => Forall (sensible D) l
  end.
(** Identifiers of different declarations differ: they are at different places of the text, and not imported. *)
Definition distinct (imports : scope) (us : list unit) : Prop :=
  NoDup (map fst (module_decls us)) /\ forall x, In x (map fst (module_decls us)) -> ~ In x (map fst imports).

(** The names used in items, except in arguments of annotations. *)
Fixpoint used (i : item) : list gid :=
  match i with
  | IUse x => [x]
  | IType _ | IDecl _ _ => []
  | IExpr l | IScope l => flat_map used l
  | IAnn x _ inner => x :: flat_map used inner
  end.
Definition body_used (b : option (list item)) : list gid := match b with None => [] | Some l => flat_map used l end.
Definition ditem_used (d : ditem) : list gid :=
  match d with DFunc f => body_used (fbody f) | DAxiom x l => x :: flat_map used l end.
Definition unit_used (u : unit) : list gid :=
  match u with
  | UProc p => flat_map used (pspec p) ++ (match pcalculus p with Some c => [c] | None => [] end) ++ body_used (pbody p)
  | UDomain x l => x :: flat_map ditem_used l
  | URaw l => flat_map used l
  end.
(** Everything that a module declares at the top: procedures, domains, and the functions and axioms of domains. *)
Definition global_names (us : list unit) : list gid :=
  map snd (top_names us) ++
  flat_map (fun u => match u with UDomain _ l => map (fun d => fst (ditem_name d)) l | _ => [] end) us.
Definition no_domain (u : unit) : Prop := match u with UDomain _ _ => False | _ => True end.
