(** Recursive procedures and calculus annotations:
    src/proof_rules/calculus/{recursion_checker,calculus_checker}.rs.
    Spans (of calls, in the blame) are left out. *)
From Coq Require Import Bool List String.
From Verif.Model Require Import Syntax Procs Encode.
Import ListNotations.
Local Open Scope list_scope.

(** A procedure declaration with its calculus annotation (ast/decl.rs, ProcDecl::calculus); a module's source units that are procedures. *)
Record cproc := mkcproc { cp_proc : proc; cp_calculus : option string }.
(** What the checkers ask the TyCtx: tyctx.rs 67-70.  None: no declaration. *)
Inductive rdecl := RProc (p : cproc) | RCalculus (c : calculus) | ROther.
Definition rtcx := string -> option rdecl.

(** ast/visit.rs 224-291 (walk_stmt) with a [visit_expr] that does not descend: the expressions it is applied to, in order. *)
Fixpoint stmt_exprs (s : stmt) {struct s} : list expr :=
  let block b := flat_map stmt_exprs b in
  match s with
  | SSeq b => block b
  | SVar _ (Some e) | SAssign _ e | SAssert _ e | SAssume _ e | SCompare _ e | STick e | SWeigh e => [e]
  | SVar _ None | SHavoc _ _ | SNegate _ | SValidate _ | SLabel _ => []
  | SDemonic a b | SAngelic a b | SAdditive a b => block a ++ block b
  | SIf c a b => c :: block a ++ block b
  | SWhile c b => c :: block b
  | SAnn _ args s' => args ++ stmt_exprs s'
  end.
Definition block_exprs (b : list stmt) : list expr := flat_map stmt_exprs b.

Fixpoint rfold {A B} (f : A -> B -> res A) (l : list B) (a : A) : res A :=
  match l with [] => Ok a | x :: l' => let? a' := f a x in rfold f l' a' end.

(** * recursion_checker.rs *)
(** The graph: names and edges from callee to caller, in the order they are added. *)
Record cgraph := mkcg { cg_nodes : list string; cg_edges : list (string * string) }.
(** 45-50 *)
Definition get_node (g : cgraph) (x : string) : cgraph :=
  if existsb (String.eqb x) (cg_nodes g) then g else mkcg (cg_nodes g ++ [x]) (cg_edges g).
(** 74-91, in the body of procedure [cur]; the declaration found for a call has the called name *)
Definition cg_expr (T : rtcx) (cur : string) (g : cgraph) (e : expr) : res cgraph :=
  match e with
  | ECall _ f _ =>
      match T f with
      | None => Panic "called Option::unwrap() on a None value"
      | Some (RProc p) =>
          let g1 := get_node (get_node g (pname (cp_proc p))) cur in
          Ok (mkcg (cg_nodes g1) (cg_edges g1 ++ [(pname (cp_proc p), cur)]))
      | Some _ => Ok g
      end
  | _ => Ok g
  end.
(** 56-72 *)
Definition cg_proc (T : rtcx) (g : cgraph) (p : cproc) : res cgraph :=
  match pbody (cp_proc p) with Some b => rfold (cg_expr T (pname (cp_proc p))) (block_exprs b) g | None => Ok g end.
(** 95-114: all procedures of the module *)
Definition call_graph (T : rtcx) (ps : list cproc) : res cgraph := rfold (cg_proc T) ps (mkcg [] []).

(** The map from recursive procedures to the called procedure that is to blame. *)
Definition blames := list (string * string).
Definition known (m : blames) (x : string) : bool := existsb (fun p => String.eqb x (fst p)) m.
(** 137-154: the edges of one node *)
Definition blame_node (g : cgraph) (scc : list string) (m : blames) (n : string) : blames :=
  fold_left (fun m e => if String.eqb (fst e) n && existsb (String.eqb (snd e)) scc && negb (known m (snd e)) then m ++ [(snd e, n)] else m) (cg_edges g) m.
(** 131-135 *)
Definition cyclic (g : cgraph) (scc : list string) : bool :=
  Nat.ltb 1 (List.length scc) ||
  match scc with x :: _ => existsb (fun e => String.eqb (fst e) x && String.eqb (snd e) x) (cg_edges g) | [] => false end.
Definition blame_scc (g : cgraph) (m : blames) (scc : list string) : blames :=
  if cyclic g scc then fold_left (blame_node g scc) scc m else m.
(** 119-158; [sccs] is what petgraph's tarjan_scc returns for the graph. *)
Definition find_recursive_procs (sccs : cgraph -> list (list string)) (T : rtcx) (ps : list cproc) : res blames :=
  let? g := call_graph T ps in Ok (fold_left (blame_scc g) (sccs g) []).

(** * calculus_checker.rs *)
Inductive cal_result := Accepted | UnknownAnnotation (a : string) | UnsoundRecursion (f : string) (called : string)
  | CallMismatch (ctx callee : string) | MissingDecl.
(** 52-77; [ctx]: the name of the current calculus *)
Definition cal_expr (T : rtcx) (ctx : option string) (e : expr) : cal_result :=
  match e with
  | ECall _ f _ =>
      match T f with
      | None => MissingDecl
      | Some (RProc p) =>
          match ctx, cp_calculus p with
          | Some c, Some c' => if String.eqb c c' then Accepted else CallMismatch c c'
          | _, _ => Accepted
          end
      | Some _ => Accepted
      end
  | _ => Accepted
  end.
Fixpoint cal_exprs (T : rtcx) (ctx : option string) (es : list expr) : cal_result :=
  match es with
  | [] => Accepted
  | e :: es' => match cal_expr T ctx e with Accepted => cal_exprs T ctx es' | r => r end
  end.
Definition blame_of (m : blames) (f : string) : option string :=
  match find (fun p => String.eqb f (fst p)) m with Some p => Some (snd p) | None => None end.
(** 79-140.  The name of a calculus is that of its declaration. *)
Definition cal_proc (T : rtcx) (m : blames) (p : cproc) : cal_result :=
  let q := cp_proc p in
  let body ctx := match pbody q with Some b => cal_exprs T ctx (block_exprs b) | None => Accepted end in
  match cp_calculus p with
  | None => body None
  | Some a =>
      match T a with
      | None => UnknownAnnotation a
      | Some (RCalculus c) =>
          match is_induction_allowed c (pdir q), blame_of m (pname q) with
          | false, Some called => UnsoundRecursion (pname q) called
          | _, _ => body (Some a)
          end
      | Some _ => body None
      end
  end.
(** driver/front.rs 250-265, for the procedures of a module *)
Fixpoint cal_procs (T : rtcx) (m : blames) (ps : list cproc) : cal_result :=
  match ps with [] => Accepted | p :: ps' => match cal_proc T m p with Accepted => cal_procs T m ps' | r => r end end.
Definition check_calculus_rules (sccs : cgraph -> list (list string)) (T : rtcx) (ps : list cproc) : res cal_result :=
  let? m := find_recursive_procs sccs T ps in Ok (cal_procs T m ps).
