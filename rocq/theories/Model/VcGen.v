(** Model of src/vc/vcgen.rs with explanations switched off
    ([explanation = None], the default) and without resource limits. *)
From Coq Require Import Bool List String.
From Verif.Model Require Import Syntax Builder Dist.
Import ListNotations.

(** What vcgen asks the TyCtx about a called or annotating identifier. *)
Inductive decl_kind := DFunc | DFuncIntrin | DProcIntrin | DProc | DSlicingAnn | DOtherDecl.
Definition tcx := string -> option decl_kind.

(** vcgen.rs 211-245 *)
Definition generate_assign (T : tcx) (rhs : expr) (lhses : list ident) (post : expr) : res expr :=
  let plain :=
    match lhses with
    | [x] => Ok (b_subst post [(x, rhs)])
    | _ => Panic "for vc generation, there must be exactly one lhs in an assignment"
    end in
  match rhs with
  | ECall _ f args =>
      match T f with
      | Some DProcIntrin => dist_vcgen f args lhses post
      | Some DFunc | Some DFuncIntrin => plain
      | Some _ => Panic "cannot do vc generation for"
      | None => Panic "missing declaration for call"
      end
  | _ => plain
  end.

(** vcgen.rs 125-156 *)
Definition vcgen_validate (d : direction) (post : expr) : expr :=
  let negneg op := EUn TEUReal op (EUn TEUReal op post) in
  match d, post with
  | Down, EBin _ OImpl lhs rhs => EBin TEUReal OCompare lhs rhs
  | Up, EBin _ OCoImpl lhs rhs => EBin TEUReal OCoCompare lhs rhs
  | Down, _ => negneg ONot
  | Up, _ => negneg ONon
  end.

(** vcgen.rs 66-209; the specification type is EUReal (src/driver/front.rs, TyCtx::new(TyKind::EUReal)). *)
Fixpoint vcgen (T : tcx) (s : stmt) (post : expr) {struct s} : res expr :=
  let block := fix block (b : list stmt) (post : expr) {struct b} : res expr :=
    match b with
    | [] => Ok post
    | s :: b' => let? p := block b' post in vcgen T s p
    end in
  let branch op b1 b2 := let? p1 := block b1 post in let? p2 := block b2 post in Ok (EBin TEUReal op p1 p2) in
  match s with
  | SSeq b => block b post
  | SVar x None => Ok post
  | SVar x (Some e) => generate_assign T e [x] post
  | SAssign xs e => generate_assign T e xs post
  | SHavoc d xs => Ok (b_quant (match d with Down => QInf | Up => QSup end) xs post)
  | SAssert d e => Ok (EBin TEUReal (match d with Down => OInf | Up => OSup end) e post)
  | SAssume d e => Ok (EBin TEUReal (match d with Down => OImpl | Up => OCoImpl end) e post)
  | SCompare d e => Ok (EBin TEUReal (match d with Down => OCompare | Up => OCoCompare end) e post)
  | SNegate d => Ok (EUn TEUReal (match d with Down => ONot | Up => ONon end) post)
  | SValidate d => Ok (vcgen_validate d post)
  | STick e => Ok (EBin TEUReal OAdd e post)
  | SWeigh e => Ok (EBin TEUReal OMul e post)
  | SDemonic b1 b2 => branch OInf b1 b2
  | SAngelic b1 b2 => branch OSup b1 b2
  | SAdditive b1 b2 => branch OAdd b1 b2
  | SIf c b1 b2 => let? p1 := block b1 post in let? p2 := block b2 post in Ok (EIte TEUReal c p1 p2)
  | SWhile _ _ => Err "while loops need a proof rule"
  | SAnn a _ s' => match T a with Some DSlicingAnn => vcgen T s' post | _ => Err "unsupported statement" end
  | SLabel _ => Ok post
  end.

(** vcgen.rs 41-64: vcgen_block / vcgen_stmts *)
Fixpoint vcgen_block (T : tcx) (b : list stmt) (post : expr) : res expr :=
  match b with
  | [] => Ok post
  | s :: b' => let? p := vcgen_block T b' post in vcgen T s p
  end.
