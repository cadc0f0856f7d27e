(** Model of the printer (src/pretty.rs and the SimplePretty instances in src/ast) and of the grammar of statements and
    declarations (src/front/parser/grammar.lalrpop).
    The text is a list of tokens, as in Model/Precedence.v; "name : type" and "@ name" are one token each, and an identifier
    before a bracket is a function name.  The renderer of the crate pretty chooses line breaks: between two statements it
    writes a line break or "; " ([Sep]).  Triggers, string literals and the types of lists and domains are left out. *)
From Coq Require Import Bool List String Arith ZArith NArith QArith.
From Verif.Model Require Import Syntax Tycheck Precedence.
Import ListNotations.
Local Open Scope string_scope.
Local Open Scope list_scope.

Inductive word :=
| WVar | WHavoc (d : direction) | WAssert (d : direction) | WAssume (d : direction) | WCompare (d : direction)
| WNegate (d : direction) | WValidate (d : direction) | WTick | WReward | WWeigh | WIf | WElse | WWhile | WLabel
| WProc (d : direction) | WPre | WPost | WDomain | WFunc | WFn | WAxiom | WComputable.
Inductive stok :=
| E (k : tok) | W (w : word) | Semi | LBrace | RBrace | Equals | At (name : string) | Oplus | Arrow
| Name (n : string)                                 (* the name of a domain or an axiom *)
| Colon | Ty (t : ty)
| Sep.                                              (* written by the printer only *)

(** src/ast/decl.rs 290-341, 443-530: declarations *)
Record rproc := mkrproc { rp_dir : direction; rp_name : string; rp_ins : list ident; rp_outs : list ident;
                          rp_spec : list (bool * rexpr);   (* true: pre, false: post *)
                          rp_body : option (list rstmt); rp_calculus : option string }.
Inductive rdspec :=
| RFunc (name : string) (ins : list ident) (out : ty) (computable : bool) (body : option rexpr)
| RAxiom (name : string) (e : rexpr).
Record rdomain := mkrdomain { rd_name : string; rd_body : list rdspec }.

(** * The grammar *)
Section Grammar.
Variable G : levels.
(** grammar.lalrpop 21-26 (CommaPlus<Ident>), 11-19 (Comma<Param>) *)
Inductive gids : list stok -> list ident -> Prop :=
| gi_one x : gids [E (KId x)] [x]
| gi_more x t xs : gids t xs -> gids (E (KId x) :: E KComma :: t) (x :: xs).
Inductive gparams : list stok -> list ident -> Prop :=
| gp_none : gparams [] []
| gp_last x : gparams [E (KVar x)] [x]
| gp_more x t xs : gparams t xs -> gparams (E (KVar x) :: E KComma :: t) (x :: xs).

(** grammar.lalrpop 28-30 (OptSemi), 187-250 *)
Inductive gstmt : list stok -> rstmt -> Prop :=
| gs_block t b : gstmts t b -> gstmt (LBrace :: t ++ [RBrace]) (RSeq b)
| gs_init x t e : gexpr G t e -> gstmt (W WVar :: E (KVar x) :: Equals :: map E t) (RVarDecl x (Some e))
| gs_var x : gstmt [W WVar; E (KVar x)] (RVarDecl x None)
| gs_assign ti xs t e : gids ti xs -> gexpr G t e -> gstmt (ti ++ Equals :: map E t) (RAssign xs e)
| gs_call f t args : gargs G t args -> gstmt (E (KFun f) :: E KLpar :: map E t ++ [E KRpar]) (RAssign [] (RCall None f args))
| gs_havoc d ti xs : gids ti xs -> gstmt (W (WHavoc d) :: ti) (RHavoc d xs)
| gs_assert d t e : gexpr G t e -> gstmt (W (WAssert d) :: map E t) (RAssert d e)
| gs_assume d t e : gexpr G t e -> gstmt (W (WAssume d) :: map E t) (RAssume d e)
| gs_compare d t e : gexpr G t e -> gstmt (W (WCompare d) :: map E t) (RCompare d e)
| gs_reward t e : gexpr G t e -> gstmt (W WReward :: map E t) (RTick e)
| gs_tick t e : gexpr G t e -> gstmt (W WTick :: map E t) (RTick e)
| gs_weigh t e : gexpr G t e -> gstmt (W WWeigh :: map E t) (RWeigh e)
| gs_negate d : gstmt [W (WNegate d)] (RNegate d)
| gs_validate d : gstmt [W (WValidate d)] (RValidate d)
| gs_additive t1 b1 t2 b2 o : o = E (KBin OAdd) \/ o = Oplus -> gstmts t1 b1 -> gstmts t2 b2 ->
    gstmt (W WIf :: o :: LBrace :: t1 ++ RBrace :: W WElse :: LBrace :: t2 ++ [RBrace]) (RAdditive b1 b2)
| gs_demonic t1 b1 t2 b2 : gstmts t1 b1 -> gstmts t2 b2 ->
    gstmt (W WIf :: E (KBin OInf) :: LBrace :: t1 ++ RBrace :: W WElse :: LBrace :: t2 ++ [RBrace]) (RDemonic b1 b2)
| gs_angelic t1 b1 t2 b2 : gstmts t1 b1 -> gstmts t2 b2 ->
    gstmt (W WIf :: E (KBin OSup) :: LBrace :: t1 ++ RBrace :: W WElse :: LBrace :: t2 ++ [RBrace]) (RAngelic b1 b2)
| gs_if t c t1 b1 t2 b2 : gexpr G t c -> gstmts t1 b1 -> gstmts t2 b2 ->
    gstmt (W WIf :: map E t ++ LBrace :: t1 ++ RBrace :: W WElse :: LBrace :: t2 ++ [RBrace]) (RIf c b1 b2)
| gs_while t c t1 b : gexpr G t c -> gstmts t1 b -> gstmt (W WWhile :: map E t ++ LBrace :: t1 ++ [RBrace]) (RWhile c b)
| gs_ann n t s : gstmt t s -> gstmt (At n :: t) (RAnn n [] s)
| gs_ann_args n ta args t s : gargs G ta args -> gstmt t s -> gstmt (At n :: E KLpar :: map E ta ++ E KRpar :: t) (RAnn n args s)
| gs_label x : gstmt [W WLabel; E (KId x)] (RLabel x)
with gstmts : list stok -> list rstmt -> Prop :=
| gs_nil : gstmts [] []
| gs_cons t s semi ts b : gstmt t s -> semi = [] \/ semi = [Semi] -> gstmts ts b -> gstmts (t ++ semi ++ ts) (s :: b).

(** 279-282 (ProcSpec) *)
Inductive gspec : list stok -> list (bool * rexpr) -> Prop :=
| gsp_nil : gspec [] []
| gsp_pre t e ts l : gexpr G t e -> gspec ts l -> gspec (W WPre :: map E t ++ ts) ((true, e) :: l)
| gsp_post t e ts l : gexpr G t e -> gspec ts l -> gspec (W WPost :: map E t ++ ts) ((false, e) :: l).
Inductive gbody : list stok -> option (list rstmt) -> Prop :=
| gb_none : gbody [] None
| gb_some t b : gstmts t b -> gbody (LBrace :: t ++ [RBrace]) (Some b).
Definition gcalc (c : option string) : list stok := match c with Some n => [At n] | None => [] end.
(** 260-278 *)
Inductive gproc : list stok -> rproc -> Prop :=
| gpr c d n ti ins to outs tsp l tb b : gparams ti ins -> gparams to outs -> gspec tsp l -> gbody tb b ->
    gproc (gcalc c ++ W (WProc d) :: E (KFun n) :: E KLpar :: ti ++ E KRpar :: Arrow :: E KLpar :: to ++ E KRpar :: tsp ++ tb)
          (mkrproc d n ins outs l b c).
(** 284-297 *)
Inductive gdspecs : list stok -> list rdspec -> Prop :=
| gd_nil : gdspecs [] []
| gd_func n ti ins o c ts l : gparams ti ins -> gdspecs ts l ->
    gdspecs (W WFunc :: E (KFun n) :: E KLpar :: ti ++ E KRpar :: Colon :: Ty o :: (if c : bool then [W WComputable] else []) ++ ts) (RFunc n ins o c None :: l)
| gd_body n ti ins o t e ts l : gparams ti ins -> gexpr G t e -> gdspecs ts l ->
    gdspecs (W WFunc :: E (KFun n) :: E KLpar :: ti ++ E KRpar :: Colon :: Ty o :: Equals :: map E t ++ ts) (RFunc n ins o false (Some e) :: l)
| gd_axiom n t e ts l : gexpr G t e -> gdspecs ts l -> gdspecs (W WAxiom :: Name n :: map E t ++ ts) (RAxiom n e :: l).
Inductive gdomain : list stok -> rdomain -> Prop :=
| gdo n ts l : gdspecs ts l -> gdomain (W WDomain :: Name n :: LBrace :: ts ++ [RBrace]) (mkrdomain n l).
End Grammar.

(** src/ast/expr.rs 346-352 (Trigger::new), called by the grammar (163-169) with the list of the bracket *)
Definition trigger_new (terms : list rexpr) : res (list rexpr) :=
  match terms with [] => Panic "assertion failed: !terms.is_empty()" | _ => Ok terms end.

(** * The printer *)
(** src/pretty.rs 37-47 (pretty_list) *)
Fixpoint commas {A} (c : A) (l : list (list A)) : list A :=
  match l with [] => [] | [t] => t | t :: l' => t ++ c :: commas c l' end.
(** src/ast/expr.rs 425-435 (Display for LitKind), with num's Display for BigRational: the fraction as it is, without the
    denominator 1.  Literals are not reduced (src/front/parser/parser_util.rs 19-31). *)
Definition plit (l : lit) : list tok :=
  match l with
  | LFrac q => if Pos.eqb (Qden q) 1 then [KLit (LUInt (Z.to_N (Qnum q)))]
      else [KLit (LUInt (Z.to_N (Qnum q))); KBin ODiv; KLit (LUInt (Npos (Qden q)))]
  | _ => [KLit l]
  end.
(** 294-308 *)
Definition pqvar (v : qvar) : list tok := match v with QShadow x => [KId x] | QFresh x => [KVar x] end.
Definition par (t : list tok) : list tok := KLpar :: t ++ [KRpar].
(** What the grammar of expressions has no token for; it occurs in no production. *)
Definition KCast (o : option xty) : tok := KFun "cast".
(** src/ast/expr.rs 89-142.  "[x -> v]" and "cast(type, e)" are written with tokens that no expression continues with. *)
Fixpoint pexpr (e : rexpr) : list tok :=
  match e with
  | RVar _ x => [KId x]
  | RCall _ f args => KFun f :: par (commas KComma (map pexpr args))
  | RIte _ c a b => KIte :: par (commas KComma [pexpr c; pexpr a; pexpr b])
  | RBin _ op a b => par (pexpr a ++ KBin op :: pexpr b)
  | RUn _ ONot a => KPre ONot :: par (pexpr a)
  | RUn _ ONon a => KPre ONon :: par (pexpr a)
  | RUn _ OEmbed a => KPre OEmbed :: par (pexpr a)
  | RUn _ OIverson a => KLbr :: pexpr a ++ [KRbr]
  | RUn _ OParens a => par (pexpr a)
  | RCast o a => KCast o :: KLpar :: KDot :: KComma :: pexpr a ++ [KRpar]
  | RQuant _ op xs a => KQuant op :: commas KComma (map pqvar xs) ++ KDot :: pexpr a
  | RSubst _ x v a => par (pexpr a) ++ KLbr :: KId x :: KDot :: pexpr v ++ [KRbr]
  | RLit _ l => plit l
  end.

(** src/ast/stmt.rs 9-16, 68-152; src/ast/decl.rs 244-264 *)
Definition pids (xs : list ident) : list stok := commas (E KComma) (map (fun x => [E (KId x)]) xs).
Definition pargs (args : list rexpr) : list stok := map E (commas KComma (map pexpr args)).
Fixpoint pstmt (s : rstmt) : list stok :=
  let stmts := fix stmts (b : list rstmt) : list stok :=
    match b with [] => [] | [s] => pstmt s | s :: b' => pstmt s ++ Sep :: stmts b' end in
  let braces b := LBrace :: stmts b ++ [RBrace] in
  let branch c b1 b2 := W WIf :: c ++ braces b1 ++ W WElse :: braces b2 in
  match s with
  | RSeq b => braces b
  | RVarDecl x None => [W WVar; E (KVar x)]
  | RVarDecl x (Some e) => W WVar :: E (KVar x) :: Equals :: map E (pexpr e)
  | RAssign xs e => pids xs ++ Equals :: map E (pexpr e)
  | RHavoc d xs => W (WHavoc d) :: pids xs
  | RAssert d e => W (WAssert d) :: map E (pexpr e)
  | RAssume d e => W (WAssume d) :: map E (pexpr e)
  | RCompare d e => W (WCompare d) :: map E (pexpr e)
  | RNegate d => [W (WNegate d)]
  | RValidate d => [W (WValidate d)]
  | RTick e => W WTick :: map E (pexpr e)
  | RWeigh e => W WWeigh :: map E (pexpr e)
  | RDemonic b1 b2 => branch [E (KBin OInf)] b1 b2
  | RAngelic b1 b2 => branch [E (KBin OSup)] b1 b2
  | RAdditive b1 b2 => branch [E (KBin OAdd)] b1 b2
  | RIf c b1 b2 => branch (map E (pexpr c)) b1 b2
  | RWhile c b => W WWhile :: map E (pexpr c) ++ braces b
  | RAnn n args s' => At n :: E KLpar :: pargs args ++ E KRpar :: pstmt s'
  | RLabel x => [W WLabel; E (KId x)]
  end.
Fixpoint pstmts (b : list rstmt) : list stok :=
  match b with [] => [] | [s] => pstmt s | s :: b' => pstmt s ++ Sep :: pstmts b' end.

(** src/ast/decl.rs 417-424, 434-441, 367-407: the annotation for the calculus is not written *)
Definition pparams (xs : list ident) : list stok := commas (E KComma) (map (fun x => [E (KVar x)]) xs).
Definition pspec (l : list (bool * rexpr)) : list stok :=
  flat_map (fun c : bool * rexpr => W (if fst c then WPre else WPost) :: map E (pexpr (snd c))) l.
Definition pproc (p : rproc) : list stok :=
  W (WProc (rp_dir p)) :: E (KFun (rp_name p)) :: E KLpar :: pparams (rp_ins p) ++ E KRpar :: Arrow :: E KLpar :: pparams (rp_outs p) ++ E KRpar ::
  pspec (rp_spec p) ++ match rp_body p with Some b => LBrace :: pstmts b ++ [RBrace] | None => [] end.
(** 508-551, 460-486 *)
Definition pdspec (d : rdspec) : list stok :=
  match d with
  | RFunc n ins o _ body => W WFn :: E (KFun n) :: E KLpar :: pparams ins ++ E KRpar :: Arrow :: Ty o ::
      match body with Some e => Equals :: map E (pexpr e) | None => [] end
  | RAxiom n e => W WAxiom :: Name n :: map E (pexpr e)
  end.
Definition pdomain (d : rdomain) : list stok := W WDomain :: Name (rd_name d) :: LBrace :: flat_map pdspec (rd_body d) ++ [RBrace].

(** The layouts of a printed text: every separator is a line break or a semicolon. *)
Inductive layout : list stok -> list stok -> Prop :=
| ly_nil : layout [] []
| ly_tok k t t' : k <> Sep -> layout t t' -> layout (k :: t) (k :: t')
| ly_line t t' : layout t t' -> layout (Sep :: t) t'
| ly_semi t t' : layout t t' -> layout (Sep :: t) (Semi :: t').
