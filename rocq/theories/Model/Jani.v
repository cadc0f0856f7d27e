(** The translation of procedures to JANI models for probabilistic model checkers:
    src/mc/{mod,specs,opsem}.rs and the parts of jani/src they use.
    Simplifications: JANI's JSON syntax, metadata, comments and features are left out; a JANI
    model is a record of what decides its meaning.  Locations are constructors instead of the
    strings ["l0"], ["l1"], ..., ["↓"], ["↯"], ["sink"], which are pairwise different.  JANI
    function definitions (mod.rs 583-643) are left out: calls stay calls. *)
From Coq Require Import Bool List String ZArith NArith QArith.
From Verif.Model Require Import Syntax Lits Builder Dist Procs.
Import ListNotations.

(** * JANI (jani/src/exprs.rs, models.rs) *)

(** exprs.rs 118-167 (the operators that the translation uses) *)
Inductive jop := JAdd | JSub | JMul | JDiv | JMod | JAnd | JOr | JEq | JNe | JLt | JLe | JGe | JGt | JMin | JMax.

(** Identifiers are strings; numbers come from u64 (47-51). *)
Inductive jexpr :=
| JId (x : string) | JNum (n : N) | JBool (b : bool)
| JIte (c a b : jexpr) | JBin (op : jop) (a b : jexpr) | JNot (a : jexpr) | JCall (f : string) (args : list jexpr).

(** types.rs: bool, int, int with lower bound 0, real, real with lower bound 0 *)
Inductive jty := JTBool | JTInt | JTNat | JTReal | JTPos.

Inductive loc := LStmt (n : nat) | LEnd | LErr | LSink.
Definition loc_eqb (a b : loc) : bool :=
  match a, b with
  | LStmt n, LStmt m => Nat.eqb n m
  | LEnd, LEnd | LErr, LErr | LSink, LSink => true
  | _, _ => false
  end.

(** models.rs 300-367 (Destination, Edge) *)
Record dest := mkdest { d_prob : option jexpr; d_asg : list (string * jexpr); d_loc : loc }.
Record edge := mkedge { e_src : loc; e_guard : option jexpr; e_dests : list dest }.
Definition goto (l : loc) : dest := mkdest None [] l.
Definition from_to (a b : loc) : edge := mkedge a None [goto b].
Definition from_to_if (a b : loc) (g : jexpr) : edge := mkedge a (Some g) [goto b].

(** What decides the value of the property "reward" (specs.rs 158-187: minimal or maximal total
    expected reward, accumulated in steps and when leaving a state). *)
Record jmodel := mkmodel {
  m_dir : direction;                                   (* Down: Emin, Up: Emax *)
  m_mdp : bool;                                        (* model type MDP instead of DTMC *)
  m_edges : list edge;
  m_start : loc;
  m_post : jexpr;                                      (* transient value of [reward] in the end location *)
  m_restrict : jexpr;                                  (* restrict-initial *)
  m_consts : list (string * jty);
  m_vars : list (string * jty * option jexpr)          (* with initial values *)
}.

(** specs.rs 65-67: the transient variable *)
Definition reward_var : string := "reward".

(** * Expressions (mod.rs) *)
Section Translate.
  (** [fbody f]: the parameter and result types of [f] if it is a [func] with a body in the TyCtx. *)
  Variable fbody : string -> option (list ty * ty).

  Definition u64_bound : N := (2 ^ 64)%N.

  (** 400-404 *)
  Definition jbinop (op : binop) : res jop :=
    match op with
    | OAdd => Ok JAdd | OMul => Ok JMul | ODiv => Ok JDiv | OMod => Ok JMod | OAnd => Ok JAnd | OOr => Ok JOr
    | OEq => Ok JEq | OLt => Ok JLt | OLe => Ok JLe | ONe => Ok JNe | OGe => Ok JGe | OGt => Ok JGt
    | OInf => Ok JMin | OSup => Ok JMax
    | OSub | OImpl | OCoImpl | OCompare | OCoCompare => Err "unsupported expression"
    end.

  (** 461-490 *)
  Definition jtr_sub (t : ty) (a b : jexpr) : res jexpr :=
    match t with
    | TUInt | TUReal | TEUReal => Ok (JIte (JBin JGe a b) (JBin JSub a b) (JNum 0))
    | TInt | TReal => Ok (JBin JSub a b)
    | TBool => Panic "unreachable"
    end.

  (** 448-457.  Literals are big integers and reduced big fractions; JANI gets u64. *)
  Definition jtr_lit (l : lit) : res jexpr :=
    match l with
    | LUInt n => if (n <? u64_bound)%N then Ok (JNum n) else Err "unsupported expression"
    | LBool b => Ok (JBool b)
    | LFrac q =>
        let r := Qred q in
        if ((0 <=? Qnum r) && (Qnum r <? Z.of_N u64_bound) && (Zpos (Qden r) <? Z.of_N u64_bound))%Z
        then Ok (JBin JDiv (JNum (Z.to_N (Qnum r))) (JNum (Npos (Qden r))))
        else Panic "called Result::unwrap() on an Err value"
    | LInf => Err "unsupported expression"
    end.

  (** 376-459 (ExprTranslator::translate), 493-524 (translate_call) *)
  Fixpoint jtr (e : expr) : res jexpr :=
    match e with
    | EVar x => Ok (JId (iname x))
    | ECall _ f args =>
        match fbody f with
        | None => Err "unsupported call"
        | Some _ =>
            let? l := (fix go l := match l with
                                   | [] => Ok []
                                   | a :: l' => let? x := jtr a in let? xs := go l' in Ok (x :: xs)
                                   end) args in
            Ok (JCall f l)
        end
    | EIte _ c a b => let? c' := jtr c in let? a' := jtr a in let? b' := jtr b in Ok (JIte c' a' b')
    | EBin t op a b =>
        let? a' := jtr a in let? b' := jtr b in
        match op with
        | OSub => jtr_sub t a' b'
        | _ => let? o := jbinop op in Ok (JBin o a' b')
        end
    | EUn t ONot a => if ty_eqb t TBool then let? a' := jtr a in Ok (JNot a') else Err "unsupported expression"
    | EUn _ ONon _ | EUn _ OEmbed _ => Err "unsupported expression"
    | EUn _ OIverson a => let? c := jtr a in Ok (JIte c (JNum 1) (JNum 0))
    | EUn _ OParens a => jtr a
    | ECast _ a => jtr a
    | EQuant _ _ _ => Err "unsupported expression"
    | ESubst _ _ _ => Panic "not yet implemented"
    | ELit _ l => jtr_lit l
    end.

  (** 527-568 *)
  Definition extract_embed (e : expr) : option expr :=
    match e with
    | EUn _ OEmbed a => Some a
    | EUn _ ONot (EUn _ OEmbed a) => Some (EUn TBool ONot a)
    | _ => if is_bot_lit e then Some (b_bool false) else if is_top_lit e then Some (b_bool true) else None
    end.

  (** 570-577 *)
  Definition is_constant (e : expr) : bool := match e with ELit _ _ => true | _ => false end.

  (** * Statements (opsem.rs) *)

  (** 25-34: the parts of OpAutomaton that change *)
  Record auto := mkauto { a_nloc : nat; a_edges : list edge; a_nondet : bool }.
  Definition add_edge (e : edge) (a : auto) : auto := mkauto (a_nloc a) (a_edges a ++ [e]) (a_nondet a).
  (** 50-55 *)
  Definition fresh_loc (a : auto) : loc * auto := (LStmt (a_nloc a), mkauto (S (a_nloc a)) (a_edges a) (a_nondet a)).
  Definition set_nondet (a : auto) : auto := mkauto (a_nloc a) (a_edges a) true.

  (** 251-315 *)
  Definition tr_assign (lhs : string) (rhs : expr) (next : loc) (a : auto) : res (loc * auto) :=
    let (start, a1) := fresh_loc a in
    let plain :=
      let? v := jtr rhs in
      Ok (start, add_edge (mkedge start None [mkdest None [(lhs, v)] next]) a1) in
    match rhs with
    | ECall _ f args =>
        if is_dist f then
          let? d := apply_dist f args in
          let? ds := mapM (fun pv => let? p := jtr (fst pv) in let? v := jtr (snd pv) in
                                     Ok (mkdest (Some p) [(lhs, v)] next)) d in
          Ok (start, add_edge (mkedge start None ds) a1)
        else plain
    | _ => plain
    end.

  Definition when_dir (d : direction) (c : jexpr) : jexpr := match d with Down => c | Up => JNot c end.

  (** 317-353 *)
  Definition tr_bool_assert (d : direction) (next : loc) (c : expr) (a : auto) : res (loc * auto) :=
    let? c' := jtr c in
    let g := when_dir d c' in
    let (start, a1) := fresh_loc a in
    Ok (start, add_edge (from_to_if start LErr (JNot g)) (add_edge (from_to_if start next g) a1)).

  (** 355-386 *)
  Definition tr_quant_assert (next : loc) (e : expr) (a : auto) : res (loc * auto) :=
    let (start, a1) := fresh_loc a in
    let a2 := add_edge (from_to start next) (set_nondet a1) in
    let? (ret, a3) := tr_assign reward_var e LErr a2 in
    Ok (start, add_edge (from_to start ret) a3).

  (** 388-418 *)
  Definition tr_miracle (d : direction) (a : auto) : loc * auto :=
    let (start, a1) := fresh_loc a in
    let asg := match d with Down => [(reward_var, JNum 1)] | Up => [] end in
    (start, add_edge (mkedge start None [mkdest None asg start]) a1).

  (** 81-227 (translate_stmt), 229-249 (translate_stmts, translate_block: last statement first) *)
  Fixpoint tr_stmt (dir : direction) (st : stmt) (next : loc) (a : auto) {struct st} : res (loc * auto) :=
    let block := fix block (b : list stmt) (next : loc) (a : auto) {struct b} : res (loc * auto) :=
      match b with
      | [] => Ok (next, a)
      | s :: b' => let? (l, a1) := block b' next a in tr_stmt dir s l a1
      end in
    match st with
    | SSeq b => block b next a
    | SVar x (Some e) => if is_constant e then Ok (next, a) else tr_assign (iname x) e next a
    | SVar _ None => Err "all variables must be initialized"
    | SAssign [x] e => tr_assign (iname x) e next a
    | SAssign _ _ => Err "unsupported statement"
    | SAssert d e =>
        match d, dir with
        | Down, Down | Up, Up =>
            match extract_embed e with
            | Some c => tr_bool_assert d next c a
            | None => tr_quant_assert next e a
            end
        | _, _ => Err "mismatched direction"
        end
    | SAssume d e =>
        match extract_embed e with
        | None => Err "unsupported assume"
        | Some c =>
            let? c' := jtr c in
            let g := when_dir d c' in
            let (start, a1) := fresh_loc a in
            let a2 := add_edge (from_to_if start next g) a1 in
            let (mir, a3) := tr_miracle d a2 in
            Ok (start, add_edge (from_to_if start mir (JNot g)) a3)
        end
    | SHavoc _ _ | SCompare _ _ | SNegate _ | SValidate _ | SWeigh _ | SAdditive _ _ => Err "unsupported statement"
    | STick e => tr_assign reward_var e next a
    | SDemonic b1 b2 | SAngelic b1 b2 =>
        match st, dir with
        | SDemonic _ _, Down | SAngelic _ _, Up =>
            let (start, a1) := fresh_loc (set_nondet a) in
            let? (l1, a2) := block b1 next a1 in
            let? (l2, a3) := block b2 next (add_edge (from_to start l1) a2) in
            Ok (start, add_edge (from_to start l2) a3)
        | _, _ => Err "mismatched direction"
        end
    | SIf c b1 b2 =>
        let (start, a1) := fresh_loc a in
        let? c' := jtr c in
        let? (l1, a2) := block b1 next a1 in
        let? (l2, a3) := block b2 next (add_edge (from_to_if start l1 c') a2) in
        Ok (start, add_edge (from_to_if start l2 (JNot c')) a3)
    | SWhile c b =>
        let (start, a1) := fresh_loc a in
        let? c' := jtr c in
        let? (l1, a2) := block b start a1 in
        Ok (start, add_edge (from_to_if start next (JNot c')) (add_edge (from_to_if start l1 c') a2))
    | SAnn _ _ s => tr_stmt dir s next a
    | SLabel _ => Ok (next, a)
    end.

  Fixpoint tr_block (dir : direction) (b : list stmt) (next : loc) (a : auto) : res (loc * auto) :=
    match b with
    | [] => Ok (next, a)
    | s :: b' => let? (l, a1) := tr_block dir b' next a in tr_stmt dir s l a1
    end.

  (** * Specifications (specs.rs) *)

  Definition dir_eqb (a b : direction) : bool := match a, b with Down, Down | Up, Up => true | _, _ => false end.

  (** 319-324 *)
  Definition through_annotation (s : stmt) : stmt := match s with SAnn _ _ i => i | _ => s end.

  (** 236-271: collected in order, and the rest of the statements *)
  Fixpoint extract_pre (dir : direction) (skip_quant : bool) (b : list stmt) : res (list jexpr * list stmt) :=
    match b with
    | s :: b' =>
        match through_annotation s with
        | SAssume d e =>
            if dir_eqb d dir then
              match extract_embed e with
              | Some c =>
                  let? c' := jtr c in
                  let? (l, r) := extract_pre dir skip_quant b' in Ok (when_dir dir c' :: l, r)
              | None => if skip_quant then extract_pre dir skip_quant b' else Err "unsupported pre"
              end
            else Err "mismatched direction"
        | _ => Ok ([], b)
        end
    | [] => Ok ([], [])
    end.
  (** 266-270 *)
  Definition conj_all (l : list jexpr) : jexpr :=
    match l with [] => JBool true | c :: l' => fold_left (JBin JAnd) l' c end.

  (** 277-299, on the reversed block: the posts, last one first, and the reversed rest *)
  Fixpoint eat_posts (dir : direction) (rb : list stmt) : res (list expr * list stmt) :=
    match rb with
    | s :: rb' =>
        match through_annotation s with
        | SAssert d e =>
            if dir_eqb d dir then let? (l, r) := eat_posts dir rb' in Ok (e :: l, r) else Err "mismatched direction"
        | _ => Ok ([], rb)
        end
    | [] => Ok ([], [])
    end.
  (** ast/util.rs 114-119 *)
  Definition is_dir_top_lit (dir : direction) (e : expr) : bool :=
    match dir with Down => is_top_lit e | Up => is_bot_lit e end.
  Definition dir_op (dir : direction) : binop := match dir with Down => OInf | Up => OSup end.
  (** 301-317 *)
  Definition sink_reward (dir : direction) (posts : list expr) : expr :=
    match filter (fun e => negb (is_dir_top_lit dir e)) posts with
    | [] => match dir with Down => b_inf | Up => ECast TEUReal (b_uint 0) end
    | p :: ps => fold_left (EBin TEUReal (dir_op dir)) ps p
    end.
  Definition extract_post (dir : direction) (b : list stmt) : res (jexpr * list stmt) :=
    let? (posts, rest) := eat_posts dir (rev b) in
    let e := sink_reward dir posts in
    if is_top_lit e then Err "post that evaluates to infinity" else
    let? j := jtr e in Ok (j, rev rest).

  (** * Variables (mod.rs 232-371) *)

  (** 342-371 *)
  Definition tr_type (t : ty) : res jty :=
    match t with
    | TBool => Ok JTBool | TInt => Ok JTInt | TUInt => Ok JTNat | TReal => Ok JTReal | TUReal => Ok JTPos
    | TEUReal => Err "unsupported type"
    end.

  (** 322-340.  For EUReal the type is rejected right afterwards. *)
  Definition choose_initial (t : ty) : res (option jexpr) :=
    match t with
    | TBool | TUInt | TUReal | TEUReal => let? e := b_bot t in let? j := jtr e in Ok (Some j)
    | TInt | TReal => Ok None
    end.

  (** The declarations in the order in which the visitor meets them. *)
  Fixpoint local_decls (st : stmt) : list (ident * option expr) :=
    match st with
    | SVar x i => [(x, i)]
    | SSeq b | SWhile _ b => flat_map local_decls b
    | SDemonic a b | SAngelic a b | SAdditive a b | SIf _ a b => flat_map local_decls a ++ flat_map local_decls b
    | SAnn _ _ s => local_decls s
    | _ => []
    end.

  (** 280-320 *)
  Definition tr_local (d : ident * option expr) : res (string * jty * option jexpr) :=
    let (x, i) := d in
    let? iv := match i with
               | Some e => if is_constant e then let? j := jtr e in Ok (Some j) else choose_initial (ity x)
               | None => Ok None
               end in
    let? t := tr_type (ity x) in
    Ok (iname x, t, iv).

  (** driver/commands/options.rs *)
  Record mcopts := mkopts { o_skip_quant_pre : bool; o_no_constants : bool; o_uninit_outputs : bool }.

  (** 234-276 *)
  Definition tr_param (x : ident) : res (string * jty) := let? t := tr_type (ity x) in Ok (iname x, t).
  Definition tr_out (o : mcopts) (x : ident) : res (string * jty * option jexpr) :=
    let? iv := if o_uninit_outputs o then Ok None else choose_initial (ity x) in
    let? t := tr_type (ity x) in
    Ok (iname x, t, iv).
  Definition tr_vars (o : mcopts) (p : proc) (body : list stmt) :
      res (list (string * jty) * list (string * jty * option jexpr)) :=
    let? locals := mapM tr_local (flat_map local_decls body) in
    let? ins := mapM tr_param (pins p) in
    let? outs := mapM (tr_out o) (pouts p) in
    Ok (if o_no_constants o then ([], locals ++ map (fun d => (d, None)) ins ++ outs) else (ins, locals ++ outs)).

  (** specs.rs 88-127: edges from the end and error locations to the sink *)
  Definition spec_edges : list edge := [from_to LEnd LSink; from_to LErr LSink].

  (** mod.rs 133-230.  [calc]: the calculus annotation of the procedure. *)
  Definition proc_to_model (o : mcopts) (calc : option string) (p : proc) : res jmodel :=
    if match calc with None => true | Some c => String.eqb c "wp" || String.eqb c "ert" end then
      match encode_proc_verify p with
      | None => Panic "called Option::unwrap() on a None value"
      | Some (dir, block) =>
          let? (pre, b1) := extract_pre dir (o_skip_quant_pre o) block in
          let? (post, b2) := extract_post dir b1 in
          let body := match pbody p with Some b => b | None => [] end in
          let? (consts, vars) := tr_vars o p body in
          let? (start, a) := tr_block dir b2 LEnd (mkauto 0 [] false) in
          Ok (mkmodel dir (a_nondet a) (a_edges a ++ spec_edges) start post (conj_all pre) consts vars)
      end
    else Err "unsupported calculus".
End Translate.
