(** Proof rules that generate procedures for their side conditions:
    src/proof_rules/{past,mciver_ast,ost}.rs with the helpers of src/proof_rules/util.rs.
    Spans of generated expressions and statements are left out. *)
From Coq Require Import Bool List String NArith ZArith QArith.
From Verif.Model Require Import Syntax Builder TyCtx AstUtil Lits ProofRules Procs.
Import ListNotations.
Local Open Scope list_scope.

Section Rules.
(** [variant]: the span variant Encoding; [cspan]: the span of the annotation;
    [dspan]: the dummy span of the annotation's file. *)
Variables (variant : nat -> nat) (cspan dspan : nat).

(** util.rs 103-124 (new_ident_with_name) *)
Definition new_ident_with_name (T : tyctx) (name : string) (t : ty) : res (ident * tyctx) :=
  let x := mkid name cspan t in
  match get T x with
  | Some _ => Ok (x, T)
  | None => let? T1 := declare T x true in Ok (x, T1)
  end.

(** util.rs 127-159 *)
Definition init_ident (x : ident) : ident := mkid ("init_" ++ iname x) (variant (ispan x)) (ity x).
Fixpoint get_init_idents (T : tyctx) (xs : list ident) : res (list ident * tyctx) :=
  match xs with
  | [] => Ok ([], T)
  | x :: xs' =>
      match get T x with
      | None => Panic "called Option::unwrap() on a None value"
      | Some false => Panic "explicit panic"
      | Some true =>
          let y := init_ident x in
          let? T1 := match get T y with None => declare T y true | Some _ => Ok T end in
          let? (ys, T2) := get_init_idents T1 xs' in
          Ok (y :: ys, T2)
      end
  end.

(** util.rs 161-170; the assertion that the lengths agree *)
Definition multiple_assign (lhses : list ident) (rhses : list expr) : res (list stmt) :=
  if Nat.eqb (List.length lhses) (List.length rhses)
  then Ok (map (fun p => SAssign [fst p] (snd p)) (combine lhses rhses))
  else Panic "assertion failed: `(left == right)`".

(** util.rs 172-183; the message of the panic aside, the same as spec_call.rs 259-269 *)
Definition ident_expr (T : tyctx) (x : ident) : res expr :=
  match get T x with
  | Some true => Ok (EVar x)
  | Some false => Panic "explicit panic"
  | None => Panic "called Option::unwrap() on a None value"
  end.
Fixpoint ident_exprs (T : tyctx) (xs : list ident) : res (list expr) :=
  match xs with [] => Ok [] | x :: xs' => let? e := ident_expr T x in let? es := ident_exprs T xs' in Ok (e :: es) end.

(** util.rs 187-204 *)
Definition to_init_expr (T : tyctx) (e : expr) (xs : list ident) : res (expr * tyctx) :=
  let? (ys, T1) := get_init_idents T xs in
  let? es := ident_exprs T1 ys in
  Ok (b_subst e (combine xs es), T1).

(** util.rs 206-240.  A procedure's name is a string here; [fresh_ident] avoids the declared ones. *)
Definition generate_proc (T : tyctx) (base name : string) (d : direction) (ins outs : list ident) (specs : list pspec) (body : list stmt)
  : res (proc * tyctx) :=
  let x := mkid (base ++ "_" ++ name) dspan TBool in
  let? (y, T1) := fresh_ident T x (variant dspan) in
  let? T2 := declare T1 y false in
  Ok (mkproc d (iname y) ins outs specs (Some body), T2).

(** util.rs 325-347: identifiers that are not variables are skipped. *)
Fixpoint params_from_idents (T : tyctx) (xs : list ident) : res (list ident) :=
  match xs with
  | [] => Ok []
  | x :: xs' =>
      match get T x with
      | None => Panic "called Option::unwrap() on a None value"
      | Some b => let? l := params_from_idents T xs' in Ok (if b then x :: l else l)
      end
  end.

(** util.rs 288-304 *)
Fixpoint lit_rational (e : expr) : res Q :=
  match e with
  | ELit _ (LFrac q) => Ok q
  | ELit _ (LUInt n) => Ok (inject_Z (Z.of_N n))
  | ELit _ _ => Ok (inject_Z 0)
  | ECast _ a => lit_rational a
  | _ => Panic "unreachable"
  end.

(** set differences of the collected variables *)
Definition minus (a b : list ident) : list ident := filter (fun x => negb (mem x b)) a.
Definition modified_vars (c : expr) (body : list stmt) : list ident :=
  let m := mvc_stmt (SWhile c body) mvc0 in minus (mmod m) (mdecl m).

Definition ivs (e : expr) : expr := EUn TEUReal OIverson e.
Definition emb (e : expr) : expr := EUn TEUReal OEmbed e.
Definition neg (e : expr) : expr := EUn TBool ONot e.
Definition mul (a b : expr) : expr := EBin TEUReal OMul a b.
Definition zero : expr := b_cast TEUReal (b_uint 0).

(** past.rs 125-308: the encoding is a block and procedures *)
Definition past_conditions (eps k : expr) (c inv : expr) : expr * expr :=
  (emb (EBin TBool OLe (mul (ivs (neg c)) inv) k),
   EBin TBool OLe (mul (ivs c) k) (EBin TEUReal OAdd (mul (ivs c) inv) (ivs (neg c)))).
Definition past_transform (T : tyctx) (base : string) (args : list expr) (c : expr) (body : list stmt) : res (list stmt * list proc * tyctx) :=
  match args with
  | [inv; eps; k] =>
      let? ev := lit_rational eps in
      let? kv := lit_rational k in
      if Qle_bool kv ev then Err "eps must be smaller than k." else
      let eps := b_cast TEUReal eps in
      let k := b_cast TEUReal k in
      let mv := modified_vars c body in
      let? inv_vars := collect inv [] in
      let? (inits, T1) := get_init_idents T mv in
      let? init_exprs := ident_exprs T1 inits in
      let? init_assigns := multiple_assign mv init_exprs in
      let? (init_inv, T2) := to_init_expr T1 inv inv_vars in
      let (cond1, cond2) := past_conditions eps k c inv in
      let? vars1 := collect cond1 [] in
      let? ins1 := params_from_idents T2 vars1 in
      let? (p1, T3) := generate_proc T2 base "condition_1" Down ins1 [] [] [SAssert Down cond1] in
      let? vars2 := collect cond2 [] in
      let? ins2 := params_from_idents T3 vars2 in
      let? (p2, T4) := generate_proc T3 base "condition_2" Down ins2 [] [] [SAssert Down cond2] in
      let body3 := init_assigns ++ [encode_iter c body (hey_const inv Down)] in
      let pre3 := mul (ivs c) (EBin TEUReal OSub init_inv eps) in
      let? ins3 := params_from_idents T4 inits in
      let? outs3 := params_from_idents T4 mv in
      let? (p3, T5) := generate_proc T4 base "past" Down ins3 outs3 [Requires pre3; Ensures zero] body3 in
      Ok ([], [p1; p2; p3], T5)
  | _ => Panic "unreachable"
  end.

(** mciver_ast.rs 161-486 *)
Definition ast_transform (T : tyctx) (base : string) (args : list expr) (c : expr) (body : list stmt) : res (list stmt * list proc * tyctx) :=
  match args with
  | [inv; var; EVar v; prob; decr] =>
      let m := mvc_stmt (SWhile c body) mvc0 in
      let mv := minus (mmod m) (mdecl m) in
      let used_or_mod := fold_left (fun a x => insert x a) (mused m) (mmod m) in
      let? (inits, T1) := get_init_idents T mv in
      let only_used := minus (mused m) (fold_left (fun a x => insert x a) (mmod m) (mdecl m)) in
      let input_init := inits ++ only_used in
      let? init_exprs := ident_exprs T1 inits in
      let? init_assigns := multiple_assign mv init_exprs in
      let input_vars := minus used_or_mod (mdecl m) in
      let? (init_var, T2) := to_init_expr T1 var mv in
      let? (a, T3) := new_ident_with_name T2 "a" TUReal in
      let? ea := ident_expr T3 a in
      let? (b, T4) := new_ident_with_name T3 "b" TUReal in
      let? eb := ident_expr T4 b in
      let pre12 := emb (EBin TBool OLe ea eb) in
      let antitone f := emb (EBin TBool OGe (b_subst f [(v, ea)]) (b_subst f [(v, eb)])) in
      let? ab := params_from_idents T4 [a; b] in
      let? (p1, T5) := generate_proc T4 base "prob_antitone" Down ab [] [Requires pre12; Ensures (antitone prob)] [] in
      let? ab' := params_from_idents T5 [a; b] in
      let? (p2, T6) := generate_proc T5 base "decrease_antitone" Down ab' [] [Requires pre12; Ensures (antitone decr)] [] in
      let step := encode_iter c body [] in
      let? ins3 := params_from_idents T6 input_init in
      let? outs3 := params_from_idents T6 mv in
      let? (pre3, T7) := to_init_expr T6 (ivs inv) mv in
      let? (p3, T8) := generate_proc T7 base "I_wp_subinvariant" Down ins3 outs3 [Requires pre3; Ensures (ivs inv)] (init_assigns ++ [step]) in
      let cond4 := emb (EBin TBool OImpl c (EBin TBool OGt var (b_cast TUReal (b_uint 0)))) in
      let? ins4 := params_from_idents T8 input_vars in
      let? (p4, T9) := generate_proc T8 base "termination_condition" Down ins4 [] [Requires (emb inv)] [SAssert Down cond4] in
      let? ins5 := params_from_idents T9 input_init in
      let? outs5 := params_from_idents T9 mv in
      let? (pre5, T10) := to_init_expr T9 var mv in
      let? (p5, T11) := generate_proc T10 base "V_wp_superinvariant" Up ins5 outs5 [Requires (b_cast TEUReal pre5); Ensures (b_cast TEUReal var)]
        (init_assigns ++ [SAssume Up (emb (neg inv)); step]) in
      let cond6 := mul (ivs inv) (mul (ivs c) (b_cast TEUReal (b_subst prob [(v, var)]))) in
      let post6 := ivs (EBin TBool OLe var (EBin TUReal OSub init_var (b_subst decr [(v, init_var)]))) in
      let? ins6 := params_from_idents T11 input_init in
      let? outs6 := params_from_idents T11 mv in
      let? (pre6, T12) := to_init_expr T11 cond6 mv in
      let? (p6, T13) := generate_proc T12 base "progress_condition" Down ins6 outs6 [Requires pre6; Ensures post6] (init_assigns ++ body) in
      Ok ([], [p1; p2; p3; p4; p5; p6], T13)
  | _ => Panic "unreachable"
  end.

(** ost.rs 131-386 *)
Definition ost_transform (T : tyctx) (base : string) (args : list expr) (c : expr) (body : list stmt) : res (list stmt * list proc * tyctx) :=
  match args with
  | [inv; past_inv; cc; post] =>
      let? inv_vars := collect inv [] in
      let? past_vars := collect past_inv [] in
      let mv := modified_vars c body in
      let? (inits, T1) := get_init_idents T mv in
      let? init_exprs := ident_exprs T1 inits in
      let? init_assigns := multiple_assign mv init_exprs in
      let? (init_inv, T2) := to_init_expr T1 inv inv_vars in
      let? (init_past, T3) := to_init_expr T2 past_inv past_vars in
      let cond1 := emb (EBin TBool OLt past_inv b_inf) in
      let harm := emb (EBin TBool OImpl (neg c) (EBin TBool OEq inv post)) in
      let? harm_vars := collect harm [] in
      let? ins1 := params_from_idents T3 past_vars in
      let? (p1, T4) := generate_proc T3 base "lt_infinity" Down ins1 [] [] [SAssert Down cond1] in
      let? insI := params_from_idents T4 inits in
      let? outsM := params_from_idents T4 mv in
      let body2 := init_assigns ++ [encode_iter c body (STick (b_cast TEUReal (b_uint 1)) :: hey_const past_inv Up)] in
      let? (p2, T5) := generate_proc T4 base "past" Up insI outsM [Requires init_past; Ensures zero] body2 in
      let post3 := EIte TEUReal (EBin TBool OLe init_inv inv) (EBin TEUReal OSub inv init_inv) (EBin TEUReal OSub init_inv inv) in
      let? (p3, T6) := generate_proc T5 base "conditional_difference_bounded" Up insI outsM
        [Requires (b_cast TEUReal cc); Ensures post3] (init_assigns ++ body) in
      let? ins4 := params_from_idents T6 harm_vars in
      let? (p4, T7) := generate_proc T6 base "harmonize_I_f" Down ins4 [] [] [SAssert Down harm] in
      let body5 := init_assigns ++ [SValidate Down; SAssume Down b_inf; encode_iter c body (hey_const inv Up)] in
      let? (p5, T8) := generate_proc T7 base "loopiter_lt_infty" Up insI outsM [Requires zero; Ensures post] body5 in
      let body6 := init_assigns ++ [encode_iter c body (hey_const inv Down)] in
      let? (p6, T9) := generate_proc T8 base "lower_bound" Down insI outsM [Requires init_inv; Ensures post] body6 in
      let? es := ident_exprs T9 mv in
      Ok ([SAssign mv (ECall TBool (pname p6) es)], [p1; p2; p3; p4; p5; p6], T9)
  | _ => Panic "unreachable"
  end.
End Rules.
