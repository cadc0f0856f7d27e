(** C33: the type checker accepts exactly the programs that the typing rules allow, and makes every conversion explicit. *)
From Coq Require Import Bool List String ZArith NArith QArith.
From Verif.Model Require Import Syntax Tycheck Translate.
From Verif.Spec Require Import Eur Sem Exprs Wp Typing Translated.
From Verif.Proofs Require Import TycheckBase TycheckProofs TycheckStmts TycheckProps TycheckExamples TranslateRefuted.
Import ListNotations.

(** A conversion exists exactly if the values of one type are among those of the other one. *)
Theorem C33_order : forall t u, (exists o, xty_cmp (One u) (One t) = Some o /\ o <> Lt) <-> included t u.
Proof. exact order_iff. Qed.
Print Assumptions C33_order.
(** Conversions keep the value. *)
Theorem C33_conversion : forall t w u, has_ty w u -> cast_ok t u = true -> has_ty (eval_cast t w) t /\ meaning_of (eval_cast t w) = meaning_of w.
Proof. exact cast_meaning. Qed.
Print Assumptions C33_conversion.

(** * Expressions *)
(** Whatever comes out of the parser, the checker does not panic. *)
Theorem C33_no_panic : forall S pre e imp w, parsed e = true -> visit S pre imp e <> Panic w.
Proof. exact no_panic_expr. Qed.
Print Assumptions C33_no_panic.
(** It finds type [t] exactly if the rules give type [t]. *)
Theorem C33_accepts_iff : forall S pre e imp t, parsed e = true ->
  (exists e', visit S pre imp e = Ok e' /\ rty e' = Some t) <-> types S pre imp e t.
Proof. exact accepts_iff. Qed.
Print Assumptions C33_accepts_iff.
(** The rules give at most one type. *)
Theorem C33_unique : forall S pre e imp t u, types S pre imp e t -> types S pre imp e u -> t = u.
Proof. exact types_det. Qed.
Print Assumptions C33_unique.
(** Only types and conversions are added. *)
Theorem C33_source_kept : forall S pre e imp e', parsed e = true -> visit S pre imp e = Ok e' -> strip e' = e.
Proof. exact source_kept. Qed.
Print Assumptions C33_source_kept.
(** Afterwards, every node has exactly the type it needs. *)
Theorem C33_strict : forall S pre e imp e' t, parsed e = true -> visit S pre imp e = Ok e' -> rty e' = Some (One t) ->
  exists x, tree e' = Some x /\ ty_of x = t /\ strict S pre x = true.
Proof. exact checked_strict. Qed.
Print Assumptions C33_strict.
Theorem C33_call : forall S pre e e' outs, parsed e = true -> visit S pre true e = Ok e' -> rty e' = Some (Tup outs) ->
  exists t f ins xs, s_call S f = Some (CProc ins outs) /\ tree e' = Some (ECall t f xs) /\ strict_args S pre ins xs.
Proof. exact checked_call. Qed.
Print Assumptions C33_call.
(** Checking again changes nothing, if parameters that must be literals have type UInt ... *)
Theorem C33_again : forall S pre e imp e', literals_uint S -> parsed e = true -> visit S pre imp e = Ok e' -> visit S pre imp e' = Ok e'.
Proof. exact checked_again. Qed.
Print Assumptions C33_again.
(** ... and otherwise it may fail: initialisers, which are checked twice, are rejected where assignments are accepted. *)
Theorem C33_again_refuted : exists S e e' w, parsed e = true /\ visit S false false e = Ok e' /\ visit S false false e' = Err w /\
  (exists b, visit_block S [RAssign [vo] e] = Ok b) /\ visit_block S [RVarDecl vo (Some e)] = Err w.
Proof. exact twice_refuted. Qed.
Print Assumptions C33_again_refuted.

(** * Statements and declarations *)
Theorem C33_block_no_panic : forall S, literals_uint S -> forall b w, forallb sparsed b = true -> visit_block S b <> Panic w.
Proof. exact no_panic_block. Qed.
Print Assumptions C33_block_no_panic.
Theorem C33_block_iff : forall S, literals_uint S -> forall b, forallb sparsed b = true ->
  (exists b', visit_block S b = Ok b') <-> types_block S b.
Proof. exact block_iff. Qed.
Print Assumptions C33_block_iff.
Theorem C33_block_result : forall S, literals_uint S -> forall b b', forallb sparsed b = true -> visit_block S b = Ok b' ->
  map sstrip b' = b /\ exists x, btree b' = Some x /\ All (strict_stmt S) x.
Proof. exact block_result. Qed.
Print Assumptions C33_block_result.
Theorem C33_proc : forall S, literals_uint S -> forall specs body, parsed_proc specs body = true ->
  (exists r, visit_proc S specs body = Ok r /\ types_proc S specs body /\ proc_result S specs body r) \/
  (exists w, visit_proc S specs body = Err w /\ ~ types_proc S specs body).
Proof. exact proc_spec. Qed.
Print Assumptions C33_proc.
Theorem C33_func : forall S out body, match body with Some e => parsed e = true | None => True end ->
  (exists r, visit_func S out body = Ok r /\ types_func S out body /\
     match body, r with
     | Some e, Some e' => strip e' = e /\ exists x, tree e' = Some x /\ ty_of x = out /\ strict S false x = true
     | None, None => True
     | _, _ => False
     end) \/
  (exists w, visit_func S out body = Err w /\ ~ types_func S out body).
Proof. exact func_spec. Qed.
Print Assumptions C33_func.
Theorem C33_axiom : forall S e, parsed e = true ->
  (exists e' x, visit_axiom S e = Ok e' /\ types_axiom S e /\ strip e' = e /\ tree e' = Some x /\ ty_of x = TBool /\ strict S false x = true) \/
  (exists w, visit_axiom S e = Err w /\ ~ types_axiom S e).
Proof. exact axiom_spec. Qed.
Print Assumptions C33_axiom.

(** * What the later passes may rely on *)
(** Statements are well-typed in the sense of the other properties, except for three operators at Bool and for the range of the
    parameters of distributions, and they write only to variables that can be written. *)
Theorem C33_well_typed : forall S, literals_uint S -> forall isd isf b b',
  (forall f ins out, s_call S f = Some (CFunc ins out) -> isf f = true /\ isd f = false) ->
  forallb sparsed b = true -> visit_block S b = Ok b' ->
  exists x, btree b' = Some x /\ All (every (writes_only (writable_var S))) x /\
    (All (every no_bool_heyting) x -> All (every (calls_distributions S isd)) x -> All (wts isd isf) x).
Proof. exact accepted_wts. Qed.
Print Assumptions C33_well_typed.
(** Preconditions do not depend on outputs. *)
Theorem C33_preconditions : forall S, literals_uint S -> forall specs body r i e x y, parsed_proc specs body = true -> visit_proc S specs body = Ok r ->
  nth_error (fst r) i = Some (true, e) -> tree e = Some x -> fv y x -> exists k, s_var S y = Some k /\ k <> KOutput.
Proof. exact precondition_reads. Qed.
Print Assumptions C33_preconditions.
(** Accepted axioms are translated to SMT. *)
Theorem C33_axiom_translates : forall S isvar fsig ecall e e',
  (forall y, s_var S y <> None -> isvar y = true) ->
  (forall f ins out, s_call S f = Some (CFunc ins out) -> fsig f = Some (map fst ins, out)) ->
  parsed e = true -> visit_axiom S e = Ok e' ->
  exists x, tree e' = Some x /\
    (some bool_heyting x = false -> some (free_quant isvar) x = false -> some is_let x = false ->
     exists t cs, translate isvar fsig ecall x = Ok (t, cs)).
Proof. exact axiom_translates. Qed.
Print Assumptions C33_axiom_translates.
(** Booleans are never compared by order, which the translation could not do (C41). *)
Theorem C33_no_bool_comparison : forall S pre x, strict S pre x = true -> some bool_cmp x = false.
Proof. exact strict_bool_cmp. Qed.
Print Assumptions C33_no_bool_comparison.
(** The three operators: accepted at Bool, and a panic in the translation. *)
Theorem C33_bool_heyting_refuted : forall op, In op [OCoImpl; OCompare; OCoCompare] ->
  exists S e e' x, parsed e = true /\ visit_axiom S e = Ok e' /\ tree e' = Some x /\ wt x = false /\ bool_heyting x = true /\
    translate all_vars no_funs plain_call x = Panic "illegal exprkind".
Proof. exact heyting_refuted. Qed.
Print Assumptions C33_bool_heyting_refuted.
(** Minima and maxima of Booleans, which are documented, are rejected. *)
Theorem C33_bool_lattice_refuted : forall op, In op [OInf; OSup] ->
  exists S a b w, types S false false a (One TBool) /\ types S false false b (One TBool) /\
    visit S false false (RBin None op a b) = Err w.
Proof. exact lattice_refuted. Qed.
Print Assumptions C33_bool_lattice_refuted.

(** * Instances *)
Example C33_nonvacuous_expr : parsed good_e = true /\ exists e', visit env true false good_e = Ok e' /\ rty e' = Some (One TEUReal) /\
  tree e' = Some (EIte TEUReal (EBin TBool OLt (ECast TInt (EVar vx)) (EVar vi)) (ECall TEUReal "f" [ECast TUReal (EVar vx)])
    (ECast TEUReal (EBin TUReal ODiv (ECast TUReal (EVar vx)) (ECast TUReal (ELit TUInt (LUInt 2)))))).
Proof. exact (conj eq_refl good_accepted). Qed.
Example C33_nonvacuous_reject : parsed bad_e = true /\ visit env true false bad_e = Err "CannotCast".
Proof. exact (conj eq_refl bad_rejected). Qed.
Example C33_nonvacuous_block : literals_uint env /\ forallb sparsed good_b = true /\ exists b', visit_block env good_b = Ok b' /\
  match btree b' with Some [SVar _ _; SAnn _ [EBin TEUReal OAdd (ECast TEUReal (EVar _)) (EVar _)] _; _; _] => True | _ => False end.
Proof. exact (conj env_literals good_b_accepted). Qed.
Example C33_nonvacuous_outputs : (exists r, visit_proc env [(false, v vo)] None = Ok r) /\ exists w, visit_proc env [(true, v vo)] None = Err w.
Proof. exact output_rejected. Qed.
Example C33_nonvacuous_writes : (exists w, visit_block env [RAssign [ve] (n 1)] = Err w) /\
  exists w, visit_block env [RAssign [vo] (call "unif" [n 1; n 6])] = Err w.
Proof. exact (conj input_rejected result_not_converted). Qed.
(** A distribution and a procedure with one output, where the statements become well-typed. *)
Example C33_nonvacuous_wts : exists b', visit_block env small_b = Ok b' /\ exists x, btree b' = Some x /\
  All (every no_bool_heyting) x /\ All (every (calls_distributions env (String.eqb "unif"))) x.
Proof. exact small_wts. Qed.
Example C33_nonvacuous_axiom : exists e' x, visit_axiom env small_axiom = Ok e' /\ tree e' = Some x /\ some bool_heyting x = false /\ some (free_quant all_vars) x = false /\ some is_let x = false.
Proof. exact small_axiom_ok. Qed.
