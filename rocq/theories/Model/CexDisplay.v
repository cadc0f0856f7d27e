(** How a counterexample is shown: z3rro/src/model.rs, src/slicing/model.rs, src/smt/pretty_model.rs and
    src/driver/smt_proof.rs 538-675.

    The solver is a parameter: its model is a list of declarations and an evaluation function (an evaluation with completion does not
    change later ones).  Not modelled: the texts
    around the values, positions, values of lists and of uninterpreted sorts, the messages of slicing annotations. *)
From Coq Require Import Bool List String ZArith Arith.
From Verif.Model Require Import Syntax Builder Subsets Slicing Numerals.
Import ListNotations.
Local Open Scope string_scope.
Local Open Scope nat_scope.

(** Terms of the solver as the walk sees them: applications (constants have no arguments) and the rest, that is quantifiers and
    bound variables, which the walk does not enter *)
Inductive term := TApp (f : string) (args : list term) | TOther (n : nat).

(** What the solver answers: a truth value, a number, or (ZVal (ZTerm t)) a term that it did not reduce *)
Inductive answer := ABool (b : bool) | AVal (v : zvalue).
(** A declaration of the model: name and number of parameters (FuncDecl::name, arity) *)
Definition fdecl := (string * nat)%type.
(** z3::Model: iter() and eval(ast, model_completion) *)
Record zmodel := mkz { z_decls : list fdecl; z_eval : bool -> term -> option answer }.

(** model.rs 129-134.  The expressions in the order of insertion, latest first. *)
Record accessed := mkacc { a_decls : list string; a_exprs : list term }.
Definition acc0 : accessed := mkacc [] [].

Fixpoint term_eqb (a b : term) : bool :=
  let fix all l m := match l, m with [], [] => true | x :: l', y :: m' => term_eqb x y && all l' m' | _, _ => false end in
  match a, b with
  | TApp f l, TApp g m => String.eqb f g && all l m
  | TOther i, TOther j => i =? j
  | _, _ => false
  end.

(** model.rs 137-143 *)
Definition mark_decl (n : string) (a : accessed) : accessed := mkacc (n :: a_decls a) (a_exprs a).
Definition is_accessed (a : accessed) (d : fdecl) : bool := existsb (String.eqb (fst d)) (a_decls a).
(** model.rs 145-162 *)
Fixpoint mark_expr (t : term) (a : accessed) : accessed :=
  match t with
  | TApp f [] => mark_decl f a
  | TApp _ args =>
      (fix children (l : list term) (a : accessed) : accessed :=
         match l with
         | [] => a
         | c :: l' =>
             if existsb (term_eqb c) (a_exprs a) then children l' a
             else children l' (mark_expr c (mkacc (a_decls a) (c :: a_exprs a)))
         end) args a
  | TOther _ => a
  end.

(** model.rs 62-75 *)
Definition atomically {X} (f : accessed -> res X * accessed) (a : accessed) : res X * accessed :=
  let (r, a') := f a in match r with Err _ => (r, a) | _ => (r, a') end.
(** model.rs 77-84 *)
Definition eval_ast (z : zmodel) (completion : bool) (t : term) (a : accessed) : option answer * accessed :=
  (z_eval z completion t, mark_expr t a).
(** model.rs 92-98 *)
Definition iter_unaccessed (z : zmodel) (a : accessed) : list fdecl := List.filter (fun d => negb (is_accessed a d)) (z_decls z).

(** model.rs 172-196 and 217-224, uint.rs 95-101; integers are evaluated with completion, truth values and reals without.  An answer of the wrong sort is a term for the reader. *)
Definition as_bool (r : answer) : option bool := match r with ABool b => Some b | AVal _ => None end.
Definition as_value (r : answer) : zvalue := match r with AVal v => v | ABool _ => ZTerm [] end.
Definition eval_b (z : zmodel) (t : term) (a : accessed) : res bool * accessed :=
  let (r, a') := eval_ast z false t a in
  (match r with None => Err "EvalError" | Some v => eval_bool (as_bool v) end, a').
Definition eval_i (z : zmodel) (t : term) (a : accessed) : res Z * accessed :=
  let (r, a') := eval_ast z true t a in
  (match r with None => Err "EvalError" | Some v => eval_int (as_value v) end, a').
Definition eval_r (inner : bool) (z : zmodel) (t : term) (a : accessed) : res (Z * positive) * accessed :=
  let (r, a') := eval_ast z false t a in
  (match r with None => Err "EvalError" | Some v => eval_real inner (as_value v) end, a').
(** eureal/pair.rs 142-157: both parts are evaluated *)
Definition eval_e (inner : bool) (z : zmodel) (i n : term) (a : accessed) : res (option (Z * positive)) * accessed :=
  match eval_b z i a with
  | (Ok inf, a1) =>
      match eval_r inner z n a1 with
      | (Ok q, a2) => (Ok (if inf then None else Some q), a2)
      | (Err e, a2) => (Err e, a2)
      | (Panic e, a2) => (Panic e, a2)
      end
  | (Err e, a1) => (Err e, a1)
  | (Panic e, a1) => (Panic e, a1)
  end.

(** smt/symbolic.rs 150-166, for the sorts with values of their own *)
Inductive symbolic := YBool (t : term) | YInt (t : term) | YReal (t : term) | YEUReal (is_infinite number : term).
Inductive shown := WTruth (b : bool) | WInt (n : Z) | WRat (n : Z) (d : positive) | WInfinity.
Definition lift {X} (f : X -> shown) (p : res X * accessed) : res shown * accessed :=
  (match fst p with Ok x => Ok (f x) | Err e => Err e | Panic e => Panic e end, snd p).
Definition eval_symbolic (inner : bool) (z : zmodel) (y : symbolic) (a : accessed) : res shown * accessed :=
  match y with
  | YBool t => lift WTruth (eval_b z t a)
  | YInt t => lift WInt (eval_i z t a)
  | YReal t => lift (fun q => WRat (fst q) (snd q)) (eval_r inner z t a)
  | YEUReal i n => lift (fun o => match o with None => WInfinity | Some q => WRat (fst q) (snd q) end) (eval_e inner z i n a)
  end.

(** pretty_model.rs 175-202: a value or the message of an error.  A panic while reading a number ends the program. *)
Inductive cell := Value (v : shown) | Failed (e : string).
Definition to_cell (r : res shown) : res cell :=
  match r with Ok v => Ok (Value v) | Err e => Ok (Failed e) | Panic e => Panic e end.
Definition pretty_var_value (inner : bool) (z : zmodel) (y : symbolic) (a : accessed) : res (cell * accessed) :=
  let (r, a') := atomically (eval_symbolic inner z y) a in let? c := to_cell r in Ok (c, a').

(** A local variable of the translation: name, kind, start of the span, translation of the variable.  decl.rs 275-289. *)
Inductive vkind := KInput | KOutput | KMut | KQuant | KSubst | KSlice.
Definition vkind_eqb (a b : vkind) : bool :=
  match a, b with KInput, KInput | KOutput, KOutput | KMut, KMut | KQuant, KQuant | KSubst, KSubst | KSlice, KSlice => true | _, _ => false end.
Record local := mklocal { v_id : ident; v_kind : vkind; v_start : nat; v_sym : symbolic }.

(** itertools sorted_by_key: stable *)
Fixpoint insert_by_start (v : local) (l : list local) : list local :=
  match l with [] => [v] | w :: l' => if v_start v <=? v_start w then v :: l else w :: insert_by_start v l' end.
Definition sorted_by_start (l : list local) : list local := fold_right insert_by_start [] l.
(** pretty_model.rs 134-139: no slice variables *)
Definition global_decls (l : list local) : list local :=
  List.filter (fun v => negb (vkind_eqb (v_kind v) KSlice)) (sorted_by_start l).
(** 141-147: a BTreeMap from kinds to the variables in order *)
Definition by_kind (l : list local) : list (vkind * list local) :=
  List.filter (fun g => match snd g with [] => false | _ => true end)
    (map (fun k => (k, List.filter (fun v => vkind_eqb (v_kind v) k) l)) [KInput; KOutput; KMut; KQuant; KSubst; KSlice]).

Fixpoint show_vars (inner : bool) (z : zmodel) (l : list local) (a : accessed) : res (list (ident * cell) * accessed) :=
  match l with
  | [] => Ok ([], a)
  | v :: l' =>
      let? (c, a1) := pretty_var_value inner z (v_sym v) a in
      let? (r, a2) := show_vars inner z l' a1 in
      Ok ((v_id v, c) :: r, a2)
  end.
(** 149-172 *)
Fixpoint show_groups (inner : bool) (z : zmodel) (g : list (vkind * list local)) (a : accessed) : res (list (vkind * list (ident * cell)) * accessed) :=
  match g with
  | [] => Ok ([], a)
  | (k, l) :: g' =>
      let? (c, a1) := show_vars inner z l a in
      let? (r, a2) := show_groups inner z g' a1 in
      Ok ((k, c) :: r, a2)
  end.
Definition pretty_globals (inner : bool) (z : zmodel) (l : list local) (a : accessed) := show_groups inner z (by_kind (global_decls l)) a.

(** slicing/model.rs 12-25, 36-59; [res bool] is never a panic here *)
Inductive mode := Verify | Error.
Definition slice_model := list (slice_stmt * res bool).
Fixpoint eval_toggles (z : zmodel) (l : list (slice_stmt * term)) (a : accessed) : slice_model * accessed :=
  match l with
  | [] => ([], a)
  | (e, t) :: l' =>
      let (r, a1) := atomically (eval_b z t) a in
      let (m, a2) := eval_toggles z l' a1 in
      ((e, r) :: m, a2)
  end.
Definition from_model (z : zmodel) (sel : selection) (l : list (slice_stmt * term)) (a : accessed) : slice_model * accessed :=
  let (m, a') := eval_toggles z l a in (List.filter (fun p => enables sel (sl_sel (fst p))) m, a').
(** 61-82 *)
Definition from_enabled (sel : selection) (l : list (slice_stmt * term)) (enabled : list term) : slice_model :=
  map (fun p => (fst p, Ok (existsb (term_eqb (snd p)) enabled))) (List.filter (fun p => enables sel (sl_sel (fst p))) l).
(** 89-100 *)
Inductive slice_result := PartOfError | NotNecessary | ResultError (e : string).
Definition slice_line (md : mode) (p : slice_stmt * res bool) : list (place * slice_result) :=
  match md, snd p with
  | Error, Ok true => [(sl_at (fst p), PartOfError)]
  | Verify, Ok false => [(sl_at (fst p), NotNecessary)]
  | _, Ok _ => []
  | _, Err e => [(sl_at (fst p), ResultError e)]
  | _, Panic e => []
  end.
Definition iter_results (md : mode) (m : slice_model) : list (place * slice_result) := flat_map (slice_line md) m.
(** 107-118 *)
Definition iter_variables (m : slice_model) : list ident := map (fun p => sl_ident (fst p)) m.
Definition count_sliced (m : slice_model) : nat :=
  List.length (List.filter (fun p => match snd p with Ok false => true | _ => false end) m).

(** pretty_model.rs 66-120.  [tr]: the translation of an expression.  apply_subst is left out: the substitutions stand for their
    result (C06).  These evaluations are not atomic; nothing looks at the accesses any more. *)
Definition original_vc (vc : expr) (m : slice_model) : expr :=
  if count_sliced m =? 0 then vc else b_subst_by vc (iter_variables m) (fun _ => b_bool true).
Definition pretty_vc_value (inner : bool) (z : zmodel) (tr : expr -> symbolic) (vc : expr) (m : slice_model) (a : accessed)
  : res (cell * option (cell * nat * nat)) :=
  let (r, a1) := eval_symbolic inner z (tr (original_vc vc m)) a in
  let? c := to_cell r in
  if count_sliced m =? 0 then Ok (c, None)
  else
    let (r2, _) := eval_symbolic inner z (tr vc) a1 in
    let? c2 := to_cell r2 in
    Ok (c, Some (c2, count_sliced m, List.length m)).

(** pretty_model.rs 31-63 with all details, after the slice model was made (solver.rs 340-370, smt_proof.rs 557-570).
    Of the extra definitions (262-283) only which ones are listed. *)
Record display := mkdisplay { d_globals : list (vkind * list (ident * cell)); d_extra : list fdecl;
  d_slice : list (place * slice_result); d_pre : cell; d_sliced : option (cell * nat * nat) }.
Definition show_counterexample (inner : bool) (z : zmodel) (sel : selection) (toggles : list (slice_stmt * term)) (locals : list local)
  (tr : expr -> symbolic) (vc : expr) : res display :=
  let (m, a1) := from_model z sel toggles acc0 in
  let? (g, a2) := pretty_globals inner z locals a1 in
  let? (p, s) := pretty_vc_value inner z tr vc m a2 in
  Ok (mkdisplay g (iter_unaccessed z a2) (iter_results Error m) p s).

(** smt_proof.rs 614-660 and pretty_model.rs 31-63 without the spanned parts: labels for the variables instead of the groups *)
Definition emit_counterexample (inner : bool) (z : zmodel) (sel : selection) (toggles : list (slice_stmt * term)) (locals : list local)
  (tr : expr -> symbolic) (vc : expr) : res (list (ident * cell) * list fdecl * cell * option (cell * nat * nat)) :=
  let (m, a1) := from_model z sel toggles acc0 in
  let? (g, a2) := show_vars inner z (global_decls locals) a1 in
  let? (p, s) := pretty_vc_value inner z tr vc m a2 in
  Ok (g, iter_unaccessed z a2, p, s).
