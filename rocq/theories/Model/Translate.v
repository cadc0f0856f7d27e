(** Model of src/smt/translate_exprs.rs with src/smt/symbolic.rs, z3rro/src/scope.rs and the
    extremum encoding of z3rro/src/orders.rs: HeyLo expressions become SMT terms.

    A term is its denotation, a function of the SMT structure.  Not modelled here: the cache
    (812-850; Model/TranslateCache.v has it), Lit wrapping (127-133;
    Model/Literals.v has it), triggers (796-810; they do not change the meaning of a quantifier), the types
    List, Tuple and Domain, and calls of intrinsic functions. *)
From Coq Require Import Bool List String ZArith QArith Reals Qreals ClassicalEpsilon.
From Verif.Model Require Orders.
From Verif.Model Require Import EurEncodings Syntax AstUtil ScopeMap.
Import ListNotations.
Local Open Scope string_scope.
Local Open Scope list_scope.

(** Values of the Z3 sorts in use; the last one is the sort of fuel (z3rro/src/fuel.rs). *)
Inductive dyn := DyB (b : bool) | DyI (z : Z) | DyR (r : R) | DyE (d : dt) | DyF (fuel : nat).
Inductive srt := SB | SI | SR.

(** An SMT structure: values of the constants, of the Skolem functions, of the uninterpreted
    functions, and of division and remainder by zero, which SMT-LIB leaves open. *)
Record strct := mkstr {
  cb : nat -> bool; ci : nat -> Z; cr : nat -> R;
  sk : nat -> list dyn -> epair;
  ufn : string -> list dyn -> dyn;
  sdiv0 : R -> R; smod0 : Z -> Z
}.
Definition term (A : Type) := strct -> A.

Definition holds (P : Prop) : bool := if excluded_middle_informative P then true else false.

(** A bound constant: sort and number of the symbol. *)
Definition bound : Type := srt * nat.
Definition bval (M : strct) (b : bound) : dyn :=
  match b with (SB, n) => DyB (cb M n) | (SI, n) => DyI (ci M n) | (SR, n) => DyR (cr M n) end.
(** [M'] differs from [M] at most in the constants [bs]. *)
Definition agree_off (bs : list bound) (M M' : strct) : Prop :=
  (forall n, ~ In (SB, n) bs -> cb M' n = cb M n) /\
  (forall n, ~ In (SI, n) bs -> ci M' n = ci M n) /\
  (forall n, ~ In (SR, n) bs -> cr M' n = cr M n) /\
  sk M' = sk M /\ ufn M' = ufn M /\ sdiv0 M' = sdiv0 M /\ smod0 M' = smod0 M.

(** scope.rs 44-48 *)
Record scope := mkscope { sbounds : list bound; scons : list (term bool) }.
(** 52-54 *)
Definition scope_new : scope := mkscope [] [].
(** 131-134 *)
Definition all_constraints (s : scope) : term bool := fun M => forallb (fun c => c M) (scons s).
(** 137-150 *)
Definition append_scope (s s' : scope) : scope := mkscope (sbounds s ++ sbounds s') (scons s ++ scons s').
Definition extend_scope (s : scope) (l : list scope) : scope := fold_left append_scope l s.
(** 93-105, with quantifiers.rs 91-123 *)
Definition scope_forall (s : scope) (body : term bool) : term bool :=
  let body := match scons s with [] => body | _ => fun M => implb (all_constraints s M) (body M) end in
  match sbounds s with
  | [] => body
  | bs => fun M => holds (forall M', agree_off bs M M' -> body M' = true)
  end.
(** 79-91 *)
Definition scope_exists (s : scope) (body : term bool) : term bool :=
  let body := match scons s with [] => body | _ => fun M => andb (all_constraints s M) (body M) end in
  match sbounds s with
  | [] => body
  | bs => fun M => holds (exists M', agree_off bs M M' /\ body M' = true)
  end.

(** symbolic.rs 27-38 *)
Inductive symb :=
| YBool (t : term bool) | YInt (t : term Z) | YUInt (t : term Z)
| YReal (t : term R) | YUReal (t : term R) | YEur (t : term epair).
Definition symb_ty (y : symb) : ty :=
  match y with YBool _ => TBool | YInt _ => TInt | YUInt _ => TUInt | YReal _ => TReal | YUReal _ => TUReal | YEur _ => TEUReal end.

(** eureal/mod.rs 80-94 and 154-163 *)
Definition pair_to_datatype (p : epair) : dt := dt_branch (p_inf p) dt_infinity (dt_from_ureal (p_num p)).
Definition datatype_to_pair (junk : R) (d : dt) : epair :=
  pair_branch (dt_is_inf d) pair_infinity (pair_from_ureal (dt_get junk d)).

(** symbolic.rs 131-143 *)
Definition into_dynamic (y : symb) : term dyn :=
  match y with
  | YBool t => fun M => DyB (t M)
  | YInt t | YUInt t => fun M => DyI (t M)
  | YReal t | YUReal t => fun M => DyR (t M)
  | YEur t => fun M => DyE (pair_to_datatype (t M))
  end.
(** symbolic.rs 43-70.  Sorts of terms are right by construction of the declaration, so the
    other cases are not reached; [get_real] of infinity does not matter and is taken as 0. *)
Definition from_dynamic (t : ty) (d : term dyn) : symb :=
  match t with
  | TBool => YBool (fun M => match d M with DyB b => b | _ => false end)
  | TInt => YInt (fun M => match d M with DyI z => z | _ => 0%Z end)
  | TUInt => YUInt (fun M => match d M with DyI z => z | _ => 0%Z end)
  | TReal => YReal (fun M => match d M with DyR r => r | _ => 0%R end)
  | TUReal => YUReal (fun M => match d M with DyR r => r | _ => 0%R end)
  | TEUReal => YEur (fun M => match d M with DyE e => datatype_to_pair 0 e | _ => pair_zero end)
  end.

(** A fresh constant: symbolic.rs 253-318, scope.rs 158-180 and the SmtInvariant instances. *)
Definition fresh_sym (t : ty) (n : nat) : symb * scope :=
  match t with
  | TBool => (YBool (fun M => cb M n), mkscope [(SB, n)] [])
  | TInt => (YInt (fun M => ci M n), mkscope [(SI, n)] [])
  | TUInt => (YUInt (fun M => ci M n), mkscope [(SI, n)] [fun M => Z.geb (ci M n) 0])
  | TReal => (YReal (fun M => cr M n), mkscope [(SR, n)] [])
  | TUReal => (YUReal (fun M => cr M n), mkscope [(SR, n)] [fun M => ureal_inv (cr M n)])
  | TEUReal => (YEur (fun M => mkpair (cb M n) (cr M n)),
                mkscope [(SB, n); (SR, n)] [fun M => pair_invariant (mkpair (cb M n) (cr M n))])
  end.

(** 40-47.  Innermost levels come first. *)
Record tst := mktst {
  limits : list scope;
  locals : smap ident (symb * scope);
  qstack : list scope;
  nxt : nat
}.
(** 50-59 *)
Definition tst_new : tst := mktst [scope_new] sm_new [] 0.
(** 61-66 *)
Definition tr_push (st : tst) : tst :=
  mktst (scope_new :: limits st) (fst (sm_push (locals st))) (qstack st) (nxt st).
(** 68-73 *)
Definition tr_pop (st : tst) : res tst :=
  match limits st with
  | _ :: (l :: ls) => let? m := sm_unchecked_pop (locals st) in Ok (mktst (l :: ls) m (qstack st) (nxt st))
  | _ => Panic "assertion failed: self.limits_stack.len() > 1"
  end.
(** 75-79 *)
Definition local_scope (st : tst) : res scope :=
  match limits st with
  | l :: _ => let? ls := sm_local_iter (locals st) in Ok (extend_scope l (map (fun p => snd (snd p)) ls))
  | [] => Panic "called Option::unwrap() on a None value"
  end.
(** 83-87 *)
Definition skolem_arg_scope (st : tst) : scope := extend_scope scope_new (rev (qstack st)).
(** 89-91, used to add a constraint *)
Fixpoint add_outermost (cs : list (term bool)) (ls : list scope) : list scope :=
  match ls with
  | [] => []
  | [l] => [mkscope (sbounds l) (scons l ++ cs)]
  | l :: ls => l :: add_outermost cs ls
  end.
Definition add_global (c : term bool) (st : tst) : tst :=
  mktst (add_outermost [c] (limits st)) (locals st) (qstack st) (nxt st).

(** funcs/util.rs 117-127, as used by the axiomatic encoder *)
Definition plain_call (f : string) (u : string -> list dyn -> dyn) : list dyn -> dyn := u f.

Section Translate.
(** The declarations: variables (747-757) and functions with their parameter and result types
    (720-731).  [ecall] is translate_call of the function encoder (funcs/mod.rs 47-53): how a call
    is written with the functions declared to the solver. *)
Context (isvar : ident -> bool) (fsig : string -> option (list ty * ty)).
Context (ecall : string -> (string -> list dyn -> dyn) -> list dyn -> dyn).

(** 139-141 *)
Definition tr_fresh (x : ident) (st : tst) : res tst :=
  let? m := sm_remove ident_eqb x (locals st) in Ok (mktst (limits st) (fst m) (qstack st) (nxt st)).
(** 759-785; every fresh constant gets a new number *)
Definition init_local (x : ident) (st : tst) : res tst :=
  if isvar x then
    let? m := sm_insert ident_eqb x (fresh_sym (ity x) (nxt st)) (locals st) in
    Ok (mktst (limits st) (fst m) (qstack st) (S (nxt st)))
  else Panic "variable is not declared".
(** 740-745 *)
Definition get_local (x : ident) (st : tst) : res ((symb * scope) * tst) :=
  let? st := (if sm_contains ident_eqb x (locals st) then Ok st else init_local x st) in
  match sm_get ident_eqb x (locals st) with
  | Some l => Ok (l, st)
  | None => Panic "called Option::unwrap() on a None value"
  end.
Fixpoint get_locals (xs : list ident) (st : tst) : res tst :=
  match xs with [] => Ok st | x :: xs => let? r := get_local x st in get_locals xs (snd r) end.
(** 145-152 *)
Definition init_quantifier_free_vars (e : expr) (xs : list qvar) (st : tst) : res tst :=
  let? vs := free_variables e in
  get_locals (filter (fun x => negb (mem x (map qname xs))) vs) st.
(** 787-793 *)
Fixpoint mk_scope (xs : list qvar) (acc : scope) (st : tst) : res (scope * tst) :=
  match xs with
  | [] => Ok (acc, st)
  | x :: xs => let? r := get_local (qname x) st in mk_scope xs (append_scope acc (snd (fst r))) (snd r)
  end.
Fixpoint fresh_all (xs : list qvar) (st : tst) : res tst :=
  match xs with [] => Ok st | x :: xs => let? st := tr_fresh (qname x) st in fresh_all xs st end.
(** 94-109, before and after the closure runs *)
Definition enter (xs : list qvar) (st : tst) : res (scope * tst) :=
  let? st := fresh_all xs (tr_push st) in
  let? r := mk_scope xs scope_new st in
  let st := snd r in
  Ok (fst r, mktst (limits st) (locals st) (fst r :: qstack st) (nxt st)).
Definition leave (st : tst) : res tst :=
  match qstack st with
  | _ :: q => tr_pop (mktst (limits st) (locals st) q (nxt st))
  | [] => Panic "called Option::unwrap() on a None value"
  end.

(** Comparison and choice on Z3 numbers: orders.rs 57-81 (reals: [real_cmp]). *)
Definition int_cmp (a b : Z) (o : Orders.ordering) : bool :=
  match o with
  | Orders.OLt => Z.ltb a b | Orders.OLe => Z.leb a b | Orders.OEq => Z.eqb a b
  | Orders.OGe => Z.geb a b | Orders.OGt => Z.gtb a b
  end.
Definition ite {A} (c : bool) (a b : A) : A := if c then a else b.
Definition int_min := Orders.smt_min_with ite int_cmp.
Definition int_max := Orders.smt_max_with ite int_cmp.
Definition real_min := Orders.smt_min_with ite real_cmp.
Definition real_max := Orders.smt_max_with ite real_cmp.
(** Z3's mod and / *)
Definition smt_mod (M : strct) (a b : Z) : Z := if Z.eqb b 0 then smod0 M a else Z.modulo a (Z.abs b).
Definition smt_div (M : strct) (a b : R) : R := if Reqb b 0 then sdiv0 M a else (a / b)%R.

Definition lift2 {A B C} (f : A -> B -> C) (a : term A) (b : term B) : term C := fun M => f (a M) (b M).
Definition liftM2 {A B C} (f : strct -> A -> B -> C) (a : term A) (b : term B) : term C := fun M => f M (a M) (b M).

(** 197-214 *)
Definition sym_eq (x y : symb) : res (term bool) :=
  match x, y with
  | YBool a, YBool b => Ok (lift2 Bool.eqb a b)
  | YInt a, YInt b | YUInt a, YUInt b => Ok (lift2 Z.eqb a b)
  | YReal a, YReal b | YUReal a, YUReal b => Ok (lift2 Reqb a b)
  | YEur a, YEur b => Ok (lift2 pair_eq a b)
  | _, _ => Panic "type mismatch during translation"
  end.
(** 218-235 *)
Definition sym_cmp (o : Orders.ordering) (x y : symb) : res (term bool) :=
  match x, y with
  | YInt a, YInt b | YUInt a, YUInt b => Ok (lift2 (fun u v => int_cmp u v o) a b)
  | YReal a, YReal b | YUReal a, YUReal b => Ok (lift2 (fun u v => real_cmp u v o) a b)
  | YEur a, YEur b => Ok (lift2 (fun u v => pair_cmp u v o) a b)
  | YBool _, YBool _ => Panic "illegal smtpair"
  | _, _ => Panic "type mismatch during translation"
  end.
Definition rmap {A B} (f : A -> B) (m : res A) : res B := rbind m (fun a => Ok (f a)).

(** The binary operators: t_bool 194-237, t_int 302-310, t_uint 362-370, t_real 417-425,
    t_ureal 490-498, t_eureal 552-567. *)
Definition bin_term (t : ty) (op : binop) (x y : symb) : res symb :=
  match t, op, x, y with
  | TBool, OAnd, YBool a, YBool b | TBool, OInf, YBool a, YBool b => Ok (YBool (lift2 andb a b))
  | TBool, OOr, YBool a, YBool b | TBool, OSup, YBool a, YBool b => Ok (YBool (lift2 orb a b))
  | TBool, OImpl, YBool a, YBool b => Ok (YBool (lift2 implb a b))
  | TBool, OEq, _, _ => rmap YBool (sym_eq x y)
  | TBool, ONe, _, _ => rmap (fun t => YBool (fun M => negb (t M))) (sym_eq x y)
  | TBool, OLt, _, _ => rmap YBool (sym_cmp Orders.OLt x y)
  | TBool, OLe, _, _ => rmap YBool (sym_cmp Orders.OLe x y)
  | TBool, OGe, _, _ => rmap YBool (sym_cmp Orders.OGe x y)
  | TBool, OGt, _, _ => rmap YBool (sym_cmp Orders.OGt x y)
  | TInt, OAdd, YInt a, YInt b => Ok (YInt (lift2 Z.add a b))
  | TInt, OSub, YInt a, YInt b => Ok (YInt (lift2 Z.sub a b))
  | TInt, OMul, YInt a, YInt b => Ok (YInt (lift2 Z.mul a b))
  | TInt, OMod, YInt a, YInt b => Ok (YInt (liftM2 smt_mod a b))
  | TInt, OInf, YInt a, YInt b => Ok (YInt (lift2 int_min a b))
  | TInt, OSup, YInt a, YInt b => Ok (YInt (lift2 int_max a b))
  | TUInt, OAdd, YUInt a, YUInt b => Ok (YUInt (lift2 Z.add a b))
  | TUInt, OSub, YUInt a, YUInt b => Ok (YUInt (lift2 int_monus a b))
  | TUInt, OMul, YUInt a, YUInt b => Ok (YUInt (lift2 Z.mul a b))
  | TUInt, OMod, YUInt a, YUInt b => Ok (YUInt (liftM2 smt_mod a b))
  | TUInt, OInf, YUInt a, YUInt b => Ok (YUInt (lift2 int_min a b))
  | TUInt, OSup, YUInt a, YUInt b => Ok (YUInt (lift2 int_max a b))
  | TReal, OAdd, YReal a, YReal b => Ok (YReal (lift2 Rplus a b))
  | TReal, OSub, YReal a, YReal b => Ok (YReal (lift2 Rminus a b))
  | TReal, OMul, YReal a, YReal b => Ok (YReal (lift2 Rmult a b))
  | TReal, ODiv, YReal a, YReal b => Ok (YReal (liftM2 smt_div a b))
  | TReal, OInf, YReal a, YReal b => Ok (YReal (lift2 real_min a b))
  | TReal, OSup, YReal a, YReal b => Ok (YReal (lift2 real_max a b))
  | TUReal, OAdd, YUReal a, YUReal b => Ok (YUReal (lift2 Rplus a b))
  | TUReal, OSub, YUReal a, YUReal b => Ok (YUReal (lift2 real_monus a b))
  | TUReal, OMul, YUReal a, YUReal b => Ok (YUReal (lift2 Rmult a b))
  | TUReal, ODiv, YUReal a, YUReal b => Ok (YUReal (liftM2 smt_div a b))
  | TUReal, OInf, YUReal a, YUReal b => Ok (YUReal (lift2 real_min a b))
  | TUReal, OSup, YUReal a, YUReal b => Ok (YUReal (lift2 real_max a b))
  | TEUReal, OAdd, YEur a, YEur b => Ok (YEur (lift2 pair_add a b))
  | TEUReal, OSub, YEur a, YEur b => Ok (YEur (lift2 pair_sub a b))
  | TEUReal, OMul, YEur a, YEur b => Ok (YEur (lift2 pair_mul a b))
  | TEUReal, OInf, YEur a, YEur b => Ok (YEur (lift2 (Orders.inf pair_lattice) a b))
  | TEUReal, OSup, YEur a, YEur b => Ok (YEur (lift2 (Orders.sup pair_lattice) a b))
  | TEUReal, OImpl, YEur a, YEur b => Ok (YEur (lift2 (Orders.implication pair_lattice) a b))
  | TEUReal, OCoImpl, YEur a, YEur b => Ok (YEur (lift2 (Orders.coimplication pair_lattice) a b))
  | TEUReal, OCompare, YEur a, YEur b => Ok (YEur (lift2 (Orders.compare pair_lattice) a b))
  | TEUReal, OCoCompare, YEur a, YEur b => Ok (YEur (lift2 (Orders.cocompare pair_lattice) a b))
  | _, _, _, _ => Panic "illegal exprkind"
  end.
(** Which t_* function translates the operands: t_symbolic for the comparisons (t_pair,
    733-738), the one of the result type otherwise. *)
Definition bin_operand (t : ty) (op : binop) (a : expr) : ty :=
  match t, op with TBool, (OEq | ONe | OLt | OLe | OGe | OGt) => ty_of a | _, _ => t end.

(** t_bool 238-245, t_int 311-314 and the like, t_eureal 568-580 *)
Definition un_term (t : ty) (op : unop) (x : symb) : res symb :=
  match t, op, x with
  | TBool, (ONot | ONon), YBool a => Ok (YBool (fun M => negb (a M)))
  | TEUReal, ONot, YEur a => Ok (YEur (fun M => Orders.negate pair_lattice (a M)))
  | TEUReal, ONon, YEur a => Ok (YEur (fun M => Orders.conegate pair_lattice (a M)))
  | TEUReal, OEmbed, YBool a => Ok (YEur (fun M => Orders.bool_embed pair_lattice (a M)))
  | TEUReal, OIverson, YBool a => Ok (YEur (fun M => pair_iverson (a M)))
  | _, OParens, _ => Ok x
  | _, _, _ => Panic "illegal exprkind"
  end.
Definition un_operand (t : ty) (op : unop) : ty :=
  match t, op with TEUReal, (OEmbed | OIverson) => TBool | _, _ => t end.

(** t_bool 246-248, t_int 315-324, t_uint 375-377, t_real 430-447, t_ureal 503-512, t_eureal 581-594 *)
Definition cast_term (t : ty) (x : symb) : res symb :=
  match t, x with
  | TInt, YUInt a => Ok (YInt a)
  | TReal, YUInt a | TReal, YInt a => Ok (YReal (fun M => IZR (a M)))
  | TReal, YUReal a => Ok (YReal a)
  | TUReal, YUInt a => Ok (YUReal (fun M => IZR (a M)))
  | TEUReal, YUInt a => Ok (YEur (fun M => pair_from_ureal (IZR (a M))))
  | TEUReal, YUReal a => Ok (YEur (fun M => pair_from_ureal (a M)))
  | _, _ => Panic "illegal cast"
  end.

(** t_bool 267-270, t_int 327-329, t_uint 380-383, t_real 450-452, t_ureal 515-520, t_eureal 623-633 *)
Definition lit_term (t : ty) (l : lit) : res symb :=
  match t, l with
  | TBool, LBool b => Ok (YBool (fun _ => b))
  | TUInt, LUInt n => Ok (YUInt (fun _ => Z.of_N n))
  | TUReal, LFrac q => Ok (YUReal (fun _ => Q2R q))
  | TEUReal, LInf => Ok (YEur (fun _ => pair_infinity))
  | TEUReal, LFrac q => Ok (YEur (fun _ => pair_from_ureal (Q2R q)))
  | _, _ => Panic "illegal exprkind"
  end.

(** t_bool 188-193 and the like *)
Definition ite_term (t : ty) (c x y : symb) : res symb :=
  match c, x, y with
  | YBool c, YBool a, YBool b => Ok (YBool (fun M => ite (c M) (a M) (b M)))
  | YBool c, YInt a, YInt b => Ok (YInt (fun M => ite (c M) (a M) (b M)))
  | YBool c, YUInt a, YUInt b => Ok (YUInt (fun M => ite (c M) (a M) (b M)))
  | YBool c, YReal a, YReal b => Ok (YReal (fun M => ite (c M) (a M) (b M)))
  | YBool c, YUReal a, YUReal b => Ok (YUReal (fun M => ite (c M) (a M) (b M)))
  | YBool c, YEur a, YEur b => Ok (YEur (fun M => pair_branch (c M) (a M) (b M)))
  | _, _, _ => Panic "illegal exprkind"
  end.

(** orders.rs 216-322: [infimum] in the lattice [L], which is the opposite one for [supremum].
    scope.rs 195-215: without arguments the Skolem function is a constant. *)
Definition infimum (L : Orders.smt_lattice epair) (body : term epair) (q args : scope) (st : tst) : term epair * tst :=
  let n := nxt st in
  let ext : term epair := fun M => sk M n (map (bval M) (sbounds args)) in
  let cand := fresh_sym TEUReal (S n) in
  let candt : term epair := fun M => mkpair (cb M (S n)) (cr M (S n)) in
  let le (a b : term epair) : term bool := fun M => Orders.cmp L (a M) (b M) Orders.OLe in
  let st := mktst (limits st) (locals st) (qstack st) (S (S n)) in
  let st := add_global (scope_forall args (fun M => pair_invariant (ext M))) st in
  let st := add_global (scope_forall args (scope_forall q (le ext body))) st in
  let st := add_global (scope_forall (append_scope args (snd cand))
              (fun M => implb (scope_forall q (le candt body) M) (le candt ext M))) st in
  (ext, st).

(** 720-731 with funcs/util.rs 117-127 *)
Definition call_term (t : ty) (f : string) (ys : list symb) : res symb :=
  match fsig f with
  | Some (_, r) => if ty_eqb r t
              then Ok (from_dynamic r (fun M => ecall f (ufn M) (map (fun y => into_dynamic y M) ys)))
              else Panic "called Option::unwrap() on a None value"
  | None => Panic "cannot call"
  end.

(** t_symbolic (154-170), t_bool .. t_eureal (172-636).  A function t_T asserts that the
    expression has type T; [sub] is the call of t_T. *)
Fixpoint tr (e : expr) (st : tst) {struct e} : res (symb * tst) :=
  let sub (t : ty) (a : expr) (st : tst) : res (symb * tst) :=
    if ty_eqb (ty_of a) t then tr a st else Panic "assertion failed: expr is not of the type" in
  match e with
  | EVar x => let? r := get_local x st in Ok (fst (fst r), snd r)
  | ECall t f args =>
      let? r := (fix go l st := match l with
                 | [] => Ok ([], st)
                 | a :: l => let? r := tr a st in let? rs := go l (snd r) in Ok (fst r :: fst rs, snd rs)
                 end) args st in
      let? y := call_term t f (fst r) in Ok (y, snd r)
  | EIte t c a b =>
      let? rc := sub TBool c st in
      let? ra := sub t a (snd rc) in
      let? rb := sub t b (snd ra) in
      let? y := ite_term t (fst rc) (fst ra) (fst rb) in Ok (y, snd rb)
  | EBin t op a b =>
      let? ra := sub (bin_operand t op a) a st in
      let? rb := sub (bin_operand t op b) b (snd ra) in
      let? y := bin_term t op (fst ra) (fst rb) in Ok (y, snd rb)
  | EUn t op a =>
      let? ra := sub (un_operand t op) a st in
      let? y := un_term t op (fst ra) in Ok (y, snd ra)
  | ECast t a =>
      let? ra := tr a st in
      let? y := cast_term t (fst ra) in Ok (y, snd ra)
  | EQuant op xs a =>
      match ty_of a with
      | TBool =>
          let? st := init_quantifier_free_vars a xs st in
          let? r := enter xs st in
          let? ra := tr a (snd r) in
          let? st := leave (snd ra) in
          match fst ra with
          | YBool b => Ok (YBool (match op with
                                  | QForall | QInf => scope_forall (fst r) b
                                  | QExists | QSup => scope_exists (fst r) b
                                  end), st)
          | _ => Panic "unreachable"
          end
      | TEUReal =>
          let? st := init_quantifier_free_vars a xs st in
          let args := skolem_arg_scope st in
          let? r := enter xs st in
          let? ra := tr a (snd r) in
          let? st := leave (snd ra) in
          match fst ra, op with
          | YEur b, QInf => let i := infimum pair_lattice b (fst r) args st in Ok (YEur (fst i), snd i)
          | YEur b, QSup => let i := infimum (Orders.opp pair_lattice) b (fst r) args st in Ok (YEur (fst i), snd i)
          | _, _ => Panic "illegal quantopkind"
          end
      | _ => Panic "not yet implemented"
      end
  | ESubst _ _ _ => Panic "illegal exprkind"
  | ELit t l => let? y := lit_term t l in Ok (y, st)
  end.

(** driver/smt_proof.rs 145-160 and 425-450: the formula given to the solver and the
    assumptions that come with it. *)
Definition translate (e : expr) : res (term bool * list (term bool)) :=
  if ty_eqb (ty_of e) TBool then
    let? r := tr e tst_new in
    match fst r with
    | YBool b => let? s := local_scope (snd r) in Ok (b, scons s)
    | _ => Panic "unreachable"
    end
  else Panic "assertion failed: expr is not of the type".
End Translate.
