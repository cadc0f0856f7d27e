(** Model of src/smt/funcs/{mod,util,axiomatic,recfun}.rs, src/smt/funcs/fuel/{mod,fuel_mono,fuel_param}.rs,
    of SmtCtx::init_dependencies (src/smt/mod.rs 73-142), and of mk_function_encoder
    (src/driver/smt_proof.rs 176-258): user-defined functions become declarations and axioms.

    Not modelled: quantifier patterns and weights, and the wrapping of literals (fuel/literals.rs);
    they guide the solver and do not change what the axioms mean.  So the encodings Axiomatic and
    Decreasing are one.  Domains of uninterpreted sorts are not modelled.

    Fuel is a natural number.  The declaration $Fuel (z3rro/src/fuel.rs 41-57) leaves the sort open,
    but axioms only quantify over it universally, so only the values $S^n($Z) matter. *)
From Coq Require Import Bool List String ZArith.
From Verif.Model Require Import EurEncodings Syntax AstUtil ScopeMap Translate.
Import ListNotations.
Local Open Scope string_scope.
Local Open Scope list_scope.

(** A FuncDecl (src/ast/decl.rs); the output is only a type. *)
Record fdecl := mkfdecl { fname : string; finputs : list ident; fout : ty; fbody : option expr }.
(** DomainSpec (src/ast/decl.rs) *)
Inductive dspec := DFun (d : fdecl) | DAxiom (name : string) (e : expr).

(** axiomatic.rs 36-63 *)
Inductive partial_encoding := Partial | StrengthenToTotal.
(** fuel/mod.rs 29-44 *)
Record fuel_options := mkfuel {
  fo_partial : partial_encoding; fo_max : nat; fo_computation : bool; fo_synonym : bool; fo_functions : string -> bool }.
(** The encoders. *)
Inductive encoder := EncAxiomatic (p : partial_encoding) | EncRecFun | EncFuelMono (o : fuel_options) | EncFuelParam (o : fuel_options).

(** translate_call with util.rs 117-127, fuel_mono.rs 160-176, fuel_param.rs 170-182, recfun.rs 135-153.
    The declaration f$n of fuel_mono.rs 186-193 is written as f applied to n. *)
Definition enc_call (E : encoder) (fuel : nat) (f : string) (u : string -> list dyn -> dyn) (ds : list dyn) : dyn :=
  match E with
  | EncFuelMono o | EncFuelParam o => if fo_functions o f then u f (DyF fuel :: ds) else u f ds
  | EncAxiomatic _ | EncRecFun => u f ds
  end.
(** The fuel outside of axioms: fuel_mono.rs 64, fuel_param.rs 76-81. *)
Definition ambient (E : encoder) : nat :=
  match E with EncFuelMono o | EncFuelParam o => fo_max o | EncAxiomatic _ | EncRecFun => 0 end.

(** SmtInvariant of a symbolic value: symbolic.rs 171-185, uint.rs, ureal.rs, eureal/pair.rs 88-95 *)
Definition smt_invariant (y : symb) : option (term bool) :=
  match y with
  | YBool _ | YInt _ | YReal _ => None
  | YUInt t => Some (fun M => Z.geb (t M) 0)
  | YUReal t => Some (fun M => ureal_inv (t M))
  | YEur t => Some (fun M => pair_invariant (t M))
  end.
Definition dyn_eq (a b : term dyn) : term bool := fun M => holds (a M = b M).
(** scope.rs 111-114 *)
Definition clear_constraints (s : scope) : scope := mkscope (sbounds s) [].
(** util.rs 150-164 *)
Definition mk_call_expr (d : fdecl) : expr := ECall (fout d) (fname d) (map EVar (finputs d)).

Section Funcs.
Context (isvar : ident -> bool) (fsig : string -> option (list ty * ty)) (E : encoder).
Notation tr_at fuel := (tr isvar fsig (enc_call E fuel)).

(** util.rs 22-36 *)
Definition inputs_scope (d : fdecl) (st : tst) : res (scope * tst) := mk_scope isvar (map QShadow (finputs d)) scope_new st.

(** util.rs 78-92, where the head has fuel [fh] and the other side has fuel [fb]:
    axiomatic.rs 151-173, fuel/mod.rs 87-123, 157-188, 201-256 *)
Definition equation (p : partial_encoding) (fh fb : nat) (d : fdecl) (e : expr) (st : tst) : res (term bool * tst) :=
  let? h := tr_at fh (mk_call_expr d) st in
  let? b := tr_at fb e (snd h) in
  let? s := inputs_scope d (snd b) in
  let sc := match p with Partial => fst s | StrengthenToTotal => clear_constraints (fst s) end in
  Ok (scope_forall sc (dyn_eq (into_dynamic (fst h)) (into_dynamic (fst b))), snd s).
(** util.rs 98-115, fuel/mod.rs 132-151 *)
Definition return_invariant (fuel : nat) (d : fdecl) (st : tst) : res (list (term bool) * tst) :=
  let? s := inputs_scope d st in
  let? a := tr_at fuel (mk_call_expr d) (snd s) in
  Ok (match smt_invariant (fst a) with Some c => [scope_forall (fst s) c] | None => [] end, snd a).

Definition single (r : res (term bool * tst)) : res (list (term bool) * tst) := rmap (fun x => ([fst x], snd x)) r.
(** A list of steps, each adding axioms. *)
Fixpoint steps (l : list (tst -> res (list (term bool) * tst))) (st : tst) : res (list (term bool) * tst) :=
  match l with
  | [] => Ok ([], st)
  | f :: l => let? r := f st in let? rs := steps l (snd r) in Ok (fst r ++ fst rs, snd rs)
  end.

(** axiomatic.rs 112-130, with the fuel that is current *)
Definition axiomatic_axioms (p : partial_encoding) (fuel : nat) (d : fdecl) (st : tst) : res (list (term bool) * tst) :=
  steps [fun st => match fbody d with Some b => single (equation p fuel fuel d b st) | None => Ok ([], st) end;
         return_invariant fuel d] st.
(** recfun.rs 107-133 with 47-84.  The meaning of a RecFuncDecl is its defining equation at all arguments.
    With inputs of type EUReal the arguments are not constants and Z3 may refuse the definition (42-45); this is not modelled. *)
Definition recfun_axioms (d : fdecl) (st : tst) : res (list (term bool) * tst) :=
  match fbody d with
  | None => axiomatic_axioms Partial 0 d st
  | Some b => steps [fun st => single (equation StrengthenToTotal 0 0 d b st); return_invariant 0 d] st
  end.

(** fuel_mono.rs 117-158 *)
Definition fuel_mono_axioms (o : fuel_options) (d : fdecl) (b : expr) (st : tst) : res (list (term bool) * tst) :=
  steps (map (fun k st => single (equation (fo_partial o) (S k) k d b st)) (seq 0 (fo_max o)) ++
         map (fun k => return_invariant k d) (seq 0 (S (fo_max o))) ++
         (if fo_synonym o then map (fun k st => single (equation Partial (S k) k d (mk_call_expr d) st)) (seq 0 (fo_max o)) else []) ++
         (if fo_computation o then map (fun k st => single (equation Partial k k d b st)) (seq 1 (fo_max o)) else [])) st.

(** An axiom with a bound fuel variable (fuel_param.rs 87-101): the conjunction of its instances.
    The state after translation is the same whatever the fuel is. *)
Definition for_all_fuel (ax : nat -> tst -> res (list (term bool) * tst)) (st : tst) : res (list (term bool) * tst) :=
  let? r := ax 0 st in
  Ok ([fun M => holds (forall k, match ax k st with Ok a => forallb (fun c => c M) (fst a) = true | _ => False end)], snd r).
(** fuel_param.rs 144-168 *)
Definition fuel_param_axioms (o : fuel_options) (d : fdecl) (b : expr) (st : tst) : res (list (term bool) * tst) :=
  steps ([for_all_fuel (fun k st => single (equation (fo_partial o) (S k) k d b st))] ++
         (if fo_synonym o then [for_all_fuel (fun k st => single (equation Partial (S k) k d (mk_call_expr d) st))] else []) ++
         [for_all_fuel (fun k => return_invariant k d)] ++
         (if fo_computation o then [for_all_fuel (fun k st => single (equation Partial k k d b st))] else [])) st.

(** translate_axioms; a function in fuel_functions without a body would panic (fuel/mod.rs 104). *)
Definition function_axioms (d : fdecl) (st : tst) : res (list (term bool) * tst) :=
  let fuelled (o : fuel_options) (f : expr -> tst -> res (list (term bool) * tst)) :=
    if fo_functions o (fname d) then
      match fbody d with Some b => f b st | None => Panic "called Option::unwrap() on a None value" end
    else axiomatic_axioms (fo_partial o) (fo_max o) d st in
  match E with
  | EncAxiomatic p => axiomatic_axioms p 0 d st
  | EncRecFun => recfun_axioms d st
  | EncFuelMono o => fuelled o (fuel_mono_axioms o d)
  | EncFuelParam o => fuelled o (fuel_param_axioms o d)
  end.

(** smt/mod.rs 104-137.  The translator is dropped, and with it the constraints it collected. *)
Definition spec_axioms (s : dspec) (st : tst) : res (list (term bool) * tst) :=
  match s with
  | DFun d => function_axioms d st
  | DAxiom _ e =>
      if ty_eqb (ty_of e) TBool then
        let? r := tr_at (ambient E) e st in
        match fst r with YBool b => Ok ([b], snd r) | _ => Panic "unreachable" end
      else Panic "assertion failed: expr is not of the type"
  end.
End Funcs.

(** smt/mod.rs 27-36 *)
Inductive dep_config := DepSet (contains : string -> bool) | DepAll | DepSpecsOnly.
Definition dname (s : dspec) : string := match s with DFun d => fname d | DAxiom n _ => n end.
(** The declared functions (83-102) and what is defined (104-137). *)
Definition declared (c : dep_config) (s : dspec) : bool := match c with DepSet p => p (dname s) | _ => true end.
Definition defined (c : dep_config) (s : dspec) : bool := match c with DepSet p => p (dname s) | DepAll => true | DepSpecsOnly => false end.
Fixpoint fsig_of (l : list dspec) (f : string) : option (list ty * ty) :=
  match l with
  | [] => None
  | DFun d :: l => if String.eqb (fname d) f then Some (map ity (finputs d), fout d) else fsig_of l f
  | DAxiom _ _ :: l => fsig_of l f
  end.
Definition init_dependencies (isvar : ident -> bool) (E : encoder) (c : dep_config) (l : list dspec) : res (list (term bool)) :=
  let fsig := fsig_of (filter (declared c) l) in
  rmap fst (steps (map (spec_axioms isvar fsig E) (filter (defined c) l)) tst_new).

(** commands/options.rs 205-236 *)
Inductive encoding_option := OptAxiomatic | OptDecreasing | OptFuelMono | OptFuelParam | OptFuelMonoComputation | OptFuelParamComputation | OptDefineFunRec.
Definition fuel_options_of (no_strengthening no_synonym : bool) (max : nat) (comp : bool) (recursive : string -> bool) (l : list dspec) : fuel_options :=
  mkfuel (if no_strengthening then Partial else StrengthenToTotal) max comp (negb no_synonym)
    (fun f => existsb (fun s => match s with DFun d => String.eqb (fname d) f && match fbody d with Some _ => recursive f | None => false end | _ => false end) l).
(** smt_proof.rs 176-258 *)
Definition mk_function_encoder (opt : encoding_option) (no_strengthening no_synonym : bool) (max : nat) (recursive : string -> bool) (l : list dspec) : res encoder :=
  let fuel comp := fuel_options_of no_strengthening no_synonym max comp recursive l in
  match opt with
  | OptAxiomatic | OptDecreasing => Ok (EncAxiomatic (if no_strengthening then Partial else StrengthenToTotal))
  | OptFuelMono => Ok (EncFuelMono (fuel false))
  | OptFuelMonoComputation => Ok (EncFuelMono (fuel true))
  | OptFuelParam => Ok (EncFuelParam (fuel false))
  | OptFuelParamComputation => Ok (EncFuelParam (fuel true))
  | OptDefineFunRec =>
      if no_strengthening then Ok EncRecFun
      else Err "--function-encoding define-fun-rec does not support disabling function strengthening."
  end.
