(** Model of the cache of src/smt/translate_exprs.rs: the translation of expressions to SMT
    terms with a memory of the shared expressions already translated at the current scope level.

    An expression is a shared pointer (src/ast/shared.rs 13-27).  The cache is keyed by the pointer
    and used only for pointers with more than two owners.  Model/Translate.v has no pointers, so
    the address of the expression visited at time [n] is [ptr n e] and the number of its owners
    then is [refs n p]; both are arbitrary.  Not modelled: as in Model/Translate.v; instead of
    wrapping terms it is recorded which visits were answered from the cache, because answers from
    the cache are not wrapped. *)
From Coq Require Import Bool List String Arith.
From Verif.Model Require Orders.
From Verif.Model Require Import EurEncodings Syntax AstUtil ScopeMap Translate.
Import ListNotations.
Local Open Scope string_scope.
Local Open Scope list_scope.

(** A visit that returns: from the cache, or after translating. *)
Inductive event (A : Type) := Hit (p : A) | Miss (p : A).
Arguments Hit {A}. Arguments Miss {A}.

(** 40-47 and 816-818; innermost levels and latest events come first.  [clk] counts readings of
    the number of owners. *)
Record cst (A : Type) := mkcst { base : tst; cache : list (list (A * symb)); clk : nat; trace : list (event A) }.
Arguments mkcst {A}. Arguments base {A}. Arguments cache {A}. Arguments clk {A}. Arguments trace {A}.

(** 127-133: whether what a visit returned is wrapped, if [lit] are the literal expressions *)
Definition wrapped {A} (lit : A -> bool) (v : event A) : bool := match v with Hit _ => false | Miss p => lit p end.

Section Cache.
Context {A : Type} (same : A -> A -> bool) (ptr : nat -> expr -> A) (refs : nat -> A -> nat).

(** 50-59 and 821-825 *)
Definition cst_new : cst A := mkcst tst_new [[]] 0 [].
Definition with_base (b : tst) (st : cst A) : cst A := mkcst b (cache st) (clk st) (trace st).
Definition tick (st : cst A) : cst A := mkcst (base st) (cache st) (S (clk st)) (trace st).
Definition note (v : event A) (st : cst A) : cst A := mkcst (base st) (cache st) (clk st) (v :: trace st).
(** 812-814 *)
Definition worth_caching (n : nat) (p : A) : bool := Nat.ltb 2 (refs n p).
(** 827-829 *)
Definition cache_push (st : cst A) : cst A := mkcst (base st) ([] :: cache st) (clk st) (trace st).
(** 831-833 *)
Definition cache_pop (st : cst A) : cst A := mkcst (base st) (tl (cache st)) (clk st) (trace st).
(** 835-838 *)
Definition cache_insert (p : A) (y : symb) (st : cst A) : res (cst A) :=
  match cache st with
  | l :: ls => Ok (mkcst (base st) (((p, y) :: l) :: ls) (clk st) (trace st))
  | [] => Panic "called Option::unwrap() on a None value"
  end.
(** 840-842; shared.rs 105-109 *)
Fixpoint lookup (p : A) (l : list (A * symb)) : option symb :=
  match l with [] => None | (q, y) :: l => if same q p then Some y else lookup p l end.
Definition cache_get (p : A) (st : cst A) : res (option symb) :=
  match cache st with
  | l :: _ => Ok (lookup p l)
  | [] => Panic "called Option::unwrap() on a None value"
  end.
(** 844-849 *)
Definition cache_clear (st : cst A) : cst A := mkcst (base st) (map (fun _ => []) (cache st)) (clk st) (trace st).

(** The beginning and the end of t_bool (179-182, 273-276), t_int (286-291, 332-336), t_uint
    (346-351, 386-391), t_real (401-406, 455-459) and t_ureal (469-474, 523-528); t_eureal
    (531-636) does not use the cache. *)
Definition keyed (e : expr) : bool := negb (ty_eqb (ty_of e) TEUReal).
Definition visit (e : expr) (body : cst A -> res (symb * cst A)) (st : cst A) : res (symb * cst A) :=
  let p := ptr (clk st) e in
  let? hit := (if keyed e && worth_caching (clk st) p then cache_get p st else Ok None) in
  match hit with
  | Some y => if ty_eqb (symb_ty y) (ty_of e) then Ok (y, note (Hit p) (tick st))
              else Panic "called Option::unwrap() on a None value"
  | None =>
      let? r := body (tick st) in
      let? st' := (if keyed e && worth_caching (clk (snd r)) p then cache_insert p (fst r) (snd r) else Ok (snd r)) in
      Ok (fst r, note (Miss p) (tick st'))
  end.

Section Translate.
Context (isvar : ident -> bool) (fsig : string -> option (list ty * ty)).
Context (ecall : string -> (string -> list dyn -> dyn) -> list dyn -> dyn).

Definition get_local_c (x : ident) (st : cst A) : res (symb * cst A) :=
  let? r := get_local isvar x (base st) in Ok (fst (fst r), with_base (snd r) st).
(** 94-109 *)
Definition enter_c (xs : list qvar) (b : tst) (st : cst A) : res (scope * cst A) :=
  let? r := enter isvar xs b in Ok (fst r, cache_push (with_base (snd r) st)).
Definition leave_c (st : cst A) : res (cst A) :=
  let? b := leave (base st) in Ok (cache_pop (with_base b st)).

(** t_symbolic (154-170), t_bool .. t_eureal (172-636), with the cache *)
Fixpoint trc (e : expr) (st : cst A) {struct e} : res (symb * cst A) :=
  let sub (t : ty) (a : expr) (st : cst A) : res (symb * cst A) :=
    if ty_eqb (ty_of a) t then trc a st else Panic "assertion failed: expr is not of the type" in
  visit e (fun st =>
  match e with
  | EVar x => get_local_c x st
  | ECall t f args =>
      let? r := (fix go l st := match l with
                 | [] => Ok ([], st)
                 | a :: l => let? r := trc a st in let? rs := go l (snd r) in Ok (fst r :: fst rs, snd rs)
                 end) args st in
      let? y := call_term fsig ecall t f (fst r) in Ok (y, snd r)
  | EIte t c a b =>
      let? rc := sub TBool c st in
      let? ra := sub t a (snd rc) in
      let? rb := sub t b (snd ra) in
      let? y := ite_term t (fst rc) (fst ra) (fst rb) in Ok (y, snd rb)
  | EBin t op a b =>
      let? ra := sub (bin_operand t op a) a st in
      let? rb := sub (bin_operand t op b) b (snd ra) in
      let? y := bin_term t op (fst ra) (fst rb) in Ok (y, snd rb)
  | EUn t op a =>
      let? ra := sub (un_operand t op) a st in
      let? y := un_term t op (fst ra) in Ok (y, snd ra)
  | ECast t a =>
      let? ra := trc a st in
      let? y := cast_term t (fst ra) in Ok (y, snd ra)
  | EQuant op xs a =>
      match ty_of a with
      | TBool =>
          let? b := init_quantifier_free_vars isvar a xs (base st) in
          let? r := enter_c xs b st in
          let? ra := trc a (snd r) in
          let? st := leave_c (snd ra) in
          match fst ra with
          | YBool b => Ok (YBool (match op with
                                  | QForall | QInf => scope_forall (fst r) b
                                  | QExists | QSup => scope_exists (fst r) b
                                  end), st)
          | _ => Panic "unreachable"
          end
      | TEUReal =>
          let? b := init_quantifier_free_vars isvar a xs (base st) in
          let args := skolem_arg_scope b in
          let? r := enter_c xs b st in
          let? ra := trc a (snd r) in
          let? st := leave_c (snd ra) in
          match fst ra, op with
          | YEur b, QInf => let i := infimum pair_lattice b (fst r) args (base st) in Ok (YEur (fst i), with_base (snd i) st)
          | YEur b, QSup => let i := infimum (Orders.opp pair_lattice) b (fst r) args (base st) in Ok (YEur (fst i), with_base (snd i) st)
          | _, _ => Panic "illegal quantopkind"
          end
      | _ => Panic "not yet implemented"
      end
  | ESubst _ _ _ => Panic "illegal exprkind"
  | ELit t l => let? y := lit_term t l in Ok (y, st)
  end) st.

(** driver/smt_proof.rs 145-160 and 425-450, as [translate] *)
Definition translate_c (e : expr) : res (term bool * list (term bool)) :=
  if ty_eqb (ty_of e) TBool then
    let? r := trc e cst_new in
    match fst r with
    | YBool b => let? s := local_scope (base (snd r)) in Ok (b, scons s)
    | _ => Panic "unreachable"
    end
  else Panic "assertion failed: expr is not of the type".
End Translate.

(** A translator asked several times.  How calls are written changes with the fuel; setting the
    fuel clears the cache (funcs/fuel/fuel_mono.rs 87-99, fuel_param.rs 112-124), and so does
    setting the literal expressions (118-125). *)
Definition encoding := string -> (string -> list dyn -> dyn) -> list dyn -> dyn.
Inductive command := Ask (e : expr) | Switch (ecall : encoding).
Fixpoint session (isvar : ident -> bool) (fsig : string -> option (list ty * ty)) (ecall : encoding) (cs : list command) (st : cst A) :
  res (list symb * cst A) :=
  match cs with
  | [] => Ok ([], st)
  | Ask e :: cs =>
      let? r := trc isvar fsig ecall e st in
      let? rs := session isvar fsig ecall cs (snd r) in Ok (fst r :: fst rs, snd rs)
  | Switch ecall :: cs => session isvar fsig ecall cs (cache_clear st)
  end.
End Cache.
