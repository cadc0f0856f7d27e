(** Model of src/smt/funcs/fuel/literals.rs, z3rro/src/lit.rs and of the wrapping of literal expressions in
    src/smt/translate_exprs.rs 112-133, src/smt/mod.rs 46-49, 198-204, 213-240.

    Pointers to expressions are positions in the expression: the collector walks with mutable references, so afterwards
    every node has one parent (Model/SharedHeap.v).  Triggers of quantifiers, the cache (Model/TranslateCache.v) and lists
    (which are never wrapped, 684-718) are not modelled. *)
From Coq Require Import Bool List String ZArith Reals Arith.
From Verif.Model Require Orders.
From Verif.Model Require Import EurEncodings Syntax AstUtil ScopeMap Translate.
Import ListNotations.
Local Open Scope string_scope.
Local Open Scope list_scope.

(** ** Which expressions are literal *)
(** The way from an expression to the root; the last step is the head. *)
Definition path := list nat.
Definition path_eqb (p q : path) : bool := if list_eq_dec Nat.eq_dec p q then true else false.
(** literals.rs 20-42: a set of expressions *)
Definition pset := list path.
Definition p_mem (p : path) (S : pset) : bool := existsb (path_eqb p) S.
Definition p_insert (p : path) (S : pset) : pset := p :: S.
Definition p_remove (p : path) (S : pset) : pset := filter (fun q => negb (path_eqb p q)) S.

Section Collect.
(** literals.rs 76-80: known literal variables, computable functions *)
Variables (lv : ident -> bool) (cf : string -> bool).

(** literals.rs 122-191 with ast/visit.rs 173-213 *)
Fixpoint visit_lits (p : path) (e : expr) (S : pset) {struct e} : res pset :=
  match e with
  | EVar x => Ok (if lv x then p_insert p S else S)
  | ECall _ f args =>
      let? S := (fix go n l S := match l with
                 | [] => Ok S
                 | a :: l => let? S := visit_lits (n :: p) a S in go (Datatypes.S n) l S
                 end) 0 args S in
      Ok (if cf f && forallb (fun n => p_mem (n :: p) S) (seq 0 (List.length args)) then p_insert p S else S)
  | EIte _ c a b =>
      let? S := visit_lits (0 :: p) c S in
      let? S := visit_lits (1 :: p) a S in
      let? S := visit_lits (2 :: p) b S in
      Ok (if p_mem (0 :: p) S && p_mem (1 :: p) S && p_mem (2 :: p) S
          then p_remove (2 :: p) (p_remove (1 :: p) (p_remove (0 :: p) (p_insert p S))) else S)
  | EBin _ _ a b =>
      let? S := visit_lits (0 :: p) a S in
      let? S := visit_lits (1 :: p) b S in
      Ok (if p_mem (0 :: p) S && p_mem (1 :: p) S then p_remove (1 :: p) (p_remove (0 :: p) (p_insert p S)) else S)
  | EUn _ _ a | ECast _ a =>
      let? S := visit_lits (0 :: p) a S in
      Ok (if p_mem (0 :: p) S then p_remove (0 :: p) (p_insert p S) else S)
  | EQuant _ _ a => visit_lits (0 :: p) a S
  | ESubst _ b a =>
      let? S := visit_lits (0 :: p) b S in
      let? S := visit_lits (1 :: p) a S in
      Panic "cannot determine literal subexpressions in expressions with substitutions"
  | ELit _ _ => Ok (p_insert p S)
  end.

(** literals.rs 99-117; [some_var], [some_fun]: whether there are literal variables and computable functions *)
Definition collect_literals (some_var some_fun : bool) (e : expr) : res pset :=
  if some_var || some_fun then visit_lits [] e [] else Ok [].
End Collect.

(** ** Markers *)
(** lit.rs 40-52: the name of the function for a sort *)
Definition lit_name (s : srt) : string := match s with SB => "$LitBool" | SI => "$LitInt" | SR => "$LitReal" end.
(** lit.rs 55-58 *)
Definition lit_b (t : term bool) : term bool := fun M => match ufn M (lit_name SB) [DyB (t M)] with DyB b => b | _ => false end.
Definition lit_i (t : term Z) : term Z := fun M => match ufn M (lit_name SI) [DyI (t M)] with DyI z => z | _ => 0%Z end.
Definition lit_r (t : term R) : term R := fun M => match ufn M (lit_name SR) [DyR (t M)] with DyR r => r | _ => 0%R end.
Definition srt_eqb (s s' : srt) : bool := match s, s' with SB, SB | SI, SI | SR, SR => true | _, _ => false end.
(** mod.rs 226-240: the declarations in use, in order *)
Definition register (s : srt) (reg : list srt) : list srt := if existsb (srt_eqb s) reg then reg else reg ++ [s].
(** mod.rs 226-240; lit.rs 118-133, uint.rs 89-92, ureal.rs 95-98, eureal/pair.rs 132-140 *)
Definition lit_wrap (on : bool) (y : symb) (reg : list srt) : symb * list srt :=
  if on then
    match y with
    | YBool t => (YBool (lit_b t), register SB reg)
    | YInt t => (YInt (lit_i t), register SI reg)
    | YUInt t => (YUInt (lit_i t), register SI reg)
    | YReal t => (YReal (lit_r t), register SR reg)
    | YUReal t => (YUReal (lit_r t), register SR reg)
    | YEur t => (YEur (fun M => mkpair (lit_b (fun M => p_inf (t M)) M) (lit_r (fun M => p_num (t M)) M)), register SR (register SB reg))
    end
  else (y, reg).
(** lit.rs 64-104, mod.rs 198-204; [n]: the fresh constant *)
Definition lit_axiom (s : srt) (n : nat) : term bool :=
  scope_forall (mkscope [(s, n)] []) (fun M => holds (ufn M (lit_name s) [bval M (s, n)] = bval M (s, n))).
Definition lit_axioms (n : nat) (reg : list srt) : list (term bool) := map (fun s => lit_axiom s n) reg.

(** ** Translation with markers *)
Record wst := mkwst { wbase : tst; wreg : list srt }.
Section Translate.
Context (isvar : ident -> bool) (fsig : string -> option (list ty * ty)).
Context (ecall : string -> (string -> list dyn -> dyn) -> list dyn -> dyn).
(** mod.rs 49 and translate_exprs.rs 118-121 *)
Context (on : bool) (marks : path -> bool).

(** translate_exprs.rs 127-133 *)
Definition wrap_if_literal (p : path) (y : symb) (w : wst) : symb * wst :=
  if marks p then let r := lit_wrap on y (wreg w) in (fst r, mkwst (wbase w) (snd r)) else (y, w).

(** t_symbolic (154-170), t_bool .. t_eureal (172-636), with 276, 336, 391, 459, 528 and 635 *)
Fixpoint trw (p : path) (e : expr) (w : wst) {struct e} : res (symb * wst) :=
  let sub (t : ty) (q : path) (a : expr) (w : wst) : res (symb * wst) :=
    if ty_eqb (ty_of a) t then trw q a w else Panic "assertion failed: expr is not of the type" in
  let? r :=
  match e with
  | EVar x => let? r := get_local isvar x (wbase w) in Ok (fst (fst r), mkwst (snd r) (wreg w))
  | ECall t f args =>
      let? r := (fix go n l w := match l with
                 | [] => Ok ([], w)
                 | a :: l => let? r := trw (n :: p) a w in let? rs := go (S n) l (snd r) in Ok (fst r :: fst rs, snd rs)
                 end) 0 args w in
      let? y := call_term fsig ecall t f (fst r) in Ok (y, snd r)
  | EIte t c a b =>
      let? rc := sub TBool (0 :: p) c w in
      let? ra := sub t (1 :: p) a (snd rc) in
      let? rb := sub t (2 :: p) b (snd ra) in
      let? y := ite_term t (fst rc) (fst ra) (fst rb) in Ok (y, snd rb)
  | EBin t op a b =>
      let? ra := sub (bin_operand t op a) (0 :: p) a w in
      let? rb := sub (bin_operand t op b) (1 :: p) b (snd ra) in
      let? y := bin_term t op (fst ra) (fst rb) in Ok (y, snd rb)
  | EUn t op a =>
      let? ra := sub (un_operand t op) (0 :: p) a w in
      let? y := un_term t op (fst ra) in Ok (y, snd ra)
  | ECast t a =>
      let? ra := trw (0 :: p) a w in
      let? y := cast_term t (fst ra) in Ok (y, snd ra)
  | EQuant op xs a =>
      match ty_of a with
      | TBool =>
          let? st := init_quantifier_free_vars isvar a xs (wbase w) in
          let? r := enter isvar xs st in
          let? ra := trw (0 :: p) a (mkwst (snd r) (wreg w)) in
          let? st := leave (wbase (snd ra)) in
          match fst ra with
          | YBool b => Ok (YBool (match op with
                                  | QForall | QInf => scope_forall (fst r) b
                                  | QExists | QSup => scope_exists (fst r) b
                                  end), mkwst st (wreg (snd ra)))
          | _ => Panic "unreachable"
          end
      | TEUReal =>
          let? st := init_quantifier_free_vars isvar a xs (wbase w) in
          let args := skolem_arg_scope st in
          let? r := enter isvar xs st in
          let? ra := trw (0 :: p) a (mkwst (snd r) (wreg w)) in
          let? st := leave (wbase (snd ra)) in
          match fst ra, op with
          | YEur b, QInf => let i := infimum pair_lattice b (fst r) args st in Ok (YEur (fst i), mkwst (snd i) (wreg (snd ra)))
          | YEur b, QSup => let i := infimum (Orders.opp pair_lattice) b (fst r) args st in Ok (YEur (fst i), mkwst (snd i) (wreg (snd ra)))
          | _, _ => Panic "illegal quantopkind"
          end
      | _ => Panic "not yet implemented"
      end
  | ESubst _ _ _ => Panic "illegal exprkind"
  | ELit t l => let? y := lit_term t l in Ok (y, w)
  end in
  Ok (wrap_if_literal p (fst r) (snd r)).

(** driver/smt_proof.rs 266-293 and 425-450: the formula, the assumptions that come with it, and the sorts of the markers; their
    axioms are added after the translation (438). *)
Definition translate_w (e : expr) : res (term bool * list (term bool) * list srt) :=
  if ty_eqb (ty_of e) TBool then
    let? r := trw [] e (mkwst tst_new []) in
    match fst r with
    | YBool b => let? s := local_scope (wbase (snd r)) in Ok (b, scons s, wreg (snd r))
    | _ => Panic "unreachable"
    end
  else Panic "assertion failed: expr is not of the type".
End Translate.

(** driver/smt_proof.rs 274-284 with mod.rs 91-99, 212-222: the verification condition.  [on]: some function is encoded with fuel
    and computation; [cf]: the computable functions, of which there are then some. *)
Definition translate_vc isvar fsig ecall (on some_fun : bool) (cf : string -> bool) (e : expr) : res (term bool * list (term bool) * list srt) :=
  let? ms := (if on then collect_literals (fun _ => false) cf false some_fun e else Ok []) in
  translate_w isvar fsig ecall on (fun p => p_mem p ms) e.
