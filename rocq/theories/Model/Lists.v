(** Model of the built-in lists: z3rro/src/list.rs, z3rro/src/array.rs (how values are shown), src/intrinsic/list.rs, and the
    parts of src/front/tycheck.rs, src/smt/symbolic.rs and src/smt/translate_exprs.rs that deal with lists.
    An SMT term is modelled by its value.  Simplifications: EUReal is one value (its encodings are Model/EurEncodings.v);
    expressions have only the operators below; every identifier carries its declared type; domains are countable sorts;
    the cache of translated expressions is left out. *)
From Coq Require Import Bool List String ZArith Reals.
From Verif.Model Require Import Syntax Translate.
Import ListNotations.
Local Open Scope string_scope.

(** src/ast/ty.rs 9-36, without tuples and the types that never reach the solver *)
Inductive lty := LBool | LInt | LUInt | LReal | LUReal | LEUReal | LList (t : lty) | LDom (d : nat).
Fixpoint lty_eqb (a b : lty) : bool :=
  match a, b with
  | LBool, LBool | LInt, LInt | LUInt, LUInt | LReal, LReal | LUReal, LUReal | LEUReal, LEUReal => true
  | LList a, LList b => lty_eqb a b
  | LDom a, LDom b => Nat.eqb a b
  | _, _ => false
  end.
(** src/ast/ty.rs 111-136: lists and domains are only comparable with themselves. *)
Definition lty_less (a b : lty) : bool :=
  match a, b with
  | LUInt, (LUReal | LEUReal | LInt | LReal) | LInt, LReal | LUReal, (LReal | LEUReal) => true
  | _, _ => false
  end.

(** Values of SMT sorts.  A list is a datatype with a length and an array over all integers (list.rs 134-152). *)
Inductive sval :=
| SB (b : bool) | SI (z : Z) | SR (r : R) | SE (e : option R) | SU (d k : nat)
| SL (len : Z) (elements : Z -> sval).

(** src/smt/mod.rs 240-256 (ty_to_sort): the values of the sort of a type *)
Fixpoint in_sort (t : lty) (s : sval) : Prop :=
  match t, s with
  | LBool, SB _ | (LInt | LUInt), SI _ | (LReal | LUReal), SR _ | LEUReal, SE _ => True
  | LDom d, SU d' _ => d = d'
  | LList t, SL _ f => forall i, in_sort t (f i)
  | _, _ => False
  end.

(** SmtInvariant: z3rro/src/uint.rs, ureal.rs, eureal; for lists list.rs 258-262.  This is what is assumed of variables. *)
Definition smt_invariant (t : lty) (s : sval) : Prop :=
  match t, s with
  | LUInt, SI z => (0 <= z)%Z
  | LUReal, SR r => (0 <= r)%R
  | LEUReal, SE (Some r) => (0 <= r)%R
  | LList _, SL n _ => (0 <= n)%Z
  | _, _ => True
  end.

(** list.rs 201-204 *)
Definition l_len (n : Z) (f : Z -> sval) : sval := SI n.
(** list.rs 206-217 *)
Definition l_get (n : Z) (f : Z -> sval) (i : Z) : sval := f i.
(** list.rs 219-240 *)
Definition l_set (n : Z) (f : Z -> sval) (i : Z) (v : sval) : sval := SL n (fun j => if (j =? i)%Z then v else f j).
(** list.rs 243-245 *)
Definition l_valid_index (n : Z) (i : Z) : Prop := (i < n)%Z.
(** list.rs 274-285: the index is a UInt; elements are compared as SMT values (lib.rs 118-126, [_eq]). *)
Definition l_eq (n : Z) (f : Z -> sval) (m : Z) (g : Z -> sval) : Prop :=
  n = m /\ forall i, smt_invariant LUInt (SI i) -> l_valid_index n i -> l_get n f i = l_get m g i.

(** Expressions before the type check; [x] has the type [G x]. *)
Inductive intrin := ISelect | IStore | ILen.
Inductive lop := OpAdd | OpLt | OpAnd | OpImp | OpEq.
Inductive sx :=
| XVar (x : nat) | XNum (n : N)
| XBin (op : lop) (a b : sx) | XIte (c a b : sx)
| XQuant (all : bool) (x : nat) (e : sx)
| XCall (f : intrin) (args : list sx).

(** Expressions after the type check, with types.  A call has its number of arguments. *)
Inductive tx :=
| TVar (t : lty) (x : nat) | TNum (n : N)
| TBin (t : lty) (op : lop) (a b : tx) | TIte (t : lty) (c a b : tx)
| TQuant (all : bool) (t : lty) (x : nat) (e : tx)
| TSelect (t : lty) (l i : tx) | TStore (t : lty) (l i v : tx) | TLen (l : tx)
| TCast (t : lty) (a : tx).
Definition tx_ty (e : tx) : lty :=
  match e with
  | TVar t _ | TBin t _ _ _ | TIte t _ _ _ | TSelect t _ _ | TStore t _ _ _ | TCast t _ => t
  | TNum _ | TLen _ => LUInt
  | TQuant _ _ _ _ => LBool
  end.

Section Check.
  Variable G : nat -> lty.

  (** src/front/tycheck.rs 42-66 *)
  Definition l_cast (target : lty) (e : tx) : res tx :=
    if lty_eqb target (tx_ty e) then Ok e
    else if lty_less (tx_ty e) target then Ok (TCast target e) else Err "CannotCast".
  (** tycheck.rs 108-128 *)
  Definition l_unify (a b : tx) : res (tx * tx * lty) :=
    if lty_eqb (tx_ty a) (tx_ty b) then Ok (a, b, tx_ty a)
    else if lty_less (tx_ty a) (tx_ty b) then Ok (TCast (tx_ty b) a, b, tx_ty b)
    else if lty_less (tx_ty b) (tx_ty a) then Ok (a, TCast (tx_ty a) b, tx_ty a)
    else Err "TypeMismatch".
  Definition l_num (t : lty) : bool := match t with LInt | LUInt | LReal | LUReal | LEUReal => true | _ => false end.
  Definition l_want (ok : bool) : res unit := if ok then Ok tt else Err "WrongOperandType".

  (** tycheck.rs 656-744 *)
  Definition l_bin (op : lop) (a b : tx) : res tx :=
    match op with
    | OpAdd =>
        let? _ := l_want (l_num (tx_ty a)) in let? _ := l_want (l_num (tx_ty b)) in
        let? (a', b', t) := l_unify a b in Ok (TBin t OpAdd a' b')
    | OpLt =>
        let? _ := l_want (l_num (tx_ty a)) in let? _ := l_want (l_num (tx_ty b)) in
        let? (a', b', _) := l_unify a b in Ok (TBin LBool OpLt a' b')
    | OpEq => let? (a', b', _) := l_unify a b in Ok (TBin LBool OpEq a' b')
    | OpAnd | OpImp =>
        let? _ := l_want (lty_eqb (tx_ty a) LBool) in let? _ := l_want (lty_eqb (tx_ty b) LBool) in
        Ok (TBin LBool op a b)
    end.

  (** src/intrinsic/list.rs 40-66, 97-126, 151-167 *)
  Definition l_call (f : intrin) (args : list tx) : res tx :=
    match f with
    | ISelect =>
        match args with
        | [l; i] =>
            match tx_ty l with
            | LList t => let? i' := l_cast LUInt i in Ok (TSelect t l i')
            | _ => Err "ExpectedKind"
            end
        | _ => Err "ArgumentCountMismatch"
        end
    | IStore =>
        match args with
        | [l; i; v] =>
            match tx_ty l with
            | LList t => let? i' := l_cast LUInt i in let? v' := l_cast t v in Ok (TStore (LList t) l i' v')
            | _ => Err "ExpectedKind"
            end
        | _ => Err "ArgumentCountMismatch"
        end
    | ILen => match args with [l] => Ok (TLen l) | _ => Err "ArgumentCountMismatch" end
    end.

  (** tycheck.rs 601-655, 763-800 *)
  Fixpoint check (e : sx) : res tx :=
    match e with
    | XVar x => Ok (TVar (G x) x)
    | XNum n => Ok (TNum n)
    | XBin op a b => let? a := check a in let? b := check b in l_bin op a b
    | XIte c a b =>
        let? c := check c in let? a := check a in let? b := check b in
        let? c := l_cast LBool c in
        let? (a', b', t) := l_unify a b in Ok (TIte t c a' b')
    | XQuant all x e =>
        let? e := check e in
        let? _ := l_want (lty_eqb (tx_ty e) LBool) in Ok (TQuant all (G x) x e)
    | XCall f args =>
        let? args := (fix go l := match l with
                                  | [] => Ok []
                                  | a :: l => let? a := check a in let? l := go l in Ok (a :: l)
                                  end) args in
        l_call f args
    end.
End Check.

Definition upd_s {A} (r : nat -> A) (x : nat) (v : A) : nat -> A := fun y => if Nat.eqb y x then v else r y.

(** The operators of the sorts, for arguments of one type (translate_exprs.rs 197-214 for the comparisons) *)
Definition s_add (a b : sval) : res sval :=
  match a, b with
  | SI a, SI b => Ok (SI (a + b))
  | SR a, SR b => Ok (SR (a + b)%R)
  | SE (Some a), SE (Some b) => Ok (SE (Some (a + b)%R))
  | SE _, SE _ => Ok (SE None)
  | _, _ => Panic "illegal exprkind"
  end.
Definition s_lt (a b : sval) : res sval :=
  match a, b with
  | SI a, SI b => Ok (SB (a <? b)%Z)
  | SR a, SR b => Ok (SB (holds (a < b)%R))
  | SE (Some a), SE (Some b) => Ok (SB (holds (a < b)%R))
  | SE (Some _), SE None => Ok (SB true)
  | SE None, SE _ => Ok (SB false)
  | _, _ => Panic "illegal exprkind"
  end.
(** SymbolicPair::from_untypeds (symbolic.rs 230-246), then translate_exprs.rs 197-210 *)
Definition s_eq (a b : sval) : res sval :=
  match a, b with
  | SB _, SB _ | SI _, SI _ | SR _, SR _ | SE _, SE _ | SU _ _, SU _ _ => Ok (SB (holds (a = b)))
  | SL n f, SL m g => Ok (SB (holds (l_eq n f m g)))
  | _, _ => Panic "from_untypeds returned None"
  end.
Definition s_bool2 (f : bool -> bool -> bool) (a b : sval) : res sval :=
  match a, b with SB a, SB b => Ok (SB (f a b)) | _, _ => Panic "unwrap on None" end.
Definition s_bin (op : lop) (a b : sval) : res sval :=
  match op with
  | OpAdd => s_add a b | OpLt => s_lt a b | OpEq => s_eq a b
  | OpAnd => s_bool2 andb a b | OpImp => s_bool2 implb a b
  end.
Definition s_cast (t : lty) (a : sval) : res sval :=
  match t, a with
  | LInt, SI z => Ok (SI z)
  | (LReal | LUReal), SI z => Ok (SR (IZR z))
  | LReal, SR r => Ok (SR r)
  | LEUReal, SI z => Ok (SE (Some (IZR z)))
  | LEUReal, SR r => Ok (SE (Some r))
  | _, _ => Panic "illegal exprkind"
  end.

(** translate_exprs.rs 684-716 (t_list): the kinds of expressions that it accepts, then into_list().unwrap() *)
Definition list_kind (e : tx) : bool :=
  match e with TVar _ _ | TSelect _ _ _ | TStore _ _ _ _ | TLen _ | TIte _ _ _ _ => true | _ => false end.
Definition t_list (e : tx) (s : res sval) : res (Z * (Z -> sval)) :=
  if list_kind e then
    let? s := s in match s with SL n f => Ok (n, f) | _ => Panic "unwrap on None" end
  else Panic "illegal exprkind".
(** translate_exprs.rs 339-393 (t_uint) *)
Definition t_uint (e : tx) (s : res sval) : res Z :=
  if lty_eqb (tx_ty e) LUInt then
    let? s := s in match s with SI z => Ok z | _ => Panic "unwrap on None" end
  else Panic "expr is not of type UInt".

(** Quantifiers range over the values of the sort that satisfy the invariant (z3rro/src/scope.rs, forall and exists). *)
Definition s_quant (all : bool) (t : lty) (body : sval -> res sval) : res sval :=
  if holds (exists s w, in_sort t s /\ body s = Panic w) then Panic "in the operand"
  else
    Ok (SB (holds (if all then forall s, in_sort t s -> smt_invariant t s -> body s = Ok (SB true)
                   else exists s, in_sort t s /\ smt_invariant t s /\ body s = Ok (SB true)))).

(** translate_exprs.rs 154-214, 684-740, and src/intrinsic/list.rs 68-85, 128-140, 169-177 *)
Fixpoint tr (r : nat -> sval) (e : tx) : res sval :=
  match e with
  | TVar _ x => Ok (r x)
  | TNum n => Ok (SI (Z.of_N n))
  | TBin _ op a b => let? a := tr r a in let? b := tr r b in s_bin op a b
  | TIte t c a b =>
      let? c := tr r c in
      match c with
      | SB c => let? a := tr r a in let? b := tr r b in Ok (if c then a else b)
      | _ => Panic "unwrap on None"
      end
  | TQuant all t x e => s_quant all t (fun s => tr (upd_s r x s) e)
  | TSelect _ l i =>
      let? (n, f) := t_list l (tr r l) in let? i := t_uint i (tr r i) in Ok (l_get n f i)
  | TStore _ l i v =>
      let? (n, f) := t_list l (tr r l) in let? i := t_uint i (tr r i) in let? v := tr r v in Ok (l_set n f i v)
  | TLen l => let? (n, f) := t_list l (tr r l) in Ok (l_len n f)
  | TCast t a => let? a := tr r a in s_cast t a
  end.

(** How the solver's values are shown.  Terms of values (Z3's model completion gives store chains over constant arrays);
    [AOther] is any other array term; atoms are printed by Z3. *)
Inductive vterm := VAtom (s : string) | VList (len : Z) (elements : aterm) | VArr (a : aterm)
with aterm := AConst (v : vterm) | AStore (a : aterm) (i : Z) (v : vterm) | AOther (s : string).

(** array.rs 19-47: a BTreeMap from indices to strings, in the order of the indices *)
Record carray := mkcarray { ca_default : string; ca_stores : list (Z * string) }.
Fixpoint bt_insert (k : Z) (v : string) (m : list (Z * string)) : list (Z * string) :=
  match m with
  | [] => [(k, v)]
  | (k', v') :: m' => if (k <? k')%Z then (k, v) :: m else if (k =? k')%Z then (k, v) :: m' else (k', v') :: bt_insert k v m'
  end.
Fixpoint bt_get (k : Z) (m : list (Z * string)) : option string :=
  match m with [] => None | (k', v) :: m => if (k =? k')%Z then Some v else bt_get k m end.

(** list.rs 28-40 *)
Record clist := mkclist { cl_len : Z; cl_elements : list string; cl_default : string; cl_oob : list (Z * string); cl_truncated : bool }.
Definition preview_limit : Z := 16.

(** list.rs 70-105.  [usize_max]: [to_usize] fails above it. *)
Definition clist_of (usize_max n : Z) (a : carray) : option clist :=
  if (n <? 0)%Z then None else
  let len_usize := if (n <=? usize_max)%Z then Some n else None in
  let preview := match len_usize with Some n => Z.min n preview_limit | None => preview_limit end in
  Some (mkclist n
    (map (fun k => match bt_get (Z.of_nat k) (ca_stores a) with Some s => s | None => ca_default a end) (seq 0 (Z.to_nat preview)))
    (ca_default a)
    (filter (fun p => ((fst p <? 0) || (n <=? fst p))%Z) (ca_stores a))
    (match len_usize with Some n => (preview_limit <? n)%Z | None => true end)).

Section Show.
  Variable showZ : Z -> string.
  Variable usize_max : Z.
  Fixpoint join (l : list string) : string :=
    match l with [] => "" | [s] => s | s :: l => s ++ ", " ++ join l end.
  (** list.rs 108-127 *)
  Definition show_list (c : clist) : string :=
    "[" ++ (if cl_truncated c then join (cl_elements c) ++ ", ...]" else join (cl_elements c) ++ "]")
    ++ " (len=" ++ showZ (cl_len c)
    ++ (match cl_oob c with
        | [] => ""
        | l => ", oob: default=" ++ cl_default c ++ String.concat "" (map (fun p => ", " ++ showZ (fst p) ++ " -> " ++ snd p) l)
        end) ++ ")".
  (** array.rs 49-64 *)
  Definition show_array (c : carray) : string :=
    "const(" ++ ca_default c ++ ")"
    ++ match ca_stores c with
       | [] => ""
       | l => " [" ++ join (map (fun p => showZ (fst p) ++ " -> " ++ snd p) l) ++ "]"
       end.
  (** array.rs 23-46 (from_dynamic) and 75-84 (dynamic_to_string) *)
  Fixpoint show (v : vterm) : string :=
    match v with
    | VAtom s => s
    | VList n a =>
        match (match arr a with Some c => clist_of usize_max n c | None => None end) with
        | Some c => show_list c
        | None => "(datatype)"
        end
    | VArr a => match arr a with Some c => show_array c | None => "(array)" end
    end
  with arr (a : aterm) : option carray :=
    match a with
    | AConst v => Some (mkcarray (show v) [])
    | AStore a i v => match arr a with
                      | Some c => Some (mkcarray (ca_default c) (bt_insert i (show v) (ca_stores c)))
                      | None => None
                      end
    | AOther _ => None
    end.
  (** list.rs 42-106 *)
  Definition from_dynamic (n : Z) (a : aterm) : option clist :=
    match arr a with Some c => clist_of usize_max n c | None => None end.
End Show.
