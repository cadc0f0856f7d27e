(** What lists and their operations mean, from website/docs/stdlib/lists.md: a list is a finite sequence of values of its
    element type.  [select] and [store] out of bounds are unspecified, so an expression can have several values. *)
From Coq Require Import Bool String Ascii List ZArith Reals Sorted.
From Verif.Model Require Import Syntax Translate Lists.
Import ListNotations.
Local Open Scope list_scope.

Inductive tval := VB (b : bool) | VI (z : Z) | VR (r : R) | VE (e : option R) | VU (d k : nat) | VL (l : list tval).

(** The values of a type *)
Fixpoint vty (t : lty) (v : tval) : Prop :=
  match t, v with
  | LBool, VB _ | LInt, VI _ | LReal, VR _ => True
  | LUInt, VI z => (0 <= z)%Z
  | LUReal, VR r => (0 <= r)%R
  | LEUReal, VE None => True
  | LEUReal, VE (Some r) => (0 <= r)%R
  | LDom d, VU d' _ => d = d'
  | LList t, VL l => Forall (vty t) l
  | _, _ => False
  end.

(** [rep t s v]: the SMT value [s] stands for the value [v] of type [t].  Elements of the array out of bounds have the
    right type but are otherwise ignored. *)
Fixpoint rep (t : lty) (s : sval) (v : tval) : Prop :=
  match t, s, v with
  | LBool, SB b, VB b' => b = b'
  | LInt, SI z, VI z' => z = z'
  | LUInt, SI z, VI z' => z = z' /\ (0 <= z)%Z
  | LReal, SR r, VR r' => r = r'
  | LUReal, SR r, VR r' => r = r' /\ (0 <= r)%R
  | LEUReal, SE e, VE e' => e = e' /\ match e with Some r => (0 <= r)%R | None => True end
  | LDom d, SU d1 k, VU d2 k' => d = d1 /\ d = d2 /\ k = k'
  | LList t, SL n f, VL l =>
      n = Z.of_nat (length l) /\ (forall i, exists w, rep t (f i) w) /\
      forall k w, nth_error l k = Some w -> rep t (f (Z.of_nat k)) w
  | _, _, _ => False
  end.

(** The element types without a condition on SMT values; the types whose SMT invariant is enough *)
Definition free_ty (t : lty) : Prop := match t with LBool | LInt | LReal | LDom _ => True | _ => False end.
Definition exact_ty (t : lty) : Prop := match t with LList t => free_ty t | _ => True end.
(** Not a list of lists *)
Definition flat_ty (t : lty) : Prop := match t with LList (LList _) => False | _ => True end.

Inductive v_bin : lop -> tval -> tval -> tval -> Prop :=
| b_addI a b : v_bin OpAdd (VI a) (VI b) (VI (a + b))
| b_addR a b : v_bin OpAdd (VR a) (VR b) (VR (a + b))
| b_addE a b : v_bin OpAdd (VE (Some a)) (VE (Some b)) (VE (Some (a + b)%R))
| b_addT a b : a = None \/ b = None -> v_bin OpAdd (VE a) (VE b) (VE None)
| b_ltI a b : v_bin OpLt (VI a) (VI b) (VB (a <? b)%Z)
| b_ltR a b : v_bin OpLt (VR a) (VR b) (VB (holds (a < b)%R))
| b_ltE a b : v_bin OpLt (VE (Some a)) (VE (Some b)) (VB (holds (a < b)%R))
| b_ltT a : v_bin OpLt (VE (Some a)) (VE None) (VB true)
| b_ltF b : v_bin OpLt (VE None) (VE b) (VB false)
| b_eq a b : v_bin OpEq a b (VB (holds (a = b)))
| b_and a b : v_bin OpAnd (VB a) (VB b) (VB (a && b))
| b_imp a b : v_bin OpImp (VB a) (VB b) (VB (implb a b)).

Inductive v_cast : lty -> tval -> tval -> Prop :=
| c_int z : v_cast LInt (VI z) (VI z)
| c_rz t z : t = LReal \/ t = LUReal -> v_cast t (VI z) (VR (IZR z))
| c_rr r : v_cast LReal (VR r) (VR r)
| c_ez z : v_cast LEUReal (VI z) (VE (Some (IZR z)))
| c_er r : v_cast LEUReal (VR r) (VE (Some r)).

(** The list with another element at a valid index *)
Fixpoint put (l : list tval) (k : nat) (v : tval) : list tval :=
  match l, k with [], _ => [] | _ :: l, O => v :: l | a :: l, S k => a :: put l k v end.

(** [means g e v]: [v] is a possible value of [e] *)
Fixpoint means (g : nat -> tval) (e : tx) (v : tval) : Prop :=
  match e with
  | TVar _ x => v = g x
  | TNum n => v = VI (Z.of_N n)
  | TBin _ op a b => exists va vb, means g a va /\ means g b vb /\ v_bin op va vb v
  | TIte _ c a b => exists vc, means g c (VB vc) /\ if vc then means g a v else means g b v
  | TQuant all t x e =>
      exists F : tval -> bool,
        (forall w, vty t w -> means (upd_s g x w) e (VB (F w))) /\
        v = VB (holds (if all then forall w, vty t w -> F w = true else exists w, vty t w /\ F w = true))
  | TSelect t l i =>
      exists L k, means g l (VL L) /\ means g i (VI (Z.of_nat k)) /\
        match nth_error L k with Some w => v = w | None => vty t v end
  | TStore t l i a =>
      exists L k w L', means g l (VL L) /\ means g i (VI (Z.of_nat k)) /\ means g a w /\ v = VL L' /\
        if Nat.ltb k (length L) then L' = put L k w else length L' = length L /\ vty t (VL L')
  | TLen l => exists L, means g l (VL L) /\ v = VI (Z.of_nat (length L))
  | TCast t a => exists va, means g a va /\ v_cast t va v
  end.

(** [len] is only applied to lists *)
Fixpoint len_of_lists (e : tx) : Prop :=
  match e with
  | TVar _ _ | TNum _ => True
  | TBin _ _ a b | TSelect _ a b => len_of_lists a /\ len_of_lists b
  | TIte _ a b c | TStore _ a b c => len_of_lists a /\ len_of_lists b /\ len_of_lists c
  | TQuant _ _ _ a | TCast _ a => len_of_lists a
  | TLen l => (exists t, tx_ty l = LList t) /\ len_of_lists l
  end.
(** Quantified types have exact invariants and only flat lists are compared *)
Fixpoint plain (e : tx) : Prop :=
  match e with
  | TVar _ _ | TNum _ => True
  | TBin _ op a b => (op = OpEq -> flat_ty (tx_ty a)) /\ plain a /\ plain b
  | TSelect _ a b => plain a /\ plain b
  | TIte _ a b c | TStore _ a b c => plain a /\ plain b /\ plain c
  | TQuant _ t _ a => exact_ty t /\ plain a
  | TCast _ a | TLen a => plain a
  end.

(** The element of an array term at an index (the theory of arrays) *)
Fixpoint at_index (a : aterm) (i : Z) : option vterm :=
  match a with
  | AConst v => Some v
  | AStore a j v => if (i =? j)%Z then Some v else at_index a i
  | AOther _ => None
  end.
(** The indices at which a store chain stores *)
Fixpoint stored (a : aterm) (i : Z) : Prop :=
  match a with AStore a j _ => i = j \/ stored a i | _ => False end.
Fixpoint store_chain (a : aterm) : Prop :=
  match a with AConst _ => True | AStore a _ _ => store_chain a | AOther _ => False end.

(** The assignments that the solver considers, and those that stand for values *)
Definition assigned (G : nat -> lty) (r : nat -> sval) : Prop := forall x, in_sort (G x) (r x) /\ smt_invariant (G x) (r x).
Definition related (G : nat -> lty) (r : nat -> sval) (g : nat -> tval) : Prop := forall x, rep (G x) (r x) (g x).

Definition ascending (m : list (Z * string)) : Prop := StronglySorted Z.lt (map fst m).
(** Texts of elements that cannot be confused with the punctuation of a list *)
Definition sep (c : ascii) : Prop := c = ","%char \/ c = "]"%char.
Fixpoint no_sep (s : string) : Prop := match s with EmptyString => True | String c s => ~ sep c /\ no_sep s end.
Definition clean (s : string) : Prop := no_sep s /\ s <> ""%string /\ s <> "..."%string.
