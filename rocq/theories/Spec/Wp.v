(** Documented meaning of HeyVL statements as expectation transformers:
    website/docs/heyvl/statements.md, website/docs/stdlib/distributions.md and
    the verification condition semantics of the OOPSLA '23 paper they refer to.
    No definition here mentions the code's vcgen. *)
From Coq Require Import Bool List String ZArith NArith QArith Reals.
From Verif.Model Require Import Syntax.
From Verif.Spec Require Import Eur Sem.
Import ListNotations.

Definition exp := env -> eur.
Definition exp_le (X Y : exp) : Prop := forall s, env_ok s -> ele (X s) (Y s).

(** Expectations and guards denoted by expressions. *)
Definition ev (I : interp) (e : expr) : exp :=
  fun s => match eval I e s with VEur r => r | _ => ebot end.
Definition holds (I : interp) (c : expr) (s : env) : bool :=
  match eval I c s with VBool b => b | _ => false end.

(** Knaster-Tarski fixpoints in the lattice of expectations. *)
Definition lfp (F : exp -> exp) : exp := fun s => einf (fun r => exists Y, exp_le (F Y) Y /\ r = Y s).
Definition gfp (F : exp -> exp) : exp := fun s => esup (fun r => exists Y, exp_le Y (F Y) /\ r = Y s).

(** * Distributions: finitely many values with their probabilities *)
Definition pmf := list (eur * val).
Fixpoint expected (d : pmf) (f : val -> eur) : eur :=
  match d with [] => ebot | (p, v) :: d' => eadd (emul p (f v)) (expected d' f) end.

Definition nrange (a b : N) : list N := map (fun i => (a + N.of_nat i)%N) (seq 0 (S (N.to_nat b) - N.to_nat a)).
Definition binomial (n k : N) : R := Reals.Binomial.C (N.to_nat n) (N.to_nat k).

(** distributions.md.  A distribution call with odds that sum to zero, or an empty
    range, gives the constant zero expectation, i.e. the empty list. *)
Definition dist_sem (name : string) (args : list val) : option pmf :=
  (match args with
   | [VUInt a; VUInt b] =>
       if String.eqb name "ber" then
         Some (if N.eqb (a + b) 0 then []
               else [(fin (n2r a / n2r (a + b)), VBool true); (fin (n2r b / n2r (a + b)), VBool false)])
       else if String.eqb name "unif" then
         Some (map (fun v => (fin (1 / n2r (b - a + 1)), VUInt v)) (nrange a b))
       else None
   | [VUReal p] =>
       if String.eqb name "flip" then Some [(Fin p, VBool true); (fin (1 - nval p), VBool false)] else None
   | [VUInt n; VUInt x; VUInt y] =>
       if String.eqb name "binom" then
         (* n trials, odds x of success and y of failure *)
         let p := (n2r x / n2r (x + y))%R in
         Some (if N.eqb (x + y) 0 then [] else
               map (fun k => (fin (binomial n k * p ^ N.to_nat k * (1 - p) ^ N.to_nat (n - k)), VUInt k)) (nrange 0 n))
       else if String.eqb name "hyper" then
         (* population n, x successes in it, y draws *)
         Some (map (fun k => (fin (binomial x k * binomial (n - x) (y - k) / binomial n y), VUInt k))
                   (nrange (y + x - n) (N.min y x)))
       else None
   | _ => None
   end)%string.

(** Which fixpoint a loop denotes (proof-rules/approximations.md: wp and ert use
    least, wlp greatest fixpoints). *)
Inductive fixkind := Least | Greatest.

(** Assigning the value of an expression, or sampling. *)
Definition assign_sem (I : interp) (isd : string -> bool) (xs : list ident) (e : expr) (X : exp) : exp :=
  fun s =>
    match xs, e with
    | [x], ECall _ f args =>
        if isd f then
          match dist_sem f (map (fun a => eval I a s) args) with
          | Some d => expected d (fun v => X (upd s x v))
          | None => ebot
          end
        else X (upd s x (eval I e s))
    | [x], _ => X (upd s x (eval I e s))
    | _, _ => ebot
    end.

Definition validate_sem (d : direction) (x : eur) : eur :=
  match d with
  | Down => if eleb etop x then etop else ebot   (* conegate; conegate *)
  | Up => if eleb x ebot then ebot else etop     (* negate; negate *)
  end.

Definition negate_sem (d : direction) (x : eur) : eur :=
  match d with
  | Down => if eleb x ebot then etop else ebot
  | Up => if eleb etop x then ebot else etop
  end.

Definition havoc_sem (d : direction) (xs : list ident) (X : exp) : exp :=
  fun s =>
    let vals r := exists s', havocked xs s s' /\ r = X s' in
    match d with Down => einf vals | Up => esup vals end.

Definition assume_sem (d : direction) (a b : eur) : eur :=
  match d with Down => if eleb a b then etop else b | Up => if eleb b a then ebot else b end.

(** [isd f] tells whether [f] is a built-in distribution. *)
Fixpoint wp (I : interp) (isd : string -> bool) (k : fixkind) (st : stmt) (X : exp) {struct st} : exp :=
  let block b X := fold_right (wp I isd k) X b in
  match st with
  | SSeq b => block b X
  | SVar x None => X
  | SVar x (Some e) => assign_sem I isd [x] e X
  | SAssign xs e => assign_sem I isd xs e X
  | SHavoc d xs => havoc_sem d xs X
  | SAssert Down e => fun s => emin (ev I e s) (X s)
  | SAssert Up e => fun s => emax (ev I e s) (X s)
  | SAssume d e => fun s => assume_sem d (ev I e s) (X s)
  | SCompare d e => fun s => validate_sem d (assume_sem d (ev I e s) (X s))
  | SNegate d => fun s => negate_sem d (X s)
  | SValidate d => fun s => validate_sem d (X s)
  | STick e => fun s => eadd (X s) (ev I e s)
  | SWeigh e => fun s => emul (X s) (ev I e s)
  | SDemonic a b => fun s => emin (block a X s) (block b X s)
  | SAngelic a b => fun s => emax (block a X s) (block b X s)
  | SAdditive a b => fun s => eadd (block a X s) (block b X s)
  | SIf c a b => fun s => if holds I c s then block a X s else block b X s
  | SWhile c b =>
      let F Y s := if holds I c s then block b Y s else X s in
      match k with Least => lfp F | Greatest => gfp F end
  | SAnn _ _ s => wp I isd k s X
  | SLabel _ => X
  end.

Definition wp_block (I : interp) (isd : string -> bool) (k : fixkind) (b : list stmt) (X : exp) : exp :=
  fold_right (wp I isd k) X b.

(** * Which programs the statements are about *)

Definition u128_limit : N := (2 ^ 128)%N.

(** Calls of built-in distributions in the documented parameter range, with odds
    small enough for the 128-bit arithmetic.  [t] is the type of the result. *)
Inductive dist_in_range : string -> list expr -> ty -> Prop :=
| dr_ber a b : (a + b <> 0)%N -> (a + b < u128_limit)%N ->
    dist_in_range "ber" [ELit TUInt (LUInt a); ELit TUInt (LUInt b)] TBool
| dr_flip p : wt p = true -> ty_of p = TUReal -> dist_in_range "flip" [p] TBool
| dr_unif a b : (a <= b)%N -> (b < u128_limit)%N -> (b - a + 1 < u128_limit)%N ->
    dist_in_range "unif" [ELit TUInt (LUInt a); ELit TUInt (LUInt b)] TUInt
| dr_hyper n x y : (x <= n)%N -> (y <= n)%N -> (n < u128_limit)%N -> (y + x < u128_limit)%N ->
    (binomial n y < n2r u128_limit)%R ->
    dist_in_range "hyper" [ELit TUInt (LUInt n); ELit TUInt (LUInt x); ELit TUInt (LUInt y)] TUInt
(* binom only for odds a:1 with a <= 1; see C21_binom_refuted for the rest *)
| dr_binom n a : (a <= 1)%N -> (n < 128)%N ->
    dist_in_range "binom" [ELit TUInt (LUInt n); ELit TUInt (LUInt a); ELit TUInt (LUInt 1)] TUInt.

Definition assign_ok (isd isf : string -> bool) (x : ident) (e : expr) : Prop :=
  match e with
  | ECall t f args =>
      if isd f then dist_in_range f args (ity x)
      else isf f = true /\ wt e = true /\ t = ity x
  | _ => wt e = true /\ ty_of e = ity x
  end.

Definition is_exp (e : expr) : Prop := wt e = true /\ ty_of e = TEUReal.
Definition is_guard (e : expr) : Prop := wt e = true /\ ty_of e = TBool.

Definition All {A} (P : A -> Prop) : list A -> Prop :=
  fix go l := match l with [] => True | a :: l' => P a /\ go l' end.

(** Well-typed statements ([isd]: distributions, [isf]: functions). *)
Fixpoint wts (isd isf : string -> bool) (st : stmt) : Prop :=
  match st with
  | SSeq b => All (wts isd isf) b
  | SVar _ None | SHavoc _ _ | SNegate _ | SValidate _ | SLabel _ => True
  | SVar x (Some e) => assign_ok isd isf x e
  | SAssign xs e => match xs with [x] => assign_ok isd isf x e | _ => False end
  | SAssert _ e | SAssume _ e | SCompare _ e | STick e | SWeigh e => is_exp e
  | SDemonic a b | SAngelic a b | SAdditive a b => All (wts isd isf) a /\ All (wts isd isf) b
  | SIf c a b => is_guard c /\ All (wts isd isf) a /\ All (wts isd isf) b
  | SWhile c b => is_guard c /\ All (wts isd isf) b
  | SAnn _ _ s => wts isd isf s
  end.

(** [every P st]: [P] holds of [st] and of every statement inside it. *)
Fixpoint every (P : stmt -> Prop) (st : stmt) : Prop :=
  P st /\
  match st with
  | SSeq b | SWhile _ b => All (every P) b
  | SDemonic a b | SAngelic a b | SAdditive a b | SIf _ a b => All (every P) a /\ All (every P) b
  | SAnn _ _ s => every P s
  | _ => True
  end.

Definition not_while (st : stmt) : Prop := match st with SWhile _ _ => False | _ => True end.
Definition not_validate (st : stmt) : Prop := match st with SValidate _ => False | _ => True end.
Definition not_negate (st : stmt) : Prop := match st with SNegate _ => False | _ => True end.
(** The only annotations left are those in [A]. *)
Definition anns_in (A : string -> bool) (st : stmt) : Prop := match st with SAnn a _ _ => A a = true | _ => True end.

(** Every (co)validate is directly followed by an assume of the same direction
    (possibly annotated): the only shape in which the code's validate is documented to be
    used, and the one all proof rules and procedure encodings generate. *)
Fixpoint strip_ann (st : stmt) : stmt := match st with SAnn _ _ s => strip_ann s | s => s end.
Definition opens_with_assume (d : direction) (b : list stmt) : Prop :=
  match b with s :: _ => match strip_ann s with SAssume d' _ => d = d' | _ => False end | [] => False end.
Fixpoint vguard (st : stmt) : Prop :=
  let block := fix block b :=
    match b with
    | [] => True
    | s :: b' => match s with SValidate d => opens_with_assume d b' | _ => vguard s end /\ block b'
    end in
  match st with
  | SValidate _ => False
  | SSeq b | SWhile _ b => block b
  | SDemonic a b | SAngelic a b | SAdditive a b | SIf _ a b => block a /\ block b
  | SAnn _ _ s => vguard s
  | _ => True
  end.
Fixpoint vguard_block (b : list stmt) : Prop :=
  match b with
  | [] => True
  | s :: b' => match s with SValidate d => opens_with_assume d b' | _ => vguard s end /\ vguard_block b'
  end.
