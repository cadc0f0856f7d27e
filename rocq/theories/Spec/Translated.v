(** What it means for an SMT structure to give the language the meaning of an interpretation,
    and which expressions the translation to SMT is for. *)
From Coq Require Import Bool List String ZArith NArith Reals.
From Verif.Model Require Import EurEncodings Syntax Translate.
From Verif.Spec Require Import Eur EncSpec Sem Exprs.
Import ListNotations.

(** The value of a term of Z3 that stands for a HeyLo value. *)
Definition val_dyn (v : val) (d : dyn) : Prop :=
  match v, d with
  | VBool b, DyB b' => b' = b
  | VInt z, DyI z' => z' = z
  | VUInt n, DyI z => z = Z.of_N n
  | VReal r, DyR r' => r' = r
  | VUReal x, DyR r => r = nval x
  | VEur e, DyE d => dt_ok d /\ dt_val d = e
  | _, _ => False
  end.

(** Functions, and division and remainder by zero, mean the same in [M] as in [I], if calls are
    written as [ecall] does. *)
Record fits (fsig : string -> option (list ty * ty)) (ecall : string -> (string -> list dyn -> dyn) -> list dyn -> dyn) (I : interp) (M : strct) : Prop := {
  fits_div : forall r, sdiv0 M r = idiv0 I r;
  fits_udiv : forall x, sdiv0 M (nval x) = nval (iudiv0 I x);
  fits_mod : forall z, smod0 M z = imod0 I z;
  fits_umod : forall n, smod0 M (Z.of_N n) = Z.of_N (iumod0 I n);
  fits_fun : forall f ts t vs ds, fsig f = Some (ts, t) -> Forall2 has_ty vs ts -> Forall2 val_dyn vs ds ->
    val_dyn (ifun I f t vs) (ecall f (ufn M) ds)
}.
(** A number divided by zero is the same whether the numbers are signed or not. *)
Record agreeing (I : interp) : Prop := {
  agree_div : forall x, idiv0 I (nval x) = nval (iudiv0 I x);
  agree_mod : forall n, imod0 I (Z.of_N n) = Z.of_N (iumod0 I n)
}.

Fixpoint tys_eqb (a b : list ty) : bool :=
  match a, b with [], [] => true | x :: a, y :: b => ty_eqb x y && tys_eqb a b | _, _ => false end.

(** Nodes on which the translation panics: calls that do not match the declaration, undeclared
    variables, substitutions, and comparisons of Booleans. *)
Definition untranslatable (isvar : ident -> bool) (fsig : string -> option (list ty * ty)) (e : expr) : bool :=
  match e with
  | EVar x => negb (isvar x)
  | EQuant _ xs _ => negb (forallb (fun x => isvar (qname x)) xs)
  | ECall t f args => match fsig f with Some (ts, r) => negb (ty_eqb r t && tys_eqb (map ty_of args) ts) | None => true end
  | ESubst _ _ _ => true
  | _ => bool_cmp e
  end.
(** Subtraction at EUReal, which is wrong at infinity (C01). *)
Definition eur_sub (e : expr) : bool := match e with EBin TEUReal OSub _ _ => true | _ => false end.
(** Infima and suprema at EUReal, which need side conditions on Skolem functions. *)
Definition eur_quant (e : expr) : bool := match e with EQuant _ _ a => ty_eqb (ty_of a) TEUReal | _ => false end.

Definition translatable isvar fsig (e : expr) : bool := wt e && negb (some (untranslatable isvar fsig) e).
