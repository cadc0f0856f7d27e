(** What user-defined functions and axioms say, which declarations the encodings are for, and what the
    solver's structures can be. *)
From Coq Require Import Bool List String ZArith NArith Reals Relation_Operators.
From Verif.Model Require Import EurEncodings Syntax Translate Funcs.
From Verif.Spec Require Recursion.
From Verif.Spec Require Import Eur Sem Exprs Translated.
Import ListNotations.

(** The functions satisfy their definitions and the axioms hold. *)
Definition satisfies (I : interp) (l : list dspec) : Prop := forall s, In s l ->
  match s with
  | DFun d => match fbody d with
              | Some b => forall s, env_ok s -> ifun I (fname d) (fout d) (map s (finputs d)) = eval I b s
              | None => True
              end
  | DAxiom _ e => forall s, env_ok s -> eval I e s = VBool true
  end.

(** Well-typed declarations without subtraction at EUReal (wrong at infinity, C41) and without infima
    and suprema at EUReal. *)
Definition plain_expr (isvar : ident -> bool) (fsig : string -> option (list ty * ty)) (e : expr) : Prop :=
  translatable isvar fsig e = true /\ some eur_sub e = false /\ some eur_quant e = false.
Definition spec_ok (isvar : ident -> bool) (fsig : string -> option (list ty * ty)) (s : dspec) : Prop :=
  match s with
  | DFun d => NoDup (finputs d) /\ (forall x, In x (finputs d) -> isvar x = true) /\
      match fbody d with
      | Some b => plain_expr isvar fsig b /\ ty_of b = fout d /\ forall x, fv x b -> In x (finputs d)
      | None => True
      end
  | DAxiom _ e => plain_expr isvar fsig e /\ ty_of e = TBool /\ forall x, ~ fv x e
  end.
Definition specs_ok (isvar : ident -> bool) (l : list dspec) : Prop :=
  NoDup (map dname l) /\ Forall (spec_ok isvar (fsig_of l)) l.

(** The solver's structures respect sorts. *)
Definition of_sort (t : ty) (d : dyn) : Prop :=
  match t, d with
  | TBool, DyB _ | TInt, DyI _ | TUInt, DyI _ | TReal, DyR _ | TUReal, DyR _ | TEUReal, DyE _ => True
  | _, _ => False
  end.
Definition well_sorted (fsig : string -> option (list ty * ty)) (E : encoder) (M : strct) : Prop :=
  forall k f ts t ds, fsig f = Some (ts, t) -> Forall2 of_sort ts ds -> of_sort t (enc_call E k f (ufn M) ds).
(** Division and remainder by zero of non-negative numbers are not negative (C41 shows that they can be). *)
Definition division_ok (M : strct) : Prop := (forall r, (0 <= r -> 0 <= sdiv0 M r)%R) /\ (forall n, (0 <= smod0 M (Z.of_N n))%Z).

(** The solver's answer: no structure satisfies the axioms and the side conditions and falsifies the formula. *)
Definition proved (axs cs : list (term bool)) (t : term bool) : Prop :=
  forall M, Forall (fun c => c M = true) axs -> Forall (fun c => c M = true) cs -> t M = true.

(** Functions with fuel have a body. *)
Definition encoder_ok (E : encoder) (l : list dspec) : Prop :=
  match E with
  | EncFuelMono o | EncFuelParam o => forall d, In (DFun d) l -> fo_functions o (fname d) = true -> fbody d <> None
  | EncAxiomatic _ | EncRecFun => True
  end.
(** --no-partial-strengthening, without define-fun-rec *)
Definition keeps_partial (E : encoder) : Prop :=
  match E with
  | EncAxiomatic p => p = Partial
  | EncRecFun => False
  | EncFuelMono o | EncFuelParam o => fo_partial o = Partial
  end.
(** The synonym axioms are there, and some fuel. *)
Definition linked (E : encoder) : Prop :=
  match E with
  | EncAxiomatic _ | EncRecFun => True
  | EncFuelMono o => fo_synonym o = true /\ fo_max o <> 0
  | EncFuelParam o => fo_synonym o = true
  end.

(** The functions that a definition calls. *)
Definition calls_of (l : list dspec) (f g : string) : Prop := exists d b, In (DFun d) l /\ fname d = f /\ fbody d = Some b /\ Recursion.calls g b.
(** The functions with fuel. *)
Definition fuelled (E : encoder) (f : string) : bool :=
  match E with EncFuelMono o | EncFuelParam o => fo_functions o f | EncAxiomatic _ | EncRecFun => false end.
(** Whatever calls itself, perhaps through others, has fuel. *)
Definition recursion_fuelled (E : encoder) (l : list dspec) : Prop := forall f, clos_trans _ (calls_of l) f f -> fuelled E f = true.
(** The encodings with fuel, the default among them. *)
Definition fuel_option (opt : encoding_option) : bool :=
  match opt with OptFuelMono | OptFuelParam | OptFuelMonoComputation | OptFuelParamComputation => true | _ => false end.
