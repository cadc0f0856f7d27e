(** Loops: their characteristic functional, and scoping of variables local to the body. *)
From Coq Require Import List.
From Verif.Model Require Import Syntax.
From Verif.Spec Require Import Eur Sem Wp Frame.
Import ListNotations.

(** [while c body] with post [X] denotes a fixpoint of this functional (approximations.md). *)
Definition Phi (I : interp) (isd : String.string -> bool) (k : fixkind) (c : expr) (body : list stmt) (X : exp) : exp -> exp :=
  fun Y s => if holds I c s then wp_block I isd k body Y s else X s.

(** Expressions that do not mention the variables in [V]. *)
Definition unread (V : ident -> Prop) (e : expr) : Prop := forall x, fv x e -> ~ V x.
(** Expectations that do not depend on them. *)
Definition blind (V : ident -> Prop) (X : exp) : Prop :=
  forall s s', env_ok s -> env_ok s' -> (forall x, ~ V x -> s x = s' x) -> X s = X s'.

(** [scoped V st]: no variable of [V] is read in [st] before a declaration initialises it.
    (Name resolution guarantees this for variables declared inside of [st].) *)
Fixpoint scoped (V : ident -> Prop) (st : stmt) {struct st} : Prop :=
  let block := fix block (V : ident -> Prop) (b : list stmt) {struct b} : Prop :=
    match b with
    | [] => True
    | s :: b' => scoped V s /\ block (fun x => V x /\ match s with SVar y (Some _) => x <> y | _ => True end) b'
    end in
  match st with
  | SVar _ (Some e) | SAssign _ e | SAssert _ e | SAssume _ e | SCompare _ e | STick e | SWeigh e => unread V e
  | SVar _ None | SHavoc _ _ | SNegate _ | SValidate _ | SLabel _ => True
  | SSeq b => block V b
  | SDemonic a b | SAngelic a b | SAdditive a b => block V a /\ block V b
  | SIf c a b => unread V c /\ block V a /\ block V b
  | SWhile c b => unread V c /\ block V b
  | SAnn _ _ s => scoped V s
  end.
Fixpoint scoped_block (V : ident -> Prop) (b : list stmt) {struct b} : Prop :=
  match b with
  | [] => True
  | s :: b' => scoped V s /\ scoped_block (fun x => V x /\ match s with SVar y (Some _) => x <> y | _ => True end) b'
  end.

(** The order in which a direction looks at expectations: lower bounds for Down. *)
Definition dle (d : direction) (a b : eur) : Prop := match d with Down => ele a b | Up => ele b a end.
(** The fixpoint that induction in a direction is about. *)
Definition dfix (d : direction) (F : exp -> exp) : exp := match d with Down => gfp F | Up => lfp F end.

(** What an approximation claim says about an encoding's pre-expectation and the loop's own
    (approximations.md: under-approximation means encoding below original). *)
Definition approx_holds (under over : bool) (enc orig : exp) : Prop :=
  (under = true -> exp_le enc orig) /\ (over = true -> exp_le orig enc).
Definition loop_sem (k : fixkind) (F : exp -> exp) : exp := match k with Least => lfp F | Greatest => gfp F end.
(** Greatest fixpoint among the one-bounded expectations (one-bounded wlp, unrolling.md). *)
Definition gfp1 (F : exp -> exp) : exp :=
  fun s => esup (fun r => exists Y, exp_le Y (fun _ => eone) /\ exp_le Y (F Y) /\ r = Y s).
