(** Weakest liberal pre-expectations of pGCL programs: the greatest fixpoint among expectations of at most one.
    Ticks cost nothing. *)
From Coq Require Import Bool List String NArith Reals.
From Verif.Model Require Import Syntax Pgcl.
From Verif.Spec Require Import Eur Sem Wp Loops PgclSem.
Import ListNotations.

(** [Y] is the union of all expectations that are at most one and that [F] does not decrease. *)
Definition gfp1 (F : exp -> exp) : exp := fun s => esup (fun r => exists Y, exp_le Y (F Y) /\ exp_le Y (fun _ => eone) /\ r = Y s).

Fixpoint pwlp (I : interp) (i : pinstr) (X : exp) {struct i} : exp :=
  let block b X := fold_right (pwlp I) X b in
  match i with
  | PSkip | PTick _ => X
  | PAsgn x e => fun s => X (upd s x (eval I e s))
  | PIf c a b => fun s => if holds I c s then block a X s else block b X s
  | PChoice p a b => fun s =>
      match eval I p s with
      | VUReal q => eadd (emul (Fin q) (block a X s)) (emul (fin (1 - nval q)) (block b X s))
      | _ => ebot
      end
  | PWhile c b => gfp1 (fun Y s => if holds I c s then block b Y s else X s)
  end.
Definition pwlps (I : interp) (l : list pinstr) (X : exp) : exp := fold_right (pwlp I) X l.

(** Probabilities are at most one. *)
Fixpoint proper (I : interp) (i : pinstr) : Prop :=
  match i with
  | PSkip | PAsgn _ _ | PTick _ => True
  | PIf _ a b => All (proper I) a /\ All (proper I) b
  | PChoice p a b => (forall s q, env_ok s -> eval I p s = VUReal q -> (nval q <= 1)%R) /\ All (proper I) a /\ All (proper I) b
  | PWhile _ b => All (proper I) b
  end.
