(** Programs without ticks, and weakest pre-expectations in which ticks cost nothing. *)
From Coq Require Import Bool List String NArith Reals.
From Verif.Model Require Import Syntax Pgcl.
From Verif.Spec Require Import Eur Sem Wp.
Import ListNotations.

Fixpoint tick_free (i : pinstr) : Prop :=
  match i with
  | PTick _ => False
  | PSkip | PAsgn _ _ => True
  | PWhile _ b => All tick_free b
  | PIf _ a b | PChoice _ a b => All tick_free a /\ All tick_free b
  end.

Fixpoint pwp0 (I : interp) (k : fixkind) (i : pinstr) (X : exp) {struct i} : exp :=
  let block b X := fold_right (pwp0 I k) X b in
  match i with
  | PSkip | PTick _ => X
  | PAsgn x e => fun s => X (upd s x (eval I e s))
  | PIf c a b => fun s => if holds I c s then block a X s else block b X s
  | PChoice p a b => fun s =>
      match eval I p s with
      | VUReal q => eadd (emul (Fin q) (block a X s)) (emul (fin (1 - nval q)) (block b X s))
      | _ => ebot
      end
  | PWhile c b =>
      let F Y s := if holds I c s then block b Y s else X s in
      match k with Least => lfp F | Greatest => gfp F end
  end.
Definition pwps0 (I : interp) (k : fixkind) (l : list pinstr) (X : exp) : exp := fold_right (pwp0 I k) X l.
