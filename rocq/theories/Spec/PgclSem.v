(** Weakest pre-expectations of pGCL programs, with their own treatment of probabilistic choice.
    [Least]: expected values and run-times (wp, ert).  [Greatest]: the greatest fixpoint for loops (wlp). *)
From Coq Require Import Bool List String NArith Reals.
From Verif.Model Require Import Syntax Pgcl.
From Verif.Spec Require Import Eur Sem Wp Loops.
Import ListNotations.

Fixpoint pwp (I : interp) (k : fixkind) (i : pinstr) (X : exp) {struct i} : exp :=
  let block b X := fold_right (pwp I k) X b in
  match i with
  | PSkip => X
  | PAsgn x e => fun s => X (upd s x (eval I e s))
  | PIf c a b => fun s => if holds I c s then block a X s else block b X s
  | PChoice p a b => fun s =>
      match eval I p s with
      | VUReal q => eadd (emul (Fin q) (block a X s)) (emul (fin (1 - nval q)) (block b X s))
      | _ => ebot
      end
  | PTick e => fun s => eadd (X s) (ev I e s)
  | PWhile c b =>
      let F Y s := if holds I c s then block b Y s else X s in
      match k with Least => lfp F | Greatest => gfp F end
  end.
Definition pwps (I : interp) (k : fixkind) (l : list pinstr) (X : exp) : exp := fold_right (pwp I k) X l.

(** Upper bounds are about least fixpoints, lower bounds about greatest ones (direct_encode.py 102-107). *)
Definition kind_of (d : direction) : fixkind := match d with Up => Least | Down => Greatest end.

(** Programs that do not use the variable [pc], and whose expressions have the right types.  [isd]: distributions,
    [isf]: functions. *)
Definition clean (pc : ident) (e : expr) : Prop := unread (fun x => x = pc) e.
Fixpoint pok (isd : string -> bool) (pc : ident) (i : pinstr) : Prop :=
  match i with
  | PSkip => True
  | PAsgn x e => x <> pc /\ clean pc e /\ wt e = true /\ ty_of e = ity x /\ match e with ECall _ f _ => isd f = false | _ => True end
  | PIf c a b => clean pc c /\ is_guard c /\ All (pok isd pc) a /\ All (pok isd pc) b
  | PChoice p a b => clean pc p /\ wt p = true /\ ty_of p = TUReal /\ All (pok isd pc) a /\ All (pok isd pc) b
  | PTick e => clean pc e /\ is_exp e
  | PWhile c b => clean pc c /\ is_guard c /\ All (pok isd pc) b
  end.

(** Expectations that do not depend on [pc]. *)
Definition free_of (pc : ident) (X : exp) : Prop := blind (fun x => x = pc) X.

(** Annotations that make sense: a positive number and an invariant that is an expectation without [pc]. *)
Definition good_annot (pc : ident) (a : annot) : Prop := (0 < fst a)%nat /\ is_exp (snd a) /\ clean pc (snd a).

(** How many loops there are. *)
Fixpoint loops (i : pinstr) : nat :=
  match i with
  | PSkip | PAsgn _ _ | PTick _ => 0
  | PIf _ a b | PChoice _ a b => list_sum (map loops a) + list_sum (map loops b)
  | PWhile _ b => S (list_sum (map loops b))
  end.

(** Loops that are not below a conditional or a choice. *)
Fixpoint straight (i : pinstr) : Prop :=
  match i with
  | PSkip | PAsgn _ _ | PTick _ => True
  | PIf _ a b | PChoice _ a b => list_sum (map loops a) + list_sum (map loops b) = 0%nat
  | PWhile _ b => All straight b
  end.

(** Statements without their annotations, and the annotations of loops from left to right, outer ones first.
    [None] marks a loop without one. *)
Fixpoint erase (s : stmt) : stmt :=
  match s with
  | SAnn _ _ s => erase s
  | SSeq b => SSeq (map erase b)
  | SWhile c b => SWhile c (map erase b)
  | SIf c a b => SIf c (map erase a) (map erase b)
  | SDemonic a b => SDemonic (map erase a) (map erase b)
  | SAngelic a b => SAngelic (map erase a) (map erase b)
  | SAdditive a b => SAdditive (map erase a) (map erase b)
  | _ => s
  end.
Fixpoint marks (s : stmt) : list (option rule) :=
  match s with
  | SAnn n args (SWhile _ b) => Some (n, args) :: flat_map marks b
  | SAnn _ _ s => marks s
  | SWhile _ b => None :: flat_map marks b
  | SSeq b => flat_map marks b
  | SIf _ a b | SDemonic a b | SAngelic a b | SAdditive a b => flat_map marks a ++ flat_map marks b
  | _ => []
  end.

(** The text of the encoding is rejected by the parser if it havocs no variable
    (src/front/parser/grammar.lalrpop 215-216 asks for at least one). *)
Fixpoint has_empty_havoc (s : stmt) : bool :=
  match s with
  | SHavoc _ [] => true
  | SSeq b | SWhile _ b => existsb has_empty_havoc b
  | SIf _ a b | SDemonic a b | SAngelic a b | SAdditive a b => existsb has_empty_havoc a || existsb has_empty_havoc b
  | SAnn _ _ s => has_empty_havoc s
  | _ => false
  end.
