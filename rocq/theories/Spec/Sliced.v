(** What slicing is to mean: a slice of a program is what is left when the statements at some places are removed.
    website/docs/caesar/slicing.md and the doc comments in src/slicing/selection.rs 19-79. *)
From Coq Require Import Bool List String.
From Verif.Model Require Import Syntax VcGen TyCtx Slicing.
From Verif.Spec Require Import Eur Sem Wp Frame.
Import ListNotations.

(** [slice off p st]: [st], which is at [p], without the statements and branches at the places in [off].  Of a choice with
    a removed branch the other branch is left. *)
Fixpoint slice (off : place -> bool) (p : place) (st : stmt) {struct st} : list stmt :=
  let block := fix block (q : place) (i : nat) (b : list stmt) {struct b} : list stmt :=
    match b with [] => [] | s :: b' => slice off (i :: q) s ++ block q (S i) b' end in
  let choice mk a b :=
    let a' := block (0 :: p) 0 a in
    let b' := block (1 :: p) 0 b in
    if off (0 :: p) then b' else if off (1 :: p) then a' else [mk a' b'] in
  if off p then [] else
  match st with
  | SSeq b => [SSeq (block (0 :: p) 0 b)]
  | SWhile c b => [SWhile c (block (0 :: p) 0 b)]
  | SDemonic a b => choice SDemonic a b
  | SAngelic a b => choice SAngelic a b
  | SAdditive a b => [SAdditive (block (0 :: p) 0 a) (block (1 :: p) 0 b)]
  | SIf c a b => [SIf c (block (0 :: p) 0 a) (block (1 :: p) 0 b)]
  | SAnn n args s =>
      match slice off (0 :: p) s with
      | [s'] => [SAnn n args s']
      | l => [SAnn n args (SSeq l)]
      end
  | _ => [st]
  end.
Fixpoint slice_from (off : place -> bool) (q : place) (i : nat) (b : list stmt) : list stmt :=
  match b with [] => [] | s :: b' => slice off (i :: q) s ++ slice_from off q (S i) b' end.
(** The slice of a whole program. *)
Definition slice_program (off : place -> bool) (b : list stmt) : list stmt := slice_from off [] 0 b.

(** The places switched off in a state: those of the toggles with value false. *)
Definition is_off (s : env) (x : ident) : bool := match s x with VBool b => negb b | _ => false end.
Fixpoint place_eqb (p q : place) : bool :=
  match p, q with [], [] => true | i :: p', j :: q' => Nat.eqb i j && place_eqb p' q' | _, _ => false end.
Definition off_in (l : list slice_stmt) (s : env) (p : place) : bool :=
  existsb (fun e => place_eqb (sl_at e) p && is_off s (sl_ident e)) l.

(** The programs that get here: well-typed, without loops, all annotations known, and only declared variables written. *)
Definition known (C : tcx) (st : stmt) : Prop := match st with SAnn a _ _ => C a <> None | _ => True end.
Definition sliceable (C : tcx) (isd isf : string -> bool) (T : tyctx) (b : list stmt) : Prop :=
  All (wts isd isf) b /\ All (every not_while) b /\ All (every (known C)) b /\ (forall x, writes_block x b -> contains_key T x = true).
Definition without_ann (n : string) (st : stmt) : Prop := match st with SAnn a _ _ => a <> n | _ => True end.

(** The states that the solver looks at satisfy the constraints. *)
Definition meets (I : interp) (S : slicer) (s : env) : Prop := forall c, In c (s_constr S) -> holds I c s = true.
(** The state in which nothing is switched off. *)
Definition set_on (l : list slice_stmt) (s : env) : env := fold_right (fun e s => upd s (sl_ident e) (VBool true)) s l.
