(** What the values shown for a counterexample are to mean. *)
From Coq Require Import Bool List String ZArith QArith Reals Qreals.
From Verif.Model Require Import Syntax Builder Subsets Slicing Numerals CexDisplay.
From Verif.Spec Require Import Eur Sem Wp.
Import ListNotations.

(** The constant [n] occurs in the term, and not inside a quantifier. *)
Inductive reads (n : string) : term -> Prop :=
| reads_const : reads n (TApp n [])
| reads_arg f l t : In t l -> reads n t -> reads n (TApp f l).

(** The terms that a value is made of. *)
Definition parts (y : symbolic) : list term :=
  match y with YBool t | YInt t | YReal t => [t] | YEUReal i n => [i; n] end.

(** A model of the solver leaves constants open.  [den] is what the terms mean when the solver has chosen values for those:
    it is what the solver says if it may choose, and agrees with what it says without. *)
Record completes (z : zmodel) (den : term -> answer) : Prop := {
  comp_all : forall t, z_eval z true t = Some (den t);
  comp_some : forall t, exists r, z_eval z false t = Some r;
  comp_known : forall t r, z_eval z false t = Some r -> (forall x, r <> AVal (ZTerm x)) -> den t = r }.

(** The truth values and the reals are determined without a choice. *)
Definition truths (y : symbolic) : list term := match y with YBool t => [t] | YEUReal i _ => [i] | _ => [] end.
Definition reals (y : symbolic) : list term := match y with YReal t => [t] | YEUReal _ n => [n] | _ => [] end.
Definition determined (z : zmodel) (y : symbolic) : Prop :=
  (forall t, In t (truths y) -> exists b, z_eval z false t = Some (ABool b)) /\
  forall t, In t (reals y) -> exists n d, z_eval z false t = Some (AVal (ZNum n d)).
(** The integers are numbers (not terms such as a division by zero). *)
Definition integers (y : symbolic) : list term := match y with YInt t => [t] | _ => [] end.
Definition numeric (den : term -> answer) (y : symbolic) : Prop := forall t, In t (integers y) -> exists n d, den t = AVal (ZNum n d).

(** The value of a symbolic value. *)
Definition denotes (den : term -> answer) (y : symbolic) (v : shown) : Prop :=
  match y, v with
  | YBool t, WTruth b => den t = ABool b
  | YInt t, WInt n => den t = AVal (ZNum n 1)
  | YReal t, WRat n d => den t = AVal (ZNum n d)
  | YEUReal i _, WInfinity => den i = ABool true
  | YEUReal i t, WRat n d => den i = ABool false /\ den t = AVal (ZNum n d)
  | _, _ => False
  end.
(** As an extended real. *)
Definition shown_eur (v : shown) : eur :=
  match v with WInfinity => etop | WRat n d => fin (Q2R (n # d)) | WInt n => fin (IZR n) | WTruth true => etop | WTruth false => ebot end.

(** The entries of all groups. *)
Definition entries (g : list (vkind * list (ident * cell))) : list (ident * cell) := flat_map snd g.
(** The variables that are shown. *)
Definition visible (l : list local) : list local := List.filter (fun v => negb (vkind_eqb (v_kind v) KSlice)) l.
(** The order of the groups: the declaration order of the kinds. *)
Definition rank (k : vkind) : nat := match k with KInput => 0 | KOutput => 1 | KMut => 2 | KQuant => 3 | KSubst => 4 | KSlice => 5 end.

(** The constant [n] is read by something that is shown with a value, or by a slice variable. *)
Definition read_by_shown (locals : list local) (shown_entries : list (ident * cell)) (n : string) : Prop :=
  exists v w t, In v locals /\ In (v_id v, Value w) shown_entries /\ In t (parts (v_sym v)) /\ reads n t.
Definition read_by_toggle (z : zmodel) (toggles : list (slice_stmt * term)) (n : string) : Prop :=
  exists e t, In (e, t) toggles /\ z_eval z false t <> None /\ reads n t.

(** The translation [tr] of [f] can be read off the model, in which [f] has the value that it has in [s]. *)
Definition value_right (z : zmodel) (den : term -> answer) (tr : expr -> symbolic) (I : interp) (s : env) (f : expr) : Prop :=
  determined z (tr f) /\ numeric den (tr f) /\ forall v, denotes den (tr f) v -> shown_eur v = ev I f s.
