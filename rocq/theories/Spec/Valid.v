(** When a verification condition counts as verified: it is top (proc) or bottom (coproc) in every state. *)
From Verif.Model Require Import Syntax.
From Verif.Spec Require Import Eur Sem.

Definition verified_value (d : direction) (v : val) : Prop :=
  match d with
  | Down => v = VBool true \/ v = VEur etop
  | Up => v = VBool false \/ v = VEur ebot
  end.
Definition verified (I : interp) (d : direction) (e : expr) : Prop :=
  forall s, env_ok s -> verified_value d (eval I e s).

(** Order of the two lattices. *)
Definition lat_le (v w : val) : Prop :=
  match v, w with
  | VBool a, VBool b => a = true -> b = true
  | VEur a, VEur b => ele a b
  | _, _ => False
  end.
