(** Meaning of what the unfolder's solver knows. *)
From Coq Require Import List.
From Verif.Model Require Import Syntax Unfolder.
From Verif.Spec Require Import Eur Sem.
Import ListNotations.

(** A state satisfies the conditions if the assumed expressions hold there; behind [Forget xs] they need hold only for
    some other values of [xs]. *)
Fixpoint sat (I : interp) (G : list cond) (s : env) : Prop :=
  match G with
  | [] => True
  | Assume e :: G' => eval I e s = VBool true /\ sat I G' s
  | Forget xs :: G' => exists s0, env_ok s0 /\ havocked xs s0 s /\ sat I G' s0
  end.

(** The solver never answers Unsat for satisfiable conditions. *)
Definition sound_oracle (orc : oracle) : Prop :=
  forall n G, orc n G = true -> forall I s, interp_ok I -> env_ok s -> ~ sat I G s.
