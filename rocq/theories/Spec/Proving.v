(** What a prover is for: the state it should be in after a sequence of operations, said without levels, caches or modes. *)
From Coq Require Import Bool List.
From Verif.Model Require Import Prover.
Import ListNotations.
Local Open Scope list_scope.

Section Ref.
Variable F : Type.
Inductive entry := Assumed (f : F) | ToProve (f : F).
(** The open levels, most recent first. *)
Definition obligations := list (list entry).
Definition put (e : entry) (o : obligations) : obligations := match o with [] => [[e]] | top :: rest => (e :: top) :: rest end.
(** [None]: a level is closed that was not opened. *)
Fixpoint after (os : list (op F)) (o : obligations) : option obligations :=
  match os with
  | [] => Some o
  | OPush :: os' => after os' ([] :: o)
  | OPop :: os' => match o with _ :: (_ :: _) as rest => after os' (tl o) | _ => None end
  | OAssume f :: os' => after os' (put (Assumed f) o)
  | OProvable f :: os' => after os' (put (ToProve f) o)
  | (OCheckProof _ | OCheckSat) :: os' => after os' o
  end.
Definition all (o : obligations) : list entry := List.concat o.
Fixpoint assumed (l : list entry) : list F := match l with [] => [] | Assumed f :: l' => f :: assumed l' | ToProve _ :: l' => assumed l' end.
Fixpoint to_prove (l : list entry) : list F := match l with [] => [] | Assumed _ :: l' => to_prove l' | ToProve f :: l' => f :: to_prove l' end.

Variable M : Type.
Variable holds : M -> F -> Prop.
Definition model_of (m : M) (l : list F) : Prop := forall f, In f l -> holds m f.
(** The solver's definite answers are right. *)
Definition sound_answer (answer : nat -> list F -> list F -> satres) : Prop :=
  forall n a b, match answer n a b with
                | Unsat => forall m, ~ model_of m (a ++ b)
                | Sat => exists m, model_of m (a ++ b)
                | Unknown => True
                end.
(** What an answer claims about the open assumptions and obligations [l], under additional assumptions [a]. *)
Definition verdict (r : prove_result) (l : list (entry)) (a : list F) : Prop :=
  match r with
  | Proof => to_prove l = [] \/ forall m, model_of m (assumed l ++ a) -> exists f, In f (to_prove l) /\ holds m f
  | Counterexample => to_prove l <> [] /\ exists m, model_of m (assumed l ++ a) /\ forall f, In f (to_prove l) -> ~ holds m f
  | ProveUnknown => to_prove l <> []
  end.
End Ref.
Arguments Assumed {F}. Arguments ToProve {F}. Arguments put {F}. Arguments after {F}. Arguments all {F}. Arguments assumed {F}. Arguments to_prove {F}.
Arguments model_of {F M}. Arguments sound_answer {F M}. Arguments verdict {F M}.
(** No question is asked under additional assumptions. *)
Definition plain {F} (o : op F) : Prop := match o with OCheckProof (_ :: _) => False | _ => True end.
