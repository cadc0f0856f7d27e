(** Small facts for C32 and C55. *)
From Coq Require Import Bool List String.
From Verif.Model Require Import Syntax Translate Funcs Literals.
Import ListNotations.

Lemma specs_only isvar E l : init_dependencies isvar E DepSpecsOnly l = Ok [].
Proof.
  unfold init_dependencies. replace (filter (defined DepSpecsOnly) l) with (@nil dspec); [reflexivity|].
  induction l; auto.
Qed.
Lemma lit_name_inj s s' : lit_name s = lit_name s' -> s = s'.
Proof. destruct s, s'; cbn; congruence. Qed.
