(** The expected number of iterations of a pGCL loop; ticks cost nothing. *)
From Coq Require Import List.
From Verif.Model Require Import Syntax Pgcl.
From Verif.Spec Require Import Eur Sem Wp PgclCost.

Definition pgcl_iterations (I : interp) (c : expr) (b : list pinstr) : exp :=
  lfp (fun Y s => if holds I c s then eadd eone (pwps0 I Least b Y s) else ebot).
