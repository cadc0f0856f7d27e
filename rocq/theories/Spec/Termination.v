(** Termination of probabilistic loops: almost-sure termination, expected number of iterations. *)
From Coq Require Import Bool List String Reals.
From Verif.Model Require Import Syntax Procs.
From Verif.Spec Require Import Eur Sem Wp Frame Loops Calls.
Import ListNotations.

(** Programs without nondeterminism, assertions and rewards: they assign, sample, weigh, branch and loop. *)
Definition linear (st : stmt) : Prop :=
  match st with
  | SSeq _ | SVar _ _ | SAssign _ _ | SIf _ _ _ | SWhile _ _ | SAnn _ _ _ | SLabel _ | SWeigh _ | SAdditive _ _ => True
  | _ => False
  end.
(** Programs whose preexpectation is multiplied with their postexpectation: also nondeterminism and loops. *)
Definition scalable (st : stmt) : Prop :=
  match st with SAssert _ _ | SAssume _ _ | SCompare _ _ | SNegate _ | STick _ => False | _ => True end.
(** The probabilities of its outcomes sum to at most one (fails e.g. for a flip with a bias above one). *)
Definition subtotal (I : interp) (isd : string -> bool) (k : fixkind) (body : list stmt) : Prop :=
  forall s, env_ok s -> ele (wp_block I isd k body (fun _ => eone) s) eone.

(** Expected number of iterations of [while c body]. *)
Definition iterations (I : interp) (isd : string -> bool) (k : fixkind) (c : expr) (body : list stmt) : exp :=
  lfp (fun Y s => if holds I c s then eadd eone (wp_block I isd k body Y s) else ebot).
(** [while c body] terminates with probability one from [s]. *)
Definition terminates (I : interp) (isd : string -> bool) (c : expr) (body : list stmt) (s : env) : Prop :=
  wp I isd Least (SWhile c body) (fun _ => eone) s = eone.

(** All generated procedures meet their specifications. *)
Definition verified (I : interp) (isd : string -> bool) (k : fixkind) (ps : list proc) : Prop :=
  forall p b, In p ps -> pbody p = Some b -> meets I p (wp_block I isd k b).

(** A truth value used where a quantity is expected: "⊤ if it holds".  The program as [p] would
    be read if asserting a truth value meant asserting its embedding. *)
Definition coerced_stmt (st : stmt) : stmt :=
  match st with
  | SAssert d e => match ty_of e with TBool => SAssert d (EUn TEUReal OEmbed e) | _ => st end
  | _ => st
  end.
Definition coerced (p : proc) : proc :=
  mkproc (pdir p) (pname p) (pins p) (pouts p) (pspecs p) (option_map (map coerced_stmt) (pbody p)).

Definition is_ureal (e : expr) : Prop := wt e = true /\ ty_of e = TUReal.
Definition uval (v : val) : R := match v with VUReal x => nval x | _ => 0%R end.

(** The names [init_x] that the rules invent for the values at the start of an iteration, and
    loops and annotations that do not mention them. *)
Definition inits (variant : nat -> nat) (x : ident) : Prop := exists y, x = mkid ("init_" ++ iname y) (variant (ispan y)) (ity y).
Record clear_of_inits (variant : nat -> nat) (c : expr) (body : list stmt) (es : list expr) : Prop := {
  cl_guard : unread (inits variant) c;
  cl_body : scoped_block (inits variant) body;
  cl_writes : forall x, writes_block x body -> ~ inits variant x;
  cl_exprs : forall e, In e es -> unread (inits variant) e
}.

(** The loops the termination rules are about. *)
Record proper_loop (I : interp) (isd isf : string -> bool) (c : expr) (body : list stmt) : Prop := {
  lp_guard : is_guard c;
  lp_typed : All (wts isd isf) body;
  lp_linear : All (every linear) body;
  lp_mass : subtotal I isd Least body
}.
