(** What stopping early is expected to do. *)
From Coq Require Import Bool List.
From Verif.Model Require Import Driver Limits.
Import ListNotations.

Definition reachable (S : sys) : Prop := exists l, steps start l = Some S.
(** No thread can go on by itself. *)
Definition stuck (S : sys) : Prop := forall t b, run t b S = None.
Definition ended (S : sys) (t : nat) : Prop := pcs S t = PExit \/ exists r, pcs S t = PReturn r.
Definition started (S : sys) (t : nat) : Prop := pcs S t <> PIdle.
(** The number of steps of threads; no thread starts. *)
Definition starts (ev : event) : bool := match ev with EStart _ _ => true | _ => false end.
Definition runs (ev : event) : bool := match ev with ERun _ _ => true | _ => false end.
