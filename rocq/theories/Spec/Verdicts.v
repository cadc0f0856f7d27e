(** What a run is expected to report. *)
From Coq Require Import Bool List String.
From Verif.Model Require Import Syntax Driver.
From Verif.Spec Require Import Sem.
Import ListNotations.

Definition matches (P : parts) (o : doptions) (n : string) : Prop :=
  match o_filter o with None => True | Some re => exists f, p_regex P re = Some f /\ f n = true end.
(** The units of the input that are kept, and those to be verified: kept or generated from what is kept. *)
Definition kept (P : parts) (o : doptions) (l : list item) (u : item) : Prop := In u l /\ (is_target u = true -> matches P o (u_name u)).
Definition generated (P : parts) (o : doptions) (l : list item) (u : item) : Prop :=
  exists v new, kept P o l v /\ p_encode P v = inl new /\ In u new.
Definition selected (P : parts) (o : doptions) (l : list item) (u : item) : Prop :=
  has_task u = true /\ (kept P o l u \/ generated P o l u).
Definition kept_list (P : parts) (o : doptions) (l : list item) : list item :=
  match o_filter o with
  | None => l
  | Some re => match p_regex P re with Some f => filter (fun u => negb (is_target u) || f (u_name u)) l | None => [] end
  end.

(** Diagnostics are not taken back. *)
Definition accumulates (f : server -> cres server) : Prop := forall sv sv', f sv = inl sv' -> emitted sv = true -> emitted sv' = true.
Definition reports_stay (P : parts) : Prop := (forall l, accumulates (p_jani P l)) /\ (forall u, accumulates (p_lower P u)).

(** Nothing is reported while processing. *)
Definition quiet (P : parts) (o : doptions) (l : list item) : Prop :=
  p_parse P = inl l /\
  (forall u, In u l -> p_declare P u = None /\ p_resolve P u = None /\ p_tycheck P u = None /\ p_monotone P u = None) /\
  (forall re, o_filter o = Some re -> p_regex P re <> None) /\
  (forall m sv, p_jani P m sv = inl sv) /\ (forall m, p_calculus P m = None) /\ (forall m, p_depgraph P m = None) /\
  (forall m, p_limits P m = None) /\ (forall u sv, p_lower P u sv = inl sv) /\ (forall u, In u l -> exists new, p_encode P u = inl new).

(** Every pair of consecutive elements. *)
Fixpoint pairs {A} (l : list A) : list (A * A) := match l with a :: b :: l => (a, b) :: pairs l | _ => [] end.

(** The second state is the first one, with the first components' values in the second components. *)
Definition renames (m : list (ident * ident)) (s s' : env) : Prop :=
  (forall x y, In (x, y) m -> s' y = s x) /\ (forall z, ~ In z (map snd m) -> s' z = s z).
(** Parameters of two declarations. *)
Definition apart (m : list (ident * ident)) : Prop :=
  NoDup (map snd m) /\ (forall x y, In (x, y) m -> ity x = ity y) /\ (forall z, In z (map fst m) -> ~ In z (map snd m)).
