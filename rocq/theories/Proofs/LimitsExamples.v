(** Runs with two watchers. *)
From Coq Require Import Bool List Arith Lia.
From Verif.Model Require Import Driver Limits.
From Verif.Spec Require Import Stops.
From Verif.Proofs Require Import LimitsProofs.
Import ListNotations.

Definition go (t n : nat) : list event := repeat (ERun t true) n.
(** 1 waits; 3 has read the cell in subscribe when 2 cancels; 2 has to wait for the mutex. *)
Definition racing : list event := [EStart 1 Watcher] ++ go 1 5 ++ [EStart 3 Watcher] ++ go 3 2 ++ [EStart 2 (Setter LInterrupted)] ++ go 2 1.
Definition after_race : list event := go 3 1 ++ go 2 4 ++ go 1 5 ++ go 3 4.
Definition state (l : list event) : sys := match steps start l with Some X => X | None => start end.
Lemma state_reach l : (match steps start l with Some _ => true | None => false end) = true -> reachable (state l).
Proof. intros H. exists l. unfold state. destruct (steps start l); [reflexivity|discriminate]. Qed.
Lemma race_facts : reachable (state racing) /\ pcs (state racing) 1 = PSelect /\ pcs (state racing) 3 = PSubAct None /\ cell (state racing) = Some LInterrupted /\
  run 2 true (state racing) = None /\ reachable (state (racing ++ after_race)) /\ stuck (state (racing ++ after_race)) /\
  (forall t, started (state (racing ++ after_race)) t -> In t [1; 2; 3]) /\
  stops (state (racing ++ after_race)) 1 = 1 /\ stops (state (racing ++ after_race)) 3 = 1 /\ pcs (state (racing ++ after_race)) 2 = PReturn (Some LInterrupted).
Proof.
  split; [apply state_reach; vm_compute; reflexivity|]. do 4 (split; [vm_compute; reflexivity|]).
  split; [apply state_reach; vm_compute; reflexivity|]. split; [|split].
  - intros [|[|[|[|t]]]] b; vm_compute; reflexivity.
  - intros [|[|[|[|t]]]] H; simpl; auto; exfalso; apply H; vm_compute; reflexivity.
  - repeat split; vm_compute; reflexivity.
Qed.
(** The work is done before it is stopped. *)
Lemma done_facts : exists S, reachable S /\ pcs S 1 = PExit /\ done S 1 = true /\ stops S 1 = 0 /\ subs S = [].
Proof.
  exists (state ([EStart 1 Watcher] ++ go 1 5 ++ [EDone 1] ++ go 1 3)). split; [apply state_reach; vm_compute; reflexivity|]. repeat split; vm_compute; reflexivity.
Qed.

(** The deadline passes, and nobody looks. *)
Theorem deadline_refuted : exists S, reachable S /\ stuck S /\ late S = true /\ cell S = None /\ pcs S 1 = PSelect.
Proof.
  exists (state ([EStart 1 Watcher] ++ go 1 5 ++ [ELate])). split; [apply state_reach; vm_compute; reflexivity|].
  split; [intros [|[|t]] b; vm_compute; reflexivity|]. repeat split; vm_compute; reflexivity.
Qed.
