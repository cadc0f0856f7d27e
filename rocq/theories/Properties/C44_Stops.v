(** C44: stopping work early. *)
From Coq Require Import Bool List Arith.
From Verif.Model Require Import Driver Limits.
From Verif.Spec Require Import Stops.
From Verif.Proofs Require Import LimitsProofs LimitsExamples.
Import ListNotations.

(** The first error stays, and it is the one that is returned and sent. *)
Theorem C44_first_wins : forall l S S' e, cell S = Some e -> steps S l = Some S' -> cell S' = Some e.
Proof. exact first_wins. Qed.
Print Assumptions C44_first_wins.
Theorem C44_agreement : forall S t e, reachable S -> pcs S t = PReturn (Some e) \/ buf S t = Some e -> cell S = Some e.
Proof. exact agreement. Qed.
Print Assumptions C44_agreement.

(** The thread that holds the mutex can always go on; it never waits for a channel. *)
Theorem C44_never_blocks : forall S t, reachable S -> mutex S = Some t -> exists S', run t true S = Some S'.
Proof. exact never_blocks. Qed.
Print Assumptions C44_never_blocks.

(** If no thread can go on, all have ended, but for watchers of work that is neither stopped nor done; no wake-up is lost. *)
Theorem C44_no_lost_wakeup : forall S t, reachable S -> stuck S -> started S t ->
  ended S t \/ pcs S t = PSelect /\ cell S = None /\ done S t = false.
Proof. exact progress. Qed.
Print Assumptions C44_no_lost_wakeup.
Theorem C44_stopped_ends : forall S e, reachable S -> stuck S -> cell S = Some e -> forall t, started S t -> ended S t.
Proof. exact all_end. Qed.
Print Assumptions C44_stopped_ends.
(** Such a state is reached: without new threads, there is a bound on the number of steps. *)
Theorem C44_terminates : forall S ts, reachable S -> NoDup ts -> (forall t, started S t -> In t ts) ->
  exists n, forall l S', existsb starts l = false -> steps S l = Some S' -> List.length (filter runs l) <= n.
Proof. exact terminates. Qed.
Print Assumptions C44_terminates.

(** on_stop is called at most once, only after an error, and always if the work was not done when the watcher ended. *)
Theorem C44_stop_once : forall S t, reachable S -> stops S t <= 1.
Proof. exact stop_once. Qed.
Print Assumptions C44_stop_once.
Theorem C44_stop_only : forall S t, reachable S -> stops S t = 1 -> cell S <> None.
Proof. exact stop_only. Qed.
Print Assumptions C44_stop_only.
Theorem C44_stop_called : forall S t, reachable S -> pcs S t = PExit -> done S t = false -> stops S t = 1 /\ cell S <> None.
Proof. exact stop_called. Qed.
Print Assumptions C44_stop_called.
(** Nothing is left in the list of subscribers. *)
Theorem C44_unsubscribed : forall S t, reachable S -> ended S t -> ~ In t (subs S).
Proof. exact unsubscribed. Qed.
Print Assumptions C44_unsubscribed.

(** A watcher waits, another one has read the cell but not subscribed, and a third thread cancels: both watchers stop. *)
Example C44_race : reachable (state racing) /\ pcs (state racing) 1 = PSelect /\ pcs (state racing) 3 = PSubAct None /\
  cell (state racing) = Some LInterrupted /\ run 2 true (state racing) = None /\
  reachable (state (racing ++ after_race)) /\ stuck (state (racing ++ after_race)) /\
  (forall t, started (state (racing ++ after_race)) t -> In t [1; 2; 3]) /\
  stops (state (racing ++ after_race)) 1 = 1 /\ stops (state (racing ++ after_race)) 3 = 1 /\
  pcs (state (racing ++ after_race)) 2 = PReturn (Some LInterrupted).
Proof. exact race_facts. Qed.
Example C44_done : exists S, reachable S /\ pcs S 1 = PExit /\ done S 1 = true /\ stops S 1 = 0 /\ subs S = [].
Proof. exact done_facts. Qed.

(** The deadline by itself wakes nobody: some thread has to look at the clock. *)
Theorem C44_deadline_refuted : exists S, reachable S /\ stuck S /\ late S = true /\ cell S = None /\ pcs S 1 = PSelect.
Proof. exact deadline_refuted. Qed.
Print Assumptions C44_deadline_refuted.
