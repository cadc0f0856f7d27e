(** Proofs for C18: what the soundness checker does not rely on. *)
From Coq Require Import Bool List String.
From Verif.Model Require Import Syntax ProofRules Encode.
From Verif.Spec Require Import Inside.
Import ListNotations.

Lemma infimum_unknown l : In UNKNOWN l -> a_under (infimum l) = false /\ a_over (infimum l) = false.
Proof.
  unfold infimum. assert (H : forall l a, (a_under a = false /\ a_over a = false) \/ In UNKNOWN l ->
    a_under (fold_left a_and l a) = false /\ a_over (fold_left a_and l a) = false).
  { clear l. induction l as [|b l IH]; intros a [H|H]; cbn; [exact H|destruct H| |]; apply IH.
    - left. destruct H as [H1 H2]. cbn. rewrite H1, H2. auto.
    - destruct H as [->|H]; [left|right; exact H]. cbn. rewrite !andb_false_r. auto. }
  intros Hl. apply H. auto.
Qed.
Lemma unreliable_track d c t s : inside t s -> unreliable c t -> In UNKNOWN (track d (Some c) s).
Proof.
  intros H U. induction H; cbn [track]; try (apply in_flat_map; eauto; fail);
    try (apply in_or_app; left; apply in_flat_map; eauto; fail); try (apply in_or_app; right; apply in_flat_map; eauto; fail).
  - destruct U as [d'|args s N|args s N|args s N]; cbn; [auto| | |]; apply in_or_app; right; left; destruct c; cbn; congruence.
  - destruct (enc_of n); [apply in_or_app; left|]; auto.
Qed.
Lemma unreliable_reported d c b t s : In s b -> inside t s -> unreliable c t ->
  sound_proofs d (track_block d (Some c) b) = false /\ sound_refutations d (track_block d (Some c) b) = false.
Proof.
  intros Hs H U. assert (Hi : In UNKNOWN (track_block d (Some c) b)) by (apply in_flat_map; exists s; split; [exact Hs|eapply unreliable_track; eauto]).
  apply infimum_unknown in Hi as [H1 H2]. unfold sound_proofs, sound_refutations. destruct d; auto.
Qed.
