(** Bounded model checking of translated programs: counterexamples are real. *)
From Coq Require Import Bool List String ZArith NArith Reals Lia.
From Verif.Model Require Import Syntax Builder Dist ProofRules Pgcl PgclProc.
From Verif.Spec Require Import Eur Sem Wp Frame Loops PgclSem PgclCost PgclProcSpec.
From Verif.Proofs Require Import EurLemmas SemLemmas WpLemmas LoopProofs PgclProofs PgclSound PgclMore PgclTicks PgclExamples PgclProcProofs.
Import ListNotations.
Local Open Scope list_scope.

(** The state after the initial assignments. *)
Fixpoint begun (vars : list ident) (s : env) : env :=
  match vars with [] => s | x :: vs => begun vs (upd s x (s (init_var x))) end.
Lemma begun_ok vars : forall s, env_ok s -> env_ok (begun vars s).
Proof. induction vars as [|x vs IH]; intros s Hs; [exact Hs|]. cbn. apply IH, upd_ok; auto. exact (Hs (init_var x)). Qed.
Lemma begun_other vars : forall s y, ~ In y vars -> begun vars s y = s y.
Proof.
  induction vars as [|x vs IH]; intros s y H; [reflexivity|]. cbn [begun]. rewrite IH by (intros K; apply H; cbn; auto).
  apply upd_other. intros ->. apply H. cbn. auto.
Qed.
Lemma begun_var vars : (forall x y, In x vars -> In y vars -> x <> init_var y) -> forall s x, In x vars -> begun vars s x = s (init_var x).
Proof.
  induction vars as [|y vs IH]; intros H s x Hx; [destruct Hx|]. cbn [begun].
  assert (N : forall z, In z (y :: vs) -> upd s y (s (init_var y)) (init_var z) = s (init_var z)).
  { intros z Hz. apply upd_other. intros E. apply (H y z); cbn; auto. }
  destruct (in_dec ident_dec x vs) as [K|K].
  - rewrite IH by (auto; intros a c Ha Hc; apply H; cbn; auto). apply N. exact Hx.
  - destruct Hx as [<-|Hx]; [|contradiction]. rewrite begun_other by auto. apply upd_same.
Qed.
Lemma wp_begun I isd kd Y vars : forall t, wp_block I isd kd (init_assign vars) Y t = Y (begun vars t).
Proof.
  induction vars as [|x vs IH]; intros t; [reflexivity|].
  change (wp I isd kd (SAssign [x] (EVar (init_var x))) (wp_block I isd kd (init_assign vs) Y) t = Y (begun (x :: vs) t)).
  rewrite wp_asgn by exact Logic.I. apply IH.
Qed.

Theorem bmc_refutes I isd pc kd ert vars l pre post st pre' b st' s : interp_ok I -> isd "flip"%string = true -> ity pc = TBool ->
  All (pok isd pc) l -> Forall (good_annot pc) st -> clean pc post ->
  (forall x y, In x vars -> In y vars -> x <> init_var y) -> simple pre -> (forall x, fv x pre -> In x vars) ->
  bmc_proc pc Up ert vars l pre st = Some (pre', b, st') -> env_ok s ->
  ~ ele (wp_block I isd kd b (ev I post) s) (ev I pre' s) ->
  exists t, env_ok t /\ (forall x, In x vars -> t x = s (init_var x)) /\
    ~ ele ((if ert then pwps else pwps0) I Least l (ev I post) t) (ev I pre t).
Proof.
  intros HI Hf Hp O G Cp Hn Sp Fp E Hs H. unfold bmc_proc in E.
  set (l' := if ert then l else map remove_ticks l) in *.
  destruct (directs true pc Up l' st) as [[b1 st1]|] eqn:Ed; [|discriminate]. injection E as <- <- <-.
  assert (E' : (if ert then pwps else pwps0) I Least l (ev I post) = pwps I Least l' (ev I post)).
  { unfold l'. destruct ert; auto. symmetry. apply free_ticks_list. }
  assert (O' : All (pok isd pc) l') by (unfold l'; destruct ert; auto using pok_ticks_list).
  exists (begun vars s). split; [now apply begun_ok|]. split; [now apply begun_var|]. rewrite E'. intros K. apply H.
  rewrite wp_block_app.
  assert (D : forall Y, wp_block I isd kd (if existsb has_choice l then [SVar pc None] else []) Y s = Y s) by (intros Y; destruct (existsb has_choice l); reflexivity).
  rewrite D, wp_block_app, wp_begun.
  assert (Ep : ev I (to_init pre) s = ev I pre (begun vars s)).
  { unfold ev. rewrite (eval_init I pre (begun vars s) s); auto. intros x Hx. symmetry. apply begun_var; auto. }
  rewrite Ep. eapply ele_trans; [|exact K].
  exact (proj2 (proj2 (worth_directs I isd pc kd HI Hf Hp true Up Down Least (or_intror (conj eq_refl (conj eq_refl (conj eq_refl eq_refl)))) l' O' st b1 st1 G Ed)
    (ev I post) (unread_blind _ I post Cp)) (begun vars s) (begun_ok vars s Hs)).
Qed.

(** The expected value of one is one, so that zero is no bound; the states in which the loop is not entered show this. *)
Definition stop : list pinstr := [PWhile (EVar vb) [PChoice half [PAsgn vb (b_bool false)] [PAsgn vb (b_bool false)]]].
Definition nought : expr := ECast TEUReal (b_uint 0).
Definition stop_body : list stmt := match bmc_proc vpc Up false [vb] stop nought [(2%nat, one)] with Some (_, b, _) => b | None => [] end.
Lemma stop_proc : bmc_proc vpc Up false [vb] stop nought [(2%nat, one)] = Some (nought, stop_body, []).
Proof. reflexivity. Qed.
Lemma stop_ok : All (pok is_dist vpc) stop /\ Forall (good_annot vpc) [(2%nat, one)] /\ clean vpc one /\
  (forall x y, In x [vb] -> In y [vb] -> x <> init_var y) /\ simple nought /\ (forall x, fv x nought -> In x [vb]).
Proof.
  split; [pok_tac|]. split; [constructor; [split; [cbn; lia|]; split; [split; reflexivity | clean_tac] | constructor]|].
  split; [clean_tac|]. split; [intros x y [<-|[]] [<-|[]]; discriminate|]. split; [exact Logic.I|]. intros x [].
Qed.
Definition s0 : env := upd s1 (init_var vb) (VBool false).
Lemma s0_ok : env_ok s0.
Proof. apply upd_ok; [exact s1_ok | reflexivity]. Qed.
Lemma stop_fails : ~ ele (wp_block I1 is_dist Least stop_body (ev I1 one) s0) (ev I1 nought s0).
Proof.
  rewrite (ev_extreme I1 Down s0 : ev I1 nought s0 = ebot).
  change (wp_block I1 is_dist Least stop_body (ev I1 one) s0) with
    (wp I1 is_dist Least (SAssign [vb] (EVar (init_var vb))) (wp_block I1 is_dist Least (tl (tl stop_body)) (ev I1 one)) s0).
  rewrite wp_asgn by exact Logic.I. exact one_not_zero.
Qed.
