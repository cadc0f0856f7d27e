(** A solver for the exploration, the initial exploration, and slices that are not minimal. *)
From Coq Require Import Bool List String Arith Lia.
From Verif.Model Require Import Syntax Prover SliceSearch Subsets.
From Verif.Spec Require Import SubsetSpec.
From Verif.Proofs Require Import SliceSearchProofs SubsetProofs SubsetVerdict.
Import ListNotations.
Local Open Scope list_scope.
Local Open Scope nat_scope.

(** Trying all sets, large ones first. *)
Definition brute (vars : vset) (j : nat) (cs : list constraint) : pick :=
  match find (holdsb cs) (rev (subs vars)) with Some a => PModel (fun v => Some (mem v a)) | None => PNone end.
Lemma holdsb_iff cs a : holdsb cs a = true <-> satisfies (asg a) cs.
Proof. unfold holdsb. apply forallb_forall. Qed.
Lemma brute_right vars : right_picks vars (brute vars).
Proof.
  intros j cs L. unfold brute. destruct (find (holdsb cs) (rev (subs vars))) as [a|] eqn:E; cbn.
  - apply find_some in E. destruct E as [_ E]. apply holdsb_iff in E. intros s H c Hc. rewrite <- (E c Hc). apply (proj1 (Forall_forall _ _) L c Hc).
    intros v _. now apply H.
  - intros s H. pose proof (find_none _ _ E (filter s vars)) as K. rewrite <- in_rev in K. specialize (K (subs_filter s vars)).
    assert (holdsb cs (filter s vars) = true); [|congruence]. apply holdsb_iff. intros c Hc. rewrite <- (H c Hc). apply (proj1 (Forall_forall _ _) L c Hc).
    intros v Hv. unfold asg. destruct (s v) eqn:Es; [apply memb, filter_In; auto | apply memb_false; rewrite filter_In; intros [_ Q]; congruence].
Qed.

Lemma with_flag_nodup f stmts : NoDup (with_flag f stmts).
Proof.
  unfold with_flag. generalize 0 as n. induction stmts as [|s l IH]; intros n; cbn; [constructor|].
  assert (K : forall l m, n < m -> ~ In n (map fst (filter (fun p : nat * selection => f (snd p)) (combine (seq m (List.length l)) l)))).
  { induction l0 as [|x l0 IHl]; intros m Hm; cbn; auto. destruct (f x); cbn; [intros [Q|Q]; [lia|]; revert Q; apply IHl; lia | apply IHl; lia]. }
  destruct (f s); cbn; [constructor|]; auto.
Qed.
Lemma with_flag_incl f g stmts : (forall s, f s = true -> g s = true) -> incl (with_flag f stmts) (with_flag g stmts).
Proof.
  intros H v Hv. unfold with_flag in *. apply in_map_iff in Hv. destruct Hv as ([i s] & <- & Hv). apply filter_In in Hv. destruct Hv as [Hv Hf].
  apply in_map_iff. exists (i, s). split; auto. apply filter_In. split; auto.
Qed.
Lemma start_ok stmts : NoDup (variables (enumerate_start stmts)) /\ incl (extensive (enumerate_start stmts)) (variables (enumerate_start stmts)).
Proof. split; [apply with_flag_nodup|]. apply with_flag_incl. intros [c d v e]. cbn. intros ->. reflexivity. Qed.

Lemma block_unsat_iff x s a : satisfies (fun v => mem v a) (asserted (block_unsat s x)) <->
  satisfies (fun v => mem v a) (asserted x) /\
  ~ ((forall v, In v s -> ~ In v (reductive x) -> In v a) /\ (forall v, In v a -> In v (variables x) -> ~ In v s -> In v (extensive x))).
Proof.
  cbn. split.
  - intros H. apply sat_cons in H. destruct H as [H H']. split; auto. intros [A B]. apply negb_true_iff in H. rewrite <- not_true_iff_false in H. apply H.
    apply andb_true_intro. rewrite !forallb_forall. split; intros v Hv; apply in_diff in Hv; destruct Hv as [H1 H2].
    + apply memb. auto.
    + apply negb_true_iff, memb_false. intros Q. apply in_diff in H1. apply H2, B; tauto.
  - intros [H N] c [<-|Hc]; auto. apply negb_true_iff, not_true_is_false. intros Q. apply N. apply andb_prop in Q. rewrite !forallb_forall in Q. destruct Q as [Q1 Q2]. split.
    + intros v H1 H2. apply memb, Q1, in_diff. auto.
    + intros v H1 H2 H3. destruct (in_dec Nat.eq_dec v (extensive x)) as [|n]; auto. exfalso. specialize (Q2 v). rewrite !in_diff in Q2. specialize (Q2 (conj (conj H2 H3) n)).
      apply memb in H1. rewrite H1 in Q2. discriminate.
Qed.
Lemma block_sat_iff x s a : satisfies (fun v => mem v a) (asserted (block_sat s x)) <->
  satisfies (fun v => mem v a) (asserted x) /\
  ~ ((forall v, In v s -> ~ In v (extensive x) -> In v a) /\ (forall v, In v a -> In v (variables x) -> ~ In v s -> In v (reductive x))).
Proof. exact (block_unsat_iff (mkexp (asserted x) (variables x) (reductive x) (extensive x)) s a). Qed.

(** Two assumptions of which one suffices, and an assignment that has to stay. *)
Definition ex_stmts : list selection := [mksel true false false false; mksel true false false false; mksel false false true false].
Definition ex_proof (s : vset) : Prop := In 2 s /\ (In 0 s \/ In 1 s).
Definition ex_check (k : nat) (s : vset) : prove_result := if mem 2 s && (mem 0 s || mem 1 s) then Proof else Counterexample.
Lemma ex_right : right_answer ex_proof ex_check.
Proof.
  intros k s. unfold ex_check, ex_proof. pose proof (memb 0 s). pose proof (memb 1 s). pose proof (memb 2 s).
  destruct (mem 2 s), (mem 0 s), (mem 1 s); cbn; intuition discriminate.
Qed.
Lemma ex_case : exists vars ext red, enumerate_start ex_stmts = new_exploration vars ext red /\ extensional ex_proof /\ monotone_in vars ext red ex_proof /\
  right_answer ex_proof ex_check /\ right_core ex_proof ex_check (fun _ s => nodup Nat.eq_dec s) /\ right_picks vars (brute vars) /\
  unsat_search ex_check (fun _ s => nodup Nat.eq_dec s) SubsetMinimal Continue (brute vars) (S (S (2 ^ List.length vars))) (enumerate_start ex_stmts) None 0 0 = Ok (Some [2; 1]).
Proof.
  exists [0; 1; 2], [0; 1], []. split; [reflexivity|]. split; [|split; [|split; [exact ex_right|split; [|split; [apply brute_right | vm_compute; reflexivity]]]]].
  - intros a b E. unfold ex_proof. pose proof (E 0). pose proof (E 1). pose proof (E 2). tauto.
  - intros a b Ha Hb H1 H2 [P1 P2]. assert (K : incl a b) by (intros v Hv; destruct (in_dec Nat.eq_dec v b); auto; destruct (H2 v); auto).
    split; auto. destruct P2; auto.
  - intros k s E. pose proof (ex_right k s) as Q. rewrite E in Q. split; [intros v Hv; now apply nodup_In in Hv|]. split; [apply NoDup_nodup|].
    unfold ex_proof in *. now rewrite !nodup_In.
Qed.

(** An assertion in a [@slice_verify] annotation is never removed. *)
Lemma not_minimal : exists stmts vars ext red proof check core s, enumerate_start stmts = new_exploration vars ext red /\
  extensional proof /\ monotone_in vars ext red proof /\ right_answer proof check /\ right_core proof check core /\ (forall k s, check k s <> ProveUnknown) /\
  unsat_search check core SizeMinimal Continue (brute vars) (S (S (2 ^ List.length vars))) (enumerate_start stmts) None 0 0 = Ok (Some s) /\
  ~ minimal_subset vars proof s /\ ~ smallest vars proof s.
Proof.
  exists [mksel false true true false], [0], [], [0], (fun _ => True), (fun _ _ => Proof), (fun _ _ => []), [0].
  split; [reflexivity|]. split; [intros a b; auto|]. split; [intros a b; auto|]. split; [intros k s; exact Logic.I|].
  split; [intros k s _; split; [intros v []|split; [constructor|exact Logic.I]]|]. split; [intros; discriminate|]. split; [vm_compute; reflexivity|]. split.
  - intros [_ H]. specialize (H [] ltac:(intros v []) Logic.I 0). cbn in H. tauto.
  - intros [_ H]. specialize (H [] ltac:(intros v []) ltac:(constructor) Logic.I). cbn in H. lia.
Qed.
