(** The search in terms of the answers it got. *)
From Coq Require Import Bool List String Arith Lia.
From Verif.Model Require Import Syntax Prover SliceSearch.
From Verif.Spec Require Import SliceSpec.
From Verif.Proofs Require Import SliceSearchProofs.
Import ListNotations.
Local Open Scope list_scope.
Local Open Scope nat_scope.

Record tracks (hist : list (nat * trial_result)) (a b : nat) (m : minimizer) : Prop := {
  t_lo : lo m = a; t_hi : hi m = b;
  t_rej : forall n, (forall r, max_reject m = Some r -> r < n) <-> (forall x, In (x, RejectDownwards) hist -> x < n);
  t_acc : forall n, (forall r, min_accept m = Some r -> n < r) <-> (forall x, In (x, AcceptUpwards) hist -> n < x);
  t_unk : forall n, In n (unknowns m) <-> In (n, TrialUnknown) hist;
  t_rejin : forall r, max_reject m = Some r -> In (r, RejectDownwards) hist;
  t_accin : forall r, min_accept m = Some r -> In (r, AcceptUpwards) hist }.

Lemma record_tracks hist a b m : record hist a b = Ok m -> tracks hist a b m.
Proof.
  revert m. induction hist as [|[n r] hist IH]; intros m; cbn [record].
  - intros [= <-]. constructor; cbn; try tauto; try discriminate; intros; split; intros; try contradiction; discriminate.
  - destruct (record hist a b) as [m0| |]; cbn [rbind]; try discriminate. specialize (IH m0 eq_refl). destruct IH as [L H R A U RI AI].
    unfold add_result. destruct (negb _); [discriminate|]. destruct r; cbn [fst snd].
    + intros E. set (x := match min_accept m0 with Some y => Nat.min y n | None => n end) in *.
      assert (Em : m = mkmin (lo m0) (hi m0) (max_reject m0) (Some x) (unknowns m0)) by (destruct (max_reject m0); [destruct (_ <? _); [|discriminate]|]; congruence).
      subst m. clear E. constructor; cbn; auto.
      * intros k. rewrite (R k). split; intros Q y; [intros [E|E]; [discriminate | auto] | auto].
      * intros k. split.
        -- intros Q y [E|E]; [injection E as <-; specialize (Q x eq_refl); unfold x in Q; destruct (min_accept m0); lia|].
           apply (proj1 (A k)); auto. intros r Er. specialize (Q x eq_refl). unfold x in Q. rewrite Er in Q. lia.
        -- intros Q y [= <-]. unfold x. pose proof (Q n (or_introl eq_refl)). pose proof (proj2 (A k) (fun z Hz => Q z (or_intror Hz))) as Q'.
           destruct (min_accept m0) as [z|]; auto. specialize (Q' z eq_refl). lia.
      * intros k. rewrite (U k). split; auto. intros [E|E]; [discriminate | auto].
      * intros r [= <-]. unfold x. destruct (min_accept m0) as [z|] eqn:Ez; auto. destruct (Nat.min_spec z n) as [[_ ->]|[_ ->]]; auto.
    + intros E. set (x := match max_reject m0 with Some y => Nat.max y n | None => n end) in *.
      assert (Em : m = mkmin (lo m0) (hi m0) (Some x) (min_accept m0) (unknowns m0)) by (destruct (min_accept m0); [destruct (_ <? _); [|discriminate]|]; congruence).
      subst m. clear E. constructor; cbn; auto.
      * intros k. split.
        -- intros Q y [E|E]; [injection E as <-; specialize (Q x eq_refl); unfold x in Q; destruct (max_reject m0); lia|].
           apply (proj1 (R k)); auto. intros r Er. specialize (Q x eq_refl). unfold x in Q. rewrite Er in Q. lia.
        -- intros Q y [= <-]. unfold x. pose proof (Q n (or_introl eq_refl)). pose proof (proj2 (R k) (fun z Hz => Q z (or_intror Hz))) as Q'.
           destruct (max_reject m0) as [z|]; auto. specialize (Q' z eq_refl). lia.
      * intros k. rewrite (A k). split; intros Q y; [intros [E|E]; [discriminate | auto] | auto].
      * intros k. rewrite (U k). split; auto. intros [E|E]; [discriminate | auto].
      * intros r [= <-]. unfold x. destruct (max_reject m0) as [z|] eqn:Ez; auto. destruct (Nat.max_spec z n) as [[_ ->]|[_ ->]]; auto.
    + destruct (mem n (unknowns m0)) eqn:M; [discriminate|]. intros [= <-]. constructor; cbn; auto.
      * intros k. rewrite (R k). split; intros Q y; [intros [E|E]; [discriminate | auto] | auto].
      * intros k. rewrite (A k). split; intros Q y; [intros [E|E]; [discriminate | auto] | auto].
      * intros k. rewrite (U k). split; intros [E|E]; auto; left; congruence.
Qed.
Lemma undecided_open hist a b m n : tracks hist a b m -> undecided m n <-> open_size hist a b n.
Proof.
  intros [L H R A U _ _]. unfold undecided, open_size. rewrite L, H, (R n), (A n), (U n). split.
  - intros (H1 & H2 & H3 & H4). split; auto. intros [x []] Hx; unfold settles; cbn [fst snd]; intros S.
    + specialize (H3 x Hx). lia.
    + specialize (H2 x Hx). lia.
    + now subst x.
  - intros (H1 & H2). repeat split; try apply H1.
    + intros x Hx. specialize (H2 _ Hx). unfold settles in H2; cbn in H2. lia.
    + intros x Hx. specialize (H2 _ Hx). unfold settles in H2; cbn in H2. lia.
    + intros Hx. apply (H2 _ Hx). reflexivity.
Qed.
(** The next trial is an open size, if there is one. *)
Theorem trial_open hist a b m : record hist a b = Ok m ->
  match next_trial m with Some n => open_size hist a b n | None => forall n, ~ open_size hist a b n end.
Proof.
  intros E. pose proof (record_tracks _ _ _ _ E) as T. destruct (next_trial m) as [n|] eqn:N.
  - apply (undecided_open _ _ _ _ _ T). now apply next_some.
  - intros n Hn. apply (next_none _ N n). now apply (undecided_open _ _ _ _ _ T).
Qed.
(** The assertions hold exactly for coherent answers in which no size is given up twice. *)
Theorem record_ok hist a b : (exists m, record hist a b = Ok m) <->
  coherent hist a b /\ NoDup (map fst (filter (fun h => match snd h with TrialUnknown => true | _ => false end) hist)).
Proof.
  induction hist as [|[n r] hist IH]; cbn [record].
  - split; [|eauto]. intros _. split; [|constructor]. split; intros; contradiction.
  - split.
    + intros (m & E). destruct (record hist a b) as [m0| |] eqn:E0; cbn [rbind] in E; try discriminate.
      destruct (proj1 IH (ex_intro _ _ eq_refl)) as [[C1 C2] ND]. pose proof (record_tracks _ _ _ _ E0) as T. destruct T as [L H R A U RI AI].
      unfold add_result in E. rewrite L, H in E. destruct ((a <=? n) && (n <=? b)) eqn:B; cbn [negb] in E; [|discriminate].
      apply andb_prop in B. destruct B as [B1 B2]. apply Nat.leb_le in B1, B2. split.
      * split; [intros h [<-|Hh]; [cbn; lia | auto]|]. intros x y [Hx|Hx] [Hy|Hy]; try congruence; auto.
        -- injection Hx as -> ->. cbn in E. refine (proj1 (A x) _ y Hy). intros z Ez. rewrite Ez in E. match type of E with context [if ?c then _ else _] => destruct c eqn:Q end; [|discriminate].
           apply Nat.ltb_lt in Q. destruct (max_reject m0); lia.
        -- injection Hy as -> ->. refine (proj1 (R y) _ x Hx). intros z Ez. rewrite Ez in E. match type of E with context [if ?c then _ else _] => destruct c eqn:Q end; [|discriminate].
           apply Nat.ltb_lt in Q. destruct (min_accept m0); lia.
      * destruct r; cbn; auto. destruct (mem n (unknowns m0)) eqn:M; [discriminate|]. constructor; auto.
        intros Hn. apply in_map_iff in Hn. destruct Hn as ([x []] & <- & Hn); apply filter_In in Hn; destruct Hn as [Hn Q]; try discriminate.
        cbn in M. apply U in Hn. apply mem_iff in Hn. congruence.
    + intros [[C1 C2] ND]. destruct (proj2 IH) as (m0 & E0).
      { split; [split; [intros; apply C1; now right | intros; apply C2; now right]|]. destruct r; cbn in ND; auto. now inversion ND. }
      rewrite E0. cbn [rbind]. pose proof (record_tracks _ _ _ _ E0) as [L H R A U RI AI]. unfold add_result. rewrite L, H.
      destruct (C1 _ (or_introl eq_refl)) as [B1 B2]. cbn in B1, B2. rewrite (proj2 (Nat.leb_le _ _) B1), (proj2 (Nat.leb_le _ _) B2). cbn [negb andb].
      destruct r.
      * destruct (max_reject m0) as [z|] eqn:Ez; [|eauto].
        assert (Q : z < match min_accept m0 with Some y => Nat.min y n | None => n end).
        { pose proof (C2 z n (or_intror (RI z eq_refl)) (or_introl eq_refl)). destruct (min_accept m0) as [y|]; auto.
          pose proof (C2 z y (or_intror (RI z eq_refl)) (or_intror (AI y eq_refl))). lia. }
        apply Nat.ltb_lt in Q. rewrite Q. eauto.
      * destruct (min_accept m0) as [z|] eqn:Ez; [|eauto].
        assert (Q : match max_reject m0 with Some y => Nat.max y n | None => n end < z).
        { pose proof (C2 n z (or_introl eq_refl) (or_intror (AI z eq_refl))). destruct (max_reject m0) as [y|]; auto.
          pose proof (C2 y z (or_intror (RI y eq_refl)) (or_intror (AI z eq_refl))). lia. }
        apply Nat.ltb_lt in Q. rewrite Q. eauto.
      * cbn in ND. inversion ND as [|? ? Hn _]; subst. destruct (mem n (unknowns m0)) eqn:M; eauto.
        exfalso. apply Hn. apply mem_iff, U in M. apply in_map_iff. exists (n, TrialUnknown). split; auto. apply filter_In. auto.
Qed.
