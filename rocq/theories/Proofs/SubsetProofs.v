(** The exploration of subsets. *)
From Coq Require Import Bool List String Arith Lia.
From Verif.Model Require Import Syntax Prover SliceSearch Subsets.
From Verif.Spec Require Import SubsetSpec.
From Verif.Proofs Require Import SliceSearchProofs.
Import ListNotations.
Local Open Scope list_scope.
Local Open Scope nat_scope.

Lemma memb v s : mem v s = true <-> In v s.
Proof. apply mem_iff. Qed.
Lemma memb_false v s : mem v s = false <-> ~ In v s.
Proof. rewrite <- memb. destruct (mem v s); split; intros; try congruence; tauto. Qed.
Lemma in_diff v a b : In v (diff a b) <-> In v a /\ ~ In v b.
Proof. unfold diff. rewrite filter_In, <- memb_false. destruct (mem v b); cbn; intuition congruence. Qed.
Lemma in_inter v a b : In v (inter a b) <-> In v a /\ In v b.
Proof. unfold inter. now rewrite filter_In, memb. Qed.
Lemma subset_iff a b : subset a b = true <-> incl a b.
Proof. unfold subset. rewrite forallb_forall. unfold incl. split; intros H v Hv; apply memb; auto; rewrite memb; auto. Qed.
Lemma in_remove v w s : In w (remove v s) <-> In w s /\ w <> v.
Proof. unfold remove. rewrite filter_In. destruct (Nat.eqb_spec v w); cbn; intuition congruence. Qed.
Lemma in_insert v w s : In w (insert v s) <-> w = v \/ In w s.
Proof. unfold insert. destruct (mem v s) eqn:E; [apply memb in E; split; [auto | intros [->|]; auto] | rewrite in_app_iff; cbn; intuition]. Qed.
Lemma nodup_remove v s : NoDup s -> NoDup (remove v s).
Proof. apply NoDup_filter. Qed.
Lemma nodup_insert v s : NoDup s -> NoDup (insert v s).
Proof.
  unfold insert. destruct (mem v s) eqn:E; auto. apply memb_false in E. intros H. apply NoDup_rev in H. rewrite <- (rev_involutive (s ++ [v])). apply NoDup_rev.
  rewrite rev_unit. constructor; auto. now rewrite <- in_rev.
Qed.

(** The assignment in which exactly these statements are enabled. *)
Definition asg (a : vset) : assignment := fun v => mem v a.
Fixpoint subs (l : vset) : list vset := match l with [] => [[]] | v :: l => subs l ++ map (cons v) (subs l) end.
Lemma subs_filter f l : In (filter f l) (subs l).
Proof. induction l as [|v l IH]; cbn; auto. apply in_app_iff. destruct (f v); [right; now apply in_map | now left]. Qed.
Lemma subs_length l : List.length (subs l) = 2 ^ List.length l.
Proof. induction l as [|v l IH]; auto. change (List.length (v :: l)) with (S (List.length l)). rewrite Nat.pow_succ_r'. cbn [subs]. rewrite app_length, map_length. unfold vset in *. lia. Qed.

Section S.
Variables vars ext red : vset.
Notation local := (local vars).
Record fits (x : exploration) : Prop := {
  f_vars : variables x = vars; f_ext : extensive x = ext; f_red : reductive x = red; f_local : Forall local (asserted x) }.

Lemma local_block on off : incl on vars -> incl off vars -> local (fun s => negb (forallb s on && forallb (fun v => negb (s v)) off)).
Proof.
  intros H1 H2 s s' E. assert (K : forall l (f g : nat -> bool), (forall v, In v l -> f v = g v) -> forallb f l = forallb g l).
  { intros l f g. induction l as [|v l IH]; cbn; auto. intros Q. rewrite (Q v), IH; auto. }
  rewrite (K on s s') by auto. rewrite (K off (fun v => negb (s v)) (fun v => negb (s' v))); auto. intros v Hv. now rewrite E by auto.
Qed.
Lemma fits_assert x c : fits x -> local c -> fits (assert_c x c).
Proof. intros [H1 H2 H3 H4] L. constructor; cbn; auto. Qed.
Lemma diff_incl a b : incl (diff a b) a.
Proof. intros v Hv. now apply in_diff in Hv. Qed.
Lemma fits_unsat x s : fits x -> incl s vars -> fits (block_unsat s x).
Proof.
  intros F Hs. apply fits_assert; auto. destruct F as [-> -> -> _]. apply local_block.
  - intros v Hv. apply in_diff in Hv. now apply Hs.
  - intros v Hv. apply in_diff in Hv. now apply diff_incl with (b := s).
Qed.
Lemma fits_sat x s : fits x -> incl s vars -> fits (block_sat s x).
Proof.
  intros F Hs. apply fits_assert; auto. destruct F as [-> -> -> _]. apply local_block.
  - intros v Hv. apply in_diff in Hv. now apply Hs.
  - intros v Hv. apply in_diff in Hv. now apply diff_incl with (b := s).
Qed.
Lemma fits_this x s : fits x -> fits (block_this s x).
Proof.
  intros F. apply fits_assert; auto. destruct F as [-> _ _ _]. apply local_block; intros v Hv.
  - now apply in_inter in Hv.
  - now apply in_diff in Hv.
Qed.
Lemma fits_least x n : fits x -> fits (block_at_least n x).
Proof.
  intros F. apply fits_assert; auto. destruct F as [-> _ _ _]. intros s s' E. assert (K : filter s vars = filter s' vars); [|now rewrite K].
  revert E. induction vars as [|v l IH]; cbn; auto. intros E. rewrite (E v) by auto. rewrite IH; auto.
Qed.
Lemma fits_subset x s : fits x -> fits (block_non_subset s x).
Proof.
  intros F. apply fits_assert; auto. destruct F as [-> _ _ _]. intros a a' E.
  assert (K : forall l, incl l vars -> forallb (fun v => negb (a v)) l = forallb (fun v => negb (a' v)) l).
  { induction l as [|v l IH]; cbn; auto. intros Q. rewrite (E v), IH; auto; [intros w Hw; apply Q; now right | apply Q; now left]. }
  apply K. apply diff_incl.
Qed.

(** ** What each constraint blocks *)
Definition above (a s : vset) : Prop := (forall v, In v s -> ~ In v red -> In v a) /\ (forall v, In v a -> ~ In v s -> In v ext).
Definition under (a s : vset) : Prop := (forall v, In v s -> ~ In v ext -> In v a) /\ (forall v, In v a -> ~ In v s -> In v red).
Lemma block_iff a on off : incl a vars -> forallb (asg a) on && forallb (fun v => negb (asg a v)) off = true <-> incl on a /\ forall v, In v a -> ~ In v off.
Proof.
  intros Ha. rewrite andb_true_iff, !forallb_forall. unfold asg. split; intros [H1 H2]; split.
  - intros v Hv. now apply memb, H1.
  - intros v Hv Q. apply H2 in Q. apply memb in Hv. now rewrite Hv in Q.
  - intros v Hv. now apply memb, H1.
  - intros v Hv. destruct (mem v a) eqn:E; auto. apply memb in E. now destruct (H2 v E).
Qed.
Lemma unsat_blocks x s a : fits x -> incl a vars -> forall c, asserted (block_unsat s x) = c :: asserted x -> c (asg a) = false <-> above a s.
Proof.
  intros F Ha c [= <-]. destruct F as [-> -> -> _]. rewrite negb_false_iff, block_iff by auto. unfold above. split; intros [H1 H2]; split.
  - intros v H3 H4. apply H1, in_diff. auto.
  - intros v H3 H4. specialize (H2 v H3). rewrite !in_diff in H2. destruct (in_dec Nat.eq_dec v ext); auto. exfalso. apply H2. auto.
  - intros v Hv. apply in_diff in Hv. now apply H1.
  - intros v Hv Q. apply in_diff in Q. destruct Q as [Q Q']. apply in_diff in Q. destruct Q as [_ Q]. exact (Q' (H2 v Hv Q)).
Qed.
Lemma sat_blocks x s a : fits x -> incl a vars -> forall c, asserted (block_sat s x) = c :: asserted x -> c (asg a) = false <-> under a s.
Proof.
  intros F Ha c [= <-]. destruct F as [-> -> -> _]. rewrite negb_false_iff, block_iff by auto. unfold under. split; intros [H1 H2]; split.
  - intros v H3 H4. apply H1, in_diff. auto.
  - intros v H3 H4. specialize (H2 v H3). rewrite !in_diff in H2. destruct (in_dec Nat.eq_dec v red); auto. exfalso. apply H2. auto.
  - intros v Hv. apply in_diff in Hv. now apply H1.
  - intros v Hv Q. apply in_diff in Q. destruct Q as [Q Q']. apply in_diff in Q. destruct Q as [_ Q]. exact (Q' (H2 v Hv Q)).
Qed.
Lemma this_blocks x s a : fits x -> incl a vars -> incl s vars -> forall c, asserted (block_this s x) = c :: asserted x -> c (asg a) = false <-> same_set a s.
Proof.
  intros F Ha Hs c [= <-]. destruct F as [-> _ _ _]. rewrite negb_false_iff, block_iff by auto. unfold same_set. split.
  - intros [H1 H2] v. split; intros Hv.
    + specialize (H2 v Hv). rewrite in_diff in H2. destruct (in_dec Nat.eq_dec v s); auto. exfalso. apply H2. auto.
    + apply H1, in_inter. auto.
  - intros E. split; intros v Hv; [apply in_inter in Hv; now apply E | rewrite in_diff; apply E in Hv; tauto].
Qed.
Lemma subset_blocks x s a : fits x -> incl a vars -> forall c, asserted (block_non_subset s x) = c :: asserted x -> c (asg a) = true <-> incl a s.
Proof.
  intros F Ha c [= <-]. destruct F as [-> _ _ _]. rewrite forallb_forall. unfold asg. split.
  - intros H v Hv. destruct (in_dec Nat.eq_dec v s); auto. specialize (H v). rewrite in_diff in H. apply memb in Hv. rewrite Hv in H. exfalso.
    cbn in H. apply memb in Hv. discriminate H. auto.
  - intros H v Hv. apply in_diff in Hv. destruct (mem v a) eqn:E; auto. apply memb in E. now destruct (proj2 Hv (H v E)).
Qed.
Lemma count_set a : NoDup vars -> NoDup a -> incl a vars -> List.length (filter (asg a) vars) = List.length a.
Proof.
  intros Nv Na Ha. apply Nat.le_antisymm; apply NoDup_incl_length; auto.
  - now apply NoDup_filter.
  - intros v Hv. apply filter_In in Hv. now apply memb.
  - intros v Hv. apply filter_In. split; auto. now apply memb.
Qed.
Lemma least_blocks x n a : fits x -> NoDup vars -> NoDup a -> incl a vars -> forall c, asserted (block_at_least n x) = c :: asserted x -> c (asg a) = true <-> List.length a < n.
Proof.
  intros F Nv Na Ha c [= <-]. destruct F as [-> _ _ _]. rewrite count_set by auto. rewrite negb_true_iff, Nat.leb_gt. reflexivity.
Qed.

(** ** The next set *)
Lemma next_ok p x : fits x -> right_pick p (asserted x) ->
  match next_set p x with
  | Ok (Some s) => incl s vars /\ (NoDup vars -> NoDup s) /\ In s (subs vars) /\ satisfies (asg s) (asserted x)
  | Ok None => forall s, ~ satisfies s (asserted x)
  | _ => False
  end.
Proof.
  intros F R. destruct p as [| |m]; cbn; auto. rewrite (f_vars _ F). set (f := fun v => match m v with Some b => b | None => true end).
  assert (In (filter f vars) (subs vars)) by apply subs_filter. repeat split; auto.
  - intros v Hv. apply filter_In in Hv. tauto.
  - apply NoDup_filter.
  - intros c Hc. cbn in R. rewrite <- (R f); [|intros v b E; unfold f; now rewrite E|exact Hc]. pose proof (proj1 (Forall_forall _ _) (f_local _ F) c Hc) as L. apply L.
    intros v Hv. unfold asg. destruct (f v) eqn:E; [apply memb, filter_In; auto | apply memb_false; rewrite filter_In; intros [_ Q]; congruence].
Qed.

(** ** Shrinking and growing *)
Variables (check : nat -> vset -> prove_result) (core : nat -> vset -> vset).
Definition shrunk (s cur : vset) : Prop := incl cur s /\ forall v, In v s -> ~ In v cur -> In v ext.
Lemma use_core_ok x s cur c r : fits x -> shrunk s cur -> use_core x cur c = Ok r -> shrunk s r /\ (r = c \/ r = cur).
Proof.
  intros F [H1 H2]. unfold use_core. destruct (subset c cur) eqn:E; cbn [negb]; [|discriminate]. apply subset_iff in E.
  destruct (diff (diff cur c) (extensive x)) as [|w l] eqn:D; intros [= <-]; split; auto; [|split; auto].
  split; [intros v Hv; auto|]. intros v Hv Q. destruct (in_dec Nat.eq_dec v cur) as [I|I]; auto.
  destruct (in_dec Nat.eq_dec v ext) as [I'|I']; auto. exfalso. assert (K : In v (diff (diff cur c) (extensive x))) by (rewrite (f_ext _ F), !in_diff; auto).
  now rewrite D in K.
Qed.
Lemma shrink_loop_ok x s : fits x -> forall todo cur k r, incl todo ext -> shrunk s cur -> shrink_loop check core x todo cur k = Ok r -> shrunk s (fst r).
Proof.
  intros F. induction todo as [|v todo IH]; intros cur k r Ht Hc; cbn [shrink_loop]; [intros [= <-]; exact Hc|].
  assert (Ht' : incl todo ext) by (intros w Hw; apply Ht; now right).
  destruct (mem v cur) eqn:M; [|now apply IH]. apply memb in M.
  assert (Hr : shrunk s (remove v cur)).
  { destruct Hc as [C1 C2]. split; [intros w Hw; apply in_remove in Hw; now apply C1|]. intros w Hw Q. destruct (Nat.eq_dec w v) as [->|N]; [apply Ht; now left|].
    apply C2; auto. intros Q'. apply Q, in_remove. auto. }
  destruct (get_core check core k (remove v cur)) as [c|].
  - destruct (use_core x (remove v cur) c) as [cu| |] eqn:U; cbn [rbind]; try discriminate. apply IH; auto. now destruct (use_core_ok _ _ _ _ _ F Hr U).
  - apply IH; auto. destruct Hc as [C1 C2]. split.
    + intros w Hw. apply in_insert in Hw. destruct Hw as [->|Hw]; auto. apply in_remove in Hw. now apply C1.
    + intros w Hw Q. apply C2; auto. intros Q'. apply Q, in_insert. destruct (Nat.eq_dec w v); auto. right. apply in_remove. auto.
Qed.
Lemma shrink_ok x s k cur k' x' : fits x -> shrink_block_unsat check core x s k = Ok (cur, k', x') -> shrunk s cur /\ x' = block_unsat cur x.
Proof.
  intros F. unfold shrink_block_unsat. assert (Hs : shrunk s s) by (split; [apply incl_refl | tauto]).
  assert (Hi : incl (inter s (extensive x)) ext) by (intros v Hv; apply in_inter in Hv; rewrite (f_ext _ F) in Hv; tauto).
  destruct (get_core check core k s) as [c|].
  - destruct (use_core x s c) as [cu| |] eqn:U; cbn [rbind]; try discriminate. destruct (use_core_ok _ _ _ _ _ F Hs U) as [Hc _].
    destruct (shrink_loop check core x _ cu (S k)) as [r| |] eqn:E; cbn [rbind]; try discriminate. intros [= <- <- <-]. split; auto. exact (shrink_loop_ok _ _ F _ _ _ _ Hi Hc E).
  - cbn [rbind]. destruct (shrink_loop check core x _ s (S k)) as [r| |] eqn:E; cbn [rbind]; try discriminate. intros [= <- <- <-]. split; auto. exact (shrink_loop_ok _ _ F _ _ _ _ Hi Hs E).
Qed.
Definition grown (s cur : vset) : Prop := incl s cur /\ forall v, In v cur -> ~ In v s -> In v ext.
Lemma grow_loop_ok s : forall todo cur k, (forall v, In v todo -> In v ext /\ ~ In v s) -> grown s cur -> grown s (fst (grow_loop check todo cur k)).
Proof.
  induction todo as [|v todo IH]; intros cur k Ht Hc; cbn [grow_loop]; auto. destruct (Ht v (or_introl eq_refl)) as [Hv Hn].
  assert (Ht' : forall w, In w todo -> In w ext /\ ~ In w s) by (intros w Hw; apply Ht; now right).
  assert (Hi : grown s (insert v cur)).
  { destruct Hc as [C1 C2]. split; [intros w Hw; apply in_insert; auto|]. intros w Hw Q. apply in_insert in Hw. destruct Hw as [->|Hw]; auto. }
  assert (Hr : grown s (remove v (insert v cur))).
  { destruct Hi as [C1 C2]. split; [intros w Hw; apply in_remove; split; auto; congruence|]. intros w Hw Q. apply in_remove in Hw. apply C2; tauto. }
  destruct (check k (insert v cur)); now apply IH.
Qed.
Lemma grow_ok x s k cur k' x' : fits x -> grow_block_sat check x s k = (cur, k', x') -> grown s cur /\ x' = block_sat cur x.
Proof.
  intros F. unfold grow_block_sat. assert (Hs : grown s s) by (split; [apply incl_refl | tauto]).
  assert (Hi : forall v, In v (diff (extensive x) s) -> In v ext /\ ~ In v s) by (intros v Hv; apply in_diff in Hv; now rewrite (f_ext _ F) in Hv).
  pose proof (grow_loop_ok s _ s k Hi Hs) as G. destruct (grow_loop check (diff (extensive x) s) s k) as [c k0]. intros [= <- <- <-]. split; auto.
Qed.

(** ** The search ends *)
Definition holdsb (cs : list constraint) (a : vset) : bool := forallb (fun c => c (asg a)) cs.
Definition open_sets (x : exploration) : nat := List.length (filter (holdsb (asserted x)) (subs vars)).
Lemma filter_less (f g : vset -> bool) l a : (forall b, g b = true -> f b = true) -> In a l -> f a = true -> g a = false -> List.length (filter g l) < List.length (filter f l).
Proof.
  intros H. assert (L : forall l, List.length (filter g l) <= List.length (filter f l)).
  { induction l0 as [|b l0 IH]; cbn; auto. pose proof (H b). destruct (g b), (f b); cbn; lia. }
  induction l as [|b l IH]; cbn; [contradiction|]. intros [->|I] F G.
  - rewrite F, G. cbn. specialize (L l). lia.
  - specialize (IH I F G). pose proof (H b). destruct (g b), (f b); cbn; lia.
Qed.
Lemma open_less x x' cs s : asserted x' = cs ++ asserted x -> In s (subs vars) -> satisfies (asg s) (asserted x) -> (exists c, In c cs /\ c (asg s) = false) ->
  open_sets x' < open_sets x.
Proof.
  intros Ex I H (c & Hc & E). unfold open_sets. rewrite Ex. apply filter_less with (a := s); auto.
  - intros b. unfold holdsb. rewrite forallb_app. intros Q. apply andb_prop in Q. tauto.
  - unfold holdsb. now apply forallb_forall.
  - unfold holdsb. rewrite forallb_app. apply not_true_is_false. intros Q. apply andb_prop in Q. destruct Q as [Q _].
    rewrite forallb_forall in Q. rewrite (Q c Hc) in E. discriminate.
Qed.
Variables (minl : minimality) (unk : unknown_handling) (picks : nat -> list constraint -> pick).
Hypothesis ext_vars : incl ext vars.
Lemma search_step_ends : right_picks vars picks -> forall fuel x best j k, fits x -> open_sets x < fuel ->
  unsat_search check core minl unk picks fuel x best j k <> Panic "fuel".
Proof.
  intros RP. induction fuel as [|fuel IH]; intros x best j k F L; [lia|]. cbn [unsat_search].
  pose proof (next_ok _ x F (RP j (asserted x) (f_local _ F))) as N. destruct (next_set (picks j (asserted x)) x) as [[s|]| |]; cbn [rbind]; try discriminate; try contradiction.
  destruct N as (N1 & _ & N2 & N3). destruct (check k s).
  - destruct (shrink_block_unsat check core x s (S k)) as [[[cur k'] x']| |] eqn:E; cbn [rbind]; try discriminate.
    + destruct (shrink_ok _ _ _ _ _ _ F E) as [[C1 C2] ->]. assert (Ic : incl cur vars) by (intros v Hv; auto).
      assert (B : exists c, asserted (block_unsat cur x) = c :: asserted x /\ c (asg s) = false).
      { eexists. split; [reflexivity|]. apply (unsat_blocks x cur s F N1 _ eq_refl). split; auto. }
      destruct B as (c & B1 & B2). pose proof (fits_unsat x cur F Ic) as F'.
      destruct minl; [discriminate| |].
      * apply IH; [now apply fits_subset|]. enough (open_sets (block_non_subset cur (block_unsat cur x)) < open_sets x) by lia.
        eapply (open_less x _ [_; _]); [cbn; reflexivity | exact N2 | exact N3 |]. cbn in B1. exists c. split; [right; left; congruence | exact B2].
      * apply IH; [now apply fits_least|]. enough (open_sets (block_at_least (List.length cur) (block_unsat cur x)) < open_sets x) by lia.
        eapply (open_less x _ [_; _]); [cbn; reflexivity | exact N2 | exact N3 |]. cbn in B1. exists c. split; [right; left; congruence | exact B2].
    + unfold shrink_block_unsat in E. assert (U : forall c l e, use_core x c l = Panic e -> e <> "fuel"%string).
      { intros c l e. unfold use_core. destruct (negb _); [|discriminate]. intros [= <-]. discriminate. }
      assert (Lp : forall todo c k e, shrink_loop check core x todo c k = Panic e -> e <> "fuel"%string).
      { induction todo as [|v todo IHt]; intros c k0 e; cbn [shrink_loop]; [discriminate|]. destruct (mem v c); [|apply IHt].
        destruct (get_core check core k0 (remove v c)); [|apply IHt]. destruct (use_core x (remove v c) v0) eqn:E1; cbn [rbind]; [apply IHt | discriminate | intros [= <-]; eapply U; eauto]. }
      destruct (get_core check core (S k) s) as [c|]; [destruct (use_core x s c) eqn:E1; cbn [rbind] in E; try discriminate|cbn [rbind] in E];
        try (injection E as <-; intros [= ->]; exact (U _ _ _ E1 eq_refl));
        match type of E with context [rbind (shrink_loop ?a ?b ?c ?d ?e ?f) _] => destruct (shrink_loop a b c d e f) eqn:E2 end; cbn [rbind] in E; try discriminate;
        injection E as <-; intros [= ->]; exact (Lp _ _ _ _ E2 eq_refl).
  - destruct (grow_block_sat check x s (S k)) as [[cur k'] x'] eqn:E. destruct (grow_ok _ _ _ _ _ _ F E) as [[C1 C2] ->].
    destruct (asserted (block_sat cur x)) as [|c l] eqn:B; [discriminate|].
    assert (B2 : c (asg s) = false).
    { cbn in B. injection B as <- <-. apply negb_false_iff, block_iff; auto. destruct F as [-> Fe -> _]. split.
      - intros v Hv. apply in_diff in Hv. destruct Hv as [H1 H2]. destruct (in_dec Nat.eq_dec v s) as [I|I]; auto. exfalso. rewrite Fe in H2. exact (H2 (C2 v H1 I)).
      - intros v Hv Q. apply in_diff in Q. destruct Q as [Q _]. apply in_diff in Q. apply (proj2 Q). auto. }
    assert (El : l = asserted x) by (cbn in B; congruence). subst l.
    apply IH; [apply fits_sat; auto; intros v Hv; destruct (in_dec Nat.eq_dec v s); auto|].
    enough (open_sets (block_sat cur x) < open_sets x) by lia. apply (open_less x _ [c] s); auto. exists c. split; [now left | exact B2].
  - destruct unk; try discriminate. apply IH; [now apply fits_this|].
    destruct (asserted (block_this s x)) as [|c l] eqn:B; [discriminate|]. assert (El : l = asserted x) by (cbn in B; congruence). subst l.
    enough (open_sets (block_this s x) < open_sets x) by lia. apply (open_less x _ [c] s); auto. exists c. split; [now left|].
    apply (this_blocks x s s F N1 N1 _ B). intros v. tauto.
Qed.
End S.
