(** What the collector of literal expressions collects. *)
From Coq Require Import Bool List String Arith Lia.
From Verif.Model Require Import Syntax Literals.
From Verif.Spec Require Import Sem Exprs Markers.
Import ListNotations.
Local Open Scope list_scope.

Lemma path_eqb_eq p q : path_eqb p q = true <-> p = q.
Proof. unfold path_eqb. destruct list_eq_dec; split; congruence. Qed.
Lemma p_mem_in p S : p_mem p S = true <-> In p S.
Proof.
  unfold p_mem. rewrite existsb_exists. split.
  - intros (q & H & E). apply path_eqb_eq in E. now subst.
  - intros H. exists p. split; auto. now apply path_eqb_eq.
Qed.
Lemma in_remove p q S : In q (p_remove p S) <-> In q S /\ q <> p.
Proof.
  unfold p_remove. rewrite filter_In, negb_true_iff. split; intros [H E]; split; auto.
  - intros ->. now rewrite (proj2 (path_eqb_eq p p) eq_refl) in E.
  - destruct (path_eqb p q) eqn:X; auto. apply path_eqb_eq in X. congruence.
Qed.

Section Marks.
Variables (lv : ident -> bool) (cf : string -> bool).
Notation literal := (literal lv cf).
Notation to_mark := (to_mark lv cf).

Lemma mark_root e : to_mark e [] <-> literal e = true.
Proof.
  split.
  - intros (a & E & H & _). injection E as <-. exact H.
  - intros H. exists e. repeat split; auto. intros q n b E. now destruct q.
Qed.
Lemma mark_step e n p : to_mark e (n :: p) <-> exists c, nth_error (children e) n = Some c /\ to_mark c p /\ (p = [] -> literal e = false \/ is_call e = true).
Proof.
  split.
  - intros (a & E & L & H). cbn in E. destruct (nth_error (children e) n) as [c|] eqn:C; [|discriminate]. exists c. split; auto. split.
    + exists a. repeat split; auto. intros q m b -> Eb. apply (H (n :: q) m b eq_refl). cbn. now rewrite C.
    + intros ->. exact (H [] n e eq_refl eq_refl).
  - intros (c & C & (a & E & L & H) & R). exists a. cbn. rewrite C. repeat split; auto.
    intros q m b Eq Eb. destruct q as [|k q].
    + injection Eq as <- ->. injection Eb as <-. auto.
    + injection Eq as <- ->. cbn in Eb. rewrite C in Eb. eauto.
Qed.

(** Positions below [p]; paths are stored from the leaf. *)
Definition below (p q : path) : Prop := exists r, q = r ++ p.
Lemma below_self p : below p p. Proof. now exists []. Qed.
Lemma below_cons n p q : below (n :: p) q -> below p q.
Proof. intros (r & ->). exists (r ++ [n]). now rewrite <- app_assoc. Qed.
Lemma below_apart n m p q : below (n :: p) q -> below (m :: p) q -> n = m.
Proof.
  intros (r & ->) (r' & E).
  change (n :: p) with ([n] ++ p) in E. change (m :: p) with ([m] ++ p) in E. rewrite !app_assoc in E.
  apply app_inv_tail in E. now apply app_inj_tail in E.
Qed.
Lemma below_neq n p : ~ below (n :: p) p.
Proof. intros (r & E). apply (f_equal (@List.length nat)) in E. rewrite app_length in E. cbn in E. lia. Qed.

(** The marks of [e] at [p] *)
Definition marks_at (p : path) (e : expr) (q : path) : Prop := exists r, q = rev r ++ p /\ to_mark e r.
Definition kid_marks (p : path) (k : nat) (l : list expr) (q : path) : Prop :=
  exists i c, nth_error l i = Some c /\ marks_at ((k + i) :: p) c q.

Lemma marks_below p e q : marks_at p e q -> below p q.
Proof. intros (r & -> & _). now exists (rev r). Qed.
Lemma marks_root p e : marks_at p e p <-> literal e = true.
Proof.
  rewrite <- mark_root. split.
  - intros (r & E & H). apply (f_equal (@List.length nat)) in E as L. rewrite app_length, rev_length in L. destruct r; [exact H|cbn in L; lia].
  - intros H. now exists [].
Qed.
(** Marks of an expression: itself, and the marks of its children minus those that it subsumes. *)
Lemma marks_split p e q : marks_at p e q <->
  (q = p /\ literal e = true) \/
  (kid_marks p 0 (children e) q /\ ((exists n, q = n :: p) -> literal e = false \/ is_call e = true)).
Proof.
  split.
  - intros (r & -> & H). destruct r as [|n r].
    + left. split; auto. now apply mark_root.
    + right. apply mark_step in H. destruct H as (c & C & H & R). split.
      * exists n, c. split; auto. exists r. split; auto. cbn. now rewrite <- app_assoc.
      * intros (m & E). apply R. cbn in E. rewrite <- app_assoc in E. cbn in E.
        apply (f_equal (@List.length nat)) in E. rewrite app_length, rev_length in E. cbn in E. destruct r; auto. cbn in E. lia.
  - intros [[-> H] | [(n & c & C & (r & -> & H)) R]].
    + exists []. split; auto. now apply mark_root.
    + exists (n :: r). cbn. rewrite <- app_assoc. split; auto. apply mark_step. exists c. repeat split; auto.
      intros ->. apply R. now exists n.
Qed.

Definition collects (e : expr) : Prop := forall p S, no_subst e = true -> (forall q, In q S -> ~ below p q) ->
  exists S', visit_lits lv cf p e S = Ok S' /\ forall q, In q S' <-> In q S \/ marks_at p e q.

Notation visit_all p := (fix go n l S := match l with
                 | [] => Ok S
                 | a :: l => let? S := visit_lits lv cf (n :: p) a S in go (Datatypes.S n) l S
                 end).
Lemma visit_kids p l : Forall collects l -> Forall (fun a => no_subst a = true) l -> forall k S,
  (forall q n, In q S -> k <= n -> ~ below (n :: p) q) ->
  exists S', visit_all p k l S = Ok S' /\ forall q, In q S' <-> In q S \/ kid_marks p k l q.
Proof.
  intros HC HN. induction l as [|a l IH]; intros k S Hd.
  - exists S. split; auto. intros q. split; auto. intros [H|(i & c & C & _)]; auto. destruct i; discriminate.
  - inversion_clear HC. inversion_clear HN.
    destruct (H (k :: p) S H1 (fun q Hq => Hd q k Hq (le_n k))) as (S1 & E1 & M1).
    destruct (IH H0 H2 (Datatypes.S k) S1) as (S2 & E2 & M2).
    { intros q n Hq Hn B. apply M1 in Hq. destruct Hq as [Hq|Hq]; [exact (Hd q n Hq ltac:(lia) B)|].
      apply marks_below in Hq. pose proof (below_apart _ _ _ _ Hq B). lia. }
    exists S2. rewrite E1. split; [exact E2|]. intros q. rewrite M2, M1. split.
    + intros [[X|X]|(i & c & C & X)]; auto.
      * right. exists 0, a. split; auto. now rewrite Nat.add_0_r.
      * right. exists (Datatypes.S i), c. split; auto. now rewrite Nat.add_succ_r.
    + intros [X|(i & c & C & X)]; auto. destruct i as [|i].
      * injection C as <-. rewrite Nat.add_0_r in X. auto.
      * right. exists i, c. split; auto. now rewrite Nat.add_succ_r in X.
Qed.
Lemma kid_lit p l k n c : nth_error l n = Some c -> kid_marks p k l ((k + n) :: p) <-> literal c = true.
Proof.
  intros C. split.
  - intros (i & c' & C' & H). pose proof (marks_below _ _ _ H) as B.
    pose proof (below_apart _ _ _ _ B (below_self _)) as E. replace i with n in * by lia. rewrite C in C'. injection C' as <-. now apply marks_root in H.
  - intros H. exists n, c. split; auto. now apply marks_root.
Qed.
Lemma kid_fresh p S n : (forall q, In q S -> ~ below p q) -> ~ In (n :: p) S.
Proof. intros H X. apply (H _ X). now exists [n]. Qed.
Lemma kid_not_self p k l : ~ kid_marks p k l p.
Proof. intros (i & c & _ & H). apply marks_below in H. now apply below_neq in H. Qed.
Lemma kid_range p k l n : kid_marks p k l (n :: p) -> exists i, n = k + i /\ i < List.length l.
Proof.
  intros (i & c & C & H). apply marks_below in H. pose proof (below_apart _ _ _ _ H (below_self _)). exists i.
  split; [lia|]. apply nth_error_Some. congruence.
Qed.

(** Leaving the children of a literal expression out of the set. *)
Fixpoint remove_kids (p : path) (n : nat) (S : pset) : pset :=
  match n with 0 => S | Datatypes.S n => p_remove (n :: p) (remove_kids p n S) end.
Lemma in_remove_kids p n S q : In q (remove_kids p n S) <-> In q S /\ forall i, i < n -> q <> i :: p.
Proof.
  induction n; cbn; [split; [intros H; split; auto; intros; lia|tauto]|].
  rewrite in_remove, IHn. split.
  - intros [[H H1] H2]. split; auto. intros i Hi. destruct (Nat.eq_dec i n); [now subst|apply H1; lia].
  - intros [H H1]. split; [split|]; auto.
Qed.

(** The step after the children, for expressions other than calls. *)
Lemma after_kids p e S S' (lits : bool) : is_call e = false -> (forall q, In q S -> ~ below p q) ->
  (forall q, In q S' <-> In q S \/ kid_marks p 0 (children e) q) -> lits = literal e ->
  forall q, In q (if lits then remove_kids p (List.length (children e)) (p_insert p S') else S') <-> In q S \/ marks_at p e q.
Proof.
  intros NC Hd HM -> q. rewrite marks_split. destruct (literal e) eqn:L.
  - rewrite in_remove_kids. unfold p_insert. cbn [In]. rewrite HM. split.
    + intros [[<-|[X|X]] R]; auto. right. right. split; auto. intros (n & ->). exfalso.
      destruct (kid_range _ _ _ _ X) as (i & -> & Hi). exact (R i Hi eq_refl).
    + intros [X|[[-> _]|[X R]]].
      * split; auto. intros i _ ->. exact (kid_fresh _ _ _ Hd X).
      * split; auto. intros i _ E. apply (f_equal (@List.length nat)) in E. cbn in E. lia.
      * split; auto. intros i _ ->. destruct R as [R|R]; [now exists i|congruence|congruence].
  - rewrite HM. intuition congruence.
Qed.

Lemma mem_kid p S S' l n c : (forall q, In q S -> ~ below p q) -> (forall q, In q S' <-> In q S \/ kid_marks p 0 l q) ->
  nth_error l n = Some c -> p_mem (n :: p) S' = literal c.
Proof.
  intros Hd HM C. apply eq_iff_eq_true. rewrite p_mem_in, HM, <- (kid_lit p l 0 n c C). cbn. split; [intros [X|X]; auto|auto].
  now apply kid_fresh in X.
Qed.

Lemma all_collect e : collects e.
Proof.
  induction e as [x|t f args IH|t c a b IHc IHa IHb|t op a b IHa IHb|t op a IHa|t a IHa|op xs a IHa|x b a IHb IHa|t l] using expr_rect'; intros p S HN Hd.
  - eexists. split; [reflexivity|]. intros q. rewrite marks_split. cbn. destruct (lv x) eqn:L; cbn.
    + split; [intros [<-|X]; auto|]. intros [X|[[-> _]|[(i & c & C & _) _]]]; auto. destruct i; discriminate.
    + split; auto. intros [X|[[_ X]|[(i & c & C & _) _]]]; auto; [discriminate|destruct i; discriminate].
  - assert (NA : Forall (fun a => no_subst a = true) args).
    { unfold no_subst in HN. cbn in HN. rewrite negb_true_iff in HN. apply Forall_forall. intros a Ha. unfold no_subst. apply negb_true_iff.
      destruct (some _ a) eqn:X; auto. rewrite <- HN. symmetry. apply existsb_exists. eauto. }
    destruct (visit_kids p args IH NA 0 S) as (S1 & E1 & M1).
    { intros q n Hq _ B. apply (Hd q Hq). now apply below_cons in B. }
    eexists. split; [cbn [visit_lits]; rewrite E1; reflexivity|].
    assert (EL : forallb (fun n => p_mem (n :: p) S1) (seq 0 (List.length args)) = forallb literal args).
    { apply eq_iff_eq_true. rewrite !forallb_forall. split.
      - intros H a Ha. destruct (In_nth_error _ _ Ha) as (n & C). rewrite <- (mem_kid p S S1 args n a Hd M1 C). apply H. apply in_seq.
        split; [lia|]. apply nth_error_Some. congruence.
      - intros H n Hn. apply in_seq in Hn. destruct (nth_error args n) as [a|] eqn:C; [|apply nth_error_None in C; lia].
        rewrite (mem_kid p S S1 args n a Hd M1 C). apply H. eapply nth_error_In; eauto. }
    rewrite EL. intros q. rewrite marks_split. cbn [literal Markers.literal children is_call].
    destruct (cf f && forallb literal args) eqn:L.
    + unfold p_insert. cbn [In]. rewrite M1. intuition (subst; auto).
    + rewrite M1. intuition congruence.
  - unfold no_subst in HN. cbn in HN. rewrite !negb_orb, !andb_true_iff in HN. destruct HN as [[N1 N2] N3].
    destruct (visit_kids p [c; a; b] ltac:(auto) ltac:(auto) 0 S) as (S1 & E1 & M1).
    { intros q n Hq _ B. apply (Hd q Hq). now apply below_cons in B. }
    cbn [visit_lits]. cbn in E1.
    destruct (visit_lits lv cf (0 :: p) c S) as [Sc| |]; try discriminate. cbn in E1 |- *.
    destruct (visit_lits lv cf (1 :: p) a Sc) as [Sa| |]; try discriminate. cbn in E1 |- *.
    destruct (visit_lits lv cf (2 :: p) b Sa) as [Sb| |]; try discriminate. cbn in E1 |- *. injection E1 as ->.
    eexists. split; [reflexivity|].
    apply (after_kids p (EIte t c a b) S S1); auto.
    cbn. now rewrite (mem_kid p S S1 [c;a;b] 0 c Hd M1 eq_refl), (mem_kid p S S1 [c;a;b] 1 a Hd M1 eq_refl), (mem_kid p S S1 [c;a;b] 2 b Hd M1 eq_refl).
  - unfold no_subst in HN. cbn in HN. rewrite !negb_orb, !andb_true_iff in HN. destruct HN as [N1 N2].
    destruct (visit_kids p [a; b] ltac:(auto) ltac:(auto) 0 S) as (S1 & E1 & M1).
    { intros q n Hq _ B. apply (Hd q Hq). now apply below_cons in B. }
    cbn [visit_lits]. cbn in E1.
    destruct (visit_lits lv cf (0 :: p) a S) as [Sa| |]; try discriminate. cbn in E1 |- *.
    destruct (visit_lits lv cf (1 :: p) b Sa) as [Sb| |]; try discriminate. cbn in E1 |- *. injection E1 as ->.
    eexists. split; [reflexivity|].
    apply (after_kids p (EBin t op a b) S S1); auto.
    cbn. now rewrite (mem_kid p S S1 [a;b] 0 a Hd M1 eq_refl), (mem_kid p S S1 [a;b] 1 b Hd M1 eq_refl).
  - destruct (visit_kids p [a] ltac:(auto) ltac:(auto) 0 S) as (S1 & E1 & M1).
    { intros q n Hq _ B. apply (Hd q Hq). now apply below_cons in B. }
    cbn [visit_lits]. cbn in E1.
    destruct (visit_lits lv cf (0 :: p) a S) as [Sa| |]; try discriminate. cbn in E1 |- *. injection E1 as ->.
    eexists. split; [reflexivity|].
    apply (after_kids p (EUn t op a) S S1); auto.
    cbn. now rewrite (mem_kid p S S1 [a] 0 a Hd M1 eq_refl).
  - destruct (visit_kids p [a] ltac:(auto) ltac:(auto) 0 S) as (S1 & E1 & M1).
    { intros q n Hq _ B. apply (Hd q Hq). now apply below_cons in B. }
    cbn [visit_lits]. cbn in E1.
    destruct (visit_lits lv cf (0 :: p) a S) as [Sa| |]; try discriminate. cbn in E1 |- *. injection E1 as ->.
    eexists. split; [reflexivity|].
    apply (after_kids p (ECast t a) S S1); auto.
    cbn. now rewrite (mem_kid p S S1 [a] 0 a Hd M1 eq_refl).
  - destruct (visit_kids p [a] ltac:(auto) ltac:(auto) 0 S) as (S1 & E1 & M1).
    { intros q n Hq _ B. apply (Hd q Hq). now apply below_cons in B. }
    cbn [visit_lits]. cbn in E1.
    destruct (visit_lits lv cf (0 :: p) a S) as [Sa| |]; try discriminate. cbn in E1 |- *. injection E1 as ->.
    eexists. split; [reflexivity|].
    exact (after_kids p (EQuant op xs a) S S1 false eq_refl Hd M1 eq_refl).
  - discriminate HN.
  - eexists. split; [reflexivity|]. intros q. rewrite marks_split. cbn.
    split; [intros [<-|X]; auto|]. intros [X|[[-> _]|[(i & c & C & _) _]]]; auto. destruct i; discriminate.
Qed.

(** The collected set is exactly the right one. *)
Lemma collected_exactly e sv sf : sv || sf = true -> no_subst e = true -> exists S, collect_literals lv cf sv sf e = Ok S /\ forall p, p_mem (rev p) S = true <-> to_mark e p.
Proof.
  intros Hs HN. destruct (all_collect e [] [] HN) as (S & E & M); [intros q []|].
  exists S. unfold collect_literals. rewrite Hs. split; [exact E|]. intros p. rewrite p_mem_in, M. split.
  - intros [[]|(r & Er & H)]. rewrite app_nil_r in Er. apply (f_equal (@rev nat)) in Er. rewrite !rev_involutive in Er. now subst.
  - intros H. right. exists p. now rewrite app_nil_r.
Qed.

Definition subst_msg := "cannot determine literal subexpressions in expressions with substitutions"%string.
Lemma visit_total e : forall p S, if no_subst e then exists S', visit_lits lv cf p e S = Ok S' else visit_lits lv cf p e S = Panic subst_msg.
Proof.
  induction e as [x|t f args IH|t c a b IHc IHa IHb|t op a b IHa IHb|t op a IHa|t a IHa|op xs a IHa|x b a IHb IHa|t l] using expr_rect'; intros p S;
    cbn [visit_lits].
  - cbn. eauto.
  - replace (no_subst (ECall t f args)) with (forallb no_subst args).
    2:{ unfold no_subst. cbn. clear. induction args as [|a l IH]; cbn; auto. now rewrite IH, negb_orb. }
    assert (G : forall k S, if forallb no_subst args then exists S', visit_all p k args S = Ok S' else visit_all p k args S = Panic subst_msg).
    { clear S. induction args as [|a l IHl]; intros k S; cbn; [eauto|]. inversion_clear IH. specialize (H (k :: p) S). specialize (IHl H0).
      destruct (no_subst a); cbn; [|now rewrite H]. destruct H as (S' & ->). cbn. apply IHl. }
    specialize (G 0 S). destruct (forallb no_subst args); [destruct G as (S' & ->)|rewrite G]; cbn; eauto.
  - replace (no_subst (EIte t c a b)) with (no_subst c && no_subst a && no_subst b) by (unfold no_subst; cbn; now rewrite !negb_orb).
    specialize (IHc (0 :: p) S). destruct (no_subst c); cbn [andb]; [destruct IHc as (S1 & ->)|now rewrite IHc]. cbn [rbind].
    specialize (IHa (1 :: p) S1). destruct (no_subst a); cbn [andb]; [destruct IHa as (S2 & ->)|now rewrite IHa]. cbn [rbind].
    specialize (IHb (2 :: p) S2). destruct (no_subst b); cbn [andb]; [destruct IHb as (S3 & ->)|now rewrite IHb]. cbn [rbind]. eauto.
  - replace (no_subst (EBin t op a b)) with (no_subst a && no_subst b) by (unfold no_subst; cbn; now rewrite !negb_orb).
    specialize (IHa (0 :: p) S). destruct (no_subst a); cbn [andb]; [destruct IHa as (S2 & ->)|now rewrite IHa]. cbn [rbind].
    specialize (IHb (1 :: p) S2). destruct (no_subst b); cbn [andb]; [destruct IHb as (S3 & ->)|now rewrite IHb]. cbn [rbind]. eauto.
  - change (no_subst (EUn t op a)) with (no_subst a). specialize (IHa (0 :: p) S). destruct (no_subst a); [destruct IHa as (S2 & ->)|now rewrite IHa]. cbn. eauto.
  - change (no_subst (ECast t a)) with (no_subst a). specialize (IHa (0 :: p) S). destruct (no_subst a); [destruct IHa as (S2 & ->)|now rewrite IHa]. cbn. eauto.
  - change (no_subst (EQuant op xs a)) with (no_subst a). specialize (IHa (0 :: p) S). destruct (no_subst a); [destruct IHa as (S2 & ->)|now rewrite IHa]. cbn. eauto.
  - change (no_subst (ESubst x b a)) with false.
    specialize (IHb (0 :: p) S). destruct (no_subst b); [destruct IHb as (S2 & ->)|now rewrite IHb]. cbn [rbind].
    specialize (IHa (1 :: p) S2). destruct (no_subst a); [destruct IHa as (S3 & ->)|now rewrite IHa]. reflexivity.
  - cbn. eauto.
Qed.
Lemma collect_panics e some_var some_fun w : collect_literals lv cf some_var some_fun e = Panic w <-> some_var || some_fun = true /\ no_subst e = false /\ w = subst_msg.
Proof.
  unfold collect_literals. pose proof (visit_total e [] []) as H. destruct (some_var || some_fun); [|split; [discriminate|intros [X _]; discriminate]].
  destruct (no_subst e).
  - destruct H as (S & ->). split; [discriminate|intros (_ & X & _); discriminate].
  - rewrite H. split; [intros X; injection X as <-; auto|intros (_ & _ & ->); auto].
Qed.

(** Literal expressions have the same value in states that agree on the known variables. *)
Lemma literal_value I e : literal e = true -> forall s s', (forall x, lv x = true -> s x = s' x) -> eval I e s = eval I e s'.
Proof.
  induction e as [x|t f args IH|t c a b IHc IHa IHb|t op a b IHa IHb|t op a IHa|t a IHa|op xs a IHa|x b a IHb IHa|t l] using expr_rect';
    cbn; intros HL s s' Hs; try discriminate.
  - auto.
  - apply andb_prop in HL. destruct HL as [_ HL]. f_equal. apply map_ext_in. intros a Ha. rewrite Forall_forall in IH. rewrite forallb_forall in HL. eauto.
  - rewrite !andb_true_iff in HL. destruct HL as [[L1 L2] L3]. now rewrite (IHc L1 s s' Hs), (IHa L2 s s' Hs), (IHb L3 s s' Hs).
  - rewrite !andb_true_iff in HL. destruct HL as [L1 L2]. now rewrite (IHa L1 s s' Hs), (IHb L2 s s' Hs).
  - now rewrite (IHa HL s s' Hs).
  - now rewrite (IHa HL s s' Hs).
  - reflexivity.
Qed.
End Marks.
