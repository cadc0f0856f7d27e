(** The dependency graph: proofs. *)
From Coq Require Import Bool List String Relations Arith Lia Operators_Properties.
From Verif.Model Require Import Syntax Procs Recursion Depgraph.
From Verif.Spec Require Import Recursion Needs.
From Verif.Proofs Require Import RecursionProofs.
Import ListNotations.
Local Open Scope list_scope.
Local Open Scope nat_scope.
Import List.

(** * Sets *)
Lemma mem_in x l : mem x l = true <-> In x l.
Proof.
  unfold mem. rewrite existsb_exists. split.
  - intros (y & Hy & E). apply String.eqb_eq in E. subst; auto.
  - intros H. exists x. rewrite String.eqb_refl. auto.
Qed.
Lemma mem_nin x l : mem x l = false <-> ~ In x l.
Proof. rewrite <- mem_in. destruct (mem x l); split; congruence. Qed.
Lemma in_set_add y x l : In y (set_add x l) <-> y = x \/ In y l.
Proof.
  unfold set_add. destruct (mem x l) eqn:E; cbn; [|intuition].
  apply mem_in in E. split; [auto|]. intros [-> | H]; auto.
Qed.
Lemma in_set_extend y xs l : In y (set_extend xs l) <-> In y xs \/ In y l.
Proof.
  unfold set_extend. revert l. induction xs as [|x xs IH]; intros l; cbn; [tauto|].
  rewrite IH, in_set_add. intuition.
Qed.

(** * Names of expressions *)
Lemma in_fold_deps args : Forall (fun a => forall s y, In y (expr_deps a s) <-> calls y a \/ In y s) args ->
  forall s y, In y (fold_left (fun s a => expr_deps a s) args s) <->
    (fix any l := match l with [] => False | a :: l' => calls y a \/ any l' end) args \/ In y s.
Proof.
  induction 1 as [|a args Ha _ IH]; intros s y; cbn; [tauto|]. rewrite IH, Ha. tauto.
Qed.
Lemma in_expr_deps e : forall s y, In y (expr_deps e s) <-> calls y e \/ In y s.
Proof.
  induction e using expr_rect'; intros s y; cbn [expr_deps calls]; try tauto;
    repeat match goal with H : forall s y, In y (expr_deps ?e s) <-> _ |- _ => rewrite H; clear H end; try tauto.
  rewrite in_fold_deps by assumption. rewrite in_set_add. intuition.
Qed.
Lemma in_exprs_deps es : forall s y, In y (exprs_deps es s) <-> Exists (calls y) es \/ In y s.
Proof.
  unfold exprs_deps. induction es as [|e es IH]; intros s y; cbn [fold_left].
  - rewrite Exists_nil. tauto.
  - rewrite IH, in_expr_deps, Exists_cons. tauto.
Qed.

(** * The items of a file *)
Inductive ditem := IProc (p : proc) (doms : list string) | ISpec (s : dspec).
Definition unit_items (u : dunit) : list ditem :=
  match u with
  | UDecl (DeclProc p doms) => [IProc p doms]
  | UDecl (DeclDomain _ specs) => map ISpec specs
  | UDecl (DeclFunc f) => [ISpec (DFunc f)]
  | URaw _ _ => []
  end.
Definition items (us : list dunit) : list ditem := flat_map unit_items us.
Definition dg_item (g : depgraph) (i : ditem) : res depgraph :=
  match i with IProc p doms => dg_proc g p doms | ISpec s => dg_spec g s end.

Lemma items_func us f : has_func us f <-> In (ISpec (DFunc f)) (items us).
Proof.
  unfold has_func, items. rewrite in_flat_map. split.
  - intros [H | (n & specs & H & Hs)]; eexists; split; try exact H; cbn; auto. apply in_map; auto.
  - intros (u & Hu & H). destruct u as [[p doms | n specs | f'] | b doms]; cbn in H.
    + destruct H as [H | []]. discriminate.
    + apply in_map_iff in H. destruct H as (s & E & Hs). injection E as ->. right. eauto.
    + destruct H as [H | []]. injection H as ->. auto.
    + destruct H.
Qed.
Lemma items_axiom us a : has_axiom us a <-> In (ISpec (DAxiom a)) (items us).
Proof.
  unfold has_axiom, items. rewrite in_flat_map. split.
  - intros (n & specs & H & Hs). eexists; split; try exact H; cbn; auto. apply in_map; auto.
  - intros (u & Hu & H). destruct u as [[p doms | n specs | f'] | b doms]; cbn in H.
    + destruct H as [H | []]. discriminate.
    + apply in_map_iff in H. destruct H as (s & E & Hs). injection E as ->. eauto.
    + destruct H as [H | []]. discriminate.
    + destruct H.
Qed.
Lemma items_proc us p doms : has_proc us p doms <-> In (IProc p doms) (items us).
Proof.
  unfold has_proc, items. rewrite in_flat_map. split.
  - intros H. eexists; split; [exact H|]; cbn; auto.
  - intros (u & Hu & H). destruct u as [[p' doms' | n specs | f'] | b doms']; cbn in H.
    + destruct H as [H | []]. injection H as -> ->. auto.
    + apply in_map_iff in H. destruct H as (s & E & Hs). discriminate.
    + destruct H as [H | []]. discriminate.
    + destruct H.
Qed.

(** * Building the graph *)
Lemma edges_of_extend m x ds z : forall y, In y (edges_of (entry_extend m x ds) z) <-> (z = x /\ In y ds) \/ In y (edges_of m z).
Proof.
  induction m as [|[w l] m IH]; intros y; cbn [entry_extend edges_of].
  - destruct (String.eqb_spec z x); cbn; [rewrite in_set_extend; cbn|]; intuition congruence.
  - destruct (String.eqb_spec x w) as [-> | Hxw]; cbn [edges_of].
    + destruct (String.eqb_spec z w) as [-> | Hzw]; [rewrite in_set_extend|]; intuition congruence.
    + destruct (String.eqb_spec z w) as [-> | Hzw]; [intuition congruence|]. apply IH.
Qed.

(** What an item refers to. *)
Definition refers (i : ditem) (x : string) : Prop :=
  match i with
  | IProc p doms => proc_refers p doms x
  | ISpec (DFunc f) => func_refers f x
  | ISpec (DAxiom a) => axiom_refers a x
  end.
Definition iname (i : ditem) : string :=
  match i with IProc p _ => pname p | ISpec s => spec_name s end.
Definition mutual (m : axiom_instantiation) (i : ditem) : Prop :=
  match i with IProc _ _ => False | ISpec (DFunc _) => m = Bidirectional | ISpec (DAxiom _) => True end.
Definition idle (i : ditem) : Prop := match i with ISpec (DAxiom a) => forall x, ~ axiom_refers a x | _ => False end.

(** The edges of the graph of a list of items. *)
Definition edge (m : axiom_instantiation) (l : list ditem) (x y : string) : Prop :=
  exists i, In i l /\
    ((~ mutual m i /\ x = iname i /\ refers i y) \/
     (mutual m i /\ (x = iname i \/ refers i x) /\ (y = iname i \/ refers i y))).

Record built (m : axiom_instantiation) (l : list ditem) (g : depgraph) : Prop := {
  b_inst : dg_inst g = m;
  b_deps : dg_deps g = [];
  b_succ : forall x y, In y (get_successors g x) <-> edge m l x y }.

Lemma in_scc_succ sccs x y : In y (flat_map (fun c => if mem x c then c else []) sccs) <-> exists c, In c sccs /\ In x c /\ In y c.
Proof.
  rewrite in_flat_map. split.
  - intros (c & Hc & H). destruct (mem x c) eqn:E; [|destruct H]. apply mem_in in E. eauto.
  - intros (c & Hc & Hx & Hy). exists c. split; auto. apply mem_in in Hx. rewrite Hx. auto.
Qed.

Lemma edge_snoc m l i x y : edge m (l ++ [i]) x y <-> edge m l x y \/ edge m [i] x y.
Proof.
  unfold edge. split.
  - intros (j & Hj & H). apply in_app_or in Hj. destruct Hj as [Hj | Hj]; [left | right]; exists j; auto.
  - intros [(j & Hj & H) | (j & Hj & H)]; exists j; (split; [apply in_or_app; auto | exact H]).
Qed.

Lemma directed_edge m i x y : ~ mutual m i -> edge m [i] x y <-> x = iname i /\ refers i y.
Proof.
  intros Hm. unfold edge. split.
  - intros (j & [<- | []] & [(_ & H) | (H & _)]); tauto.
  - intros H. exists i. cbn. auto.
Qed.
Lemma mutual_edge m i x y : mutual m i -> edge m [i] x y <-> (x = iname i \/ refers i x) /\ (y = iname i \/ refers i y).
Proof.
  intros Hm. unfold edge. split.
  - intros (j & [<- | []] & [(H & _) | (_ & H)]); tauto.
  - intros H. exists i. cbn. auto.
Qed.

Lemma directed_built m l i g deps : ~ mutual m i -> (forall x, In x deps <-> refers i x) -> built m l g ->
  built m (l ++ [i]) (collect_directed_deps (with_deps g deps) (iname i)).
Proof.
  intros Hm Hd [H1 H2 H3]. constructor; cbn; auto. intros x y.
  rewrite edge_snoc, <- H3, directed_edge by auto. unfold get_successors; cbn.
  rewrite !in_app_iff, edges_of_extend, Hd. tauto.
Qed.
Lemma mutual_built m l i g deps : mutual m i -> (forall x, In x deps <-> refers i x) -> built m l g ->
  built m (l ++ [i]) (collect_mutual_deps (with_deps g deps) (iname i)).
Proof.
  intros Hm Hd [H1 H2 H3]. constructor; cbn; auto. intros x y.
  rewrite edge_snoc, <- H3, mutual_edge by auto. unfold get_successors; cbn.
  rewrite flat_map_app, !in_app_iff, !in_scc_succ. cbn.
  assert (E : (exists c, (set_add (iname i) deps = c \/ False) /\ In x c /\ In y c) <->
              (x = iname i \/ refers i x) /\ (y = iname i \/ refers i y)).
  { rewrite <- !Hd, <- !in_set_add. split; [intros (c & [<- | []] & H); auto | intros H; eauto]. }
  rewrite E. tauto.
Qed.

Lemma proc_deps p doms : forall x,
  In x (match pbody p with Some b => exprs_deps (block_exprs b) (exprs_deps (map spec_expr (pspecs p)) (set_extend doms []))
                         | None => exprs_deps (map spec_expr (pspecs p)) (set_extend doms []) end) <-> proc_refers p doms x.
Proof.
  intros x. unfold proc_refers.
  assert (E : Exists (calls x) (map spec_expr (pspecs p)) <->
              exists e, (In (Requires e) (pspecs p) \/ In (Ensures e) (pspecs p)) /\ calls x e).
  { rewrite Exists_exists. split.
    - intros (e & He & Hc). apply in_map_iff in He. destruct He as (s & Es & Hs). exists e. split; auto.
      destruct s; cbn in Es; subst; auto.
    - intros (e & [He | He] & Hc); exists e; split; auto; [apply (in_map spec_expr) in He | apply (in_map spec_expr) in He]; auto. }
  rewrite <- E. destruct (pbody p) as [b|].
  - rewrite !in_exprs_deps, in_set_extend. cbn. rewrite <- block_exprs_spec. split.
    + intros [H | [H | [H | []]]]; eauto.
    + intros [H | [H | (b' & Eb & H)]]; auto. injection Eb as ->. auto.
  - rewrite in_exprs_deps, in_set_extend. cbn. split.
    + intros [H | [H | []]]; auto.
    + intros [H | [H | (b' & Eb & H)]]; auto. discriminate.
Qed.

Lemma item_built m l i g : built m l g ->
  (idle i /\ exists w, dg_item g i = Err w) \/ (~ idle i /\ exists g', dg_item g i = Ok g' /\ built m (l ++ [i]) g').
Proof.
  intros B. pose proof (b_deps _ _ _ B) as Hd. destruct i as [p doms | [f | a]]; cbn [dg_item dg_spec idle].
  - right. split; [tauto|]. unfold dg_proc, assert_no_deps. rewrite Hd. eexists. split; [reflexivity|].
    apply (directed_built m l (IProc p doms) g); auto. apply proc_deps.
  - right. split; [tauto|]. unfold dg_func, assert_no_deps. rewrite Hd. cbn [with_deps dg_inst].
    rewrite (b_inst _ _ _ B).
    assert (E : forall x, In x (match df_body f with Some e => expr_deps e (set_extend (df_doms f) []) | None => set_extend (df_doms f) [] end) <->
                          refers (ISpec (DFunc f)) x).
    { intros x. cbn [refers]. unfold func_refers. destruct (df_body f) as [e|].
      - rewrite in_expr_deps, in_set_extend. cbn. split.
        + intros [H | [H | []]]; eauto.
        + intros [H | (e' & Ee & H)]; auto. injection Ee as ->. auto.
      - rewrite in_set_extend. cbn. split.
        + intros [H | []]; auto.
        + intros [H | (e' & Ee & H)]; auto. discriminate. }
    destruct m; eexists; (split; [reflexivity|]).
    + apply (mutual_built Bidirectional l (ISpec (DFunc f)) g); cbn; auto.
    + apply (directed_built Decreasing l (ISpec (DFunc f)) g); cbn; auto; discriminate.
  - unfold dg_axiom, assert_no_deps. rewrite Hd.
    assert (E : forall x, In x (expr_deps (da_expr a) (set_extend (da_doms a) [])) <-> axiom_refers a x).
    { intros x. rewrite in_expr_deps, in_set_extend. unfold axiom_refers. cbn. tauto. }
    destruct (expr_deps (da_expr a) (set_extend (da_doms a) [])) as [|y s] eqn:Es.
    + left. split; [|eauto]. intros x H. apply E in H. destruct H.
    + right. split; [intros H; apply (H y), E; cbn; auto|]. eexists. split; [reflexivity|].
      apply (mutual_built m l (ISpec (DAxiom a)) g); cbn; auto.
Qed.

Lemma items_built m l2 : forall l1 g, built m l1 g ->
  (Exists idle l2 /\ exists w, rfold dg_item l2 g = Err w) \/
  (~ Exists idle l2 /\ exists g', rfold dg_item l2 g = Ok g' /\ built m (l1 ++ l2) g').
Proof.
  induction l2 as [|i l2 IH]; intros l1 g B; cbn [rfold].
  - right. rewrite Exists_nil. split; auto. exists g. rewrite app_nil_r. auto.
  - destruct (item_built m l1 i g B) as [(Hi & w & E) | (Hi & g' & E & B')]; rewrite E; cbn [rbind].
    + left. split; eauto.
    + destruct (IH _ _ B') as [(H & H') | (H & g'' & E' & B'')]; rewrite Exists_cons; [left | right].
      * split; auto.
      * split; [tauto|]. exists g''. rewrite <- app_assoc in B''. auto.
Qed.

Lemma rfold_app {A B} (f : A -> B -> res A) l1 l2 a : rfold f (l1 ++ l2) a = rbind (rfold f l1 a) (rfold f l2).
Proof.
  revert a. induction l1 as [|x l1 IH]; intros a; cbn; auto. destruct (f a x); cbn; auto.
Qed.
Lemma rfold_map {A B C} (f : A -> C -> res A) (h : B -> C) l a : rfold f (map h l) a = rfold (fun a b => f a (h b)) l a.
Proof. revert a. induction l as [|x l IH]; intros a; cbn; auto. destruct (f a (h x)); cbn; auto. Qed.

Lemma populate_items m l u g : built m l g -> populate_depgraph g u = rfold dg_item (unit_items u) g.
Proof.
  intros B. unfold populate_depgraph, assert_no_deps. rewrite (b_deps _ _ _ B).
  destruct u as [[p doms | n specs | f] | b doms]; cbn [unit_items rfold dg_decl dg_item]; auto.
  - destruct (dg_proc g p doms); auto.
  - rewrite rfold_map. reflexivity.
  - cbn [dg_spec]. destruct (dg_func g f); auto.
Qed.

Lemma generate_items m us : forall l g, built m l g -> rfold populate_depgraph us g = rfold dg_item (items us) g.
Proof.
  unfold items. induction us as [|u us IH]; intros l g B; cbn [rfold flat_map]; auto.
  rewrite rfold_app, (populate_items m l) by auto.
  destruct (items_built m (unit_items u) l g B) as [(_ & w & E) | (_ & g' & E & B')]; rewrite E; cbn [rbind]; auto.
  eapply IH; eauto.
Qed.

Lemma empty_built m : built m [] (depgraph_new m).
Proof.
  constructor; cbn; auto. intros x y. unfold get_successors; cbn. split; [intros [] | intros (i & [] & _)].
Qed.

Theorem generated m us :
  (Exists idle (items us) /\ exists w, generate_depgraph m us = Err w) \/
  (~ Exists idle (items us) /\ exists g, generate_depgraph m us = Ok g /\ built m (items us) g).
Proof.
  unfold generate_depgraph. rewrite (generate_items m us [] _ (empty_built m)). apply (items_built m (items us) [] _ (empty_built m)).
Qed.

(** * The closure *)
Section Reach.
  Variable g : depgraph.
  Let succ x y := In y (get_successors g x).
  Definition univ (seen : list string) : list string :=
    seen ++ flat_map snd (dg_edges g) ++ List.concat (dg_scc g).
  Lemma succ_univ seen x y : succ x y -> In y (univ seen).
  Proof.
    unfold succ, get_successors, univ. rewrite !in_app_iff, in_scc_succ. intros [H | (c & Hc & _ & H)]; right; [left | right].
    - induction (dg_edges g) as [|[z l] m IH]; cbn in *; [auto|].
      destruct (String.eqb x z); apply in_or_app; auto.
    - apply in_concat. eauto.
  Qed.
  Definition unseen (U reach : list string) : nat := length (filter (fun s => negb (mem s reach)) (nodup string_dec U)).
  Lemma filter_le {A} (p q : A -> bool) l : (forall x, p x = true -> q x = true) -> length (filter p l) <= length (filter q l).
  Proof.
    intros H. induction l as [|x l IH]; cbn; auto. destruct (p x) eqn:E; [rewrite (H x E); cbn; lia | destruct (q x); cbn; lia].
  Qed.
  Lemma filter_lt {A} (p q : A -> bool) l x : (forall x, p x = true -> q x = true) -> In x l -> p x = false -> q x = true ->
    length (filter p l) < length (filter q l).
  Proof.
    intros H. induction l as [|y l IH]; cbn; [tauto|]. intros [-> | Hx] Hp Hq.
    - rewrite Hp, Hq. cbn. pose proof (filter_le p q l H). lia.
    - specialize (IH Hx Hp Hq). destruct (p y) eqn:E; [rewrite (H y E); cbn; lia | destruct (q y); cbn; lia].
  Qed.
  Lemma unseen_lt U reach x : In x U -> ~ In x reach -> unseen U (x :: reach) < unseen U reach.
  Proof.
    intros HU Hr. unfold unseen. apply filter_lt with x.
    - intros y Hy. apply negb_true_iff, mem_nin in Hy. apply negb_true_iff, mem_nin. intros H; apply Hy; right; auto.
    - apply nodup_In; auto.
    - apply negb_false_iff, mem_in. left; auto.
    - apply negb_true_iff, mem_nin; auto.
  Qed.

  Lemma loop_stops U : (forall x y, succ x y -> In y U) -> forall k work reach, unseen U reach < k -> incl work U ->
    exists N, forall n, N <= n -> exists r, reach_loop g n work reach = Some r.
  Proof.
    intros HU. induction k as [|k IHk]; intros work reach Hk Hw; [lia|].
    revert Hw. induction work as [|x work IHw]; intros Hw.
    - exists 0. intros n _. exists reach. destruct n; reflexivity.
    - destruct (mem x reach) eqn:E.
      + destruct IHw as (N & HN); [intros y Hy; apply Hw; right; auto|].
        exists (S N). intros n Hn. destruct n as [|n]; [lia|]. cbn. rewrite E. apply HN. lia.
      + apply mem_nin in E.
        assert (Hlt : unseen U (x :: reach) < k) by (pose proof (unseen_lt U reach x (Hw x (or_introl eq_refl)) E); lia).
        destruct (IHk (rev (filter (fun s => negb (mem s (x :: reach))) (get_successors g x)) ++ work) (x :: reach) Hlt) as (N & HN).
        { intros y Hy. apply in_app_or in Hy. destruct Hy as [Hy | Hy]; [|apply Hw; right; auto].
          apply in_rev, filter_In in Hy. apply (HU x). apply Hy. }
        exists (S N). intros n Hn. destruct n as [|n]; [lia|]. apply mem_nin in E. cbn [reach_loop]. rewrite E. apply HN. lia.
  Qed.

  Lemma loop_spec : forall n work reach r, reach_loop g n work reach = Some r ->
    (forall x y, In x reach -> succ x y -> In y reach \/ In y work) ->
    incl work r /\ incl reach r /\ (forall x y, In x r -> succ x y -> In y r) /\
    (forall y, In y r -> In y reach \/ exists x, In x work /\ clos_refl_trans string succ x y).
  Proof.
    induction n as [|n IH]; intros work reach r E Hc.
    - destruct work; [|discriminate]. cbn in E. injection E as <-. repeat split; auto using incl_nil_l, incl_refl.
      intros x y Hx Hs. destruct (Hc x y Hx Hs) as [H | []]; auto.
    - destruct work as [|x work]; cbn [reach_loop] in E.
      + injection E as <-. repeat split; auto using incl_nil_l, incl_refl.
        intros x y Hx Hs. destruct (Hc x y Hx Hs) as [H | []]; auto.
      + destruct (mem x reach) eqn:Em.
        * apply mem_in in Em. apply IH in E.
          -- destruct E as (H1 & H2 & H3 & H4). repeat split; auto.
             ++ intros y [<- | Hy]; auto.
             ++ intros y Hy. destruct (H4 y Hy) as [H | (z & Hz & H)]; auto. right. exists z. split; auto. right; auto.
          -- intros y z Hy Hs. destruct (Hc y z Hy Hs) as [H | [<- | H]]; auto.
        * apply IH in E.
          -- destruct E as (H1 & H2 & H3 & H4). repeat split; auto.
             ++ intros y [<- | Hy]; [apply H2; left; auto | apply H1, in_or_app; auto].
             ++ intros y Hy. apply H2; right; auto.
             ++ intros y Hy. destruct (H4 y Hy) as [[<- | H] | (z & Hz & H)]; auto.
                ** right. exists x. split; [left; auto | apply rt_refl].
                ** apply in_app_or in Hz. destruct Hz as [Hz | Hz].
                   --- apply in_rev, filter_In in Hz. right. exists x. split; [left; auto|]. apply rt_trans with z; auto.
                       apply rt_step. apply Hz.
                   --- right. exists z. split; auto. right; auto.
          -- intros y z [<- | Hy] Hs.
             ++ destruct (mem z (x :: reach)) eqn:Ez; [apply mem_in in Ez; auto|]. right. apply in_or_app. left.
                apply -> in_rev. apply filter_In. split; auto. rewrite Ez. reflexivity.
             ++ destruct (Hc y z Hy Hs) as [H | [<- | H]]; [left; right; auto | left; left; auto | right; apply in_or_app; auto].
  Qed.

  Theorem reachable_stops xs : exists N, forall n, N <= n -> exists r, get_reachable g n xs = Some r.
  Proof.
    unfold get_reachable.
    destruct (loop_stops (univ xs) (succ_univ xs) (S (unseen (univ xs) [])) (rev xs) []) as (N & HN); [lia| |eauto].
    intros y Hy. apply in_rev in Hy. apply in_or_app; auto.
  Qed.
  Theorem reachable_spec xs n r : get_reachable g n xs = Some r ->
    forall y, In y r <-> exists x, In x xs /\ clos_refl_trans string succ x y.
  Proof.
    intros E. apply loop_spec in E; [|intros x y []]. destruct E as (H1 & _ & H3 & H4).
    intros y. split.
    - intros Hy. destruct (H4 y Hy) as [[] | (x & Hx & H)]. exists x. split; auto. apply in_rev; auto.
    - intros (x & Hx & H). apply clos_rt_rtn1 in H. induction H as [|z w Hs _ IH].
      + apply H1. apply -> in_rev. auto.
      + eauto.
  Qed.
End Reach.

(** * Edges and needs *)
Lemma asks_edge m us x y : asks m us x y -> edge m (items us) x y.
Proof.
  intros H; inversion H; subst.
  - apply items_proc in H0. eexists; split; [exact H0|]. left. cbn. auto.
  - apply items_func in H0. eexists; split; [exact H0|]. destruct m; [right | left]; cbn; repeat split; auto. discriminate.
  - apply items_axiom in H0. eexists; split; [exact H0|]. right; cbn; auto.
  - apply items_axiom in H0. eexists; split; [exact H0|]. right; cbn; auto.
  - apply items_func in H1. eexists; split; [exact H1|]. right; cbn; auto.
Qed.
(** Every edge is a chain of questions. *)
Lemma edge_asks m us x y : edge m (items us) x y ->
  clos_trans string (asks m us) x y \/ (x = y /\ exists i, In i (items us) /\ mutual m i /\ x = iname i).
Proof.
  intros (i & Hi & H). destruct i as [p doms | [f | a]]; cbn in H.
  - apply items_proc in Hi. destruct H as [(_ & -> & H) | ([] & _)]. left. apply t_step. apply AskProc with doms; auto.
  - pose proof Hi as Hi'. apply items_func in Hi. destruct H as [(Hm & -> & H) | (Hm & Hx & Hy)].
    + left. apply t_step, AskFunc; auto.
    + destruct Hx as [-> | Hx], Hy as [-> | Hy].
      * right. split; auto. exists (ISpec (DFunc f)). cbn. auto.
      * left. apply t_step, AskFunc; auto.
      * left. apply t_step, AskedFunc; auto.
      * left. apply t_trans with (df_name f); apply t_step; [apply AskedFunc | apply AskFunc]; auto.
  - pose proof Hi as Hi'. apply items_axiom in Hi. destruct H as [(Hm & _) | (Hm & Hx & Hy)]; [tauto|].
    destruct Hx as [-> | Hx], Hy as [-> | Hy].
    + right. split; auto. exists (ISpec (DAxiom a)). cbn. auto.
    + left. apply t_step, AskAxiom; auto.
    + left. apply t_step, AskedAxiom; auto.
    + left. apply t_trans with (da_name a); apply t_step; [apply AskedAxiom | apply AskAxiom]; auto.
Qed.

Lemma needed_trans m us R x y : needed m us R x -> clos_trans string (asks m us) x y -> needed m us R y.
Proof.
  intros Hx H. revert Hx. induction H as [x y H | x y z _ IH1 _ IH2]; intros Hx; [eapply NeedAsk; eauto | auto].
Qed.
Lemma needed_reach m us (R : string -> Prop) y :
  needed m us R y <-> exists x, R x /\ clos_refl_trans string (edge m (items us)) x y.
Proof.
  split.
  - induction 1 as [x Hx | x y _ (r & Hr & IH) Ha].
    + exists x. split; auto. apply rt_refl.
    + exists r. split; auto. apply rt_trans with x; auto. apply rt_step, asks_edge; auto.
  - intros (x & Hx & H). apply clos_rt_rtn1 in H. induction H as [|z w Hs _ IH]; [apply NeedRoot; auto|].
    apply edge_asks in Hs. destruct Hs as [Hs | (-> & _)]; auto. eapply needed_trans; eauto.
Qed.

Lemma crt_ext (E F : string -> string -> Prop) x y : (forall x y, E x y <-> F x y) ->
  clos_refl_trans string E x y <-> clos_refl_trans string F x y.
Proof.
  intros H. split; induction 1; try solve [apply rt_refl]; try solve [eapply rt_trans; eauto]; apply rt_step, H; auto.
Qed.

Lemma starts_in u x : starts u x <-> In x (match u with UDecl d => [decl_name d] | URaw b doms => exprs_deps (block_exprs b) (set_extend doms []) end).
Proof.
  destruct u as [d | b doms]; cbn [starts].
  - cbn. intuition.
  - unfold block_refers. rewrite in_exprs_deps, in_set_extend, block_exprs_spec. cbn. tauto.
Qed.

Lemma unit_deps_eq g n u : unit_deps g n u = get_reachable g n
  (match u with UDecl d => [decl_name d] | URaw b doms => exprs_deps (block_exprs b) (set_extend doms []) end).
Proof. destruct u; reflexivity. Qed.
Theorem unit_stops g u : exists N, forall n, N <= n -> exists deps, unit_deps g n u = Some deps.
Proof.
  destruct (reachable_stops g (match u with UDecl d => [decl_name d] | URaw b doms => exprs_deps (block_exprs b) (set_extend doms []) end))
    as (N & HN). exists N. intros n Hn. rewrite unit_deps_eq. auto.
Qed.
Theorem unit_needs m us g : generate_depgraph m us = Ok g -> forall u n deps, unit_deps g n u = Some deps ->
  forall x, In x deps <-> needed m us (starts u) x.
Proof.
  intros E u n r Er. destruct (generated m us) as [(_ & w & E') | (_ & g' & E' & B)]; [congruence|].
  rewrite E in E'. injection E' as <-. rewrite unit_deps_eq in Er. intros x.
  rewrite (reachable_spec _ _ _ _ Er), needed_reach. split.
  - intros (z & Hz & H). exists z. rewrite starts_in. split; auto. eapply crt_ext; [|exact H]. intros; symmetry; apply (b_succ _ _ _ B).
  - intros (z & Hz & H). exists z. rewrite starts_in in Hz. split; auto. eapply crt_ext; [|exact H]. intros; apply (b_succ _ _ _ B).
Qed.

Theorem graph_errors m us :
  (exists a, has_axiom us a /\ forall x, ~ axiom_refers a x) /\ (exists w, generate_depgraph m us = Err w) \/
  ~ (exists a, has_axiom us a /\ forall x, ~ axiom_refers a x) /\ (exists g, generate_depgraph m us = Ok g).
Proof.
  assert (Hidle : Exists idle (items us) <-> exists a, has_axiom us a /\ forall x, ~ axiom_refers a x).
  { rewrite Exists_exists. split.
    - intros (i & Hi & H). destruct i as [p doms | [f | a]]; cbn in H; try tauto. exists a. rewrite items_axiom. auto.
    - intros (a & Ha & H). rewrite items_axiom in Ha. eexists; split; [exact Ha|]. exact H. }
  rewrite <- Hidle. destruct (generated m us) as [(H & w & E) | (H & g & E & _)]; [left | right]; eauto.
Qed.

(** * Recursion *)
Lemma succ_path E (x y : string) : (exists z, E x z /\ clos_refl_trans string E z y) <-> clos_trans string E x y.
Proof.
  split.
  - intros (z & H & H'). apply clos_rt_rtn1 in H'. induction H' as [|w v Hs _ IH]; [apply t_step; auto|].
    apply t_trans with w; auto. apply t_step; auto.
  - intros H. apply clos_trans_t1n in H. destruct H as [y H | z y H H'].
    + exists y. split; auto. apply rt_refl.
    + exists z. split; auto. apply clos_t1n_trans in H'. clear H. induction H'; [apply rt_step; auto | eapply rt_trans; eauto].
Qed.
Lemma ct_ext (E F : string -> string -> Prop) x y : (forall x y, E x y <-> F x y) ->
  clos_trans string E x y <-> clos_trans string F x y.
Proof.
  intros H. split; induction 1; try solve [eapply t_trans; eauto]; apply t_step, H; auto.
Qed.
Lemma ct_mono (E F : string -> string -> Prop) x y : (forall x y, E x y -> clos_trans string F x y) ->
  clos_trans string E x y -> clos_trans string F x y.
Proof. intros H. induction 1; [auto | eapply t_trans; eauto]. Qed.

Lemma cycle_edges m us x : clos_trans string (edge m (items us)) x x <->
  self_needed m us x \/ (exists i, In i (items us) /\ mutual m i /\ x = iname i).
Proof.
  split.
  - intros H.
    assert (G : forall x y, clos_trans string (edge m (items us)) x y ->
      clos_trans string (asks m us) x y \/ (x = y /\ exists i, In i (items us) /\ mutual m i /\ x = iname i)).
    { clear x H. induction 1 as [x y H | x y z _ IH1 _ IH2]; [apply edge_asks; auto|].
      destruct IH1 as [IH1 | (-> & H1)]; auto. destruct IH2 as [IH2 | (-> & H2)]; auto. left. eapply t_trans; eauto. }
    destruct (G _ _ H) as [G' | (_ & G')]; auto.
  - intros [H | (i & Hi & Hm & ->)].
    + revert H. apply ct_mono. intros a b Hab. apply t_step, asks_edge; auto.
    + apply t_step. exists i. split; auto.
Qed.

Theorem recursive_spec m us g : generate_depgraph m us = Ok g -> forall x, exists N, forall n, N <= n ->
  exists b, is_potentially_recursive g n x = Some b /\
    (b = true <-> self_needed m us x \/ (m = Bidirectional /\ exists f, has_func us f /\ df_name f = x)).
Proof.
  intros E x. destruct (generated m us) as [(_ & w & E') | (Hidle & g' & E' & B)]; [congruence|].
  rewrite E in E'. injection E' as <-. destruct (reachable_stops g (get_successors g x)) as (N & HN).
  exists N. intros n Hn. destruct (HN n Hn) as (r & Er). pose proof (reachable_spec _ _ _ _ Er) as Hr.
  exists (mem x r). unfold is_potentially_recursive. rewrite Er. cbn.
  split; auto. rewrite mem_in, Hr.
  change (exists z, In z (get_successors g x) /\ clos_refl_trans string (fun x y => In y (get_successors g x)) z x)
    with (exists z, (fun x y => In y (get_successors g x)) x z /\ clos_refl_trans string (fun x y => In y (get_successors g x)) z x).
  rewrite (succ_path (fun x y => In y (get_successors g x)) x x).
  rewrite (ct_ext _ (edge m (items us)) x x) by apply (b_succ _ _ _ B). rewrite cycle_edges. split.
  - intros [H | (i & Hi & Hm & ->)]; auto. destruct i as [p doms | [f | a]]; cbn in Hm; try tauto.
    + right. split; auto. exists f. rewrite items_func. auto.
    + left. assert (Hr' : exists y, axiom_refers a y).
      { destruct (expr_deps (da_expr a) (set_extend (da_doms a) [])) as [|y s] eqn:Es.
        - exfalso. apply Hidle. rewrite Exists_exists. eexists; split; [exact Hi|]. intros y [Hy | Hy].
          + assert (In y (expr_deps (da_expr a) (set_extend (da_doms a) []))) by (rewrite in_expr_deps, in_set_extend; auto).
            rewrite Es in H; auto.
          + assert (In y (expr_deps (da_expr a) (set_extend (da_doms a) []))) by (rewrite in_expr_deps; auto).
            rewrite Es in H; auto.
        - exists y. assert (H : In y (expr_deps (da_expr a) (set_extend (da_doms a) []))) by (rewrite Es; cbn; auto).
          rewrite in_expr_deps, in_set_extend in H. cbn in H. unfold axiom_refers. tauto. }
      destruct Hr' as (y & Hy). cbn. apply items_axiom in Hi.
      apply t_trans with y; apply t_step; [apply AskAxiom | apply AskedAxiom]; auto.
  - intros [H | (-> & f & Hf & <-)]; auto. right. exists (ISpec (DFunc f)). rewrite <- items_func. cbn. auto.
Qed.

Theorem self_defined_recursive m us g x : generate_depgraph m us = Ok g -> self_defined us x ->
  exists N, forall n, N <= n -> is_potentially_recursive g n x = Some true.
Proof.
  intros E H. destruct (recursive_spec m us g E x) as (N & HN). exists N. intros n Hn. destruct (HN n Hn) as (b & Eb & Hb).
  rewrite Eb. f_equal. apply Hb. left. revert H. apply ct_mono. intros a c (f & Hf & <- & Hr). apply t_step, AskFunc; auto.
Qed.

(** * What is passed on *)
Lemma in_domains us n specs : In (n, specs) (domains_of us) <-> In (UDecl (DeclDomain n specs)) us.
Proof.
  unfold domains_of. rewrite in_flat_map. split.
  - intros (u & Hu & H). destruct u as [[p doms | n' specs' | f] | b doms]; cbn in H; try tauto.
    destruct H as [H | []]. injection H as -> ->. auto.
  - intros H. eexists; split; [exact H|]. cbn; auto.
Qed.
Lemma in_specs us s : In s (flat_map snd (domains_of us)) <-> exists n specs, In (UDecl (DeclDomain n specs)) us /\ In s specs.
Proof.
  rewrite in_flat_map. split.
  - intros ((n & specs) & H & Hs). apply in_domains in H. eauto.
  - intros (n & specs & H & Hs). exists (n, specs). rewrite in_domains. auto.
Qed.
Lemma in_emitted deps us s : In s (emitted_specs deps (domains_of us)) <->
  In s (flat_map snd (domains_of us)) /\ In (spec_name s) deps.
Proof. unfold emitted_specs. rewrite filter_In, mem_in. tauto. Qed.
Lemma in_sorts deps us n specs : In (UDecl (DeclDomain n specs)) us -> In n deps -> In n (emitted_sorts deps (domains_of us)).
Proof.
  intros H Hn. unfold emitted_sorts. rewrite filter_In, mem_in. split; auto. apply in_map_iff. exists (n, specs). rewrite in_domains. auto.
Qed.

Section Emitted.
  Variables (m : axiom_instantiation) (us : list dunit) (g : depgraph) (u : dunit) (n : nat) (deps : list string).
  Hypothesis HG : generate_depgraph m us = Ok g.
  Hypothesis HU : unit_deps g n u = Some deps.
  Let D := domains_of us.

  Lemma deps_step x y : In x deps -> asks m us x y -> In y deps.
  Proof. intros Hx Ha. apply (unit_needs m us g HG u n deps HU) in Hx. apply (unit_needs m us g HG u n deps HU). eapply NeedAsk; eauto. Qed.
  Lemma deps_start x : starts u x -> In x deps.
  Proof. intros Hx. apply (unit_needs m us g HG u n deps HU). apply NeedRoot; auto. Qed.

  Let declared_emitted := passed_on us deps.
  Lemma deps_emitted x : In x deps -> declared_emitted x.
  Proof.
    intros Hx. split.
    - intros specs Hs. eapply in_sorts; eauto.
    - intros s d specs Hd Hs E. apply in_emitted. rewrite in_specs, E. eauto.
  Qed.
  Theorem spec_closed s x : In s (emitted_specs deps D) -> spec_refers s x -> declared_emitted x.
  Proof.
    intros Hs Hr. apply in_emitted in Hs. destruct Hs as (Hs & Hn). apply in_specs in Hs. destruct Hs as (d & specs & Hd & Hs).
    apply deps_emitted. apply deps_step with (spec_name s); auto. destruct s as [f | a]; cbn in *.
    - apply AskFunc; auto. right. eauto.
    - apply AskAxiom; auto. exists d, specs. auto.
  Qed.
  Theorem axiom_closed a x d specs : In (UDecl (DeclDomain d specs)) us -> In (DAxiom a) specs -> axiom_refers a x ->
    In x (emitted_sorts deps D) \/ (exists s, In s (emitted_specs deps D) /\ spec_name s = x) ->
    In (DAxiom a) (emitted_specs deps D).
  Proof.
    intros Hd Hs Hr Hx. apply in_emitted. split; [apply in_specs; eauto|]. apply deps_step with x.
    - destruct Hx as [Hx | (s & Hx & <-)].
      + unfold emitted_sorts in Hx. apply filter_In in Hx. apply mem_in, Hx.
      + apply in_emitted in Hx. apply Hx.
    - cbn. apply AskedAxiom; auto. exists d, specs. auto.
  Qed.
  Theorem unit_closed x : (match u with
                           | UDecl (DeclProc p doms) => has_proc us p doms /\ proc_refers p doms x
                           | UDecl _ => False
                           | URaw b doms => block_refers b doms x
                           end) -> declared_emitted x.
  Proof.
    intros H. apply deps_emitted.
    assert (C : starts u x \/ exists p doms, starts u (pname p) /\ has_proc us p doms /\ proc_refers p doms x).
    { clear HU. destruct u as [[p doms | d specs | f] | b doms]; try tauto. right. exists p, doms. split; auto. reflexivity. }
    destruct C as [C | (p & doms & C & Hp & Hr)]; [apply deps_start; auto|].
    apply deps_step with (pname p); [apply deps_start; auto|]. eapply AskProc; eauto.
  Qed.
  (** Also what a called procedure's declaration refers to. *)
  Theorem callee_closed p doms x : has_proc us p doms -> In (pname p) deps -> proc_refers p doms x -> declared_emitted x.
  Proof. intros Hp Hn Hr. apply deps_emitted. apply deps_step with (pname p); auto. eapply AskProc; eauto. Qed.
  Theorem emitted_needed s : In s (emitted_specs deps D) -> needed m us (starts u) (spec_name s).
  Proof. intros Hs. apply in_emitted in Hs. apply (unit_needs m us g HG u n deps HU). apply Hs. Qed.
  Theorem sorts_needed x : In x (emitted_sorts deps D) -> needed m us (starts u) x.
  Proof. intros Hx. unfold emitted_sorts in Hx. apply filter_In in Hx. apply (unit_needs m us g HG u n deps HU). apply mem_in, Hx. Qed.
End Emitted.
