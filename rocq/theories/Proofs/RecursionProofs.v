(** The recursion checker finds exactly the procedures that reach themselves. *)
From Coq Require Import Bool List String Arith Lia Relations Classical.
From Verif.Model Require Import Syntax Procs Encode Recursion.
From Verif.Spec Require Import Eur Sem Wp Recursion.
From Verif.Proofs Require Import EurLemmas SemLemmas SimLemmas.
Import ListNotations.
Local Open Scope nat_scope.
Local Open Scope list_scope.

Lemma existsb_eqb x l : existsb (String.eqb x) l = true <-> In x l.
Proof.
  rewrite existsb_exists. split.
  - intros (y & H & E). apply String.eqb_eq in E. now subst.
  - intros H. exists x. split; auto. apply String.eqb_refl.
Qed.

(** * Expressions of statements *)
Lemma some_block_eq P b : (fix block b := match b with [] => False | s :: b' => some_expr P s \/ block b' end) b <-> Exists (some_expr P) b.
Proof.
  induction b as [|s b IH].
  - rewrite Exists_nil. tauto.
  - rewrite Exists_cons, <- IH. tauto.
Qed.
Lemma stmt_exprs_spec P s : some_expr P s <-> Exists P (stmt_exprs s).
Proof.
  assert (HB : forall b, Forall (fun s => some_expr P s <-> Exists P (stmt_exprs s)) b ->
               (Exists (some_expr P) b <-> Exists P (flat_map stmt_exprs b))).
  { induction 1 as [|s0 b H0 H IH]; cbn [flat_map].
    - rewrite !Exists_nil. tauto.
    - rewrite Exists_cons, Exists_app, IH, H0. tauto. }
  assert (H1 : forall e, P e <-> Exists P [e]) by (intros e; rewrite Exists_cons, Exists_nil; tauto).
  induction s using stmt_rect'; cbn [some_expr stmt_exprs]; try rewrite !some_block_eq; try rewrite Exists_nil;
    try rewrite !Exists_cons; try rewrite !Exists_app; try rewrite <- ?HB by auto; try rewrite !Exists_nil; try tauto; auto.
  - match goal with |- context [match ?o with Some _ => _ | None => _ end] => destruct o end; auto. rewrite Exists_nil. tauto.
Qed.
Lemma block_exprs_spec P b : some_expr_block P b <-> Exists P (block_exprs b).
Proof.
  unfold some_expr_block, block_exprs. induction b as [|s b IH]; cbn [flat_map].
  - rewrite !Exists_nil. tauto.
  - rewrite Exists_cons, Exists_app, IH, stmt_exprs_spec. tauto.
Qed.

Lemma rfold_inv {A B} (f : A -> B -> res A) (P : list B -> A -> Prop) :
  (forall done x a a', P done a -> f a x = Ok a' -> P (done ++ [x]) a') ->
  forall l done a r, P done a -> rfold f l a = Ok r -> P (done ++ l) r.
Proof.
  intros H. induction l as [|x l IH]; intros done a r Ha E; cbn [rfold] in E.
  - inversion E; subst. now rewrite app_nil_r.
  - apply rbind_ok in E. destruct E as (a' & E1 & E2). replace (done ++ x :: l) with ((done ++ [x]) ++ l) by (now rewrite <- app_assoc).
    eapply IH; eauto.
Qed.

Section Graph.
  Variables (T : rtcx) (ps : list cproc).
  (** The declarations are those of the module (name resolution). *)
  Definition declared : Prop :=
    NoDup (map (fun p => pname (cp_proc p)) ps) /\
    (forall p, In p ps -> T (pname (cp_proc p)) = Some (RProc p)) /\
    (forall f p, T f = Some (RProc p) -> In p ps /\ pname (cp_proc p) = f).
  Definition resolved : Prop :=
    forall p b, In p ps -> pbody (cp_proc p) = Some b -> Forall (fun e => match e with ECall _ f _ => T f <> None | _ => True end) (block_exprs b).
  Definition directed : Prop :=
    forall p b, In p ps -> pbody (cp_proc p) = Some b -> Forall (direct (map cp_proc ps)) (block_exprs b).
  Notation prg := (map cp_proc ps).

  (** An edge that a body gives rise to. *)
  Definition edge_of (cur : string) (es : list expr) (e : string * string) : Prop :=
    snd e = cur /\ exists t f args p, In (ECall t f args) es /\ T f = Some (RProc p) /\ fst e = pname (cp_proc p).
  Definition nodes_ok (g : cgraph) : Prop := forall x, In x (cg_nodes g) <-> exists e, In e (cg_edges g) /\ (x = fst e \/ x = snd e).

  Lemma get_node_in g x y : In y (cg_nodes (get_node g x)) <-> In y (cg_nodes g) \/ y = x.
  Proof.
    unfold get_node. destruct (existsb (String.eqb x) (cg_nodes g)) eqn:E; cbn [cg_nodes].
    - apply existsb_eqb in E. split; auto. intros [H| ->]; auto.
    - rewrite in_app_iff. cbn [In]. intuition.
  Qed.
  Lemma get_node_edges g x : cg_edges (get_node g x) = cg_edges g.
  Proof. unfold get_node. destruct (existsb _ _); auto. Qed.

  Lemma cg_expr_spec cur g e g' : cg_expr T cur g e = Ok g' ->
    (nodes_ok g -> nodes_ok g') /\ forall d, In d (cg_edges g') <-> In d (cg_edges g) \/ edge_of cur [e] d.
  Proof.
    intros E. assert (N : forall r, (forall t f args p, e = ECall t f args -> T f = Some (RProc p) -> False) -> r = g -> g' = r ->
      (nodes_ok g -> nodes_ok g') /\ forall d, In d (cg_edges g') <-> In d (cg_edges g) \/ edge_of cur [e] d).
    { intros r Hn -> ->. split; auto. intros d. split; auto. intros [H|(_ & t & f & args & p & [H|[]] & H2 & _)]; auto. exfalso. eapply Hn; eauto. }
    destruct e; cbn [cg_expr] in E; try (inversion E; subst; eapply N; eauto; intros; discriminate).
    destruct (T f) as [[p| |]|] eqn:ET; try discriminate; try (inversion E; subst; eapply N; eauto; intros ? ? ? ? [= _ <- _]; congruence).
    inversion E; subst; clear E N. split.
    - intros HN x. cbn [cg_nodes cg_edges]. rewrite !get_node_in, !get_node_edges. rewrite (HN x). setoid_rewrite in_app_iff. cbn [In]. split.
      + intros [[(d & H1 & H2)| ->]| ->]; eauto; exists (pname (cp_proc p), cur); cbn; auto.
      + intros (d & [H1|[<-|[]]] & H2); eauto. cbn in H2. tauto.
    - intros d. cbn [cg_edges]. rewrite !get_node_edges, in_app_iff. cbn [In]. split.
      + intros [H|[<-|[]]]; auto. right. split; auto. exists t, f, args, p. cbn; auto.
      + intros [H|(H1 & t' & f' & args' & p' & [H|[]] & H2 & H3)]; auto. right; left. inversion H; subst. rewrite ET in H2. inversion H2; subst.
        destruct d; cbn in *; now subst.
  Qed.
  Lemma cg_exprs_spec cur es g g' : rfold (cg_expr T cur) es g = Ok g' ->
    (nodes_ok g -> nodes_ok g') /\ forall d, In d (cg_edges g') <-> In d (cg_edges g) \/ edge_of cur es d.
  Proof.
    intros E. refine (rfold_inv (cg_expr T cur) (fun es g' => (nodes_ok g -> nodes_ok g') /\ forall d, In d (cg_edges g') <-> In d (cg_edges g) \/ edge_of cur es d) _ es [] g g' _ E).
    - intros done x a a' [H1 H2] Ex. apply cg_expr_spec in Ex. destruct Ex as [H3 H4]. split; auto. intros d. rewrite H4, H2.
      unfold edge_of. setoid_rewrite in_app_iff. split.
      + intros [[?|(? & t & f & args & p & ? & ? & ?)]|(? & t & f & args & p & ? & ? & ?)]; auto; right; split; auto; exists t, f, args, p; auto.
      + intros [?|(? & t & f & args & p & [?|?] & ? & ?)]; auto; [left; right|right]; split; auto; exists t, f, args, p; auto.
    - split; auto. intros d. split; auto. intros [H|(_ & t & f & args & p & [] & _)]; auto.
  Qed.
  Definition graph_ok (qs : list cproc) (g : cgraph) : Prop :=
    nodes_ok g /\ forall d, In d (cg_edges g) <-> exists p b, In p qs /\ pbody (cp_proc p) = Some b /\ edge_of (pname (cp_proc p)) (block_exprs b) d.
  Lemma call_graph_spec g : call_graph T ps = Ok g -> graph_ok ps g.
  Proof.
    intros E. refine (rfold_inv (cg_proc T) graph_ok _ ps [] (mkcg [] []) g _ E).
    - intros done p a a' [HN H1] Ep. unfold cg_proc in Ep. destruct (pbody (cp_proc p)) as [b|] eqn:EB.
      + apply cg_exprs_spec in Ep. destruct Ep as [HN' H2]. split; auto. intros d. rewrite H2, H1. setoid_rewrite in_app_iff. split.
        * intros [(q & c & ? & ? & ?)|?]; [exists q, c; auto | exists p, b; cbn; auto].
        * intros (q & c & [?|[<-|[]]] & ? & ?); [left; exists q, c; auto|]. right. congruence.
      + inversion Ep; subst. split; auto. intros d. rewrite H1. setoid_rewrite in_app_iff. split.
        * intros (q & c & ? & ? & ?); exists q, c; auto.
        * intros (q & c & [?|[<-|[]]] & ? & ?); [exists q, c; auto | congruence].
    - split; cbn.
      + intros x. split; [intros [] | intros (d & [] & _)].
      + intros d. split; [intros [] | intros (q & c & [] & _)].
  Qed.
  Lemma call_graph_total : resolved -> exists g, call_graph T ps = Ok g.
  Proof.
    unfold resolved, call_graph. generalize (mkcg [] []). induction ps as [|p qs IH]; intros g H; cbn [rfold]; eauto.
    assert (E : exists g', cg_proc T g p = Ok g').
    { unfold cg_proc. destruct (pbody (cp_proc p)) as [b|] eqn:EB; eauto. specialize (H p b (or_introl eq_refl) EB). clear - H. revert g.
      induction H as [|e es He Hes IH]; intros g; cbn [rfold]; eauto.
      assert (E : exists g', cg_expr T (pname (cp_proc p)) g e = Ok g').
      { destruct e; cbn [cg_expr]; eauto. destruct (T f) as [[]|]; eauto. congruence. }
      destruct E as [g' ->]. cbn [rbind]. apply IH. }
    destruct E as [g' ->]. cbn [rbind]. apply IH. intros q b Hq Hb. apply (H q b); auto. now right.
  Qed.

  Definition gedge (g : cgraph) (x y : string) : Prop := In (x, y) (cg_edges g).
  Lemma gedge_calls g : declared -> directed -> call_graph T ps = Ok g -> forall x y, gedge g x y <-> calls_proc prg y x.
  Proof.
    intros (ND & HT1 & HT2) HD E x y. apply call_graph_spec in E. destruct E as [_ E]. unfold gedge. rewrite E. unfold edge_of. cbn [fst snd]. split.
    - intros (p & b & Hp & Hb & -> & t & f & args & q & Hin & Hq & ->). destruct (HT2 _ _ Hq) as [Hq1 Hq2]. split.
      + exists (cp_proc q). split; auto. now apply in_map.
      + exists (cp_proc p), b. repeat split; auto; [now apply in_map|]. apply block_exprs_spec. apply Exists_exists. eexists. split; [exact Hin|].
        cbn [calls]. left. congruence.
    - intros ((q & Hq & Eq) & p & b & Hp & Ep & Hb & Hs). apply in_map_iff in Hp. destruct Hp as (p0 & <- & Hp). apply in_map_iff in Hq. destruct Hq as (q0 & <- & Hq).
      exists p0, b. split; auto. split; auto. split; auto. apply block_exprs_spec in Hs. apply Exists_exists in Hs. destruct Hs as (e & He & Hc).
      specialize (HD p0 b Hp Hb). rewrite Forall_forall in HD. specialize (HD e He).
      assert (Px : is_proc prg x) by (exists (cp_proc q0); split; auto; now apply in_map).
      destruct e; try (exfalso; eapply HD; eauto; fail). cbn [calls direct] in *. destruct Hc as [->|Hc].
      + exists t, f, args, q0. split; auto. split; [rewrite <- Eq; now apply HT1 | auto].
      + exfalso. clear He. induction HD as [|a l Ha Hl IH]; [destruct Hc|]. destruct Hc as [Hc|Hc]; [eapply Ha; eauto | auto].
  Qed.
End Graph.

(** * Components *)
Section Blame.
  Variable g : cgraph.
  Lemma known_in m x : known m x = true <-> In x (map fst m).
  Proof.
    unfold known. rewrite existsb_exists, in_map_iff. split.
    - intros (p & H & E). apply String.eqb_eq in E. exists p; auto.
    - intros (p & H & E). exists p. split; auto. subst x. apply String.eqb_refl.
  Qed.
  (** Blame entries: a call between members of a component. *)
  Definition blame_ok (scc : list string) (x n : string) : Prop := gedge g n x /\ In n scc /\ In x scc.
  Lemma blame_node_spec scc n m : In n scc ->
    (forall x, In x (map fst (blame_node g scc m n)) <-> In x (map fst m) \/ (gedge g n x /\ In x scc)) /\
    (forall x c, In (x, c) (blame_node g scc m n) -> In (x, c) m \/ blame_ok scc x c).
  Proof.
    intros Hn. unfold blame_node, gedge, blame_ok, gedge. generalize m. clear m. induction (cg_edges g) as [|[a b] es IH]; intros m; cbn [fold_left].
    - split; auto. intros x. split; auto. intros [H|[[] _]]; auto.
    - destruct (IH (if String.eqb (fst (a, b)) n && existsb (String.eqb (snd (a, b))) scc && negb (known m (snd (a, b))) then m ++ [(snd (a, b), n)] else m)) as [H1 H2]. clear IH.
      cbn [fst snd] in *. destruct (String.eqb a n) eqn:Ea; [apply String.eqb_eq in Ea; subst a | apply String.eqb_neq in Ea]; cbn [andb] in *.
      + destruct (existsb (String.eqb b) scc) eqn:Eb; cbn [andb] in *.
        * apply existsb_eqb in Eb. destruct (known m b) eqn:Ek; cbn [negb] in *.
          -- apply known_in in Ek. split.
             ++ intros x. rewrite H1. cbn [In]. split; [tauto|]. intros [?|[[[= <-]|?] ?]]; auto.
             ++ intros x c H. apply H2 in H. cbn [In]. tauto.
          -- split.
             ++ intros x. rewrite H1, map_app, in_app_iff. cbn [map In fst]. split; [intros [[?|[->|[]]]|?]; tauto|]. intros [?|[[[= <-]|?] ?]]; auto.
             ++ intros x c H. apply H2 in H. rewrite in_app_iff in H. cbn [In] in *. destruct H as [[?|[[= <- <-]|[]]]|?]; tauto.
        * assert (~ In b scc) by (rewrite <- existsb_eqb; congruence). split.
          -- intros x. rewrite H1. cbn [In]. split; [tauto|]. intros [?|[[[= <-]|?] ?]]; tauto.
          -- intros x c H0. apply H2 in H0. cbn [In]. tauto.
      + split.
        * intros x. rewrite H1. cbn [In]. split; [tauto|]. intros [?|[[[= ? <-]|?] ?]]; tauto.
        * intros x c H0. apply H2 in H0. cbn [In]. tauto.
  Qed.
  Lemma blame_nodes_spec scc ns : forall m, incl ns scc ->
    (forall x, In x (map fst (fold_left (blame_node g scc) ns m)) <-> In x (map fst m) \/ exists n, In n ns /\ gedge g n x /\ In x scc) /\
    (forall x c, In (x, c) (fold_left (blame_node g scc) ns m) -> In (x, c) m \/ blame_ok scc x c).
  Proof.
    induction ns as [|n ns IH]; intros m Hi; cbn [fold_left].
    - split; auto. intros x. split; auto. intros [H|(n & [] & _)]; auto.
    - destruct (IH (blame_node g scc m n)) as [H1 H2]; [intros z Hz; apply Hi; now right|].
      destruct (blame_node_spec scc n m) as [H3 H4]; [apply Hi; now left|]. split.
      + intros x. rewrite H1, H3. cbn [In]. split.
        * intros [[?|[? ?]]|(z & ? & ?)]; [now left | right; exists n; auto | right; exists z; tauto].
        * intros [?|(z & [<-|?] & ? & ?)]; [auto | auto | right; exists z; auto].
      + intros x c H. apply H2 in H. destruct H; auto.
  Qed.
  Lemma blame_sccs_spec sccs : forall m,
    (forall x, In x (map fst (fold_left (blame_scc g) sccs m)) <->
       In x (map fst m) \/ exists scc n, In scc sccs /\ cyclic g scc = true /\ In n scc /\ gedge g n x /\ In x scc) /\
    (forall x c, In (x, c) (fold_left (blame_scc g) sccs m) -> In (x, c) m \/ exists scc, In scc sccs /\ blame_ok scc x c).
  Proof.
    induction sccs as [|scc sccs IH]; intros m; cbn [fold_left].
    - split; auto. intros x. split; auto. intros [H|(scc & n & [] & _)]; auto.
    - destruct (IH (blame_scc g m scc)) as [H1 H2]. unfold blame_scc in *. destruct (cyclic g scc) eqn:Ec.
      + destruct (blame_nodes_spec scc scc m) as [H3 H4]; [apply incl_refl|]. split.
        * intros x. rewrite H1, H3. cbn [In]. split.
          -- intros [[?|(n & ? & ? & ?)]|(s & n & ? & ? & ? & ? & ?)]; auto; right; [exists scc, n | exists s, n]; auto.
          -- intros [?|(s & n & [<-|?] & ? & ? & ? & ?)]; auto; [left; right; eauto | right; exists s, n; auto].
        * intros x c H. apply H2 in H. cbn [In]. destruct H as [H|(s & ? & ?)]; [apply H4 in H; destruct H; eauto | eauto].
      + split.
        * intros x. rewrite H1. cbn [In]. split.
          -- intros [?|(s & n & ? & ? & ? & ? & ?)]; auto; right; exists s, n; auto.
          -- intros [?|(s & n & [<-|?] & ? & ? & ? & ?)]; auto; [congruence | right; exists s, n; auto].
        * intros x c H. apply H2 in H. cbn [In]. destruct H as [H|(s & ? & ?)]; eauto.
  Qed.
End Blame.

(** Components exist. *)
Lemma sccs_exist g : nodes_ok g -> exists l, is_sccs (cg_nodes g) (gedge g) l.
Proof.
  intros HN. set (M x y := x = y \/ (clos_trans string (gedge g) x y /\ clos_trans string (gedge g) y x)).
  exists (map (fun x => filter (fun y => dec (M x y)) (nodup string_dec (cg_nodes g))) (cg_nodes g)).
  assert (Hin : forall x y, In y (filter (fun y => dec (M x y)) (nodup string_dec (cg_nodes g))) <-> In y (cg_nodes g) /\ M x y).
  { intros x y. rewrite filter_In, nodup_In. split; intros [H1 H2]; split; auto; now apply dec_iff. }
  split; [|split].
  - intros x. split.
    + intros H. eexists. split; [apply in_map; exact H|]. apply Hin. split; auto. now left.
    + intros (c & H1 & H2). apply in_map_iff in H1. destruct H1 as (y & <- & H1). now apply Hin in H2.
  - intros c H. apply in_map_iff in H. destruct H as (y & <- & H). split.
    + intros E. assert (K : In y (filter (fun z => dec (M y z)) (nodup string_dec (cg_nodes g)))) by (apply Hin; split; auto; now left). rewrite E in K. destruct K.
    + apply NoDup_filter, NoDup_nodup.
  - intros c x y Hc Hx. apply in_map_iff in Hc. destruct Hc as (z & <- & Hz). apply Hin in Hx. destruct Hx as [Hx Mx]. rewrite Hin.
    assert (Sym : forall a b, M a b -> M b a) by (intros a b [->|[? ?]]; [now left | right; auto]).
    assert (Trans : forall a b c, M a b -> M b c -> M a c).
    { intros a b c [->|[? ?]] [->|[? ?]]; [now left | right; auto | right; auto | right; split; eapply t_trans; eauto]. }
    split.
    + intros [_ H]. exact (Trans _ _ _ (Sym _ _ Mx) H).
    + intros H. split; [|exact (Trans _ _ _ Mx H)]. destruct H as [<-|[H _]]; auto.
      apply clos_trans_tn1 in H. destruct H as [y H|y w H _]; apply HN; eexists; split; eauto.
Qed.

(** The last step of a chain. *)
Lemma last_step {A} (R : A -> A -> Prop) x y : clos_trans A R x y -> exists z, (x = z \/ clos_trans A R x z) /\ R z y.
Proof.
  intros H. apply clos_trans_tn1 in H. destruct H as [y H|y z H1 H2]; [exists x; auto|]. exists y. split; auto. right. now apply clos_tn1_trans.
Qed.
Lemma clos_flip {A} (R S : A -> A -> Prop) : (forall x y, R x y <-> S y x) -> forall x y, clos_trans A R x y <-> clos_trans A S y x.
Proof.
  intros H x y. split; intros C; induction C; try (apply t_step; now apply H); eapply t_trans; eauto.
Qed.

Section Sccs.
  Variables (g : cgraph) (sccs : list (list string)).
  Hypothesis HN : nodes_ok g.
  Hypothesis HS : is_sccs (cg_nodes g) (gedge g) sccs.
  Lemma blame_keys x : In x (map fst (fold_left (blame_scc g) sccs [])) <-> clos_trans string (gedge g) x x.
  Proof.
    destruct HS as (S1 & S2 & S3). rewrite (proj1 (blame_sccs_spec g sccs [])). cbn [map In]. split.
    - intros [[]|(scc & n & H1 & H2 & H3 & H4 & H5)]. destruct (proj1 (S3 _ _ n H1 H5) H3) as [->|[H6 _]].
      + now apply t_step.
      + eapply t_trans; [exact H6 | now apply t_step].
    - intros H. right. destruct (last_step _ _ _ H) as (n & H1 & H2).
      assert (Hx : In x (cg_nodes g)) by (apply HN; exists (n, x); split; auto).
      apply S1 in Hx. destruct Hx as (scc & Hs & Hx). exists scc, n.
      assert (Hn : In n scc).
      { apply (S3 _ _ _ Hs Hx). destruct H1 as [->|H1]; auto. right. split; auto. now apply t_step. }
      repeat split; auto. unfold cyclic. destruct (Nat.ltb 1 (List.length scc)) eqn:El; auto. cbn [orb]. apply Nat.ltb_ge in El.
      destruct scc as [|a [|b l]]; cbn in El; [destruct Hx | | lia]. destruct Hx as [<-|[]]. destruct Hn as [<-|[]].
      apply existsb_exists. exists (a, a). split; auto. cbn. now rewrite String.eqb_refl.
  Qed.
  Lemma blame_called x c : In (x, c) (fold_left (blame_scc g) sccs []) -> gedge g c x /\ (x = c \/ clos_trans string (gedge g) x c).
  Proof.
    intros H. apply (proj2 (blame_sccs_spec g sccs [])) in H. destruct H as [[]|(scc & H1 & H2 & H3 & H4)]. split; auto.
    destruct HS as (_ & _ & S3). destruct (proj1 (S3 _ _ c H1 H4) H3) as [?|[? _]]; auto.
  Qed.
End Sccs.

Section Main.
  Variables (T : rtcx) (ps : list cproc) (sccs : cgraph -> list (list string)).
  Hypothesis HS : forall g, call_graph T ps = Ok g -> is_sccs (cg_nodes g) (gedge g) (sccs g).
  Notation prg := (map cp_proc ps).
  Theorem recursive_found : declared T ps -> resolved T ps -> directed ps ->
    exists m, find_recursive_procs sccs T ps = Ok m /\
      (forall f, In f (map fst m) <-> recursive prg f) /\
      (forall f called, In (f, called) m -> calls_proc prg f called /\ (called = f \/ reaches prg called f)).
  Proof.
    intros HD HR HX. destruct (call_graph_total T ps HR) as [g E]. unfold find_recursive_procs. rewrite E. cbn [rbind]. eexists. split; [reflexivity|].
    destruct (call_graph_spec T ps g E) as [HN _]. pose proof (gedge_calls T ps g HD HX E) as HG. pose proof (clos_flip _ _ HG) as HF. split.
    - intros f. rewrite (blame_keys g (sccs g) HN (HS g E) f). apply HF.
    - intros f c H. apply (blame_called g (sccs g) (HS g E)) in H. destruct H as [H1 H2]. split; [now apply HG|]. destruct H2 as [->|H2]; auto. right. now apply HF.
  Qed.

  (** What the calculus checker accepts. *)
  Definition accepts (R : string -> Prop) (p : cproc) : Prop :=
    match cp_calculus p with
    | None => True
    | Some a =>
        T a <> None /\
        forall c, T a = Some (RCalculus c) ->
          (is_induction_allowed c (pdir (cp_proc p)) = true \/ ~ R (pname (cp_proc p))) /\
          forall q c', calls_proc prg (pname (cp_proc p)) (pname (cp_proc q)) -> In q ps -> cp_calculus q = Some c' -> c' = a
    end.
  Lemma cal_exprs_ok ctx es : Forall (fun e => match e with ECall _ f _ => T f <> None | _ => True end) es ->
    (cal_exprs T ctx es = Accepted <->
     forall t f args q a c', In (ECall t f args) es -> T f = Some (RProc q) -> ctx = Some a -> cp_calculus q = Some c' -> c' = a).
  Proof.
    induction 1 as [|e es He Hes IH]; cbn [cal_exprs]; [split; auto; intros _ ? ? ? ? ? ? []|].
    assert (HE : cal_expr T ctx e = Accepted <-> forall t f args q a c', e = ECall t f args -> T f = Some (RProc q) -> ctx = Some a -> cp_calculus q = Some c' -> c' = a).
    { destruct e; cbn [cal_expr]; try (split; auto; intros _; intros; discriminate).
      destruct (T f) as [[p| |]|] eqn:ET; try congruence; try (split; auto; intros _ ? ? ? ? ? ? [= _ <- _]; congruence).
      destruct ctx as [c|]; [|split; auto; intros; discriminate]. destruct (cp_calculus p) as [c'|] eqn:EC; [|split; auto; intros _ ? ? ? ? ? ? [= _ <- _]; congruence].
      destruct (String.eqb c c') eqn:Ee.
      - apply String.eqb_eq in Ee. split; auto. intros _ ? ? ? ? ? ? [= _ <- _]; congruence.
      - apply String.eqb_neq in Ee. split; [discriminate|]. intros H. exfalso. apply Ee. symmetry. exact (H t f args p c c' eq_refl ET eq_refl EC). }
    destruct (cal_expr T ctx e);
      try (split; [discriminate|]; intros H; exfalso; assert (K := proj2 HE (fun t f args q a c' He' => H t f args q a c' (or_introl He'))); discriminate).
    rewrite IH. pose proof (proj1 HE eq_refl) as HE'. split.
    - intros H t f args q a c' [Hin|Hin]; [exact (HE' t f args q a c' Hin) | exact (H t f args q a c' Hin)].
    - intros H t f args q a c' Hin. exact (H t f args q a c' (or_intror Hin)).
  Qed.
  Lemma blame_of_key m f : blame_of m f = None <-> ~ In f (map fst m).
  Proof.
    unfold blame_of. rewrite <- known_in. unfold known. induction m as [|p m IH]; cbn [find existsb]; [split; auto; discriminate|].
    destruct (String.eqb f (fst p)); cbn [orb]; [split; [discriminate | congruence] | exact IH].
  Qed.
  Theorem calculus_checked : declared T ps -> resolved T ps -> directed ps ->
    exists r, check_calculus_rules sccs T ps = Ok r /\ (r = Accepted <-> forall p, In p ps -> accepts (recursive prg) p).
  Proof.
    intros HD HR HX. destruct (recursive_found HD HR HX) as (m & E & HM & _). unfold check_calculus_rules. rewrite E. cbn [rbind]. eexists. split; [reflexivity|].
    assert (HP : forall p, In p ps -> (cal_proc T m p = Accepted <-> accepts (recursive prg) p)).
    { intros p Hp. destruct HD as (ND & HT1 & HT2).
      assert (Body : forall ctx, (match pbody (cp_proc p) with Some b => cal_exprs T ctx (block_exprs b) | None => Accepted end = Accepted <->
                forall a q c', ctx = Some a -> calls_proc prg (pname (cp_proc p)) (pname (cp_proc q)) -> In q ps -> cp_calculus q = Some c' -> c' = a)).
      { intros ctx. assert (Same : forall p', In p' ps -> pname (cp_proc p') = pname (cp_proc p) -> p' = p).
        { intros p' H1 H2. apply HT1 in H1. apply HT1 in Hp. rewrite H2 in H1. congruence. }
        destruct (pbody (cp_proc p)) as [b|] eqn:EB.
        - rewrite cal_exprs_ok by (eapply HR; eauto). split.
          + intros H a q c' Hc (_ & p0 & b0 & Hp0 & En & EB0 & Hs) Hq Hcal. apply in_map_iff in Hp0. destruct Hp0 as (p1 & <- & Hp1).
            apply Same in En; auto. subst p1. rewrite EB in EB0. inversion EB0; subst b0. apply block_exprs_spec in Hs. apply Exists_exists in Hs.
            destruct Hs as (e & He & Hcl). pose proof (HX p b Hp EB) as HF. rewrite Forall_forall in HF. specialize (HF e He).
            assert (Px : is_proc prg (pname (cp_proc q))) by (exists (cp_proc q); split; auto; now apply in_map).
            destruct e; try (exfalso; eapply HF; eauto; fail). cbn [calls direct] in *. destruct Hcl as [<-|Hcl].
            * eapply (H t (pname (cp_proc q)) args q); eauto.
            * exfalso. clear He. induction HF as [|a0 l Ha Hl IH]; [destruct Hcl|]. destruct Hcl as [Hcl|Hcl]; [eapply Ha; eauto | auto].
          + intros H t f args q a c' Hin Hf Hc Hcal. destruct (HT2 _ _ Hf) as [Hq Hq2]. eapply (H a q c'); eauto. split.
            * exists (cp_proc q). split; auto. now apply in_map.
            * exists (cp_proc p), b. repeat split; auto; [now apply in_map|]. apply block_exprs_spec. apply Exists_exists. eexists. split; [exact Hin|]. cbn [calls]. left. auto.
        - split; auto. intros _ a q c' _ (_ & p0 & b0 & Hp0 & En & EB0 & _). apply in_map_iff in Hp0. destruct Hp0 as (p1 & <- & Hp1). apply Same in En; auto. congruence. }
      unfold cal_proc, accepts. destruct (cp_calculus p) as [a|] eqn:EC.
      - destruct (T a) as [[q|c|]|] eqn:EA.
        + rewrite Body. split; [intros _; split; [discriminate | intros c Hc; discriminate Hc] | intros; discriminate].
        + assert (HB : (if is_induction_allowed c (pdir (cp_proc p)) then None else blame_of m (pname (cp_proc p))) = None <->
                       is_induction_allowed c (pdir (cp_proc p)) = true \/ ~ recursive prg (pname (cp_proc p))).
          { destruct (is_induction_allowed c (pdir (cp_proc p))).
            - split; auto.
            - rewrite blame_of_key, HM. split; auto. intros [K|K]; [discriminate K | auto]. }
          assert (G : forall r, match is_induction_allowed c (pdir (cp_proc p)), blame_of m (pname (cp_proc p)) with false, Some called => UnsoundRecursion (pname (cp_proc p)) called | _, _ => r end = Accepted <->
                     (if is_induction_allowed c (pdir (cp_proc p)) then None else blame_of m (pname (cp_proc p))) = None /\ r = Accepted).
          { intros r. destruct (is_induction_allowed c (pdir (cp_proc p))); [tauto|]. destruct (blame_of m (pname (cp_proc p))); [|tauto]. split; [discriminate | intros [K _]; discriminate K]. }
          rewrite G, HB, Body. split.
          * intros [H1 H2]. split; [discriminate|]. intros c0 [= <-]. split; auto. intros q c' Hc Hq. now apply H2.
          * intros [_ H]. specialize (H c eq_refl). destruct H as [H1 H2]. split; auto. intros a0 q c' [= <-]. now apply H2.
        + rewrite Body. split; [intros _; split; [discriminate | intros c Hc; discriminate Hc] | intros; discriminate].
        + split; [discriminate | tauto].
      - rewrite Body. split; auto. intros; discriminate. }
    assert (HQ : forall qs, incl qs ps -> (cal_procs T m qs = Accepted <-> forall p, In p qs -> accepts (recursive prg) p)).
    { induction qs as [|p qs IH]; intros Hi; cbn [cal_procs]; [split; auto; intros _ p []|].
      assert (H1 := HP p (Hi p (or_introl eq_refl))). assert (H2 := IH (fun z Hz => Hi z (or_intror Hz))).
      destruct (cal_proc T m p) eqn:E1;
        try (split; [discriminate|]; intros H; exfalso; pose proof (proj2 H1 (H p (or_introl eq_refl))); discriminate).
      rewrite H2. split.
      - intros H z [<-|Hz]; auto. now apply H1.
      - intros H z Hz. apply H. now right. }
    apply HQ. apply incl_refl.
  Qed.
End Main.
