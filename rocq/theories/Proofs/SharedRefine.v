(** Sequences of operations on handles do what the operations on values do; nothing leaks. *)
From Coq Require Import List String Arith Lia Permutation.
From Verif.Model Require Import Syntax SharedHeap.
From Verif.Spec Require Import SharedSpec.
From Verif.Proofs Require Import SharedBasic SharedProofs SharedOps.
Import ListNotations.
Local Open Scope list_scope.
Local Open Scope nat_scope.

Section Refine.
Context {L : Type}.
Implicit Types (h : heap L) (R K : list nat).

Lemma f2_length {A B} (P : A -> B -> Prop) l m : Forall2 P l m -> List.length l = List.length m.
Proof. induction 1; cbn; auto. Qed.
Lemma look_ok h p : forall a t, denotes h a t -> match t_look p t with None => exists e, look p a h = Err e | Some u => exists k, look p a h = Ok k /\ denotes h k u end.
Proof.
  induction p as [|i p IH]; intros a [d ts] D; cbn [t_look look]; [eauto|]. destruct (den_inv _ _ _ _ D) as (c & G & _ & F). unfold live. rewrite G. cbn [rbind].
  pose proof (Forall2_nth _ _ _ F i) as Hi. destruct (nth_error (kids c) i) as [k|], (nth_error ts i) as [u|]; try contradiction; [apply (IH k u Hi) | eauto].
Qed.
Lemma extract_ok {A B} (P : A -> B -> Prop) i l m : Forall2 P l m -> match nth_error m i with
  | None => extract i l = None
  | Some y => exists x, extract i l = Some (x, firstn i l ++ skipn (S i) l) /\ P x y /\ l = firstn i l ++ x :: skipn (S i) l /\ i < List.length l
  end.
Proof.
  intros F. pose proof (Forall2_nth _ _ _ F i) as Hi. unfold extract. destruct (nth_error l i) as [x|] eqn:E, (nth_error m i) as [y|]; try contradiction; auto.
  exists x. split; auto. split; auto. split; [now apply (replace_split i x l x)|]. apply nth_error_Some. congruence.
Qed.
Lemma insert_at_eq {X} i (x : X) l : i < List.length l -> insert_at i x (firstn i l ++ skipn (S i) l) = firstn i l ++ x :: skipn (S i) l.
Proof.
  intros H. unfold insert_at. assert (E : List.length (firstn i l) = i) by (rewrite firstn_length; lia). f_equal; [|f_equal].
  - rewrite firstn_app, E, Nat.sub_diag, firstn_O, app_nil_r. rewrite firstn_all2; lia || auto.
  - rewrite skipn_app, E, Nat.sub_diag. rewrite skipn_all2 by lia. reflexivity.
Qed.
Lemma replace_at {X} i (x y : X) l : nth_error l i = Some y -> replace_nth i x l = firstn i l ++ x :: skipn (S i) l.
Proof. intros E. now apply (replace_split i x l y). Qed.

Ltac occs := intros; cbn [app]; repeat rewrite ?occ_cons, ?occ_app; cbn [app]; repeat rewrite ?occ_cons, ?occ_app; lia.

Lemma exec_ok o h R K ts : wf h (R ++ K) -> Forall2 (denotes h) R ts ->
  match t_exec o ts with
  | None => exists e, exec o (R, h) = Err e
  | Some ts' => exists R' h', exec o (R, h) = Ok (R', h') /\ wf h' (R' ++ K) /\ Forall2 (denotes h') R' ts' /\ forall b t, In b K -> denotes h b t -> denotes h' b t
  end.
Proof.
  intros W F. destruct o as [i p|i p d|i p| |d n|i]; cbn [t_exec exec].
  - pose proof (Forall2_nth _ _ _ F i) as Hi. destruct (nth_error R i) as [a|], (nth_error ts i) as [t|]; try contradiction; [|eauto].
    pose proof (look_ok h p a t Hi) as Hl. destruct (t_look p t) as [u|]; [|destruct Hl as [e ->]; cbn; eauto]. destruct Hl as (k & -> & Dk). cbn [rbind].
    destruct (clone_ok h (R ++ K) k W (den_live _ _ _ Dk)) as (h' & -> & W' & S' & _). cbn [rbind]. exists (k :: R), h'. split; [reflexivity|]. split; [exact W'|]. split.
    + constructor; [eapply same_nodes_den; eauto | eapply same_nodes_dens; eauto].
    + intros b u' _. now apply same_nodes_den.
  - pose proof (extract_ok _ i _ _ F) as He. destruct (nth_error ts i) as [t|] eqn:Et; [|rewrite He; eauto]. destruct He as (a & -> & Da & Ea & Hl).
    assert (W' : wf h (a :: [] ++ ((firstn i R ++ skipn (S i) R) ++ K))) by (eapply wf_occ; [|exact W]; intros x; pose proof (f_equal (fun l => occ l x) Ea) as Eo; cbn beta in Eo; rewrite occ_app, occ_cons in Eo; revert Eo; occs).
    pose proof (modify_ok _ _ p (relabel_ok d) h a [] _ t [] W' Da (Forall2_nil _)) as Hm. rewrite t_modify_relabel in Hm.
    destruct (t_look p t) as [[d0 ks]|]; [|destruct Hm as [e ->]; cbn; eauto]. destruct (t_update p (T d ks) t) as [t'|]; [|destruct Hm as [e ->]; cbn; eauto].
    destruct Hm as (a' & xs' & h' & -> & Wh & Dh & Fh & Ph & _). inversion Fh; subst xs'. cbn [rbind fst snd]. rewrite insert_at_eq by auto.
    rewrite (replace_at i t' t ts Et). exists (firstn i R ++ a' :: skipn (S i) R), h'. split; [reflexivity|]. split; [eapply wf_occ; [|exact Wh]; occs|]. split.
    + apply Forall2_app; [|constructor; auto]; (eapply dens_impl; [first [apply Forall2_firstn; exact F | apply Forall2_skipn; exact F]|]); intros b u Hb; apply Ph; repeat rewrite in_app_iff; auto.
    + intros b u Hb. apply Ph. apply in_or_app. now right.
  - destruct F as [|s u R ts Ds F]; [eauto|]. pose proof (extract_ok _ i _ _ F) as He. destruct (nth_error ts i) as [t|] eqn:Et; [|rewrite He; eauto]. destruct He as (a & -> & Da & Ea & Hl).
    assert (W' : wf h (a :: [s] ++ ((firstn i R ++ skipn (S i) R) ++ K))) by (eapply wf_occ; [|exact W]; intros x; pose proof (f_equal (fun l => occ l x) Ea) as Eo; cbn beta in Eo; rewrite occ_app, occ_cons in Eo; revert Eo; occs).
    pose proof (modify_ok _ _ p swap_ok h a [s] _ t [u] W' Da) as Hm. rewrite t_modify_swap in Hm. specialize (Hm (Forall2_cons _ _ Ds (Forall2_nil _))).
    destruct (t_look p t) as [k|]; [|destruct Hm as [e ->]; cbn; eauto]. destruct (t_update p u t) as [t'|]; [|destruct Hm as [e ->]; cbn; eauto].
    destruct Hm as (a' & xs' & h' & -> & Wh & Dh & Fh & Ph & _). inversion Fh as [|x ? xs ? Dx Fh' ]; subst xs'. inversion Fh'; subst xs. cbn [rbind fst snd]. rewrite insert_at_eq by auto.
    rewrite (replace_at i t' t ts Et). exists (x :: firstn i R ++ a' :: skipn (S i) R), h'. split; [reflexivity|]. split; [eapply wf_occ; [|exact Wh]; occs|]. split.
    + constructor; auto. apply Forall2_app; [|constructor; auto]; (eapply dens_impl; [first [apply Forall2_firstn; exact F | apply Forall2_skipn; exact F]|]); intros b v Hb; apply Ph; repeat rewrite in_app_iff; auto.
    + intros b v Hb. apply Ph. apply in_or_app. now right.
  - destruct F as [|a t R ts Da F]; [eauto|]. unfold h_drop. destruct (drops_ok (total h) [a] h (R ++ K) W (le_n _)) as (h' & -> & W' & P). cbn [rbind]. exists R, h'. split; [reflexivity|]. split; [exact W'|]. split.
    + eapply dens_impl; [exact F|]. intros b u Hb. apply P. apply in_or_app. now left.
    + intros b u Hb. apply P. apply in_or_app. now right.
  - rewrite <- (f2_length _ _ _ F). destruct (Nat.leb n (List.length R)); [|eauto]. cbn [h_new]. exists (List.length h :: skipn n R), (h ++ [Some (mkcell 1 d (firstn n R))]). split; [reflexivity|]. split.
    + cbn [app]. apply wf_new. now rewrite app_assoc, firstn_skipn.
    + split; [constructor; [apply den_new; now apply Forall2_firstn | apply dens_old; now apply Forall2_skipn]|]. intros b t _. apply den_old.
  - pose proof (extract_ok _ i _ _ F) as He. destruct (nth_error ts i) as [t|] eqn:Et; [|rewrite He; eauto]. destruct He as (a & -> & Da & Ea & Hl).
    exists (a :: firstn i R ++ skipn (S i) R), h. split; [reflexivity|]. split; [eapply wf_occ; [|exact W]; intros x; pose proof (f_equal (fun l => occ l x) Ea) as Eo; cbn beta in Eo; rewrite occ_app, occ_cons in Eo; revert Eo; occs|]. split; auto. constructor; auto. apply Forall2_app; [now apply Forall2_firstn | now apply Forall2_skipn].
Qed.
Lemma execs_ok os : forall h R K ts, wf h (R ++ K) -> Forall2 (denotes h) R ts ->
  match t_execs os ts with
  | None => exists e, execs os (R, h) = Err e
  | Some ts' => exists R' h', execs os (R, h) = Ok (R', h') /\ wf h' (R' ++ K) /\ Forall2 (denotes h') R' ts' /\ forall b t, In b K -> denotes h b t -> denotes h' b t
  end.
Proof.
  induction os as [|o os IH]; intros h R K ts W F; cbn [t_execs execs].
  - exists R, h. auto.
  - pose proof (exec_ok o h R K ts W F) as H. destruct (t_exec o ts) as [ts1|]; [|destruct H as [e ->]; cbn; eauto].
    destruct H as (R1 & h1 & -> & W1 & F1 & P1). cbn [rbind]. specialize (IH h1 R1 K ts1 W1 F1). destruct (t_execs os ts1) as [ts2|]; [|exact IH].
    destruct IH as (R2 & h2 & -> & W2 & F2 & P2). exists R2, h2. split; [reflexivity|]. split; auto.
Qed.
Lemma run_ok (os : list (op L)) : match t_execs os [] with
  | None => exists e, execs os ([], []) = Err e
  | Some ts => exists R h, execs os ([], []) = Ok (R, h) /\ wf h R /\ Forall2 (denotes h) R ts
  end.
Proof.
  pose proof (execs_ok os [] [] [] [] wf_nil (Forall2_nil _)) as H. destruct (t_execs os []) as [ts|]; auto.
  destruct H as (R & h & E & W & F & _). rewrite app_nil_r in W. eauto 6.
Qed.

(** * Nothing leaks *)
Lemma den_fun h a t : denotes h a t -> forall u, denotes h a u -> t = u.
Proof.
  revert a t. apply (den_ind' h (fun a t => forall u, denotes h a u -> t = u)). intros a c ts G _ F [d us] D. destruct (den_inv _ _ _ _ D) as (c' & G' & E & F').
  replace c' with c in * by congruence. subst d. f_equal. clear -F F'. revert us F'. induction F as [|k t ks ts H F IH]; intros us F'; inversion F'; subst; auto. f_equal; auto.
Qed.
Fixpoint size (t : tree L) : nat := match t with T _ ts => S (list_sum (map size ts)) end.
Lemma size_in ts t : In t ts -> size t <= list_sum (map size ts).
Proof. induction ts as [|u ts IH]; intros []; cbn; [subst; lia|]. specialize (IH H). unfold list_sum in IH. lia. Qed.
Lemma bounded h R : wf h R -> forall n, exists M, forall a t, a < n -> denotes h a t -> size t <= M.
Proof.
  intros W. induction n as [|n [M IH]]; [exists 0; intros; lia|]. destruct (get h n) as [c|] eqn:G.
  - destruct (w_tree _ _ W n c G) as [u D]. exists (M + size u). intros a t Hl Dt. destruct (Nat.eq_dec a n) as [->|N]; [rewrite (den_fun _ _ _ Dt _ D); lia|]. specialize (IH a t ltac:(lia) Dt). lia.
  - exists M. intros a t Hl Dt. destruct (Nat.eq_dec a n) as [->|N]; [|apply (IH a t); auto; lia]. destruct (den_live _ _ _ Dt). congruence.
Qed.
Lemma no_leak h : wf h [] -> forall a, get h a = None.
Proof.
  intros W a. destruct (get h a) as [c|] eqn:G; auto. exfalso. destruct (bounded h [] W (List.length h)) as [M HM].
  assert (Up : forall n, exists x t, denotes h x t /\ n <= size t).
  { induction n as [|n (x & t & D & Hn)]; [destruct (w_tree _ _ W a c G) as [t D]; exists a, t; split; auto; lia|].
    destruct (den_live _ _ _ D) as [cx Gx]. destruct (w_count _ _ W x cx Gx) as [C1 C2]. cbn in C1. destruct (refs_pos h x) as (y & cy & Gy & Hy); [lia|].
    destruct (w_tree _ _ W y cy Gy) as [[d us] Dy]. exists y, (T d us). split; auto. destruct (den_inv _ _ _ _ Dy) as (c' & G' & _ & F). replace c' with cy in * by congruence.
    assert (exists u, In u us /\ denotes h x u) as (u & Hu & Du).
    { clear -F Hy. induction F as [|k u ks us Dk F IH]; [destruct Hy|]. destruct Hy as [<-|Hy]; [exists u; split; auto; now left|]. destruct (IH Hy) as (v & Hv & Dv). exists v. split; auto. now right. }
    pose proof (den_fun _ _ _ D _ Du). subst u. pose proof (size_in us t Hu). cbn. lia. }
  destruct (Up (S M)) as (x & t & D & Hx). destruct (den_live _ _ _ D) as [cx Gx]. specialize (HM x t (get_lt _ _ _ Gx) D). lia.
Qed.
Lemma all_dropped os h : execs (L := L) os ([], []) = Ok ([], h) -> forall a, get h a = None.
Proof.
  intros E. pose proof (run_ok os) as H. destruct (t_execs os []) as [ts|]; [|destruct H as [e H]; congruence].
  destruct H as (R & h' & E' & W & _). rewrite E in E'. inversion E'; subst. now apply no_leak.
Qed.

(** * Counts *)
Lemma ref_count_ok h R a : wf h R -> In a R -> exists n, ref_count a h = Ok n /\ n = occ R a + refs h a.
Proof. intros W H. destruct (wf_in _ _ _ W H) as [c G]. unfold ref_count, live. rewrite G. cbn. eexists. split; [reflexivity|]. apply (w_count _ _ W a c G). Qed.
End Refine.
