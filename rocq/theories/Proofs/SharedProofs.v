(** Handles behave like values. *)
From Coq Require Import List String Arith Lia Permutation.
From Verif.Model Require Import Syntax SharedHeap.
From Verif.Spec Require Import SharedSpec.
From Verif.Proofs Require Import SharedBasic.
Import ListNotations.
Local Open Scope list_scope.
Local Open Scope nat_scope.

Section Ops.
Context {L : Type}.
Implicit Types (h : heap L) (R : list nat).

(** Labels and children stay, counts may change. *)
Definition same_nodes h h' := List.length h' = List.length h /\ forall a c, get h a = Some c -> exists c', get h' a = Some c' /\ lab c' = lab c /\ kids c' = kids c.
Lemma same_nodes_refl h : same_nodes h h. Proof. split; eauto. Qed.
Lemma same_nodes_trans h h1 h2 : same_nodes h h1 -> same_nodes h1 h2 -> same_nodes h h2.
Proof. intros [A1 A2] [B1 B2]. split; [congruence|]. intros a c G. destruct (A2 a c G) as (c1 & G1 & E1 & E2). destruct (B2 a c1 G1) as (c2 & G2 & F1 & F2). exists c2. repeat split; congruence. Qed.
Lemma same_nodes_den h h' a t : same_nodes h h' -> denotes h a t -> denotes h' a t.
Proof. intros [_ H]. now apply den_mono. Qed.
Lemma same_nodes_dens h h' l ts : same_nodes h h' -> Forall2 (denotes h) l ts -> Forall2 (denotes h') l ts.
Proof. intros H. induction 1; constructor; eauto using same_nodes_den. Qed.
Lemma same_nodes_put h a c n : get h a = Some c -> same_nodes h (put h a (Some (mkcell n (lab c) (kids c)))).
Proof.
  intros G. split; [apply put_length|]. intros b cb Gb. destruct (Nat.eq_dec b a) as [->|N].
  - rewrite get_put_same by (eapply get_lt; eauto). replace cb with c by congruence. eauto.
  - rewrite get_put_other by congruence. eauto.
Qed.

(** * clone *)
Lemma clone_ok h R a : wf h R -> (exists c, get h a = Some c) -> exists h', h_clone a h = Ok h' /\ wf h' (a :: R) /\ same_nodes h h' /\
  (forall b, b <> a -> get h' b = get h b) /\ (forall c, get h a = Some c -> get h' a = Some (mkcell (S (strong c)) (lab c) (kids c))) /\ (forall S, noedge S h -> noedge S h').
Proof.
  intros W [c G]. unfold h_clone, live. rewrite G. cbn [rbind]. eexists. split; [reflexivity|]. destruct (w_count _ _ W a c G) as [C1 C2].
  split; [apply (wf_count_put h R (a :: R) a c (S (strong c))); [exact W | exact G | lia | |]|].
  - intros b N. rewrite occ_cons. destruct (Nat.eq_dec a b); [congruence | lia].
  - rewrite occ_cons. destruct (Nat.eq_dec a a); lia.
  - split; [now apply same_nodes_put|]. split; [intros b N; apply get_put_other; congruence|]. split; [intros c' G'; rewrite get_put_same by (eapply get_lt; eauto); congruence|].
    intros S N x cx Gx Nx. destruct (Nat.eq_dec x a) as [->|E].
    + rewrite get_put_same in Gx by (eapply get_lt; eauto). inversion Gx; subst. cbn. eapply N; eauto.
    + rewrite get_put_other in Gx by congruence. eapply N; eauto.
Qed.
Lemma clones_ok l : forall h R, wf h R -> (forall a, In a l -> exists c, get h a = Some c) -> exists h', h_clones l h = Ok h' /\ wf h' (l ++ R) /\ same_nodes h h' /\
  (forall b, ~ In b l -> get h' b = get h b) /\ (forall S, noedge S h -> noedge S h').
Proof.
  induction l as [|a l IH]; intros h R W Hl; cbn [h_clones].
  - exists h. split; auto. split; auto. split; [apply same_nodes_refl|]. auto.
  - destruct (clone_ok h R a W) as (h1 & E1 & W1 & S1 & O1 & _ & N1); [apply Hl; now left|]. rewrite E1. cbn [rbind].
    destruct (IH h1 (a :: R) W1) as (h2 & E2 & W2 & S2 & O2 & N2).
    { intros b Hb. destruct (Hl b) as [c G]; [now right|]. destruct S1 as [_ S1]. destruct (S1 b c G) as (c' & G' & _). eauto. }
    exists h2. split; auto. split; [eapply wf_perm; [|exact W2]; cbn; symmetry; apply Permutation_middle|]. split; [eapply same_nodes_trans; eauto|]. split; auto.
    intros b Hb. rewrite O2, O1; auto; [intros ->; apply Hb; now left | intros H; apply Hb; now right].
Qed.

(** * new *)
Lemma den_old h x b t : denotes h b t -> denotes (h ++ [x]) b t.
Proof. apply den_mono. intros a c G. exists c. rewrite get_app by (eapply get_lt; eauto). auto. Qed.
Lemma dens_old h x l ts : Forall2 (denotes h) l ts -> Forall2 (denotes (h ++ [x])) l ts.
Proof. induction 1; constructor; auto using den_old. Qed.
Lemma wf_new h R d ks : wf h (ks ++ R) -> wf (h ++ [Some (mkcell 1 d ks)]) (List.length h :: R).
Proof.
  intros W. assert (D : forall b t, denotes h b t -> denotes (h ++ [Some (mkcell 1 d ks)]) b t).
  { apply den_mono. intros b c G. exists c. rewrite get_app by (eapply get_lt; eauto). auto. }
  assert (F0 : occ R (List.length h) = 0 /\ refs h (List.length h) = 0 /\ occ ks (List.length h) = 0).
  { destruct (Nat.eq_dec (occ (ks ++ R) (List.length h) + refs h (List.length h)) 0) as [E|E]; [rewrite occ_app in E; lia|].
    destruct (w_live _ _ W (List.length h)) as [c G]; [lia|]. apply get_lt in G. lia. }
  destruct F0 as (F1 & F2 & F3). split.
  - intros a c G. rewrite refs_new, occ_cons. cbn [edges kids]. apply get_app_some in G. destruct G as [[Hl G]|[-> G]].
    + destruct (w_count _ _ W a c G) as [C1 C2]. rewrite occ_app in C1. destruct (Nat.eq_dec (List.length h) a); lia.
    + inversion G; subst. cbn [strong]. destruct (Nat.eq_dec _ _); lia.
  - intros a H. rewrite refs_new, occ_cons in H. cbn [edges kids] in H. destruct (Nat.eq_dec (List.length h) a) as [<-|N]; [rewrite get_new; eauto|].
    destruct (w_live _ _ W a) as [c G]; [rewrite occ_app; lia|]. exists c. rewrite get_app by (eapply get_lt; eauto). auto.
  - intros a c G. apply get_app_some in G. destruct G as [[Hl G]|[-> G]].
    + destruct (w_tree _ _ W a c G) as [t Dt]. eauto.
    + inversion G; subst. assert (Hk : forall k, In k ks -> exists t, denotes h k t) by (intros k Hk; eapply wf_den; eauto; apply in_or_app; auto).
      assert (exists ts, Forall2 (denotes h) ks ts) as [ts F].
      { clear -Hk. induction ks as [|k ks IH]; [exists []; constructor|]. destruct (Hk k) as [t Dt]; [now left|]. destruct IH as [ts F]; [intros; apply Hk; now right|]. exists (t :: ts). constructor; auto. }
      exists (T d ts). apply (den _ _ (mkcell 1 d ks)); [apply get_new|]. cbn. now apply dens_old.
Qed.
Lemma den_new h d ks ts : Forall2 (denotes h) ks ts -> denotes (h ++ [Some (mkcell 1 d ks)]) (List.length h) (T d ts).
Proof.
  intros F. apply (den _ _ (mkcell 1 d ks)); [apply get_new|]. cbn. now apply dens_old.
Qed.
(** * What a change leaves alone *)
Definition aside (S : nat -> Prop) h (l : list nat) := below S h /\ Forall (fun a => ~ S a) l /\ noedge S h.
Definition spares h (l : list nat) h' (l' : list nat) := List.length h <= List.length h' /\ forall S, aside S h l -> aside S h' l' /\ same_on S h h'.
Lemma spares_refl h l : spares h l h l.
Proof. split; auto. intros S A. split; auto. intros b Hb. reflexivity. Qed.
Lemma spares_trans h l h1 l1 h2 l2 : spares h l h1 l1 -> spares h1 l1 h2 l2 -> spares h l h2 l2.
Proof. intros [A1 A2] [B1 B2]. split; [lia|]. intros S H. destruct (A2 S H) as [H1 E1]. destruct (B2 S H1) as [H2 E2]. split; auto. eapply same_on_trans; eauto. Qed.

(** * make_mut *)
Lemma make_mut_ok h R a d ts : wf h (a :: R) -> denotes h a (T d ts) -> exists a' h' ks, make_mut a h = Ok (a', h') /\ wf h' (a' :: R) /\
  get h' a' = Some (mkcell 1 d ks) /\ Forall2 (denotes h') ks ts /\ (forall b t, denotes h b t -> denotes h' b t) /\ spares h [a] h' [a'] /\ (forall b c, get h b = Some c -> exists c', get h' b = Some c').
Proof.
  intros W D. destruct (den_inv _ _ _ _ D) as (c & G & <- & F). unfold make_mut, live. rewrite G. cbn [rbind]. destruct (Nat.eqb (strong c) 1) eqn:E.
  - apply Nat.eqb_eq in E. exists a, h, (kids c). destruct c as [n d ks]. cbn in *. subst n. split; auto. split; auto. split; auto. split; auto. split; auto. split; [apply spares_refl|]. eauto.
  - apply Nat.eqb_neq in E. destruct (w_count _ _ W a c G) as [C1 C2].
    destruct (clones_ok (kids c) h (a :: R) W) as (h1 & E1 & W1 & S1 & O1 & N1). { intros k Hk. apply (w_live _ _ W). pose proof (refs_in h k a c G Hk). lia. }
    rewrite E1. cbn [rbind]. destruct S1 as [Sl Sn]. destruct (Sn a c G) as (c1 & G1 & L1 & K1). rewrite G1. cbn [rbind h_new].
    assert (W2 : wf (put h1 a (Some (mkcell (strong c1 - 1) (lab c1) (kids c1)))) (kids c ++ R)).
    { destruct (w_count _ _ W1 a c1 G1) as [D1 D2]. assert (refs h a <= refs h1 a).
      { assert (forall h' x, same_nodes h h' -> refs h x <= refs h' x) as Hr; [|apply Hr; split; auto]. clear. intros h' x [El Hn]. revert h' El Hn. induction h as [|o h IH]; intros [|o' h'] El Hn; try discriminate El; auto. rewrite !refs_cons.
        assert (refs h x <= refs h' x) by (apply IH; [now injection El | intros a c G; apply (Hn (S a) c G)]). assert (edges o x <= edges o' x); [|lia].
        destruct o as [c|]; [|cbn; lia]. destruct (Hn 0 c eq_refl) as (c' & G' & _ & Ek). cbn in G'. subst o'. cbn. rewrite Ek. lia. }
      rewrite occ_app, occ_cons in D1. rewrite occ_cons in C1. destruct (Nat.eq_dec a a); [|congruence].
      apply (wf_count_put h1 (kids c ++ a :: R) (kids c ++ R) a c1 (strong c1 - 1)); [exact W1 | exact G1 | lia | |].
      - intros b Nb. rewrite !occ_app, occ_cons. destruct (Nat.eq_dec a b); [congruence | lia].
      - rewrite occ_app. lia. }
    set (h2 := put h1 a (Some (mkcell (strong c1 - 1) (lab c1) (kids c1)))) in *.
    assert (S2 : same_nodes h h2) by (eapply same_nodes_trans; [split; [exact Sl | exact Sn] | now apply same_nodes_put]).
    exists (List.length h2), (h2 ++ [Some (mkcell 1 (lab c) (kids c))]), (kids c). split; [reflexivity|]. split; [now apply wf_new|]. split; [apply get_new|].
    split; [apply dens_old; eapply same_nodes_dens; eauto|]. split; [intros b t Db; apply den_old; eapply same_nodes_den; eauto|]. split.
    + split; [rewrite app_length; cbn; destruct S2 as [-> _]; lia|]. intros S (B & Al & Ne). inversion Al; subst. assert (Hk : forall k, In k (kids c) -> ~ S k) by (eapply Ne; eauto).
      assert (Ne1 : noedge S h2). { apply noedge_put; [now apply N1 | auto |]. intros c' Ec k Hk'. inversion Ec; subst. cbn in Hk'. rewrite K1 in Hk'. auto. }
      destruct S2 as [S2l S2n]. split; [split; [|split]|].
      * intros b Hb. rewrite app_length, S2l. specialize (B b Hb). lia.
      * constructor; auto. intros Hs. specialize (B _ Hs). rewrite S2l in B. lia.
      * intros x cx Gx Nx k Hkx. apply get_app_some in Gx. destruct Gx as [[_ Gx]|[_ Gx]]; [eapply Ne1; eauto|]. inversion Gx; subst. auto.
      * intros b Hb. rewrite get_app by (rewrite S2l; auto). unfold h2. rewrite get_put_other by (intros ->; auto). apply O1. intros H. apply (Hk b); auto.
    + intros b cb Gb. destruct S2 as [S2l S2n]. destruct (S2n b cb Gb) as (c' & G' & _). exists c'. rewrite get_app by (eapply get_lt; eauto). auto.
Qed.
End Ops.
