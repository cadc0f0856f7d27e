(** A mutable walk leaves a tree in which nothing is shared. *)
From Coq Require Import List String Arith Lia Permutation.
From Verif.Model Require Import Syntax SharedHeap.
From Verif.Spec Require Import SharedSpec.
From Verif.Proofs Require Import SharedBasic SharedProofs SharedOps SharedRefine.
Import ListNotations.
Local Open Scope list_scope.
Local Open Scope nat_scope.

Section Walk.
Context {L : Type}.
Implicit Types (h : heap L) (R : list nat).

(** After a walk over [l] in [h], the results being [l'] and the handles kept [new]. *)
Record walked h (l R : list nat) h' (l' new : list nat) (S : nat -> Prop) : Prop := {
  k_root : Forall S l';
  k_cell : forall b, S b -> exists c, get h' b = Some c /\ strong c = 1 + occ new b /\ occ new b <= 1 /\ Forall S (kids c);
  k_edge : noedge S h';
  k_rest : forall b, S b -> ~ In b R;
  k_new : Forall S new;
  k_apart : forall P, aside P h l -> forall b, S b -> ~ P b;
  k_spares : spares h l h' l'
}.
Definition walk_spec (w : nat -> list nat -> heap L -> res (nat * list nat * heap L)) (t : tree L) :=
  forall h a R kept, wf h (a :: R) -> denotes h a t -> incl kept R -> exists a' new h' S, w a kept h = Ok (a', new ++ kept, h') /\ wf h' (a' :: new ++ R) /\ denotes h' a' t /\
    (forall b u, In b R -> denotes h b u -> denotes h' b u) /\ walked h [a] R h' [a'] new S.
Lemma occ_not (P : nat -> Prop) l b : Forall P l -> ~ P b -> occ l b = 0.
Proof. intros F N. destruct (Nat.eq_dec (occ l b) 0); auto. exfalso. apply N. rewrite Forall_forall in F. apply F. apply occ_in. lia. Qed.
Lemma Forall_or (P Q : nat -> Prop) l : Forall P l \/ Forall Q l -> Forall (fun b => P b \/ Q b) l.
Proof. intros [F|F]; revert F; apply Forall_impl; auto. Qed.

Lemma walk_list_ok w ts : Forall (walk_spec w) ts -> forall l h R kept, wf h (l ++ R) -> Forall2 (denotes h) l ts -> incl kept R -> exists l' new h' S,
  walk_list w l kept h = Ok (l', new ++ kept, h') /\ wf h' (l' ++ new ++ R) /\ Forall2 (denotes h') l' ts /\ (forall b u, In b R -> denotes h b u -> denotes h' b u) /\ walked h l R h' l' new S.
Proof.
  induction 1 as [|t ts Hw _ IH]; intros l h R kept W F Hi; inversion F as [|k ? l0 ? Dk F0]; subst; cbn [walk_list].
  - exists [], [], h, (fun _ => False). split; [reflexivity|]. split; [exact W|]. split; [constructor|]. split; [auto|]. split.
    + constructor.
    + intros b [].
    + intros x c _ _ y _ [].
    + intros b [].
    + constructor.
    + intros P _ b [].
    + apply spares_refl.
  - cbn [app] in W. destruct (Hw h k (l0 ++ R) kept W Dk (fun x H => in_or_app l0 R x (or_intror (Hi x H)))) as (k' & n1 & h1 & S1 & E1 & W1 & D1 & P1 & K1). rewrite E1. cbn [rbind fst snd].
    assert (W1' : wf h1 (l0 ++ (k' :: n1 ++ R))). { eapply wf_occ; [|exact W1]. intros b. rewrite ?occ_cons, ?occ_app, ?occ_cons, ?occ_app. lia. }
    destruct (IH l0 h1 (k' :: n1 ++ R) (n1 ++ kept) W1') as (l' & n2 & h2 & S2 & E2 & W2 & D2 & P2 & K2).
    { eapply dens_impl; [exact F0|]. intros b u Hb. apply P1. apply in_or_app. now left. }
    { intros x Hx. right. apply in_app_or in Hx. apply in_or_app. destruct Hx; auto. }
    rewrite E2. cbn [rbind fst snd]. destruct K1 as [Kr1 Kc1 Ke1 Kt1 Kn1 Ka1 [Kl1 Ks1]], K2 as [Kr2 Kc2 Ke2 Kt2 Kn2 Ka2 [Kl2 Ks2]].
    assert (A1 : aside S1 h1 l0).
    { split; [|split]; auto.
      - intros b Hb. destruct (Kc1 b Hb) as (c & G & _). eapply get_lt; eauto.
      - apply Forall_forall. intros b Hb Hs. apply (Kt1 b Hs). apply in_or_app. now left. }
    destruct (Ks2 S1 A1) as [(B2 & Al2 & Ne2) Sm2]. assert (Dj : forall b, S1 b -> ~ S2 b) by (intros b H1 H2; exact (Ka2 S1 A1 b H2 H1)).
    exists (k' :: l'), (n2 ++ n1), h2, (fun b => S1 b \/ S2 b). split; [now rewrite app_assoc|]. split; [|split; [|split; [|split]]].
    + eapply wf_occ; [|exact W2]. intros b. cbn [app]. rewrite ?occ_cons, ?occ_app, ?occ_cons, ?occ_app. lia.
    + constructor; auto. apply P2; auto. now left.
    + intros b u Hb Db. apply P2; [right; apply in_or_app; now right|]. apply P1; auto. apply in_or_app. now right.
    + inversion Kr1; subst. constructor; auto. revert Kr2. apply Forall_impl. auto.
    + intros b [Hb|Hb].
      * destruct (Kc1 b Hb) as (c & G & C1 & C2 & C3). exists c. rewrite (Sm2 b Hb). rewrite occ_app, (occ_not S2 n2 b Kn2 (Dj b Hb)). repeat split; auto; try lia. apply Forall_or. auto.
      * destruct (Kc2 b Hb) as (c & G & C1 & C2 & C3). exists c. rewrite occ_app, (occ_not S1 n1 b Kn1) by (intros H; exact (Dj b H Hb)). rewrite Nat.add_0_r. repeat split; auto. apply Forall_or. auto.
    + intros x c G Nx y Hy [Hs|Hs]; [apply (Ne2 x c G) with (k := y) in Hs; auto | apply (Ke2 x c G) with (k := y) in Hs; auto].
    + intros b [Hb|Hb] Hr; [apply (Kt1 b Hb); apply in_or_app; now right | apply (Kt2 b Hb); right; apply in_or_app; now right].
    + apply Forall_app. split; apply Forall_or; auto.
    + intros P (B & Al & Ne) b Hb. apply Forall_cons_iff in Al. destruct Al as [Pk Pl]. assert (Ak : aside P h [k]) by (split; [exact B|split; auto]).
      destruct Hb as [Hb|Hb]; [now apply (Ka1 P Ak)|]. destruct (Ks1 P Ak) as [(B' & Al' & Ne') _]. apply (Ka2 P); auto. split; [exact B'|split; auto].
    + split; [lia|]. intros P (B & Al & Ne). apply Forall_cons_iff in Al. destruct Al as [Pk Pl]. assert (Ak : aside P h [k]) by (split; [exact B|split; auto]).
      destruct (Ks1 P Ak) as [(B' & Al' & Ne') Sm']. destruct (Ks2 P) as [(B'' & Al'' & Ne'') Sm'']; [split; [exact B'|split; auto]|].
      apply Forall_cons_iff in Al'. destruct Al' as [Pk' _]. split; [split; [exact B''|split; auto]|]. eapply same_on_trans; eauto.
Qed.

Lemma remove_one_app k new kept : In k new -> remove_one k (new ++ kept) = remove_one k new ++ kept.
Proof. induction new as [|b new IH]; intros []; cbn; [subst; now rewrite Nat.eqb_refl|]. destruct (Nat.eqb k b); auto. cbn. now rewrite IH. Qed.
Lemma occ_remove_one k l b : In k l -> occ l b = (if Nat.eq_dec k b then 1 else 0) + occ (remove_one k l) b.
Proof.
  induction l as [|x l IH]; intros H; [destruct H|]. cbn [remove_one]. destruct (Nat.eqb k x) eqn:E; [apply Nat.eqb_eq in E; subst; now rewrite occ_cons|].
  apply Nat.eqb_neq in E. destruct H as [H|H]; [congruence|]. rewrite !occ_cons. rewrite (IH H). lia.
Qed.
Lemma remove_one_incl k l : incl (remove_one k l) l.
Proof. induction l as [|x l IH]; cbn; [intros y []|]. destruct (Nat.eqb k x); [intros y Hy; now right|]. intros y [->|Hy]; [now left | right; auto]. Qed.
Lemma unkeep_ok h l R l' kept S : incl kept R -> forall ks new h', wf h' (l' ++ new ++ R) -> walked h l R h' l' new S -> Forall S ks ->
  exists new' h'', unkeep ks (new ++ kept) h' = Ok (new' ++ kept, h'') /\ wf h'' (l' ++ new' ++ R) /\ walked h l R h'' l' new' S /\ forall b u, denotes h' b u -> denotes h'' b u.
Proof.
  intros Hi. induction ks as [|k ks IH]; intros new h' W K F; cbn [unkeep]; [exists new, h'; auto|]. apply Forall_cons_iff in F. destruct F as [Sk F].
  destruct (existsb (Nat.eqb k) (new ++ kept)) eqn:E; [|apply IH; auto]. apply existsb_exists in E. destruct E as (x & Hx & Ex). apply Nat.eqb_eq in Ex. subst x.
  assert (Hk : In k new). { apply in_app_or in Hx. destruct Hx as [Hx|Hx]; auto. exfalso. apply (k_rest _ _ _ _ _ _ _ K k Sk). auto. } rewrite remove_one_app by auto.
  destruct (k_cell _ _ _ _ _ _ _ K k Sk) as (c & G & C1 & C2 & C3). pose proof (proj1 (occ_in new k) Hk) as O1. assert (Es : strong c = 2) by lia.
  set (h1 := put h' k (Some (mkcell 1 (lab c) (kids c)))). assert (E1 : h_drop k h' = Ok h1).
  { pose proof (total_put h' k None (get_lt _ _ _ G)) as Tp. rewrite G in Tp. cbn [count] in Tp. unfold h_drop. destruct (total h') as [|n] eqn:Et; [lia|]. cbn [h_drops]. unfold live. rewrite G. cbn [rbind]. rewrite Es. cbn. destruct n; reflexivity. }
  rewrite E1. cbn [rbind]. assert (W1 : wf h1 (l' ++ remove_one k new ++ R)).
  { destruct (w_count _ _ W k c G) as [Cw _]. rewrite !occ_app, (occ_remove_one k new k Hk) in Cw. destruct (Nat.eq_dec k k); [|congruence].
    apply (wf_count_put h' (l' ++ new ++ R) _ k c 1); [exact W | exact G | lia | | rewrite !occ_app; lia].
    intros b N. rewrite !occ_app, (occ_remove_one k new b Hk). destruct (Nat.eq_dec k b); [congruence | lia]. }
  assert (Hl : List.length h1 = List.length h') by apply put_length. assert (G1 : get h1 k = Some (mkcell 1 (lab c) (kids c))) by (apply get_put_same; eapply get_lt; eauto).
  assert (O2 : forall b, b <> k -> get h1 b = get h' b) by (intros b N; apply get_put_other; congruence). assert (Ok0 : occ (remove_one k new) k = 0) by (pose proof (occ_remove_one k new k Hk) as Q; destruct (Nat.eq_dec k k); [lia | congruence]).
  assert (Edge : forall P, noedge P h' -> noedge P h1).
  { intros P N x cx Gx Nx. destruct (Nat.eq_dec x k) as [->|Nk]; [|rewrite O2 in Gx by auto; eauto]. rewrite G1 in Gx. injection Gx as <-. cbn. eapply N; eauto. }
  assert (K1 : walked h l R h1 l' (remove_one k new) S).
  { destruct K as [Kr Kc Ke Kt Kn Ka [Kl Ks]]. split; auto.
    - intros b Hb. destruct (Nat.eq_dec b k) as [->|N].
      + exists (mkcell 1 (lab c) (kids c)). rewrite Ok0. cbn. repeat split; auto.
      + destruct (Kc b Hb) as (cb & Gb & B1 & B2 & B3). exists cb. rewrite O2 by auto. pose proof (occ_remove_one k new b Hk) as Q. destruct (Nat.eq_dec k b); [congruence|]. cbn in Q. rewrite <- Q. auto.
    - rewrite Forall_forall in Kn |- *. intros x Hx'. apply Kn. eapply remove_one_incl; eauto.
    - split; [lia|]. intros P A. destruct (Ks P A) as [(B' & Al' & Ne') Sm']. split; [split; [|split; auto]|].
      + intros b Hb. rewrite Hl. auto.
      + intros b Hb. rewrite O2; [auto|]. intros ->. exact (Ka P A k Sk Hb). }
  destruct (IH _ _ W1 K1 F) as (new' & h'' & E2 & W2 & K2 & D2). exists new', h''. split; auto. split; auto. split; auto. intros b u Db. apply D2. now apply den_count.
Qed.

Lemma depth_le (ts : list (tree L)) n : list_max (map depth ts) <= n -> Forall (fun t => depth t <= n) ts.
Proof. intros H. apply list_max_le in H. rewrite Forall_map in H. exact H. Qed.
Lemma walk_step keep strip n a kept h a1 h1 d ks : make_mut a h = Ok (a1, h1) -> get h1 a1 = Some (mkcell 1 d ks) ->
  walk (L := L) keep strip (S n) a kept h =
    let? rs := walk_list (walk keep strip n) ks kept (put h1 a1 (Some (mkcell 1 d []))) in
    let? h := set_kids a1 (fst (fst rs)) (snd rs) in
    if keep a1 h then
      let? h' := h_clone a1 h in
      if strip a1 h then let? u := unkeep (fst (fst rs)) (a1 :: snd (fst rs)) h' in Ok (a1, fst u, snd u) else Ok (a1, a1 :: snd (fst rs), h')
    else Ok (a1, snd (fst rs), h).
Proof. intros E G. cbn [walk]. rewrite E. cbn [rbind fst snd]. unfold live at 1. rewrite G. cbn [rbind kids]. unfold set_kids at 1. unfold live at 1. rewrite G. reflexivity. Qed.

Lemma walk_ok keep strip : forall n t, depth t <= n -> walk_spec (walk keep strip n) t.
Proof.
  induction n as [|n IH]; intros [d ts] Hd; [cbn in Hd; lia|]. cbn [depth] in Hd. apply le_S_n, depth_le in Hd.
  intros h a R kept W D Hi. destruct (make_mut_ok h R a d ts W D) as (a1 & h1 & ks & E1 & W1 & G1 & F1 & D1 & [Sl Sp] & _). rewrite (walk_step keep strip n a kept h a1 h1 d ks E1 G1).
  destruct (take_kids h1 _ a1 d ks W1 G1) as [W2 D2]. set (h2 := put h1 a1 (Some (mkcell 1 d []))) in *.
  destruct (sole h1 _ a1 _ W1 G1 eq_refl) as [So1 So2]. pose proof (no_ref h1 a1 a1 _ So2 G1) as Nk. cbn [kids] in Nk.
  assert (NR : ~ In a1 R) by (rewrite occ_in; lia). assert (G2 : get h2 a1 = Some (mkcell 1 d [])) by (apply get_put_same; eapply get_lt; eauto).
  destruct (walk_list_ok (walk keep strip n) ts) with (l := ks) (h := h2) (R := a1 :: R) (kept := kept) as (ks' & new & h3 & S & E3 & W3 & F3 & P3 & [Kr Kc Ke Kt Kn Ka [Kl Ks]]).
  { revert Hd. apply Forall_impl. intros t Ht. now apply IH. }
  { eapply wf_occ; [|exact W2]. intros b. rewrite ?occ_cons, ?occ_app, ?occ_cons. lia. }
  { eapply dens_impl; [exact F1|]. intros b u Hb. apply D2. intros ->. auto. }
  { intros x Hx. right. auto. }
  rewrite E3. cbn [rbind fst snd]. assert (A1 : aside (fun b => b = a1) h2 ks).
  { split; [|split].
    - intros b ->. eapply get_lt; eauto.
    - apply Forall_forall. intros x Hx ->. auto.
    - intros x c Gx Nx' y Hy ->. unfold h2 in Gx. rewrite get_put_other in Gx by congruence. revert Hy. eapply no_ref; eauto. }
  destruct (Ks _ A1) as [(B3 & Al3 & Ne3) Sm3]. assert (Na1 : ~ S a1) by (intros H; exact (Ka _ A1 a1 H eq_refl)).
  assert (G3 : get h3 a1 = Some (mkcell 1 d [])) by (rewrite (Sm3 a1 eq_refl); exact G2).
  unfold set_kids, live. rewrite G3. cbn [rbind strong lab].
  assert (W3' : wf h3 (a1 :: ks' ++ new ++ R)) by (eapply wf_occ; [|exact W3]; intros b; rewrite ?occ_cons, ?occ_app, ?occ_cons; lia).
  destruct (put_kids h3 (new ++ R) a1 d ks' ts W3' G3 F3) as (W4 & D4 & P4 & N4 & N4' & R4). set (h4 := put h3 a1 (Some (mkcell 1 d ks'))) in *.
  assert (G4 : get h4 a1 = Some (mkcell 1 d ks')) by (apply get_put_same; eapply get_lt; eauto).
  assert (O4 : forall b, b <> a1 -> get h4 b = get h3 b) by (intros b Nb; apply get_put_other; congruence).
  assert (R5 : refs h4 a1 = 0) by (destruct (sole h4 _ a1 _ W4 G4 eq_refl); auto).
  set (S' := fun b => b = a1 \/ S b). assert (X : walked h [a] R h4 [a1] new S').
  { assert (Ap : forall P, aside P h [a] -> (aside P h2 ks /\ same_on P h h2) /\ ~ P a1).
    { intros P A. destruct (Sp P A) as [(B1 & Al1 & Ne1) Sm1]. apply Forall_cons_iff in Al1. destruct Al1 as [Pa1 _]. split; auto. split; [split; [|split]|].
      - intros b Hb. unfold h2. rewrite put_length. auto.
      - apply Forall_forall. intros x Hx. exact (Ne1 a1 _ G1 Pa1 x Hx).
      - apply noedge_put; auto. intros c Ec x Hx. injection Ec as <-. destruct Hx.
      - eapply same_on_trans; [exact Sm1|]. now apply same_on_put. }
    split.
    - constructor; [now left | constructor].
    - intros b [->|Hb].
      + exists (mkcell 1 d ks'). split; auto. cbn [strong kids]. rewrite (occ_not S new a1 Kn Na1). split; auto. split; [lia|]. revert Kr. apply Forall_impl. intros x Hx. now right.
      + destruct (Kc b Hb) as (c & G & C1 & C2 & C3). exists c. rewrite O4 by (intros ->; auto). repeat split; auto. revert C3. apply Forall_impl. intros x Hx. now right.
    - intros x c Gx Nx y Hy [->|Hs]; [revert Hy; eapply no_ref; eauto|]. assert (Nx1 : x <> a1) by (intros ->; apply Nx; now left). rewrite O4 in Gx by auto.
      apply (Ke x c Gx) with (k := y) in Hs; auto. intros H. apply Nx. now right.
    - intros b [->|Hb]; auto. intros H. apply (Kt b Hb). now right.
    - revert Kn. apply Forall_impl. intros x Hx. now right.
    - intros P A b [->|Hb]; destruct (Ap P A) as [[A2 _] Pa]; [auto | now apply (Ka P A2)].
    - split; [unfold h4; rewrite put_length; unfold h2 in Kl; rewrite put_length in Kl; lia|]. intros P A. destruct (Ap P A) as [[A2 Sm2'] Pa]. destruct (Ks P A2) as [(B' & Al' & Ne') Sm']. split; [split; [|split]|].
      + intros b Hb. unfold h4. rewrite put_length. auto.
      + constructor; auto.
      + apply noedge_put; auto. intros c Ec x Hx. injection Ec as <-. cbn [kids] in Hx. rewrite Forall_forall in Al'. auto.
      + eapply same_on_trans; [exact Sm2'|]. eapply same_on_trans; [exact Sm'|]. now apply same_on_put. }
  assert (D4' : forall b u, In b R -> denotes h b u -> denotes h4 b u).
  { intros b u Hb Db. assert (b <> a1) by (intros ->; auto). apply P4; auto. apply P3; [now right|]. apply D2; auto. }
  destruct (keep a1 h4).
  - destruct (clone_ok h4 _ a1 W4 (ex_intro _ _ G4)) as (h5 & E5 & W5 & S5 & O5 & C5 & N5). rewrite E5. cbn [rbind].
    assert (W5' : wf h5 ([a1] ++ (a1 :: new) ++ R)). { eapply wf_occ; [|exact W5]. intros b. cbn [app]. rewrite ?occ_cons, ?occ_app. lia. }
    assert (D5 : forall b u, denotes h4 b u -> denotes h5 b u) by (intros b u; now apply same_nodes_den).
    assert (X5 : walked h [a] R h5 [a1] (a1 :: new) S').
    { destruct X as [Xr Xc Xe Xt Xn Xa [Xl Xs]]. split; auto.
      - intros b Hb. destruct (Nat.eq_dec b a1) as [->|Nb].
        + destruct (Xc a1 Hb) as (c & G & C1 & C2 & C3). replace c with (mkcell 1 d ks') in * by congruence. exists (mkcell 2 d ks'). rewrite (C5 _ G4). rewrite occ_cons, (occ_not S new a1 Kn Na1). destruct (Nat.eq_dec a1 a1); [|congruence]. repeat split; auto.
        + destruct (Xc b Hb) as (c & G & C1 & C2 & C3). exists c. rewrite O5 by auto. rewrite occ_cons. destruct (Nat.eq_dec a1 b); [congruence|]. repeat split; auto.
      - constructor; auto. now left.
      - destruct S5 as [S5 _]. split; [lia|]. intros P A. destruct (Xs P A) as [(B' & Al' & Ne') Sm']. split; [split; [|split; auto]|].
        + intros b Hb. rewrite S5. auto.
        + intros b Hb. rewrite O5; auto. intros ->. apply Forall_cons_iff in Al'. destruct Al'; auto. }
    destruct (strip a1 h4).
    + destruct (unkeep_ok h [a] R [a1] kept S' Hi ks' (a1 :: new) h5 W5' X5) as (new' & h6 & E6 & W6 & X6 & D6); [revert Kr; apply Forall_impl; intros x Hx; now right|].
      cbn [app] in E6. rewrite E6. cbn [rbind fst snd]. exists a1, new', h6, S'. split; [reflexivity|]. split; [exact W6|]. split; [auto|]. split; auto.
    + exists a1, (a1 :: new), h5, S'. split; [reflexivity|]. split; [exact W5'|]. split; [auto|]. split; auto.
  - exists a1, new, h4, S'. split; [reflexivity|]. split; [exact W4|]. split; [exact D4|]. split; [exact D4' | exact X].
Qed.

(** * No two paths lead to the same node *)
Lemma look_snoc h p i : forall a b, look (p ++ [i]) a h = Ok b -> exists x c, look p a h = Ok x /\ get h x = Some c /\ nth_error (kids c) i = Some b.
Proof.
  induction p as [|j p IH]; intros a b E; cbn [app look] in *.
  - unfold live in E. destruct (get h a) as [c|] eqn:G; [|discriminate E]. cbn [rbind] in E. destruct (nth_error (kids c) i) as [k|] eqn:Ek; [|discriminate E]. inversion E; subst. exists a, c. auto.
  - unfold live in E |- *. destruct (get h a) as [c|] eqn:G; [|discriminate E]. cbn [rbind] in *. destruct (nth_error (kids c) j) as [k|]; [|discriminate E]. apply IH. exact E.
Qed.
Lemma look_reach h p : forall a b, look p a h = Ok b -> reach h a b.
Proof.
  induction p as [|j p IH]; intros a b E; cbn [look] in E; [inversion E; constructor|]. unfold live in E. destruct (get h a) as [c|] eqn:G; [|discriminate E]. cbn [rbind] in E.
  destruct (nth_error (kids c) j) as [k|] eqn:Ek; [|discriminate E]. econstructor; [exact G | eapply nth_error_In; eauto | apply IH; auto].
Qed.
Lemma refs_two h b x cx y cy : get h x = Some cx -> get h y = Some cy -> x <> y -> In b (kids cx) -> In b (kids cy) -> 2 <= refs h b.
Proof.
  revert x y; induction h as [|o h IH]; intros [|x] [|y] Gx Gy N Kx Ky; try discriminate Gx; try lia; rewrite refs_cons.
  - cbn in Gx. subst o. pose proof (refs_in h b y cy Gy Ky). apply occ_in in Kx. cbn. lia.
  - cbn in Gy. subst o. pose proof (refs_in h b x cx Gx Kx). apply occ_in in Ky. cbn. lia.
  - assert (2 <= refs h b) by (apply (IH x y); auto; congruence). lia.
Qed.
Lemma refs_ge h b x cx : get h x = Some cx -> occ (kids cx) b <= refs h b.
Proof. revert x; induction h as [|o h IH]; intros [|x] G; try discriminate G; rewrite refs_cons; [cbn in G; subst o; cbn; lia | specialize (IH x G); lia]. Qed.
Lemma occ_two (l : list nat) i j b : nth_error l i = Some b -> nth_error l j = Some b -> i <> j -> 2 <= occ l b.
Proof.
  revert i j; induction l as [|x l IH]; intros [|i] [|j] Ei Ej N; try discriminate Ei; try lia; cbn in Ei, Ej; rewrite occ_cons.
  - inversion Ei; subst. apply nth_error_In, occ_in in Ej. destruct (Nat.eq_dec b b); [lia | congruence].
  - inversion Ej; subst. apply nth_error_In, occ_in in Ei. destruct (Nat.eq_dec b b); [lia | congruence].
  - assert (2 <= occ l b) by (apply (IH i j); auto). lia.
Qed.
Lemma unshared_ok h a : (forall b, reach h a b -> occ [a] b + refs h b <= 1) -> unshared h a.
Proof.
  intros Hr p. induction p as [|i p IH] using rev_ind; intros q b Ep Eq.
  - cbn in Ep. inversion Ep; subst b. destruct q as [|j q _] using rev_ind; auto. destruct (look_snoc _ _ _ _ _ Eq) as (x & c & _ & G & Ek). apply nth_error_In in Ek. pose proof (refs_in h a x c G Ek). specialize (Hr a (reach_refl _ _)). rewrite occ_cons in Hr. destruct (Nat.eq_dec a a); [lia | congruence].
  - pose proof (Hr b (look_reach _ _ _ _ Ep)) as Hb. destruct (look_snoc _ _ _ _ _ Ep) as (x & c & Ex & G & Ek). pose proof (nth_error_In _ _ Ek) as Kx. pose proof (refs_in h b x c G Kx) as Rb.
    destruct q as [|j q _] using rev_ind.
    + cbn in Eq. inversion Eq; subst b. rewrite occ_cons in Hb. destruct (Nat.eq_dec a a); [lia | congruence].
    + destruct (look_snoc _ _ _ _ _ Eq) as (y & c' & Ey & G' & Ek'). pose proof (nth_error_In _ _ Ek') as Ky.
      destruct (Nat.eq_dec x y) as [<-|N]; [|pose proof (refs_two h b x c y c' G G' N Kx Ky); lia]. replace c' with c in * by congruence.
      destruct (Nat.eq_dec i j) as [<-|N]; [f_equal; eapply IH; eauto|]. pose proof (occ_two _ _ _ _ Ek Ek' N). pose proof (refs_ge h b x c G). lia.
Qed.
Lemma walk_unshares keep strip n h a R kept t : wf h (a :: kept ++ R) -> denotes h a t -> depth t <= n -> exists a' kept' h', walk keep strip n a kept h = Ok (a', kept', h') /\
  wf h' (a' :: kept' ++ R) /\ denotes h' a' t /\ (forall b u, In b (kept ++ R) -> denotes h b u -> denotes h' b u) /\ unshared h' a' /\
  forall b c, reach h' a' b -> get h' b = Some c -> strong c = 1 + occ kept' b /\ strong c <= 2 /\ ~ In b (kept ++ R).
Proof.
  intros W D Hn. destruct (walk_ok keep strip n t Hn h a (kept ++ R) kept W D (fun x H => in_or_app kept R x (or_introl H))) as (a' & new & h' & S & E & W' & D' & P & K).
  exists a', (new ++ kept), h'. rewrite <- app_assoc. split; auto. split; auto. split; auto. split; auto.
  assert (Hs : forall b, reach h' a' b -> S b).
  { destruct K as [Kr Kc _ _ _ _ _]. apply Forall_cons_iff in Kr. destruct Kr as [Ka _]. intros b Hb. clear E W' D'. induction Hb as [x|x c k y G Hk Hy IH]; auto. apply IH. destruct (Kc x Ka) as (c' & G' & _ & _ & F). replace c' with c in * by congruence. rewrite Forall_forall in F. auto. }
  destruct K as [Kr Kc _ Kt _ _ _].
  assert (Hc : forall b, reach h' a' b -> exists c, get h' b = Some c /\ strong c = 1 + occ new b /\ occ new b <= 1 /\ ~ In b (kept ++ R)).
  { intros b Hb. apply Hs in Hb. destruct (Kc b Hb) as (c & G & C1 & C2 & _). exists c. auto. }
  split.
  - apply unshared_ok. intros b Hb. destruct (Hc b Hb) as (c & G & C1 & C2 & C3). destruct (w_count _ _ W' b c G) as [C4 _]. rewrite occ_cons, !occ_app in C4. rewrite occ_cons. cbn. lia.
  - intros b c Hb G. destruct (Hc b Hb) as (c' & G' & C1 & C2 & C3). replace c' with c in * by congruence. rewrite occ_app. assert (occ kept b = 0); [|split; [lia|split; auto; lia]].
    assert (N : ~ In b kept) by (intros H; apply C3; apply in_or_app; now left). rewrite occ_in in N. lia.
Qed.
End Walk.
