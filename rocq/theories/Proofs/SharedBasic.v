(** Counting owners in a heap of shared nodes. *)
From Coq Require Import List String Arith Lia Permutation.
From Verif.Model Require Import Syntax SharedHeap.
From Verif.Spec Require Import SharedSpec.
Import ListNotations.
Local Open Scope list_scope.
Local Open Scope nat_scope.

Section Basic.
Context {L : Type}.
Implicit Types (h : heap L) (R : list nat).

Lemma get_lt h a c : get h a = Some c -> a < List.length h.
Proof. unfold get. intros H. destruct (le_lt_dec (List.length h) a); auto. now rewrite nth_overflow in H. Qed.
Lemma put_length h a c : List.length (put h a c) = List.length h.
Proof. revert a; induction h as [|x h IH]; intros [|a]; cbn; auto. Qed.
Lemma get_put_same h a c : a < List.length h -> get (put h a c) a = c.
Proof. unfold get. revert a; induction h as [|x h IH]; intros [|a] H; cbn in *; try lia; auto. apply IH. lia. Qed.
Lemma get_put_other h a b c : a <> b -> get (put h a c) b = get h b.
Proof. unfold get. revert a b; induction h as [|x h IH]; intros [|a] [|b] H; cbn; auto; try congruence. Qed.
Lemma get_app h x b : b < List.length h -> get (h ++ x) b = get h b.
Proof. unfold get. intros H. now apply app_nth1. Qed.
Lemma get_new h c : get (h ++ [c]) (List.length h) = c.
Proof. unfold get. now rewrite app_nth2, Nat.sub_diag by lia. Qed.
Lemma get_app_some h c b x : get (h ++ [c]) b = Some x -> (b < List.length h /\ get h b = Some x) \/ (b = List.length h /\ c = Some x).
Proof.
  intros H. destruct (lt_dec b (List.length h)) as [Hl|Hl]; [left; split; auto; now rewrite get_app in H|]. right.
  pose proof (get_lt _ _ _ H) as H1. rewrite app_length in H1. cbn in H1. assert (b = List.length h) by lia. subst b. split; auto. now rewrite get_new in H.
Qed.

Lemma occ_app l k a : occ (l ++ k) a = occ l a + occ k a.
Proof. unfold occ. apply count_occ_app. Qed.
Lemma occ_cons x l a : occ (x :: l) a = (if Nat.eq_dec x a then 1 else 0) + occ l a.
Proof. unfold occ. cbn. destruct (Nat.eq_dec x a); auto. Qed.
Lemma occ_in l a : In a l <-> 0 < occ l a.
Proof. unfold occ. split; intros H; [apply (count_occ_In Nat.eq_dec) in H; lia | apply (count_occ_In Nat.eq_dec); lia]. Qed.
Lemma occ_perm l k a : Permutation l k -> occ l a = occ k a.
Proof. unfold occ. intros H. now apply (Permutation_count_occ Nat.eq_dec). Qed.
Definition edges (o : option (cell L)) (a : nat) : nat := match o with Some c => occ (kids c) a | None => 0 end.
Lemma refs_cons x h a : refs (x :: h) a = edges x a + refs h a.
Proof. reflexivity. Qed.
Lemma refs_put h a x b : a < List.length h -> refs (put h a x) b + edges (get h a) b = refs h b + edges x b.
Proof.
  revert a; induction h as [|y h IH]; intros [|a] H; cbn in H; try lia; cbn [put]; rewrite !refs_cons.
  - unfold get. cbn. lia.
  - change (get (y :: h) (S a)) with (get h a). specialize (IH a). lia.
Qed.
Lemma refs_new h x b : refs (h ++ [x]) b = refs h b + edges x b.
Proof. induction h as [|y h IH]; cbn [app]; rewrite ?refs_cons; [cbn; lia|]. rewrite IH. lia. Qed.
Lemma refs_pos h a : 0 < refs h a -> exists x c, get h x = Some c /\ In a (kids c).
Proof.
  induction h as [|o h IH]; [cbn; lia|]. rewrite refs_cons. intros H. destruct (Nat.eq_dec (edges o a) 0) as [E|E].
  - destruct IH as (x & c & G & K); [lia|]. exists (S x), c. auto.
  - destruct o as [c|]; [|cbn in E; lia]. exists 0, c. split; auto. apply occ_in. cbn in E. lia.
Qed.
Lemma refs_in h a x c : get h x = Some c -> In a (kids c) -> 0 < refs h a.
Proof.
  revert x; induction h as [|o h IH]; intros [|x] G K; try discriminate G; rewrite refs_cons.
  - cbn in G. subst o. apply occ_in in K. cbn. lia.
  - specialize (IH x G K). lia.
Qed.

Lemma den_ind' h (P : nat -> tree L -> Prop) : (forall a c ts, get h a = Some c -> Forall2 (denotes h) (kids c) ts -> Forall2 P (kids c) ts -> P a (T (lab c) ts)) -> forall a t, denotes h a t -> P a t.
Proof.
  intros H. fix IH 3. intros a t [a' c ts G F]. apply H; auto. clear G. induction F as [|k u ks us D F IHF]; constructor; auto.
Qed.
(** Only labels and children matter. *)
Lemma den_mono h h' : (forall a c, get h a = Some c -> exists c', get h' a = Some c' /\ lab c' = lab c /\ kids c' = kids c) -> forall a t, denotes h a t -> denotes h' a t.
Proof.
  intros H. apply den_ind'. intros a c ts G _ F. destruct (H a c G) as (c' & G' & E1 & E2). rewrite <- E1. econstructor; [exact G'|]. now rewrite E2.
Qed.
(** Nor what nobody refers to. *)
Lemma den_put h a x : refs h a = 0 -> forall b t, denotes h b t -> b <> a -> denotes (put h a x) b t.
Proof.
  intros H0. apply (den_ind' h (fun b t => b <> a -> denotes (put h a x) b t)). intros b c ts G _ F Hb. econstructor; [rewrite get_put_other by congruence; exact G|].
  assert (N : ~ In a (kids c)) by (intros K; pose proof (refs_in h a b c G K); lia). clear G. induction F as [|k u ks us D F IH]; constructor; [|apply IH; intros K; apply N; now right].
  apply D. intros ->. apply N. now left.
Qed.
Lemma den_put_list h a x : refs h a = 0 -> forall l ts, Forall2 (denotes h) l ts -> ~ In a l -> Forall2 (denotes (put h a x)) l ts.
Proof.
  intros H0. induction 1 as [|k u ks us D F IH]; intros N; constructor.
  - apply den_put; auto. intros ->. apply N. now left.
  - apply IH. intros K. apply N. now right.
Qed.
Lemma den_inv h a d ts : denotes h a (T d ts) -> exists c, get h a = Some c /\ lab c = d /\ Forall2 (denotes h) (kids c) ts.
Proof. intros D. inversion D; subst. eauto. Qed.
Lemma den_live h a t : denotes h a t -> exists c, get h a = Some c.
Proof. intros [a' c ts G _]. eauto. Qed.
Lemma tree_ind' (P : tree L -> Prop) : (forall d ts, Forall P ts -> P (T d ts)) -> forall t, P t.
Proof. intros H. fix IH 1. intros [d ts]. apply H. induction ts; constructor; auto. Qed.

Lemma wf_occ h R R' : (forall a, occ R a = occ R' a) -> wf h R -> wf h R'.
Proof. intros E [W1 W2 W3]. split; auto; intros a; rewrite <- E; auto. Qed.
Lemma wf_perm h R R' : Permutation R R' -> wf h R -> wf h R'.
Proof. intros P. apply wf_occ. intros a. now apply occ_perm. Qed.
Lemma wf_in h R a : wf h R -> In a R -> exists c, get h a = Some c.
Proof. intros W H. apply (w_live _ _ W). apply occ_in in H. lia. Qed.
Lemma wf_den h R a : wf h R -> In a R -> exists t, denotes h a t.
Proof. intros W H. destruct (wf_in h R a W H) as [c G]. eapply w_tree; eauto. Qed.
Lemma wf_nil : wf (L := L) [] [].
Proof. split; [intros [|a] c G; discriminate G | intros a H; cbn in H; lia | intros [|a] c G; discriminate G]. Qed.
(** The only owner is known. *)
Lemma sole h R a c : wf h (a :: R) -> get h a = Some c -> strong c = 1 -> occ R a = 0 /\ refs h a = 0.
Proof. intros W G E. destruct (w_count _ _ W a c G) as [H _]. rewrite occ_cons in H. destruct (Nat.eq_dec a a); lia. Qed.
Lemma no_ref h a x c : refs h a = 0 -> get h x = Some c -> ~ In a (kids c).
Proof. intros E G K. pose proof (refs_in h a x c G K). lia. Qed.

(** * Changing one cell *)
Lemma wf_put h R R' a c x : wf h R -> get h a = Some c ->
  (forall b, b <> a -> occ R' b + edges x b = occ R b + occ (kids c) b) ->
  match x with
  | Some c' => strong c' = occ R' a + (refs h a + occ (kids c') a - occ (kids c) a) /\ 1 <= strong c' /\ exists t, denotes (put h a x) a t
  | None => occ R' a = 0 /\ refs h a = 0
  end ->
  (forall b t, b <> a -> denotes h b t -> exists t', denotes (put h a x) b t') -> wf (put h a x) R'.
Proof.
  intros W G E Ha D. pose proof (get_lt _ _ _ G) as Hl. assert (Ref : forall b, refs (put h a x) b + occ (kids c) b = refs h b + edges x b).
  { intros b. pose proof (refs_put h a x b Hl) as H. rewrite G in H. exact H. } split.
  - intros b cb Gb. destruct (Nat.eq_dec b a) as [->|N].
    + rewrite get_put_same in Gb by auto. subst x. specialize (Ref a). cbn [edges] in Ref. lia.
    + rewrite get_put_other in Gb by congruence. destruct (w_count _ _ W b cb Gb). specialize (Ref b). specialize (E b N). lia.
  - intros b Hb. destruct (Nat.eq_dec b a) as [->|N].
    + rewrite get_put_same by auto. destruct x as [c'|]; [eauto|]. specialize (Ref a). cbn [edges] in Ref. lia.
    + rewrite get_put_other by congruence. apply (w_live _ _ W). specialize (Ref b). specialize (E b N). lia.
  - intros b cb Gb. destruct (Nat.eq_dec b a) as [->|N].
    + rewrite get_put_same in Gb by auto. subst x. apply Ha.
    + rewrite get_put_other in Gb by congruence. destruct (w_tree _ _ W b cb Gb) as [t Dt]. eauto.
Qed.
(** A different count. *)
Lemma den_count h a c n : get h a = Some c -> forall b t, denotes h b t -> denotes (put h a (Some (mkcell n (lab c) (kids c)))) b t.
Proof.
  intros G. apply den_mono. intros b cb Gb. destruct (Nat.eq_dec b a) as [->|N].
  - rewrite get_put_same by (eapply get_lt; eauto). replace cb with c by congruence. eauto.
  - rewrite get_put_other by congruence. eauto.
Qed.
Lemma den_count_list h a c n l ts : get h a = Some c -> Forall2 (denotes h) l ts -> Forall2 (denotes (put h a (Some (mkcell n (lab c) (kids c))))) l ts.
Proof. intros G. induction 1; constructor; auto. now apply den_count. Qed.
Lemma wf_count_put h R R' a c n : wf h R -> get h a = Some c -> 1 <= n -> (forall b, b <> a -> occ R' b = occ R b) -> n = occ R' a + refs h a -> wf (put h a (Some (mkcell n (lab c) (kids c)))) R'.
Proof.
  intros W G Hn E Ha. apply (wf_put h R R' a c); [exact W | exact G | | |].
  - intros b N. cbn [edges kids]. rewrite E; auto.
  - cbn [strong kids]. split; [lia|]. split; auto. destruct (w_tree _ _ W a c G) as [t D]. exists t. now apply den_count.
  - intros b t _ D. exists t. now apply den_count.
Qed.

(** * Nodes out of the way of a change *)
Definition noedge (S : nat -> Prop) h := forall x c, get h x = Some c -> ~ S x -> forall k, In k (kids c) -> ~ S k.
Definition below (S : nat -> Prop) h := forall b, S b -> b < List.length h.
Definition same_on (S : nat -> Prop) h h' := forall b, S b -> get h' b = get h b.
Lemma noedge_put S h a x : noedge S h -> ~ S a -> (forall c, x = Some c -> forall k, In k (kids c) -> ~ S k) -> noedge S (put h a x).
Proof.
  intros N Na Hx b c G Nb. destruct (Nat.eq_dec b a) as [->|E].
  - rewrite get_put_same in G by (apply get_lt in G; now rewrite put_length in G). eauto.
  - rewrite get_put_other in G by congruence. eauto.
Qed.
Lemma same_on_put (S : nat -> Prop) h a x : ~ S a -> same_on S h (put h a x).
Proof. intros N b Hb. apply get_put_other. intros ->. auto. Qed.
Lemma same_on_trans (S : nat -> Prop) h h1 h2 : same_on S h h1 -> same_on S h1 h2 -> same_on S h h2.
Proof. intros A B b Hb. rewrite (B b Hb). now apply A. Qed.
End Basic.
