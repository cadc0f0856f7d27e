(** Handles behave like values: dropping, changing below a path, and sequences of operations. *)
From Coq Require Import List String Arith Lia Permutation.
From Verif.Model Require Import Syntax SharedHeap.
From Verif.Spec Require Import SharedSpec.
From Verif.Proofs Require Import SharedBasic SharedProofs.
Import ListNotations.
Local Open Scope list_scope.
Local Open Scope nat_scope.

Section Ops.
Context {L : Type}.
Implicit Types (h : heap L) (R : list nat).

(** * drop *)
Definition count (o : option (cell L)) := match o with Some c => strong c | None => 0 end.
Lemma total_put h a x : a < List.length h -> total (put h a x) + count (get h a) = total h + count x.
Proof.
  revert a; induction h as [|y h IH]; intros [|a] Hl; cbn in Hl; try lia; unfold total in *; cbn [put map list_sum fold_right].
  - unfold get. cbn [nth]. unfold count. lia.
  - specialize (IH a). change (get (y :: h) (S a)) with (get h a). unfold count, list_sum in *. cbn [fold_right]. lia.
Qed.
Lemma drops_ok fuel : forall l h R, wf h (l ++ R) -> total h <= fuel -> exists h', h_drops fuel l h = Ok h' /\ wf h' R /\ forall b t, In b R -> denotes h b t -> denotes h' b t.
Proof.
  induction fuel as [|fuel IH]; intros [|a l] h R W Hf; cbn [h_drops].
  - exists h. auto.
  - destruct (wf_in _ _ a W) as [c G]; [now left|]. destruct (w_count _ _ W a c G) as [_ C]. pose proof (total_put h a None (get_lt _ _ _ G)) as T. rewrite G in T. cbn [count] in T. lia.
  - exists h. auto.
  - destruct (wf_in _ _ a W) as [c G]; [now left|]. pose proof (get_lt _ _ _ G) as Hl. destruct (w_count _ _ W a c G) as [C1 C2].
    unfold live. rewrite G. cbn [rbind]. cbn [app] in C1. destruct (Nat.leb (strong c) 1) eqn:E.
    + apply Nat.leb_le in E. assert (E1 : strong c = 1) by lia. cbn [app] in W. destruct (sole h (l ++ R) a c W G E1) as [S1 S2].
      assert (W' : wf (put h a None) ((kids c ++ l) ++ R)).
      { apply (wf_put h (a :: l ++ R) _ a c); [exact W | exact G | | |].
        - intros b N. rewrite <- app_assoc, !occ_app, occ_cons, occ_app. cbn [edges]. destruct (Nat.eq_dec a b); [congruence | lia].
        - split; auto. rewrite <- app_assoc, occ_app, S1. pose proof (no_ref h a a c S2 G) as N. rewrite occ_in in N. lia.
        - intros b t N D. exists t. now apply den_put. }
      pose proof (total_put h a None Hl) as T. rewrite G in T. cbn [count] in T. destruct (IH _ _ _ W') as (h' & E' & Wh & D); [lia|]. exists h'. split; auto. split; auto.
      intros b t Hb Dt. apply D; auto. apply den_put; auto. intros ->. apply occ_in in Hb. rewrite occ_app in S1. lia.
    + apply Nat.leb_gt in E. cbn [app] in W. assert (W' : wf (put h a (Some (mkcell (strong c - 1) (lab c) (kids c)))) (l ++ R)).
      { apply (wf_count_put h (a :: l ++ R) _ a c); [exact W | exact G | lia | |].
        - intros b N. rewrite occ_cons. destruct (Nat.eq_dec a b); [congruence | lia].
        - rewrite occ_cons in C1. destruct (Nat.eq_dec a a); [lia | congruence]. }
      pose proof (total_put h a (Some (mkcell (strong c - 1) (lab c) (kids c))) Hl) as T. rewrite G in T. cbn [count strong] in T. destruct (IH _ _ _ W') as (h' & E' & Wh & D); [lia|]. exists h'. split; auto. split; auto.
      intros b t Hb Dt. apply D; auto. now apply den_count.
Qed.

(** * Taking children out and putting them back *)
Lemma take_kids h R a d ks : wf h (a :: R) -> get h a = Some (mkcell 1 d ks) -> wf (put h a (Some (mkcell 1 d []))) (a :: ks ++ R) /\ forall b t, b <> a -> denotes h b t -> denotes (put h a (Some (mkcell 1 d []))) b t.
Proof.
  intros W G. destruct (sole h R a _ W G eq_refl) as [S1 S2]. assert (D : forall b t, b <> a -> denotes h b t -> denotes (put h a (Some (mkcell 1 d []))) b t) by (intros b t N D; now apply den_put).
  split; auto. assert (N : occ ks a = 0). { pose proof (no_ref h a a _ S2 G) as N. cbn in N. rewrite occ_in in N. lia. }
  apply (wf_put h (a :: R) _ a _ _ W G).
  - intros b Nb. cbn [edges kids]. rewrite !occ_cons, occ_app. cbn. lia.
  - cbn [strong kids]. rewrite occ_cons, occ_app, N, S1, S2. destruct (Nat.eq_dec a a); [|congruence]. split; [cbn; lia|]. split; [lia|].
    exists (T d []). change d with (lab (mkcell 1 d [])) at 2. econstructor; [apply get_put_same; eapply get_lt; eauto|]. constructor.
  - intros b t Nb Db. eauto.
Qed.
Lemma put_kids h R a d ks ts : wf h (a :: ks ++ R) -> get h a = Some (mkcell 1 d []) -> Forall2 (denotes h) ks ts ->
  wf (put h a (Some (mkcell 1 d ks))) (a :: R) /\ denotes (put h a (Some (mkcell 1 d ks))) a (T d ts) /\ (forall b t, b <> a -> denotes h b t -> denotes (put h a (Some (mkcell 1 d ks))) b t) /\ ~ In a ks /\ ~ In a R /\ refs h a = 0.
Proof.
  intros W G F. destruct (sole h _ a _ W G eq_refl) as [S1 S2]. rewrite occ_app in S1.
  assert (N1 : ~ In a ks) by (rewrite occ_in; lia). assert (N2 : ~ In a R) by (rewrite occ_in; lia).
  assert (D : forall b t, b <> a -> denotes h b t -> denotes (put h a (Some (mkcell 1 d ks))) b t) by (intros b t N D; now apply den_put).
  assert (Da : denotes (put h a (Some (mkcell 1 d ks))) a (T d ts)).
  { apply (den _ _ (mkcell 1 d ks)); [apply get_put_same; eapply get_lt; eauto|]. cbn. now apply den_put_list. }
  split; [|repeat split; auto]. apply (wf_put h (a :: ks ++ R) _ a _ _ W G).
  - intros b Nb. cbn [edges kids]. rewrite !occ_cons, occ_app. cbn. lia.
  - cbn [strong kids]. rewrite occ_cons. destruct (Nat.eq_dec a a); [|congruence]. cbn [occ count_occ]. split; [lia|]. split; [lia|]. eauto.
  - intros b t Nb Db. eauto.
Qed.

(** * Changes below a path *)
Definition contract (f : nat -> list nat -> heap L -> res (nat * list nat * heap L)) (F : tree L -> list (tree L) -> option (tree L * list (tree L))) :=
  forall h a xs R t us, wf h (a :: xs ++ R) -> denotes h a t -> Forall2 (denotes h) xs us ->
  match F t us with
  | None => exists e, f a xs h = Err e
  | Some (t', us') => exists a' xs' h', f a xs h = Ok (a', xs', h') /\ wf h' (a' :: xs' ++ R) /\ denotes h' a' t' /\ Forall2 (denotes h') xs' us' /\
      (forall b u, In b R -> denotes h b u -> denotes h' b u) /\ spares h (a :: xs) h' (a' :: xs')
  end.
Fixpoint t_modify (p : list nat) (F : tree L -> list (tree L) -> option (tree L * list (tree L))) (t : tree L) (us : list (tree L)) : option (tree L * list (tree L)) :=
  match p, t with
  | [], _ => F t us
  | i :: p, T d ts => match nth_error ts i with
                      | Some k => match t_modify p F k us with Some (k, us) => Some (T d (replace_nth i k ts), us) | None => None end
                      | None => None
                      end
  end.
Lemma Forall2_nth {A B} (P : A -> B -> Prop) l m : Forall2 P l m -> forall i, match nth_error l i, nth_error m i with Some x, Some y => P x y | None, None => True | _, _ => False end.
Proof. induction 1 as [|x y l m Hp F IH]; intros [|i]; cbn; auto. exact (IH i). Qed.
Lemma replace_split {X} i (x : X) l y : nth_error l i = Some y -> replace_nth i x l = firstn i l ++ x :: skipn (S i) l /\ l = firstn i l ++ y :: skipn (S i) l.
Proof. revert i; induction l as [|z l IH]; intros [|i] E; try discriminate E; cbn in *; [inversion E; auto|]. destruct (IH i E) as [-> E2]. split; auto. f_equal. exact E2. Qed.
Lemma set_nth_replace i x l : set_nth i x l = replace_nth i x l.
Proof. revert i; induction l as [|y l IH]; intros [|i]; cbn; auto. now rewrite IH. Qed.
Lemma Forall2_firstn {A B} (P : A -> B -> Prop) l m : Forall2 P l m -> forall i, Forall2 P (firstn i l) (firstn i m).
Proof. induction 1; intros [|i]; cbn; auto. Qed.
Lemma Forall2_skipn {A B} (P : A -> B -> Prop) l m : Forall2 P l m -> forall i, Forall2 P (skipn i l) (skipn i m).
Proof. induction 1; intros [|i]; cbn; auto. Qed.
Lemma dens_impl h h' l ts : Forall2 (denotes h) l ts -> (forall b t, In b l -> denotes h b t -> denotes h' b t) -> Forall2 (denotes h') l ts.
Proof. induction 1 as [|b t l ts D F IH]; intros H; constructor; [apply H; auto; now left | apply IH; intros; apply H; auto; now right]. Qed.

Lemma modify_cons i p f a xs h a1 h1 d ks : make_mut a h = Ok (a1, h1) -> get h1 a1 = Some (mkcell 1 d ks) ->
  modify (L := L) (i :: p) f a xs h = match nth_error ks i with
    | None => Err "no such child"%string
    | Some k => let? r := modify p f k xs (put h1 a1 (Some (mkcell 1 d []))) in
                let? h := set_kids a1 (set_nth i (fst (fst r)) ks) (snd r) in Ok (a1, snd (fst r), h)
    end.
Proof. intros E G. cbn [modify]. rewrite E. cbn [rbind fst snd]. unfold live at 1. rewrite G. cbn [rbind kids]. destruct (nth_error ks i); auto. unfold set_kids at 1. unfold live. rewrite G. reflexivity. Qed.
Lemma modify_ok f F p : contract f F -> contract (modify p f) (t_modify p F).
Proof.
  intros Cf. induction p as [|i p IH]; [exact Cf|]. intros h a xs R [d ts] us W D Fx. cbn [t_modify].
  destruct (make_mut_ok h (xs ++ R) a d ts W D) as (a1 & h1 & ks & E1 & W1 & G1 & F1 & D1 & [Sl Sp] & _). rewrite (modify_cons i p f a xs h a1 h1 d ks E1 G1).
  pose proof (Forall2_nth _ _ _ F1 i) as Hi. destruct (nth_error ks i) as [k|] eqn:Ek, (nth_error ts i) as [tk|] eqn:Et; try contradiction; [|eauto].
  destruct (take_kids h1 _ a1 d ks W1 G1) as [W2 D2]. set (h2 := put h1 a1 (Some (mkcell 1 d []))) in *.
  destruct (sole h1 _ a1 _ W1 G1 eq_refl) as [So1 So2]. pose proof (no_ref h1 a1 a1 _ So2 G1) as Nk. cbn [kids] in Nk.
  destruct (replace_split i k ks k Ek) as [_ Eks]. set (k1 := firstn i ks) in *. set (k2 := skipn (S i) ks) in *.
  assert (W2' : wf h2 (k :: xs ++ (a1 :: k1 ++ k2 ++ R))).
  { eapply wf_occ; [|exact W2]. intros b. rewrite Eks. rewrite ?occ_cons, ?occ_app, ?occ_cons, ?occ_app, ?occ_cons, ?occ_app. lia. }
  assert (Nk0 : k <> a1) by (intros ->; apply Nk; rewrite Eks; apply in_or_app; right; now left).
  assert (Nx : ~ In a1 xs) by (rewrite occ_in; rewrite occ_app in So1; lia). assert (NR : ~ In a1 R) by (rewrite occ_in; rewrite occ_app in So1; lia).
  assert (G2 : get h2 a1 = Some (mkcell 1 d [])) by (apply get_put_same; eapply get_lt; eauto).
  specialize (IH h2 k xs (a1 :: k1 ++ k2 ++ R) tk us W2' (D2 _ _ Nk0 Hi)). destruct (t_modify p F tk us) as [[tk' us']|].
  - destruct IH as (a3 & xs3 & h3 & E3 & W3 & D3 & F3 & P3 & [Tl Tp]).
    { eapply dens_impl; [exact Fx|]. intros b t Hb Db. apply D2; [intros ->; auto|]. now apply D1. }
    rewrite E3. cbn [rbind fst snd]. destruct (Tp (fun b => b = a1)) as [(B3 & Al3 & Ne3) Sm3].
    { split; [|split].
      - intros b ->. eapply get_lt; eauto.
      - constructor; auto. apply Forall_forall. intros x Hx ->. auto.
      - intros x c Gx Nx' y Hy ->. unfold h2 in Gx. rewrite get_put_other in Gx by congruence. revert Hy. eapply no_ref; eauto. }
    assert (G3 : get h3 a1 = Some (mkcell 1 d [])) by (rewrite (Sm3 a1 eq_refl); exact G2).
    unfold set_kids. unfold live. rewrite G3. cbn [rbind strong lab]. destruct (replace_split i a3 ks k Ek) as [Eset _]. fold k1 k2 in Eset. rewrite set_nth_replace, Eset.
    destruct (replace_split i tk' ts tk Et) as [Ets Etk]. rewrite Ets.
    assert (Fk : Forall2 (denotes h3) (k1 ++ a3 :: k2) (firstn i ts ++ tk' :: skipn (S i) ts)).
    { assert (Hold : forall b t, In b k1 \/ In b k2 -> denotes h1 b t -> denotes h3 b t).
      { intros b t Hb Db. apply P3; [right; apply in_or_app; destruct Hb; [left; auto | right; apply in_or_app; now left]|]. apply D2; auto.
        intros ->. apply Nk. rewrite Eks. apply in_or_app. destruct Hb; [left; auto | right; now right]. }
      apply Forall2_app; [|constructor; auto]; (eapply dens_impl; [first [apply Forall2_firstn; exact F1 | apply Forall2_skipn; exact F1]|]); intros b t Hb; apply Hold; auto. }
    assert (W3' : wf h3 (a1 :: (k1 ++ a3 :: k2) ++ xs3 ++ R)).
    { eapply wf_occ; [|exact W3]. intros b. rewrite ?occ_cons, ?occ_app, ?occ_cons, ?occ_app, ?occ_cons, ?occ_app. lia. }
    destruct (put_kids h3 (xs3 ++ R) a1 d (k1 ++ a3 :: k2) _ W3' G3 Fk) as (W4 & D4 & P4 & N4 & N4' & R4).
    exists a1, xs3, (put h3 a1 (Some (mkcell 1 d (k1 ++ a3 :: k2)))). split; [reflexivity|]. split; [exact W4|]. split; [exact D4|]. split; [|split].
    + eapply dens_impl; [exact F3|]. intros b t Hb Db. apply P4; auto. intros ->. apply N4'. apply in_or_app. now left.
    + intros b t Hb Db. apply P4; [intros ->; auto|]. apply P3; [right; apply in_or_app; right; apply in_or_app; now right|]. apply D2; [intros ->; auto|]. now apply D1.
    + split; [rewrite put_length; unfold h2 in Tl; rewrite put_length in Tl; lia|]. intros S (B & Al & Ne). apply Forall_cons_iff in Al; destruct Al as [Sa Sx].
      destruct (Sp S) as [(B1 & Al1 & Ne1) Sm1]; [split; [exact B|split; [constructor; auto | exact Ne]]|]. apply Forall_cons_iff in Al1; destruct Al1 as [Sa1 _].
      assert (Hks : forall x, In x ks -> ~ S x) by (intros x Hx; exact (Ne1 a1 _ G1 Sa1 x Hx)).
      destruct (Tp S) as [(B3' & Al3' & Ne3') Sm3'].
      { split; [|split].
        - intros b Hb. unfold h2. rewrite put_length. now apply B1.
        - constructor; auto. apply Hks. rewrite Eks. apply in_or_app. right. now left.
        - apply noedge_put; auto. intros c Ec x Hx. injection Ec as <-. destruct Hx. }
      apply Forall_cons_iff in Al3'; destruct Al3' as [Sa3 Sx3]. split; [split; [|split]|].
      * intros b Hb. rewrite put_length. now apply B3'.
      * constructor; auto.
      * apply noedge_put; auto. intros c Ec x Hx. injection Ec as <-. cbn [kids] in Hx. apply in_app_or in Hx. destruct Hx as [Hx|[<-|Hx]]; auto; apply Hks; rewrite Eks; apply in_or_app; [left; auto | right; now right].
      * eapply same_on_trans; [exact Sm1|]. eapply same_on_trans; [now apply (same_on_put S h1 a1 (Some (mkcell 1 d [])))|]. eapply same_on_trans; [exact Sm3'|]. now apply same_on_put.
  - destruct IH as [e E3].
    { eapply dens_impl; [exact Fx|]. intros b t Hb Db. apply D2; [intros ->; auto|]. now apply D1. }
    rewrite E3. cbn [rbind]. eauto.
Qed.

Definition F_relabel (d : L) (t : tree L) (us : list (tree L)) : option (tree L * list (tree L)) := match t with T _ ts => Some (T d ts, us) end.
Lemma relabel_ok d : contract (relabel d) (F_relabel d).
Proof.
  intros h a xs R [d0 ts] us W D Fx. cbn [F_relabel]. unfold relabel.
  destruct (make_mut_ok h (xs ++ R) a d0 ts W D) as (a1 & h1 & ks & E1 & W1 & G1 & F1 & D1 & [Sl Sp] & _). rewrite E1. cbn [rbind fst snd]. unfold set_label, live. rewrite G1. cbn [rbind strong kids].
  destruct (sole h1 _ a1 _ W1 G1 eq_refl) as [So1 So2]. pose proof (no_ref h1 a1 a1 _ So2 G1) as Nk. cbn [kids] in Nk. rewrite occ_app in So1.
  assert (Nx : ~ In a1 xs) by (rewrite occ_in; lia). assert (NR : ~ In a1 R) by (rewrite occ_in; lia).
  assert (Da : denotes (put h1 a1 (Some (mkcell 1 d ks))) a1 (T d ts)) by (apply (den _ _ (mkcell 1 d ks)); [apply get_put_same; eapply get_lt; eauto | cbn; now apply den_put_list]).
  exists a1, xs, (put h1 a1 (Some (mkcell 1 d ks))). split; [reflexivity|]. split; [|split; [exact Da|split; [|split]]].
  - apply (wf_put h1 (a1 :: xs ++ R) _ a1 _ _ W1 G1); [reflexivity | | intros b t N Db; exists t; now apply den_put].
    cbn [strong kids]. rewrite occ_cons, occ_app. destruct (Nat.eq_dec a1 a1); [|congruence]. split; [lia|]. split; [lia|]. eauto.
  - eapply dens_impl; [exact Fx|]. intros b t Hb Db. apply den_put; auto. intros ->. auto.
  - intros b t Hb Db. apply den_put; auto. intros ->. auto.
  - split; [now rewrite put_length|]. intros S (B & Al & Ne). apply Forall_cons_iff in Al; destruct Al as [Sa Sx].
    destruct (Sp S) as [(B1 & Al1 & Ne1) Sm1]; [split; [exact B|split; [constructor; auto | exact Ne]]|]. apply Forall_cons_iff in Al1; destruct Al1 as [Sa1 _]. split; [split; [|split]|].
    + intros b Hb. rewrite put_length. now apply B1.
    + constructor; auto.
    + apply noedge_put; auto. intros c Ec x Hx. injection Ec as <-. exact (Ne1 a1 _ G1 Sa1 x Hx).
    + eapply same_on_trans; [exact Sm1|]. now apply same_on_put.
Qed.
Definition F_swap (t : tree L) (us : list (tree L)) : option (tree L * list (tree L)) := match us with u :: us => Some (u, t :: us) | [] => None end.
Lemma swap_ok : contract swap F_swap.
Proof.
  intros h a xs R t us W D Fx. destruct Fx as [|x u xs us Dx Fx]; cbn [F_swap swap]; [eauto|]. exists x, (a :: xs), h. split; [reflexivity|]. split; [|split; [auto|split; [constructor; auto|split; [auto|]]]].
  - eapply wf_perm; [|exact W]. cbn. apply perm_swap.
  - split; auto. intros S (B & Al & Ne). apply Forall_cons_iff in Al; destruct Al as [Sa Sx]. apply Forall_cons_iff in Sx; destruct Sx. split; [|intros b Hb; reflexivity]. split; auto.
Qed.
Lemma t_modify_relabel p d : forall t us, t_modify p (F_relabel d) t us = match t_look p t with Some (T _ ks) => match t_update p (T d ks) t with Some t' => Some (t', us) | None => None end | None => None end.
Proof.
  induction p as [|i p IH]; intros [d0 ts] us; cbn; auto. destruct (nth_error ts i) as [k|]; auto. rewrite IH. destruct (t_look p k) as [[d1 ks]|]; auto. destruct (t_update p (T d ks) k); auto.
Qed.
Lemma t_modify_swap p : forall t u us, t_modify p F_swap t (u :: us) = match t_look p t, t_update p u t with Some k, Some t' => Some (t', k :: us) | _, _ => None end.
Proof.
  induction p as [|i p IH]; intros [d0 ts] u us; cbn; auto. destruct (nth_error ts i) as [k|]; auto. rewrite IH. destruct (t_look p k) as [k'|]; auto. destruct (t_update p u k); auto.
Qed.
End Ops.
