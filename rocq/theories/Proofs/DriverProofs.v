(** Verdicts and exit codes. *)
From Coq Require Import Bool List String Arith Lia Permutation.
From Verif.Model Require Import Syntax Driver.
From Verif.Spec Require Import Verdicts.
Import ListNotations.

Lemma cbind_inl {A B} (m : cres A) (f : A -> cres B) b : cbind m f = inl b -> exists a, m = inl a /\ f a = inl b.
Proof. destruct m; [eauto|discriminate]. Qed.
Lemma throw_inl e x : throw e = inl x -> e = None.
Proof. destruct e; [discriminate|auto]. Qed.
Lemma each_inl f l x : each f l = inl x -> forall u, In u l -> f u = None.
Proof.
  revert x. induction l as [|v l IH]; intros x H u Hu; [easy|]. apply cbind_inl in H as (y & H1 & H2).
  destruct Hu as [<-|Hu]; [now apply throw_inl in H1|eauto].
Qed.
Lemma each_ok f l : (forall u, In u l -> f u = None) -> each f l = inl tt.
Proof. induction l as [|v l IH]; intros H; [easy|]. simpl. rewrite (H v) by now left. simpl. apply IH. intros u Hu. apply H. now right. Qed.

Lemma add_emitted k sv : emitted sv = true -> emitted (add_diagnostic k sv) = true.
Proof. simpl. intros ->. reflexivity. Qed.
Lemma add_or_throw_emitted k sv sv' : add_or_throw k sv = inl sv' -> emitted sv = true -> emitted sv' = true.
Proof. unfold add_or_throw. destruct (_ || _); [discriminate|]. intros H. injection H as <-. apply add_emitted. Qed.

Lemma tycheck_emitted P l : forall sv sv', tycheck P l sv = inl sv' -> emitted sv = true -> emitted sv' = true.
Proof.
  induction l as [|u l IH]; intros sv sv' H E; simpl in H; [now injection H as <-|].
  apply cbind_inl in H as (? & _ & H). apply cbind_inl in H as (sv1 & H1 & H). apply IH in H; auto.
  destruct (p_monotone P u); [eapply add_or_throw_emitted; eauto|now injection H1 as <-].
Qed.
Lemma tycheck_inl P l : forall sv sv', tycheck P l sv = inl sv' -> forall u, In u l -> p_tycheck P u = None.
Proof.
  induction l as [|v l IH]; intros sv sv' H u Hu; [easy|]. simpl in H.
  apply cbind_inl in H as (? & H0 & H). apply cbind_inl in H as (sv1 & H1 & H).
  destruct Hu as [<-|Hu]; [now apply throw_inl in H0|eauto].
Qed.

Lemma front_inl P o sv l' sv' : parse_and_tycheck P o sv = inl (l', sv') ->
  exists l, p_parse P = inl l /\ l' = kept_list P o l /\
    (forall u, In u l -> p_declare P u = None /\ p_resolve P u = None /\ p_tycheck P u = None) /\ (emitted sv = true -> emitted sv' = true).
Proof.
  intros H. apply cbind_inl in H as (l & E & H). apply cbind_inl in H as (? & D & H). apply cbind_inl in H as (? & R & H). apply cbind_inl in H as (sv1 & T & H).
  exists l. split; auto. unfold kept_list. destruct (o_filter o) as [re|].
  - destruct (p_regex P re); [|discriminate]. injection H as <- <-. split; [reflexivity|]. split.
    + intros u Hu. split; [eapply each_inl; eauto|]. split; [eapply each_inl; eauto|eapply tycheck_inl; eauto].
    + eapply tycheck_emitted; eauto.
  - injection H as <- <-. split; [reflexivity|]. split.
    + intros u Hu. split; [eapply each_inl; eauto|]. split; [eapply each_inl; eauto|eapply tycheck_inl; eauto].
    + eapply tycheck_emitted; eauto.
Qed.

Lemma kept_iff P o l u : (forall re, o_filter o = Some re -> p_regex P re <> None) -> (In u (kept_list P o l) <-> kept P o l u).
Proof.
  intros N. unfold kept_list, kept, matches. destruct (o_filter o) as [re|]; [|tauto].
  destruct (p_regex P re) as [f|] eqn:E; [|exfalso; now apply (N re)]. rewrite filter_In. split.
  - intros [H1 H2]. split; auto. intros T. rewrite T in H2. eauto.
  - intros [H1 H2]. split; auto. destruct (is_target u); auto. destruct H2 as (f' & E' & F); auto. injection E' as <-. now rewrite F.
Qed.

Lemma encode_inl P l : forall new, encode_all P l = inl new -> forall u, In u new <-> exists v n, In v l /\ p_encode P v = inl n /\ In u n.
Proof.
  induction l as [|v l IH]; intros new H u.
  - injection H as <-. split; [easy|]. intros (? & ? & [] & _).
  - apply cbind_inl in H as (n & E & H). apply cbind_inl in H as (m & E' & H). injection H as <-. rewrite in_app_iff, (IH m E' u). split.
    + intros [Hu|(w & n' & Hw & Hn & Hu)]; [exists v, n|exists w, n']; simpl; tauto.
    + intros (w & n' & [<-|Hw] & Hn & Hu); [left; congruence|right; eauto].
Qed.
Lemma encode_ok P l : (forall u, In u l -> exists n, p_encode P u = inl n) -> exists new, encode_all P l = inl new.
Proof.
  induction l as [|v l IH]; intros H; [now exists []|]. destruct (H v) as [n E]; [now left|]. destruct IH as [m E']; [intros; apply H; now right|].
  exists (n ++ m). simpl. now rewrite E, E'.
Qed.

Lemma report_emitted b r sv : emitted sv = true -> emitted (report b r sv) = true.
Proof. unfold report. destruct r; auto. destruct b; auto. apply add_emitted. Qed.

(** The loop over the units. *)
Lemma units_inl P sound todo : (forall u, accumulates (p_lower P u)) -> forall done sv ok bad ok' bad' sv',
  verify_units P sound done todo sv ok bad = inl (ok', bad', sv') ->
  bad <= bad' /\ ok' + bad' = ok + bad + List.length todo /\ (emitted sv = true -> emitted sv' = true) /\
  (forall u, In u todo -> exists r, p_solve P u = inl r /\ stop P [] r = None) /\
  (bad' = bad -> forall u, In u todo -> p_solve P u = inl RProof) /\
  (emitted sv' = false -> forall u, In u todo -> p_solve P u = inl RProof -> sound_proofs (sound u) = true).
Proof.
  intros A. induction todo as [|u todo IH]; intros done sv ok bad ok' bad' sv' H; simpl in H.
  - injection H as <- <- <-. simpl. split; [lia|]. split; [lia|]. split; [auto|]. split; [easy|]. split; easy.
  - apply cbind_inl in H as (? & _ & H). apply cbind_inl in H as (sv1 & L & H). apply cbind_inl in H as (r & S & H). apply cbind_inl in H as (? & X & H).
    apply throw_inl in X.
    assert (K : exists ok1 bad1, verify_units P sound (done ++ [u]) todo (report (sound_proofs (sound u)) r sv1) ok1 bad1 = inl (ok', bad', sv') /\
      (r = RProof /\ ok1 = 1 + ok /\ bad1 = bad \/ r <> RProof /\ ok1 = ok /\ bad1 = 1 + bad)).
    { destruct r; [exists (1 + ok), bad|exists ok, (1 + bad)|exists ok, (1 + bad)]; (split; [exact H|]); [left|right|right]; (split; [easy|split; reflexivity]). }
    destruct K as (ok1 & bad1 & K & C). apply IH in K as (K1 & K2 & K3 & K4 & K5 & K6).
    split; [lia|]. split; [simpl; lia|]. split.
    { intros E. apply K3, report_emitted. exact (A u _ _ L E). }
    split; [|split].
    + intros v [<-|Hv]; auto. exists r. split; auto. destruct r as [| |[]]; easy.
    + intros E v [<-|Hv].
      * destruct C as [(-> & _)|(_ & _ & ->)]; auto. lia.
      * apply K5; auto. lia.
    + intros E v [<-|Hv] Hp; auto. rewrite S in Hp. injection Hp as ->.
      destruct (sound_proofs (sound u)); auto. exfalso. rewrite K3 in E; [discriminate|]. simpl. now rewrite !orb_true_r.
Qed.

Lemma units_ok P sound todo : (forall m, p_limits P m = None) -> (forall u sv, p_lower P u sv = inl sv) ->
  (forall u, In u todo -> p_solve P u = inl RProof /\ sound_proofs (sound u) = true) ->
  forall done sv ok bad, verify_units P sound done todo sv ok bad = inl (ok + List.length todo, bad, sv).
Proof.
  intros L W. induction todo as [|u todo IH]; intros H done sv ok bad; simpl; [now rewrite Nat.add_0_r|].
  rewrite L. simpl. rewrite W. simpl. destruct (H u) as [-> ->]; [now left|]. simpl. rewrite IH; [f_equal; f_equal; f_equal; lia|]. intros v Hv. apply H. now right.
Qed.

(** * verify *)
Lemma finalize_0 r : finalize r = 0 -> exists sv, r = inl (true, sv) /\ emitted sv = false.
Proof.
  destruct r as [[b sv]|e]; simpl.
  - destruct (emitted sv) eqn:E; [discriminate|]. destruct b; [eauto|discriminate].
  - destruct e as [| |[]| | |]; discriminate.
Qed.

Theorem verdict_sound P o we : reports_stay P -> o_no_verify o = false -> verify_command P o we = 0 ->
  exists l, p_parse P = inl l /\ (forall u, In u l -> p_declare P u = None /\ p_resolve P u = None /\ p_tycheck P u = None) /\
    p_calculus P (kept_list P o l) = None /\
    forall u, selected P o l u -> p_solve P u = inl RProof /\ sound_proofs (p_sound P (kept_list P o l) u) = true.
Proof.
  intros [J A] N H. apply finalize_0 in H as (sv & H & E). unfold verify_files_main, skipping in H. rewrite N in H. cbn [andb] in H.
  apply cbind_inl in H as ([l' sv1] & F & H). pose proof F as F0. apply front_inl in F as (l & Pa & -> & D & _).
  assert (Nr : forall re, o_filter o = Some re -> p_regex P re <> None).
  { intros re Eq X. clear H. unfold parse_and_tycheck in F0. apply cbind_inl in F0 as (? & _ & F0). apply cbind_inl in F0 as (? & _ & F0).
    apply cbind_inl in F0 as (? & _ & F0). apply cbind_inl in F0 as (? & _ & F0). rewrite Eq, X in F0. discriminate. }
  apply cbind_inl in H as (sv2 & Ja & H). apply cbind_inl in H as (? & Ca & H). apply throw_inl in Ca. apply cbind_inl in H as (new & En & H).
  apply cbind_inl in H as (? & _ & H). apply cbind_inl in H as ([[ok bad] sv3] & U & H). injection H as B <-. apply Nat.eqb_eq in B. subst bad.
  apply units_inl in U; [|exact A]. destruct U as (_ & _ & _ & _ & U5 & U6).
  exists l. split; auto. split; auto. split; auto. intros u [T S].
  assert (Hu : In u (filter has_task (fst (extend (kept_list P o l) new)))).
  { apply filter_In. split; auto. simpl. apply in_or_app. destruct S as [K|(v & n & K & En' & Hn)].
    - left. now apply kept_iff.
    - right. apply (encode_inl P _ _ En). exists v, n. split; auto. now apply kept_iff. }
  split; [now apply U5|]. apply U6; auto.
Qed.

Theorem verdict_complete P o we l : o_no_verify o = false -> quiet P o l ->
  (forall u, selected P o l u -> p_solve P u = inl RProof /\ sound_proofs (p_sound P (kept_list P o l) u) = true) ->
  verify_command P o we = 0.
Proof.
  intros N (Pa & D & Nr & J & C & G & L & W & En) H. unfold verify_command, verify_files_main, skipping. rewrite N. cbn [andb].
  assert (F : forall sv, parse_and_tycheck P o sv = inl (kept_list P o l, sv)).
  { intros sv. unfold parse_and_tycheck. rewrite Pa. simpl. rewrite each_ok by (intros u Hu; now apply D). simpl. rewrite each_ok by (intros u Hu; now apply D). simpl.
    assert (T : forall k, (forall u, In u k -> In u l) -> tycheck P k sv = inl sv).
    { induction k as [|u k IH]; intros Hk; auto. simpl. destruct (D u) as (_ & _ & -> & ->); [apply Hk; now left|]. simpl. apply IH. intros v Hv. apply Hk. now right. }
    rewrite T by auto. simpl. unfold kept_list, retained. destruct (o_filter o) as [re|]; auto. destruct (p_regex P re) eqn:X; auto. now apply Nr in X. }
  rewrite F. simpl. rewrite J. simpl. rewrite C. simpl.
  assert (K : forall u, In u (kept_list P o l) -> In u l) by (intros u Hu; apply kept_iff in Hu; auto; apply Hu).
  destruct (encode_ok P (kept_list P o l)) as [new E]; [intros u Hu; now apply En, K|]. rewrite E. simpl. rewrite G. simpl.
  rewrite (units_ok P _ _ L W); [simpl; reflexivity|]. intros u Hu. apply filter_In in Hu as [Hu T]. apply H. split; auto.
  apply in_app_or in Hu as [Hu|Hu]; [left; now apply kept_iff|right]. apply (encode_inl P _ _ E) in Hu as (v & n & Hv & En' & Hn).
  exists v, n. split; auto. now apply kept_iff.
Qed.

(** Without the solver. *)
Theorem no_verify_succeeds P o we l : o_no_verify o = true -> o_output o = false -> quiet P o l -> verify_command P o we = 0.
Proof.
  intros N O (Pa & D & Nr & J & C & G & L & W & En). unfold verify_command, verify_files_main, skipping. rewrite N, O. cbn [andb negb].
  unfold parse_and_tycheck. cbn [p_parse p_declare p_resolve p_regex p_jani p_calculus]. rewrite Pa. cbn [cbind].
  rewrite each_ok by (intros u Hu; now apply D). cbn [cbind]. rewrite each_ok by (intros u Hu; now apply D). cbn [cbind].
  match goal with |- context [tycheck ?Q _ _] => set (P' := Q) end.
  assert (T : forall k sv, (forall u, In u k -> In u l) -> tycheck P' k sv = inl sv).
  { induction k as [|u k IH]; intros sv Hk; auto. simpl. destruct (D u) as (_ & _ & -> & ->); [apply Hk; now left|]. simpl. apply IH. intros v Hv. apply Hk. now right. }
  rewrite T by auto. cbn [cbind].
  assert (EA : forall k, (forall u, In u k -> In u l) -> exists new, encode_all P' k = inl new) by (intros k Hk; apply encode_ok; intros u Hu; apply En; auto).
  destruct (o_filter o) as [re|].
  - destruct (p_regex P re) as [f|] eqn:X; [|now apply Nr in X]. cbn [cbind]. rewrite J. cbn [cbind]. rewrite C. cbn [throw cbind].
    destruct (EA (retained f l)) as [new ->]; [intros u Hu; now apply filter_In in Hu|]. reflexivity.
  - cbn [cbind]. rewrite J. cbn [cbind]. rewrite C. cbn [throw cbind]. destruct (EA l) as [new ->]; auto.
Qed.
Theorem no_verify_output_fails P o we l u : reports_stay P -> o_no_verify o = true -> o_output o = true -> p_parse P = inl l -> selected P o l u ->
  verify_command P o we <> 0.
Proof.
  intros [J A] N O Pa S H. apply finalize_0 in H as (sv & H & E). unfold verify_files_main, skipping in H. rewrite N, O in H. cbn [andb negb] in H.
  match type of H with context [parse_and_tycheck ?Q _ _] => set (P' := Q) in * end.
  apply cbind_inl in H as ([l' sv1] & F & H). pose proof F as F0. apply front_inl in F as (l0 & Pa' & -> & D & _).
  assert (l0 = l) as -> by (change (p_parse P = inl l0) in Pa'; congruence).
  assert (Nr : forall re, o_filter o = Some re -> p_regex P re <> None).
  { intros re Eq X. clear H. unfold parse_and_tycheck in F0. apply cbind_inl in F0 as (? & _ & F0). apply cbind_inl in F0 as (? & _ & F0).
    apply cbind_inl in F0 as (? & _ & F0). apply cbind_inl in F0 as (? & _ & F0). rewrite Eq in F0. change (p_regex P' re) with (p_regex P re) in F0. rewrite X in F0. discriminate. }
  apply cbind_inl in H as (sv2 & Ja & H). apply cbind_inl in H as (? & Ca & H). apply cbind_inl in H as (new & En & H).
  apply cbind_inl in H as (? & _ & H). apply cbind_inl in H as ([[ok bad] sv3] & U & H). injection H as B <-. apply Nat.eqb_eq in B. subst bad.
  apply units_inl in U; [|exact A]. destruct U as (_ & _ & _ & _ & U5 & _). destruct S as [T S].
  assert (Hu : In u (filter has_task (fst (extend (kept_list P' o l) new)))).
  { apply filter_In. split; auto. simpl. apply in_or_app. destruct S as [K|(v & n & K & En' & Hn)].
    - left. now apply kept_iff.
    - right. apply (encode_inl P' _ _ En). exists v, n. split; auto. now apply kept_iff. }
  specialize (U5 eq_refl u Hu). discriminate.
Qed.

(** * entailment *)
Lemma entail_inl P solve : forall n l done sv sv', List.length l <= n -> entail_pairs P solve done l sv = inl sv' ->
  Nat.even (List.length l) = true /\ forall a b, In (a, b) (pairs l) -> (exists m, mapping a b = inl m) /\ exists r, solve a b = inl r /\ stop P [] r = None.
Proof.
  induction n as [|n IH]; intros l done sv sv' Hn H.
  - destruct l; [|simpl in Hn; lia]. split; [easy|]. intros a b [].
  - destruct l as [|a [|b l]]; [split; [easy|intros ? ? []]|discriminate|].
    cbn [entail_pairs] in H. apply cbind_inl in H as (m & M & H). apply cbind_inl in H as (? & _ & H). apply cbind_inl in H as (? & _ & H).
    apply cbind_inl in H as (r & S & H). apply cbind_inl in H as (? & X & H). apply throw_inl in X. simpl in Hn.
    apply IH in H as [E K]; [|lia]. split; [exact E|]. intros a' b' [Hab|Hab]; [injection Hab as <- <-|auto].
    split; [eauto|]. exists r. split; auto. destruct r as [| |[]]; easy.
Qed.
Theorem entailment_even P solve o we : entailment_command P solve o we = 0 ->
  exists l new, p_parse P = inl l /\ encode_all P (kept_list P o l) = inl new /\ Nat.even (List.length (filter has_body (kept_list P o l ++ new))) = true /\
    forall a b, In (a, b) (pairs (filter has_body (kept_list P o l ++ new))) -> (exists m, mapping a b = inl m) /\ exists r, solve a b = inl r /\ r <> RUnknown RTimeout /\ r <> RUnknown RInterrupted.
Proof.
  intros H. apply finalize_0 in H as (sv & H & E). apply cbind_inl in H as ([l' sv1] & F & H). apply front_inl in F as (l & Pa & -> & D & _).
  apply cbind_inl in H as (new & En & H). exists l, new. split; auto. split; auto. unfold extend in H. apply cbind_inl in H as (? & _ & H). apply cbind_inl in H as (sv2 & U & H).
  eapply entail_inl in U; [|apply le_n]. destruct U as [U1 U2]. split; auto. intros a b Hab. destruct (U2 a b Hab) as (Hm & r & Hr & Hs). split; auto.
  exists r. split; auto. split; intros ->; discriminate.
Qed.

(** * Statuses *)
Lemma combine_verified a b : combine_status a b = SVerified <-> a = SVerified /\ b = SVerified.
Proof. destruct a, b; simpl; intuition discriminate. Qed.
Theorem shown_verified l : shown l = Some SVerified <-> l <> [] /\ forall s, In s l -> s = SVerified.
Proof.
  destruct l as [|a l]; simpl; [split; [discriminate|easy]|]. split.
  - intros H. injection H as H. split; [easy|]. revert a H. induction l as [|b l IH]; intros a H; simpl in H.
    + subst. intros s [<-|[]]. reflexivity.
    + specialize (IH _ H). assert (K : combine_status a b = SVerified) by (apply IH; now left). apply combine_verified in K as [-> ->].
      intros s [<-|[<-|Hs]]; auto; apply IH; now right.
  - intros [_ H]. f_equal. revert a H. induction l as [|b l IH]; intros a H; simpl; [apply H; now left|].
    apply IH. assert (Ha : a = SVerified) by (apply H; now left). assert (Hb : b = SVerified) by (apply H; simpl; auto). subst. intros s [<-|Hs]; auto. apply H. simpl. auto.
Qed.
(** Nothing hides a failure. *)
Theorem shown_failed l : In SFailed l -> shown l = Some SFailed.
Proof.
  assert (F : forall l, fold_left combine_status l SFailed = SFailed) by (induction l0; auto).
  destruct l as [|a l]; [easy|]. intros H. simpl. f_equal. revert a H. induction l as [|b l IH]; intros a [->|H]; simpl; auto; try easy.
  destruct H as [H|H]; [|apply IH; now right]. subst b. replace (combine_status a SFailed) with SFailed by (destruct a; reflexivity). apply F.
Qed.
Theorem shown_order_refuted : exists l l', Permutation l l' /\ shown l <> shown l'.
Proof.
  exists [SVerified; SRefuted; STimeout], [SRefuted; STimeout; SVerified]. split; [|discriminate].
  apply Permutation_cons_append.
Qed.
