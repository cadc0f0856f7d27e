(** States of the program and of its JANI model; distributions; conditions. *)
From Coq Require Import Bool List ZArith NArith QArith Reals Qreals Lia Lra ClassicalEpsilon FunctionalExtensionality.
From Verif.Model Require Import Syntax Lits Builder Dist Jani.
From Verif.Spec Require Import Eur Sem Wp JaniSem.
From Verif.Proofs Require Import EurLemmas SemLemmas WpLemmas DistProofs JaniExpr.
Import ListNotations.

Section States.
  Context (ids : list ident) (Hn : NoDup (map iname ids)) (Fi : forall x, In x ids -> ity x <> TEUReal).

  Lemma ids_name x y : In x ids -> In y ids -> iname x = iname y -> x = y.
  Proof.
    clear Fi. induction ids as [|z l IH]; [intros []|]. cbn [map] in Hn. inversion Hn as [|? ? Hz Hl]; subst.
    intros [->|Hx] [->|Hy] E; auto; exfalso; apply Hz.
    - rewrite E. now apply in_map.
    - rewrite <- E. now apply in_map.
  Qed.

  Lemma find_name x : In x ids -> find (fun y => String.eqb (iname y) (iname x)) ids = Some x.
  Proof.
    intros Hx. destruct (find (fun y => String.eqb (iname y) (iname x)) ids) as [y|] eqn:E.
    - apply find_some in E. destruct E as [Hy E]. apply String.eqb_eq in E. f_equal. now apply ids_name.
    - exfalso. apply (find_none _ _ E) in Hx. now rewrite String.eqb_refl in Hx.
  Qed.

  Lemma conc_rep s : rep ids s (jstate_of ids s).
  Proof. intros x Hx. unfold jstate_of. now rewrite find_name. Qed.

  Lemma conc_upd s x v : In x ids -> jstate_of ids (upd s x v) = jupd (jstate_of ids s) (iname x) (jv v).
  Proof.
    intros Hx. apply functional_extensionality. intros n. unfold jupd, jstate_of.
    destruct (String.eqb_spec (iname x) n) as [<-|Ne].
    - rewrite find_name by auto. now rewrite upd_same.
    - destruct (find _ ids) as [y|] eqn:E; auto. apply find_some in E. destruct E as [Hy E]. apply String.eqb_eq in E.
      rewrite upd_other; auto. intros ->. contradiction.
  Qed.

  Definition jok (t : jstate) : Prop := forall x, In x ids -> exists v, has_ty v (ity x) /\ t (iname x) = jv v.

  Lemma conc_jok s : env_ok s -> jok (jstate_of ids s).
  Proof. intros Hs x Hx. exists (s x). split; [apply Hs | now apply conc_rep]. Qed.
  Lemma jok_upd t x v : jok t -> In x ids -> has_ty v (ity x) -> jok (jupd t (iname x) (jv v)).
  Proof.
    intros Ht Hx Hv y Hy. unfold jupd. destruct (String.eqb_spec (iname x) (iname y)) as [E|Ne]; [|auto].
    apply ids_name in E; auto. subst. eauto.
  Qed.

  Lemma typed_finite v x : In x ids -> has_ty v (ity x) -> finite v.
  Proof. intros Hx Hv E. subst. injection Hv as E. symmetry in E. now apply Fi in E. Qed.

  Context (base : env) (Hb : env_ok base).
  Definition abs (t : jstate) : env := fun x =>
    if existsb (ident_eqb x) ids then epsilon (inhabits (base x)) (fun v => has_ty v (ity x) /\ t (iname x) = jv v) else base x.

  Lemma in_ids x : existsb (ident_eqb x) ids = true <-> In x ids.
  Proof.
    rewrite existsb_exists. split.
    - intros (y & Hy & E). apply ident_eqb_eq in E. now subst.
    - intros H. exists x. split; auto. apply ident_eqb_refl.
  Qed.
  Lemma abs_in t x : jok t -> In x ids -> has_ty (abs t x) (ity x) /\ t (iname x) = jv (abs t x).
  Proof.
    intros Ht Hx. unfold abs. rewrite (proj2 (in_ids x) Hx). apply epsilon_spec. auto.
  Qed.
  Lemma abs_val t x v : jok t -> In x ids -> has_ty v (ity x) -> t (iname x) = jv v -> abs t x = v.
  Proof.
    intros Ht Hx Hv E. destruct (abs_in t x Ht Hx) as [H1 H2]. apply jv_inj with (ity x); eauto using typed_finite. congruence.
  Qed.
  Lemma abs_out t x : ~ In x ids -> abs t x = base x.
  Proof. intros Hx. unfold abs. destruct (existsb (ident_eqb x) ids) eqn:E; auto. apply (proj1 (in_ids x)) in E. contradiction. Qed.
  Lemma abs_rep t : jok t -> rep ids (abs t) t.
  Proof. intros Ht x Hx. now apply abs_in. Qed.
  Lemma abs_ok t : jok t -> env_ok (abs t).
  Proof.
    intros Ht x. destruct (in_dec ident_dec x ids) as [Hx|Hx]; [now apply abs_in | rewrite abs_out; auto].
  Qed.
  Lemma abs_upd t x v : jok t -> In x ids -> has_ty v (ity x) -> abs (jupd t (iname x) (jv v)) = upd (abs t) x v.
  Proof.
    intros Ht Hx Hv. apply functional_extensionality. intros y. pose proof (jok_upd t x v Ht Hx Hv) as Ht'.
    destruct (ident_dec x y) as [<-|Ne].
    - rewrite upd_same. apply abs_val; auto. unfold jupd. now rewrite String.eqb_refl.
    - rewrite upd_other by auto. destruct (in_dec ident_dec y ids) as [Hy|Hy]; [|now rewrite !abs_out].
      destruct (abs_in t y Ht Hy) as [H1 H2]. apply abs_val; auto. unfold jupd.
      destruct (String.eqb_spec (iname x) (iname y)) as [E|_]; auto. apply ids_name in E; auto. contradiction.
  Qed.
  Lemma abs_conc : abs (jstate_of ids base) = base.
  Proof.
    apply functional_extensionality. intros x. destruct (in_dec ident_dec x ids) as [Hx|Hx]; [|now apply abs_out].
    apply abs_val; auto using conc_jok. now apply conc_rep.
  Qed.
End States.

(** * Distributions *)
Lemma mapM_spec {A B} (f : A -> res B) l : forall l', mapM f l = Ok l' -> Forall2 (fun a b => f a = Ok b) l l'.
Proof.
  induction l as [|a l IH]; intros l' H; cbn [mapM] in H; [injection H as <-; constructor|].
  destruct (f a) eqn:E; try discriminate. cbn [rbind] in H. destruct (mapM f l) eqn:E2; try discriminate. injection H as <-. constructor; auto.
Qed.

Section Dist.
  Context (ids : list ident) (fbody : String.string -> option (list ty * ty)).
  Definition pv_ok (pv : expr * expr) : Prop := jexp_ok ids fbody (fst pv) = true /\ jexp_ok ids fbody (snd pv) = true.
  Definition res_ok (r : res dist) : Prop := forall d, r = Ok d -> Forall pv_ok d.

  Lemma from_odds_exprs l : Forall (fun p => jexp_ok ids fbody (snd p) = true) l -> res_ok (from_odds l).
  Proof.
    intros Hl d H. unfold from_odds in H. destruct (fold_left _ l (Ok 0%N)) as [total| |]; try discriminate. cbn [rbind] in H.
    apply mapM_spec in H. induction H as [|p pv l d Hp H IH]; [constructor|]. inversion Hl; subst. constructor; auto.
    destruct (total =? 0)%N; [discriminate|]. injection Hp as <-. split; auto.
  Qed.
  Lemma from_odds_mapM (f : N -> res (N * expr)) ks : (forall k p, f k = Ok p -> jexp_ok ids fbody (snd p) = true) ->
    res_ok (let? l := mapM f ks in from_odds l).
  Proof.
    intros Hf d H. destruct (mapM f ks) as [l| |] eqn:E; try discriminate. cbn [rbind] in H. revert H. apply from_odds_exprs.
    apply mapM_spec in E. induction E; constructor; eauto.
  Qed.
  Ltac by_binds := repeat match goal with
    | H : (let? _ := ?m in _) = Ok _ |- _ => destruct m; cbn [rbind] in H; try discriminate H end;
    match goal with H : Ok _ = Ok _ |- _ => injection H as <-; reflexivity end.

  Lemma apply_dist_exprs f args : forallb (jexp_ok ids fbody) args = true -> res_ok (apply_dist f args).
  Proof.
    intros Ha. unfold apply_dist.
    repeat match goal with
    | |- res_ok (if ?c then _ else _) => destruct c
    | |- res_ok (match ?l with [] => _ | _ :: _ => _ end) => destruct l
    | |- res_ok (Panic _) => intros ? H; discriminate H
    | |- res_ok (let? _ := ?m in _) => destruct m eqn:?; cbn [rbind]
    end; try (intros ? H; discriminate H).
    - apply from_odds_exprs. repeat constructor.
    - intros d H. injection H as <-. cbn [forallb] in Ha. apply andb_prop in Ha. destruct Ha as [Ha _].
      assert (K : forall t e, jexp_ok ids fbody e = true -> jexp_ok ids fbody (b_cast t e) = true).
      { intros t e' He. unfold b_cast. destruct (ty_eqb (ty_of e') t); auto. }
      repeat constructor; cbn [fst snd]; auto; apply K; cbn [jexp_ok]; auto. now rewrite K, Ha.
    - apply from_odds_exprs. induction (range_incl _ _); constructor; auto.
    - apply from_odds_mapM. intros k p H. by_binds.
    - unfold dist_hyper. destruct (u128 _); try (intros ? H; discriminate H). apply from_odds_mapM. intros k p H. by_binds.
  Qed.
End Dist.

(** * Conditions *)
Lemma ev_lit0 I t l s : lit_ok t l = true -> lit_is_bot l = true -> t <> TBool ->
  (t = TEUReal -> ev I (ELit t l) s = ebot) /\ (cast_ok TEUReal t = true -> ev I (ECast TEUReal (ELit t l)) s = ebot).
Proof.
  intros Hok Hl Nt. destruct t, l; try discriminate Hok; try congruence; cbn [lit_is_bot] in Hl; try discriminate Hl; (split; intros H; try discriminate H); unfold ev; cbn [eval eval_lit eval_cast].
  - apply N.eqb_eq in Hl. subst. reflexivity.
  - apply Qeq_bool_iff in Hl. apply Qeq_eqR in Hl. rewrite Hl. unfold Q2R. cbn. rewrite Rmult_0_l. reflexivity.
  - apply Qeq_bool_iff in Hl. apply Qeq_eqR in Hl. rewrite Hl. unfold Q2R. cbn. rewrite Rmult_0_l. reflexivity.
Qed.

Lemma extract_embed_sound e c : is_exp e -> extract_embed e = Some c ->
  is_guard c /\ forall I s, interp_ok I -> env_ok s -> ev I e s = etruth (holds I c s).
Proof.
  intros [W Ty] H.
  assert (Lits : forall e, wt e = true -> ty_of e = TEUReal ->
     (if is_bot_lit e then Some (b_bool false) else if is_top_lit e then Some (b_bool true) else None) = Some c ->
     is_guard c /\ forall I s, interp_ok I -> env_ok s -> ev I e s = etruth (holds I c s)).
  { clear. intros e W Ty H. destruct (is_bot_lit e) eqn:B.
    - injection H as <-. split; [split; reflexivity|]. intros I s _ _. change (etruth (holds I (b_bool false) s)) with ebot.
      destruct e; cbn [is_bot_lit] in B; try discriminate B.
      + cbn [ty_of] in Ty. subst. destruct e; try discriminate B. cbn [wt] in W. apply andb_prop in W. destruct W as [W1 W2]. cbn [ty_of] in W2.
        apply ev_lit0; auto. intros ->. discriminate W2.
      + cbn [ty_of] in Ty. subst. apply ev_lit0; auto. discriminate.
    - destruct (is_top_lit e) eqn:T; [|discriminate]. injection H as <-. split; [split; reflexivity|]. intros I s _ _.
      change (etruth (holds I (b_bool true) s)) with etop. destruct e; cbn [is_top_lit] in T; try discriminate T.
      cbn [ty_of] in Ty. subst. destruct l; try discriminate W; try discriminate T. reflexivity. }
  assert (Emb : forall t a, wt (EUn t OEmbed a) = true -> t = TEUReal -> is_guard a).
  { intros t a W' ->. cbn [wt un_ok] in W'. apply andb_prop in W'. destruct W' as [W1 W2]. apply ty_eqb_eq in W2. now split. }
  assert (EmbEv : forall I s a, interp_ok I -> env_ok s -> is_guard a -> eval I (EUn TEUReal OEmbed a) s = VEur (etruth (holds I a s))).
  { intros I s a HI Hs Ha. cbn [eval]. rewrite (holds_spec I a s HI Ha Hs). reflexivity. }
  destruct e as [x|t f args|t c0 a b|t op a b|t op a|t a|op xs a|x b a|t l]; try (apply Lits in H; auto; fail).
  cbn [ty_of] in Ty. subst t. destruct op; try (apply Lits in H; auto; fail).
  - destruct a as [x|t f args|t c0 a b|t op a b|t op a|t a|op xs a|x b a|t l]; try (apply Lits in H; auto; fail).
    destruct op; try (apply Lits in H; auto; fail). cbn [extract_embed] in H. injection H as <-.
    cbn [wt un_ok] in W. apply andb_prop in W. destruct W as [W1 W2]. apply ty_eqb_eq in W2. cbn [ty_of] in W2. subst t.
    assert (Ha : is_guard a) by (eapply Emb; [exact W1|auto]). split.
    { destruct Ha as [Ha1 Ha2]. split; [cbn [wt un_ok]; now rewrite Ha1, Ha2 | reflexivity]. }
    intros I s HI Hs. unfold ev. cbn [eval]. fold (eval I (EUn TEUReal OEmbed a) s).
    change (eval_un TEUReal OEmbed (eval I a s)) with (eval I (EUn TEUReal OEmbed a) s). rewrite EmbEv by auto.
    unfold holds. cbn [eval]. rewrite (holds_spec I a s HI Ha Hs). cbn [eval_un].
    destruct (holds I a s); cbn [etruth negb].
    + destruct (eleb etop ebot) eqn:E; auto. apply (proj1 (eleb_iff _ _)) in E. now apply le_ebot in E.
    + now rewrite (proj2 (eleb_iff _ _) (ele_refl _)).
  - cbn [extract_embed] in H. injection H as <-. assert (Ha : is_guard a) by (eapply Emb; eauto). split; auto.
    intros I s HI Hs. unfold ev. now rewrite EmbEv.
Qed.
