(** The exported model's total reward is the procedure's pre-expectation. *)
From Coq Require Import Bool List ZArith NArith QArith Reals Lia FunctionalExtensionality.
From Verif.Model Require Import Syntax Lits Builder Dist Procs Jani.
From Verif.Spec Require Import Eur Sem Wp Frame JaniSem.
From Verif.Proofs Require Import EurLemmas SemLemmas WpLemmas VcGenProofs MonoProofs JaniExpr JaniStep JaniStates JaniFrag JaniHoist.
Import ListNotations.
Local Open Scope nat_scope.

Lemma wp_app I k b b' X : wp_block I is_dist k (b ++ b') X = wp_block I is_dist k b (wp_block I is_dist k b' X).
Proof. unfold wp_block. apply fold_right_app. Qed.
Lemma wp_through I k s X : wp I is_dist k s X = wp I is_dist k (through_annotation s) X.
Proof. destruct s; reflexivity. Qed.
Lemma dir_eqb_eq a b : dir_eqb a b = true <-> a = b.
Proof. destruct a, b; split; intros H; try discriminate H; reflexivity. Qed.

Section Spec.
  Context (ids : list ident) (fbody : String.string -> option (list ty * ty)) (isf : String.string -> bool).
  Context (I : interp) (J : jint) (HI : interp_ok I) (HJ : same_interp fbody I J).
  Context (Hn : NoDup (map iname ids)) (Hr : ~ In reward_var (map iname ids)) (Fi : forall x, In x ids -> ity x <> TEUReal).
  Notation conc := (jstate_of ids).
  Notation WP := (wp_block I is_dist Least).

  (** The specification statements at the ends of the block. *)
  Definition spec_ok (s : stmt) : Prop :=
    match through_annotation s with SAssume _ e | SAssert _ e => is_exp e /\ jspec_ok ids fbody e | _ => True end.
  Lemma spec_ok_body s : wts is_dist isf s -> every (jstmt_ok ids fbody) s -> spec_ok s.
  Proof.
    unfold spec_ok. intros W Hj. destruct s; cbn [through_annotation]; auto.
    - cbn [every jstmt_ok] in Hj. split; [exact W | apply Hj].
    - cbn [every jstmt_ok] in Hj. split; [exact W | apply Hj].
    - cbn [wts every] in *. destruct s; auto; cbn [every jstmt_ok wts] in *; (split; [exact W | apply Hj]).
  Qed.

  (** * Preconditions *)
  Definition pre_drop (skip : bool) (b : list stmt) : list stmt := if skip then drop_quant_pre b else b.

  Lemma pre_sem skip dir b : forall l r, extract_pre fbody dir skip b = Ok (l, r) -> Forall spec_ok b ->
    forall s X, env_ok s -> (forall g, In g l -> jeval J g (conc s) = JB true) -> WP (pre_drop skip b) X s = WP r X s.
  Proof.
    induction b as [|st b IH]; intros l r He Hok s X Hs Hg; cbn [extract_pre] in He.
    - injection He as <- <-. destruct skip; reflexivity.
    - inversion Hok as [|? ? H1 H2]; subst. unfold spec_ok in H1. destruct (through_annotation st) eqn:Et;
        try (injection He as <- <-; unfold pre_drop; cbn [drop_quant_pre]; rewrite Et; destruct skip; reflexivity).
      destruct (dir_eqb d dir) eqn:Ed; [|discriminate]. apply dir_eqb_eq in Ed. subst d. destruct H1 as [He' Hj]. unfold jspec_ok in Hj.
      destruct (extract_embed e) as [c|] eqn:Ee.
      + destruct (jtr fbody c) as [c'| |] eqn:Ec; try discriminate. cbn [rbind] in He.
        destruct (extract_pre fbody dir skip b) as [[l' r']| |] eqn:Ep; try discriminate. injection He as <- <-.
        assert (D : pre_drop skip (st :: b) = st :: pre_drop skip b).
        { unfold pre_drop. destruct skip; [|reflexivity]. cbn [drop_quant_pre]. now rewrite Et, Ee. }
        rewrite D. cbn [wp_block fold_right]. rewrite wp_through, Et. cbn [wp].
        fold (WP (pre_drop skip b) X). rewrite (IH l' r' eq_refl H2 s X Hs) by (intros g Hg'; apply Hg; now right).
        destruct (extract_embed_sound e c He' Ee) as [Gc Sc]. rewrite Sc by auto.
        pose proof (Hg _ (or_introl eq_refl)) as G. rewrite (when_dir_sound ids fbody I J HI HJ Fi dir c c' s (conc s)) in G by (auto using conc_rep).
        injection G as G. destruct dir; cbn [assume_sem].
        * rewrite G. cbn [etruth]. destruct (eleb etop (WP r' X s)) eqn:El; auto. apply (proj1 (eleb_iff _ _)) in El. now apply top_le in El.
        * apply negb_true_iff in G. rewrite G. cbn [etruth]. destruct (eleb (WP r' X s) ebot) eqn:El; auto. apply (proj1 (eleb_iff _ _)) in El. now apply le_ebot in El.
      + destruct skip; [|discriminate]. unfold pre_drop. cbn [drop_quant_pre]. rewrite Et, Ee. exact (IH _ _ He H2 s X Hs Hg).
  Qed.

  (** What is left is a suffix that still has the postconditions. *)
  Definition assertion (s : stmt) : Prop := match through_annotation s with SAssert _ _ => True | _ => False end.
  Lemma pre_suffix skip dir post : Forall assertion post -> forall b l r, extract_pre fbody dir skip (b ++ post) = Ok (l, r) ->
    exists b0 b', b = b0 ++ b' /\ r = b' ++ post.
  Proof.
    intros Hp. induction b as [|st b IH]; intros l r He.
    - exists [], []. split; [reflexivity|]. cbn [app] in *. destruct post as [|q post]; cbn [extract_pre] in He; [now injection He as <- <-|].
      inversion Hp as [|? ? Hq _]; subst. unfold assertion in Hq. destruct (through_annotation q); try contradiction. now injection He as <- <-.
    - cbn [app extract_pre] in He.
      assert (Stop : Ok ([], st :: b ++ post) = Ok (l, r) -> exists b0 b', st :: b = b0 ++ b' /\ r = b' ++ post).
      { intros E. injection E as <- <-. exists [], (st :: b). split; reflexivity. }
      destruct (through_annotation st); try (exact (Stop He)). destruct (dir_eqb d dir); [|discriminate]. destruct (extract_embed e) as [c|].
      + destruct (jtr fbody c); try discriminate. cbn [rbind] in He.
        destruct (extract_pre fbody dir skip (b ++ post)) as [[l' r']| |] eqn:Ep; try discriminate. injection He as <- <-.
        destruct (IH _ _ eq_refl) as (b0 & b' & -> & ->). exists (st :: b0), b'. split; reflexivity.
      + destruct skip; [|discriminate]. destruct (IH _ _ He) as (b0 & b' & -> & ->). exists (st :: b0), b'. split; reflexivity.
  Qed.

  Lemma pre_reqs skip dir b es : forall l r,
    extract_pre fbody dir skip (map (fun e => wrap_with_success_message (SAssume dir e)) es ++ b) = Ok (l, r) ->
    exists l', extract_pre fbody dir skip b = Ok (l', r).
  Proof.
    induction es as [|e es IH]; intros l r He; cbn [map app] in He; [eauto|].
    cbn [extract_pre wrap_with_success_message through_annotation] in He. rewrite (proj2 (dir_eqb_eq dir dir) eq_refl) in He. destruct (extract_embed e) as [c|].
    - destruct (jtr fbody c); try discriminate. cbn [rbind] in He.
      destruct (extract_pre fbody dir skip (_ ++ b)) as [[l' r']| |] eqn:Ep; try discriminate. injection He as <- <-. eauto.
    - destruct skip; [eauto | discriminate].
  Qed.

  Lemma conj_true l : forall t, jeval J (conj_all l) t = JB true -> forall g, In g l -> jeval J g t = JB true.
  Proof.
    assert (K : forall l c t, jeval J (fold_left (JBin JAnd) l c) t = JB true -> jeval J c t = JB true /\ forall g, In g l -> jeval J g t = JB true).
    { clear l. induction l as [|g l' IH]; intros c t H; cbn [fold_left] in H; [split; [exact H | intros g []]|].
      apply IH in H. destruct H as [H1 H2]. cbn [jeval jbin] in H1. destruct (jeval J c t) as [[|]| |], (jeval J g t) as [[|]| |] eqn:Eg; try discriminate H1.
      split; [reflexivity|]. intros g' [<-|Hg']; auto. }
    intros t H g Hg. destruct l as [|c l]; [destruct Hg|]. cbn [conj_all] in H. apply K in H. destruct H as [H1 H2]. destruct Hg as [<-|Hg]; auto.
  Qed.

  (** * Postconditions *)
  Definition dop (d : direction) : eur -> eur -> eur := match d with Down => emin | Up => emax end.
  Definition post_val (dir : direction) (l : list expr) (s : env) (x : eur) : eur := fold_left (fun acc e => dop dir (ev I e s) acc) l x.

  Lemma post_sem dir rb : forall l r, eat_posts dir rb = Ok (l, r) ->
    exists tl, rb = tl ++ r /\ Forall assertion tl /\
      (Forall spec_ok rb -> Forall (fun e => is_exp e /\ jspec_ok ids fbody e) l) /\
      forall X s, WP (rev tl) X s = post_val dir l s (X s).
  Proof.
    induction rb as [|st rb IH]; intros l r He; cbn [eat_posts] in He.
    - injection He as <- <-. exists []. repeat split; auto.
    - destruct (through_annotation st) eqn:Et; try (injection He as <- <-; exists []; repeat split; auto; fail).
      destruct (dir_eqb d dir) eqn:Ed; [|discriminate]. apply dir_eqb_eq in Ed. subst d.
      destruct (eat_posts dir rb) as [[l' r']| |] eqn:Ep; try discriminate. injection He as <- <-.
      destruct (IH _ _ eq_refl) as (tl & -> & Ha & Hs & Hv). exists (st :: tl). split; [reflexivity|]. split; [|split].
      + constructor; auto. unfold assertion. now rewrite Et.
      + intros H. inversion H as [|? ? H1 H2]; subst. constructor; auto. unfold spec_ok in H1. now rewrite Et in H1.
      + intros X s. cbn [rev]. rewrite wp_app. cbn [wp_block fold_right]. rewrite Hv. cbn [post_val fold_left]. unfold post_val. f_equal.
        rewrite wp_through, Et. destruct dir; reflexivity.
  Qed.

  Lemma posts_prefix dir rb es : forall l r, eat_posts dir (map (fun e => wrap_with_error_message (SAssert dir e)) es ++ rb) = Ok (l, r) ->
    exists rb0, rb = rb0 ++ r.
  Proof.
    induction es as [|e es IH]; intros l r He; cbn [map app] in He.
    - destruct (post_sem _ _ _ _ He) as (tl & -> & _). now exists tl.
    - cbn [eat_posts wrap_with_error_message through_annotation] in He. rewrite (proj2 (dir_eqb_eq dir dir) eq_refl) in He.
      destruct (eat_posts dir (_ ++ rb)) as [[l' r']| |] eqn:Ep; try discriminate. injection He as <- <-. eauto.
  Qed.

  Lemma top_lit_val dir e s : is_exp e -> is_dir_top_lit dir e = true -> ev I e s = dir_top dir.
  Proof.
    intros [W Ty] H. destruct dir; cbn [is_dir_top_lit dir_top] in *.
    - destruct e; try discriminate H. cbn [ty_of] in Ty. subst. destruct l; try discriminate W; try discriminate H. reflexivity.
    - destruct e; cbn [is_bot_lit] in H; try discriminate H.
      + cbn [ty_of] in Ty. subst. destruct e; try discriminate H. cbn [wt] in W. apply andb_prop in W. destruct W as [W1 W2]. cbn [ty_of] in W2.
        apply ev_lit0; auto. intros ->. discriminate W2.
      + cbn [ty_of] in Ty. subst. apply ev_lit0; auto. discriminate.
  Qed.
  Lemma dop_top dir x : dop dir (dir_top dir) x = x.
  Proof.
    destruct dir; cbn [dop dir_top]; apply ele_antisym; [apply emin_r | apply emin_glb | apply emax_lub | apply emax_r]; auto using ele_top, ele_refl, ebot_le.
  Qed.
  Lemma dop_comm dir x y : dop dir x y = dop dir y x.
  Proof. destruct dir; cbn [dop]; [apply emin_comm | apply emax_comm]. Qed.

  Lemma post_filter dir l s : Forall is_exp l -> forall x,
    post_val dir (filter (fun e => negb (is_dir_top_lit dir e)) l) s x = post_val dir l s x.
  Proof.
    induction 1 as [|e l He Hl IH]; intros x; [reflexivity|]. cbn [filter]. destruct (is_dir_top_lit dir e) eqn:Et; cbn [negb].
    - rewrite IH. unfold post_val. cbn [fold_left]. now rewrite (top_lit_val dir e s He Et), dop_top.
    - unfold post_val in *. cbn [fold_left]. apply IH.
  Qed.

  Lemma ev_dop dir a b s : is_exp a -> is_exp b -> env_ok s -> is_exp (EBin TEUReal (dir_op dir) a b) /\
    ev I (EBin TEUReal (dir_op dir) a b) s = dop dir (ev I a s) (ev I b s).
  Proof.
    intros Ha Hb Hs. split.
    - apply wte_bin; auto. destruct dir; reflexivity.
    - destruct dir; [now apply ev_inf | now apply ev_sup].
  Qed.
  Lemma ev_posts dir s (Hs : env_ok s) ps : Forall is_exp ps -> forall p, is_exp p -> is_exp (fold_left (EBin TEUReal (dir_op dir)) ps p) /\
    ev I (fold_left (EBin TEUReal (dir_op dir)) ps p) s = post_val dir ps s (ev I p s).
  Proof.
    induction 1 as [|q ps Hq Hps IH]; intros p Hp; [now split|]. cbn [fold_left]. destruct (ev_dop dir p q s Hp Hq Hs) as [E1 E2].
    destruct (IH _ E1) as [I1 I2]. split; [exact I1|]. rewrite I2. unfold post_val. cbn [fold_left]. now rewrite E2, dop_comm.
  Qed.
  Lemma sink_sem dir posts s : Forall is_exp posts -> env_ok s ->
    is_exp (sink_reward dir posts) /\ ev I (sink_reward dir posts) s = post_val dir posts s (dir_top dir).
  Proof.
    intros Hp Hs. rewrite <- post_filter by auto. unfold sink_reward.
    assert (Hf : Forall is_exp (filter (fun e => negb (is_dir_top_lit dir e)) posts)).
    { apply Forall_forall. intros e He. apply filter_In in He. rewrite Forall_forall in Hp. now apply Hp. }
    destruct (filter _ posts) as [|p ps].
    - destruct dir; (split; [split; reflexivity|]); [reflexivity|]. cbn [dir_top post_val fold_left]. apply ev_lit0; reflexivity || discriminate.
    - inversion Hf; subst. destruct (ev_posts dir s Hs ps H2 p H1) as [E1 E2]. split; [exact E1|]. rewrite E2. unfold post_val. cbn [fold_left].
      now rewrite dop_comm, dop_top.
  Qed.

  Lemma jspec_jexp e j : is_exp e -> jspec_ok ids fbody e -> jtr fbody e = Ok j -> jexp_ok ids fbody e = true.
  Proof.
    intros [W Ty] Hs Ht. unfold jspec_ok in Hs. destruct (extract_embed e) as [c|] eqn:Ee; [|exact Hs].
    destruct e as [x|t f args|t c0 a b|t op a b|t op a|t a|op xs a|x b a|t l]; try discriminate Ee; try reflexivity.
    - destruct op; try discriminate Ee; try discriminate Ht. cbn [ty_of] in Ty. subst. discriminate Ht.
    - destruct a; try discriminate Ee. reflexivity.
  Qed.
  Lemma fold_bin_ok op ps : forall p j, jtr fbody (fold_left (EBin TEUReal op) ps p) = Ok j -> (op = OInf \/ op = OSup) ->
    Forall (fun e => is_exp e /\ jspec_ok ids fbody e) ps -> (forall j', jtr fbody p = Ok j' -> jexp_ok ids fbody p = true) ->
    jexp_ok ids fbody (fold_left (EBin TEUReal op) ps p) = true.
  Proof.
    induction ps as [|q ps IH]; intros p j Ht Hop Hps Hp; cbn [fold_left] in *; [eauto|]. inversion Hps as [|? ? [Q1 Q2] Hps']; subst.
    eapply IH; eauto. intros j' Hj'. cbn [jtr] in Hj'. destruct (jtr fbody p) as [jp| |] eqn:Ep; try discriminate. cbn [rbind] in Hj'.
    destruct (jtr fbody q) as [jq| |] eqn:Eq; try discriminate. cbn [jexp_ok]. rewrite (Hp _ eq_refl), (jspec_jexp q jq Q1 Q2 Eq). destruct Hop as [-> | ->]; reflexivity.
  Qed.
  Lemma sink_ok dir posts j : Forall (fun e => is_exp e /\ jspec_ok ids fbody e) posts -> jtr fbody (sink_reward dir posts) = Ok j ->
    jexp_ok ids fbody (sink_reward dir posts) = true.
  Proof.
    intros Hp Ht. unfold sink_reward in *.
    assert (Hf : Forall (fun e => is_exp e /\ jspec_ok ids fbody e) (filter (fun e => negb (is_dir_top_lit dir e)) posts)).
    { apply Forall_forall. intros e He. apply filter_In in He. rewrite Forall_forall in Hp. now apply Hp. }
    destruct (filter _ posts) as [|p ps]; [destruct dir; reflexivity|]. inversion Hf as [|? ? [P1 P2] Hf']; subst.
    eapply fold_bin_ok; eauto. destruct dir; auto. intros j' Hj'. now apply (jspec_jexp p j').
  Qed.

  (** * The whole automaton *)
  Theorem automaton_total m b start a (P : exp) s0 : env_ok s0 ->
    All (wts is_dist isf) b -> All (every (jstmt_ok ids fbody)) b ->
    tr_block fbody (m_dir m) b LEnd (mkauto 0 [] false) = Ok (start, a) ->
    m_edges m = a_edges a ++ spec_edges -> m_start m = start ->
    (forall s t, env_ok s -> rep ids s t -> jnum (jeval J (m_post m) t) = P s) ->
    total_reward J m (conc s0) = WP (map strip b) P s0.
  Proof.
    intros Hs0 Hw Hj Ht He Hst HP.
    destruct (frag_block ids fbody isf I J HI HJ Hn Hr Fi m s0 Hs0 (m_dir m) eq_refl b Hw Hj _ _ _ _ Ht) as (es & E & (L1 & L2 & Mo & L4)).
    cbn [a_edges a_nloc app] in *. rewrite E in He.
    assert (Ow : owns m 0 (a_nloc a) es).
    { intros k Hk. unfold outs. rewrite He, filter_app. cbn [spec_edges filter from_to at_loc e_src loc_eqb]. unfold at_loc. cbn [e_src loc_eqb]. now rewrite app_nil_r. }
    destruct (L4 Ow) as [Lo Up]. clear L4.
    assert (Oe : forall l l', (l = LEnd /\ l' = LSink) \/ (l = LErr /\ l' = LSink) -> outs m l = [from_to l l']).
    { intros l l' Hl. unfold outs. rewrite He, filter_app. assert (Z : filter (at_loc l) es = []).
      { clear - L2 Hl. induction L2 as [|e es (k & Ek & _) H IH]; [reflexivity|]. cbn [filter]. unfold at_loc at 1. rewrite Ek. destruct Hl as [[-> _]|[-> _]]; exact IH. }
      rewrite Z. destruct Hl as [[-> ->]|[-> ->]]; reflexivity. }
    assert (Os : outs m LSink = []).
    { unfold outs. rewrite He, filter_app. assert (Z : filter (at_loc LSink) es = []); [|rewrite Z; reflexivity].
      clear - L2. induction L2 as [|e es (k & Ek & _) H IH]; [reflexivity|]. cbn [filter]. unfold at_loc at 1. rewrite Ek. exact IH. }
    assert (Ok' : forall k, a_nloc a <= k -> outs m (LStmt k) = []).
    { intros k Hk. unfold outs. rewrite He, filter_app, (srcs_out _ _ es k L2) by lia. reflexivity. }
    assert (Bend : forall V t, bellman J m V LEnd t = eadd (jnum (jeval J (m_post m) t)) (V LSink t)).
    { intros V t. unfold bellman. rewrite enabled_outs, (Oe LEnd LSink) by auto. cbn [exit_reward filter]. unfold guard_on. cbn [from_to e_guard map best_of fold_right].
      unfold edge_val. cbn [from_to e_dests]. now rewrite goto_val. }
    assert (Berr : forall V t, bellman J m V LErr t = V LSink t).
    { intros V t. unfold bellman. rewrite enabled_outs, (Oe LErr LSink) by auto. cbn [exit_reward filter]. unfold guard_on. cbn [from_to e_guard map best_of fold_right].
      unfold edge_val. cbn [from_to e_dests]. now rewrite goto_val, eadd_0_l. }
    assert (Bsink : forall V t, bellman J m V LSink t = ebot).
    { intros V t. unfold bellman. rewrite enabled_outs, Os. cbn [exit_reward filter map best_of]. apply eadd_0_l. }
    assert (Wsink : forall n t, reward_within J m n LSink t = ebot).
    { intros [|n] t; [reflexivity | apply Bsink]. }
    assert (Werr : forall n t, reward_within J m n LErr t = ebot).
    { intros [|n] t; [reflexivity|]. cbn [reward_within]. now rewrite Berr. }
    assert (Le : forall t, limit J m LErr t = ebot).
    { intros t. apply le_ebot. unfold limit. apply lim_lub. intros n. rewrite Werr. apply ele_refl. }
    apply ele_antisym.
    - destruct (Up P) as [W HW]. clear Lo Up.
      set (V := fun (l : loc) (t : jstate) =>
             match l with
             | LErr | LSink => ebot
             | LStmt k => if dec (jok ids t) then W k (abs ids s0 t) else etop
             | LEnd => if dec (jok ids t) then P (abs ids s0 t) else etop
             end).
      assert (Vok : forall t, jok ids t -> dec (jok ids t) = true) by (intros t H; now apply dec_true).
      destruct (HW V) as [Pre St].
      { intros k Hk t H. unfold V. now rewrite Vok. }
      { intros t H. unfold V. now rewrite Vok. }
      { reflexivity. }
      apply ele_trans with (V (m_start m) (conc s0)).
      + apply total_below. intros [k| | |] t.
        * destruct (dec (jok ids t)) eqn:D.
          -- apply (proj1 (dec_iff _)) in D. destruct (Nat.lt_ge_cases k (a_nloc a)) as [Hk|Hk].
             ++ apply Pre; auto. lia.
             ++ rewrite bellman_stmt, Ok' by auto. apply ebot_le.
          -- unfold V at 2. rewrite D. apply ele_top.
        * rewrite Bend. unfold V. rewrite eadd_0_r. destruct (dec (jok ids t)) eqn:D; [|apply ele_top].
          apply (proj1 (dec_iff _)) in D. rewrite (HP (abs ids s0 t) t) by (auto using abs_ok, abs_rep). apply ele_refl.
        * rewrite Berr. apply ele_refl.
        * rewrite Bsink. apply ele_refl.
      + rewrite Hst, St by now apply conc_jok. rewrite abs_conc by auto. apply ele_refl.
    - rewrite total_limit, Hst. apply ele_trans with (WP (map strip b) (fun s => limit J m LEnd (conc s)) s0).
      + apply Mo; auto. intros s Hs. apply ele_trans with (bellman J m (limit J m) LEnd (conc s)); [|apply limit_prefix].
        rewrite Bend, <- (HP s (conc s)) by auto using conc_rep.
        rewrite <- (eadd_0_r (jnum (jeval J (m_post m) (conc s)))) at 1. apply eadd_mono; auto using ele_refl, ebot_le.
      + apply Lo; auto. intros k Hk t. apply limit_prefix.
  Qed.
End Spec.

(** * Procedures *)
Lemma Forall2_in_r {A B} (R : A -> B -> Prop) l l' : Forall2 R l l' -> forall a, In a l -> exists b, In b l' /\ R a b.
Proof.
  induction 1 as [|x y l l' Hxy H IH]; intros z Hz; [destruct Hz|]. destruct Hz as [<-|Hz]; [exists y; split; [now left | auto]|].
  destruct (IH z Hz) as (b & Hb & Hr). exists b. split; [now right | auto].
Qed.

Lemma tr_type_ok t j : tr_type t = Ok j -> t <> TEUReal.
Proof. intros H ->. discriminate H. Qed.

Lemma tr_vars_spec fbody o p body consts vars : tr_vars fbody o p body = Ok (consts, vars) ->
  (forall x, In x (map fst (flat_map local_decls body) ++ pins p ++ pouts p) -> ity x <> TEUReal) /\
  (forall x e, In (x, Some e) (flat_map local_decls body) -> is_constant e = true ->
     exists j t, jtr fbody e = Ok j /\ In (iname x, t, Some j) vars).
Proof.
  unfold tr_vars. intros H. destruct (mapM (tr_local fbody) _) as [locals| |] eqn:E1; try discriminate. cbn [rbind] in H.
  destruct (mapM tr_param (pins p)) as [ins| |] eqn:E2; try discriminate. cbn [rbind] in H.
  destruct (mapM (tr_out fbody o) (pouts p)) as [outs| |] eqn:E3; try discriminate. cbn [rbind] in H.
  apply mapM_spec in E1, E2, E3.
  assert (Lv : forall v, In v locals -> In v vars).
  { destruct (o_no_constants o); injection H as <- <-; intros v Hv; apply in_or_app; auto. }
  split.
  - intros x Hx. apply in_app_or in Hx. destruct Hx as [Hx|Hx]; [|apply in_app_or in Hx; destruct Hx as [Hx|Hx]].
    + apply in_map_iff in Hx. destruct Hx as ([x' i] & <- & Hx). destruct (Forall2_in_r _ _ _ E1 _ Hx) as (b & _ & Hb). unfold tr_local in Hb. cbn [fst].
      destruct (match i with Some _ => _ | None => _ end); try discriminate. cbn [rbind] in Hb. destruct (tr_type (ity x')) eqn:Et; try discriminate. eapply tr_type_ok; eauto.
    + destruct (Forall2_in_r _ _ _ E2 _ Hx) as (b & _ & Hb). unfold tr_param in Hb. destruct (tr_type (ity x)) eqn:Et; try discriminate. eapply tr_type_ok; eauto.
    + destruct (Forall2_in_r _ _ _ E3 _ Hx) as (b & _ & Hb). unfold tr_out in Hb. destruct (if o_uninit_outputs o then _ else _); try discriminate. cbn [rbind] in Hb.
      destruct (tr_type (ity x)) eqn:Et; try discriminate. eapply tr_type_ok; eauto.
  - intros x e Hx Hc. destruct (Forall2_in_r _ _ _ E1 _ Hx) as (b & Hb' & Hb). unfold tr_local in Hb. rewrite Hc in Hb.
    destruct (jtr fbody e) as [j| |]; try discriminate. cbn [rbind] in Hb. destruct (tr_type (ity x)) as [t| |]; try discriminate. injection Hb as <-.
    exists j, t. auto.
Qed.

Lemma lit_local st x e : In (x, e) (lit_decls st) -> In (x, Some e) (local_decls st).
Proof.
  assert (HB : forall b, Forall (fun st => In (x, e) (lit_decls st) -> In (x, Some e) (local_decls st)) b ->
     In (x, e) (flat_map lit_decls b) -> In (x, Some e) (flat_map local_decls b)).
  { induction 1 as [|st0 b Hst Hb IH]; cbn [flat_map]; intros H; [destruct H|]. apply in_app_or in H. apply in_or_app. destruct H; auto. }
  induction st using stmt_rect'; cbn [lit_decls local_decls]; try (intros []; fail); auto;
    try (intros K; apply in_app_or in K; apply in_or_app; destruct K; auto; fail).
  destruct i as [e'|]; [|intros []]. destruct (is_constant e'); [|intros []]. intros [E|[]]. left. congruence.
Qed.
Lemma lit_locals b x e : In (x, e) (flat_map lit_decls b) -> In (x, Some e) (flat_map local_decls b).
Proof.
  intros H. apply in_flat_map in H. destruct H as (st & Hst & H). apply in_flat_map. exists st. split; auto. now apply lit_local.
Qed.

Lemma All_mid {A} (P : A -> Prop) a b c : All P (a ++ b ++ c) -> All P b.
Proof. rewrite !All_Forall. intros H. apply Forall_app in H. destruct H as [_ H]. apply Forall_app in H. apply H. Qed.
Lemma inits_mid a b c : inits_ok_block (a ++ b ++ c) -> inits_ok_block b.
Proof.
  assert (L : forall b c, inits_ok_block (b ++ c) -> inits_ok_block b).
  { clear. induction b as [|s b IH]; intros c H; [exact Logic.I|]. cbn [app inits_ok_block] in *. destruct H as (H1 & H2 & H3). split; [auto|]. split; [|eauto].
    intros x e Hx. apply (H2 x e). rewrite flat_map_app. apply in_or_app. auto. }
  induction a as [|s a IH]; intros H; [eapply L; eauto|]. cbn [app inits_ok_block] in H. apply IH. apply H.
Qed.

Lemma constant_wt e x isf : assign_ok is_dist isf x e -> is_constant e = true -> wt e = true /\ ty_of e = ity x.
Proof. destruct e; try discriminate. intros H _. exact H. Qed.
Lemma decl_assign_ok isf b x e : All (wts is_dist isf) b -> In (x, e) (flat_map lit_decls b) -> assign_ok is_dist isf x e.
Proof.
  assert (HS : forall st, wts is_dist isf st -> In (x, e) (lit_decls st) -> assign_ok is_dist isf x e).
  { assert (HB : forall b, Forall (fun st => wts is_dist isf st -> In (x, e) (lit_decls st) -> assign_ok is_dist isf x e) b ->
       All (wts is_dist isf) b -> In (x, e) (flat_map lit_decls b) -> assign_ok is_dist isf x e).
    { induction 1 as [|st0 b' Hst Hb IH]; cbn [flat_map]; intros W H; [destruct H|]. destruct W as [W1 W2]. apply in_app_or in H. destruct H; auto. }
    induction st using stmt_rect'; cbn [lit_decls wts]; intros W K; try (destruct K; fail); eauto;
      try (destruct W as [W1 W2]; apply in_app_or in K; destruct K; eauto; fail).
    - destruct i as [e'|]; [|destruct K]. destruct (is_constant e'); [|destruct K]. destruct K as [E|[]]. now injection E as <- <-.
    - destruct W as (_ & W1 & W2). apply in_app_or in K. destruct K; eauto.
    - destruct W as [_ W]. eauto. }
  intros W H. apply in_flat_map in H. destruct H as (st & Hst & H). apply All_Forall in W. rewrite Forall_forall in W. eauto.
Qed.

Theorem proc_reward fbody isf I J o calc p m dir block s :
  interp_ok I -> same_interp fbody I J -> jproc_ok isf fbody p ->
  proc_to_model fbody o calc p = Ok m -> encode_proc_verify p = Some (dir, block) ->
  env_ok s -> jinitial J m (jstate_of (proc_ids p) s) ->
  total_reward J m (jstate_of (proc_ids p) s) =
  wp_block I is_dist Least (if o_skip_quant_pre o then drop_quant_pre block else block) (fun _ => dir_top dir) s.
Proof.
  intros HI HJ Hok Hm Henc Hs Hini. unfold proc_to_model in Hm. destruct (match calc with None => true | Some _ => _ end); [|discriminate].
  rewrite Henc in Hm. destruct (extract_pre fbody dir (o_skip_quant_pre o) block) as [[pre b1]| |] eqn:Epre; try discriminate. cbn [rbind] in Hm.
  destruct (extract_post fbody dir b1) as [[post b2]| |] eqn:Epost; try discriminate. cbn [rbind] in Hm.
  destruct (tr_vars fbody o p _) as [[consts vars]| |] eqn:Evars; try discriminate. cbn [rbind] in Hm.
  destruct (tr_block fbody dir b2 LEnd _) as [[start a]| |] eqn:Eblk; try discriminate. cbn [rbind] in Hm. injection Hm as <-.
  unfold encode_proc_verify in Henc. destruct Hok as ((Hn & Hr) & Hbody & Hreq & Hens). destruct (pbody p) as [body|] eqn:Ebody; [|contradiction].
  injection Henc as Hdir Hblock. destruct Hbody as (Hw & Hj & Hin). destruct Hini as (_ & Hinit & Hrestrict). cbn [m_restrict m_vars] in Hinit, Hrestrict.
  destruct (tr_vars_spec _ _ _ _ _ _ Evars) as [Fi Lits]. set (ids := proc_ids p) in *.
  assert (Eids : ids = map fst (flat_map local_decls body) ++ pins p ++ pouts p) by (unfold ids, proc_ids; now rewrite Ebody).
  rewrite <- Eids in Fi.
  (* the ends of the block *)
  set (reqs := map (fun e => wrap_with_success_message (SAssume (pdir p) e)) (requires p)) in *.
  set (enss := map (fun e => wrap_with_error_message (SAssert (pdir p) e)) (ensures p)) in *.
  assert (Sb : Forall (spec_ok ids fbody) body).
  { apply All_Forall in Hw, Hj. rewrite Forall_forall in Hw, Hj. apply Forall_forall. intros st Hst. eapply spec_ok_body; eauto. }
  assert (Se : Forall (spec_ok ids fbody) enss).
  { apply Forall_forall. intros st Hst. apply in_map_iff in Hst. destruct Hst as (e & <- & He). cbn. now apply Hens. }
  assert (Sr : Forall (spec_ok ids fbody) reqs).
  { apply Forall_forall. intros st Hst. apply in_map_iff in Hst. destruct Hst as (e & <- & He). cbn. now apply Hreq. }
  assert (Ae : Forall assertion enss).
  { apply Forall_forall. intros st Hst. apply in_map_iff in Hst. destruct Hst as (e & <- & He). exact Logic.I. }
  assert (Sall : Forall (spec_ok ids fbody) block) by (rewrite <- Hblock; repeat (apply Forall_app; split); auto).
  pose proof Epre as Epre'. rewrite <- Hblock in Epre'. unfold reqs in Epre'. rewrite Hdir in Epre'.
  destruct (pre_reqs fbody _ _ _ _ _ _ Epre') as [pre' Epre'']. clear Epre'.
  destruct (pre_suffix fbody _ _ enss Ae body _ _ Epre'') as (b0 & b' & Eb & Eb1).
  unfold extract_post in Epost. destruct (eat_posts dir (rev b1)) as [[posts rest]| |] eqn:Eeat; try discriminate. cbn [rbind] in Epost.
  destruct (is_top_lit (sink_reward dir posts)) eqn:Etop; [discriminate|]. destruct (jtr fbody (sink_reward dir posts)) as [jpost| |] eqn:Ejp; try discriminate.
  cbn [rbind] in Epost. injection Epost as <- <-.
  pose proof Eeat as Eeat'. rewrite Eb1, rev_app_distr in Eeat'. unfold enss in Eeat'. rewrite <- map_rev, Hdir in Eeat'.
  destruct (posts_prefix ids fbody I _ _ _ _ _ Eeat') as (rb0 & Erb).
  assert (Eb' : b' = rev rest ++ rev rb0) by (rewrite <- (rev_involutive b'), Erb; apply rev_app_distr).
  destruct (post_sem ids fbody I dir _ _ _ Eeat) as (tl & Etl & _ & Hsp & Hpv).
  assert (Sb1 : Forall (spec_ok ids fbody) b1).
  { rewrite Eb1. rewrite Eb in Sb. apply Forall_app in Sb. apply Forall_app. split; [apply Sb | exact Se]. }
  specialize (Hsp (Forall_rev Sb1)).
  assert (Hposts : Forall is_exp posts) by (eapply Forall_impl; [|exact Hsp]; intros e He; apply He).
  assert (Mid : body = b0 ++ rev rest ++ rev rb0) by (now rewrite Eb, Eb').
  rewrite Mid in Hw, Hj, Hin. pose proof (All_mid _ _ _ _ Hw) as Hw2. apply All_mid in Hj. apply inits_mid in Hin.
  (* the assumptions hold *)
  change (if o_skip_quant_pre o then drop_quant_pre block else block) with (pre_drop (o_skip_quant_pre o) block).
  rewrite (pre_sem ids fbody I J HI HJ Hn Fi _ dir block pre b1 Epre Sall s _ Hs (conj_true J pre _ Hrestrict)).
  (* the postconditions become the reward *)
  assert (Er : b1 = rev rest ++ rev tl) by (rewrite <- (rev_involutive b1), Etl; apply rev_app_distr).
  rewrite Er, wp_app.
  assert (Given : given I s (flat_map lit_decls (rev rest))).
  { intros x e Hx Hc. destruct (Lits x e) as (j & t & Ej & Hv); auto.
    { apply lit_locals. rewrite Mid, !flat_map_app. apply in_or_app. right. apply in_or_app. now left. }
    specialize (Hinit _ _ _ Hv). destruct (constant_wt e x isf (decl_assign_ok isf _ x e Hw2 Hx) Hc) as [W Ty].
    assert (Hxi : In x ids).
    { rewrite Eids. apply in_or_app. left. apply in_map_iff. exists (x, Some e). split; [reflexivity|].
      apply lit_locals. rewrite Mid, !flat_map_app. apply in_or_app. right. apply in_or_app. now left. }
    assert (Hje : jexp_ok ids fbody e = true) by (destruct e; try discriminate Hc; reflexivity).
    destruct (jtr_sound ids fbody I J HI HJ e W Hje Fi j Ej s _ Hs (conc_rep ids Hn s)) as [E F].
    rewrite (conc_rep ids Hn s x Hxi), E in Hinit. apply jv_inj with (ity x); auto.
    - rewrite <- Ty. now apply eval_ty.
    - eapply typed_finite; eauto. }
  rewrite (hoist_all isf I HI (rev rest) Hw2 (tr_block_no_negate _ _ _ _ _ _ Eblk) Hin _ s Hs Given).
  match goal with |- total_reward J ?mm _ = _ => set (m := mm) end.
  rewrite (automaton_total ids fbody isf I J HI HJ Hn Hr Fi m (rev rest) start a (fun s => post_val I dir posts s (dir_top dir)) s Hs Hw2 Hj Eblk eq_refl eq_refl).
  - f_equal. apply functional_extensionality. intros s'. symmetry. apply Hpv.
  - intros s' t Hs' Hrep. cbn [m_post]. destruct (sink_sem I HI dir posts s' Hposts Hs') as [E1 E2]. rewrite <- E2.
    eapply exp_sound; eauto. eapply sink_ok; eauto.
Qed.
