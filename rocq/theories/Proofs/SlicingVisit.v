(** The slicing visitor, statement by statement. *)
From Coq Require Import Bool List String ZArith NArith QArith Qreals Reals Lia Lra FunctionalExtensionality.
From Verif.Model Require Import Syntax Builder VcGen Negations TyCtx Subsets Slicing.
From Verif.Spec Require Import Eur Sem Wp Frame Sliced.
From Verif.Proofs Require Import EurLemmas SemLemmas WpLemmas DistProofs VcGenProofs MonoProofs FrameProofs TyCtxProofs SlicingProofs SlicingSteps.
Import ListNotations.
Local Open Scope nat_scope.
Local Open Scope list_scope.
Local Arguments eleb : simpl never.
Local Arguments Q2R : simpl never.

Lemma emin_top_l a : emin etop a = a.
Proof. apply ele_antisym; [apply emin_r | apply emin_glb; auto using ele_top, ele_refl]. Qed.
Lemma emin_top_r a : emin a etop = a.
Proof. apply ele_antisym; [apply emin_l | apply emin_glb; auto using ele_top, ele_refl]. Qed.
Lemma emax_bot_l a : emax ebot a = a.
Proof. apply ele_antisym; [apply emax_lub; auto using ebot_le, ele_refl | apply emax_r]. Qed.
Lemma emax_bot_r a : emax a ebot = a.
Proof. apply ele_antisym; [apply emax_lub; auto using ebot_le, ele_refl | apply emax_l]. Qed.
Lemma emax_top_l a : emax etop a = etop.
Proof. apply ele_antisym; auto using ele_top, emax_l. Qed.
Lemma emin_bot_l a : emin ebot a = ebot.
Proof. apply ele_antisym; auto using ebot_le, emin_l. Qed.
Lemma assume_top d a : assume_sem d (match d with Down => etop | Up => ebot end) a = a.
Proof.
  destruct d; cbn [assume_sem].
  - destruct (eleb etop a) eqn:E; auto. apply eleb_iff in E. apply ele_antisym; auto using ele_top.
  - destruct (eleb a ebot) eqn:E; auto. apply eleb_iff in E. apply ele_antisym; auto using ebot_le.
Qed.
Lemma assume_bot d a : assume_sem d (match d with Down => ebot | Up => etop end) a = match d with Down => etop | Up => ebot end.
Proof. destruct d; cbn [assume_sem]; [rewrite (proj2 (eleb_iff _ _) (ebot_le a)) | rewrite (proj2 (eleb_iff _ _) (ele_top a))]; reflexivity. Qed.

Lemma ev_bot I s : ev I (ECast TEUReal (b_uint 0)) s = ebot.
Proof. unfold ev. cbn. unfold n2r. reflexivity. Qed.
Lemma ev_top I s : ev I b_inf s = etop.
Proof. reflexivity. Qed.
Lemma ev_one I s : ev I (ECast TEUReal (b_uint 1)) s = eone.
Proof. unfold ev. cbn. unfold n2r. reflexivity. Qed.
Lemma ev_toggle I s y v a b : s y = VBool v -> ev I (EIte TEUReal (EVar y) a b) s = if v then ev I a s else ev I b s.
Proof. intros E. unfold ev. cbn [eval]. rewrite E. destruct v; reflexivity. Qed.

Lemma guard_demonic d y : exists g, demonic_guard d (EVar y) = Ok g /\
  forall I isd k X s v, s y = VBool v -> wp I isd k g X s = if v then X s else etop.
Proof.
  destruct d; eexists; split; try reflexivity; intros I isd k X s v E; cbn [wp]; rewrite (ev_toggle I s y v) by auto; rewrite ev_bot, ev_top.
  - destruct v; [apply (assume_top Down) | apply (assume_bot Down)].
  - destruct v; [apply emax_bot_l | apply emax_top_l].
Qed.
Lemma guard_angelic d y : exists g, angelic_guard d (EVar y) = Ok g /\
  forall I isd k X s v, s y = VBool v -> wp I isd k g X s = if v then X s else ebot.
Proof.
  destruct d; eexists; split; try reflexivity; intros I isd k X s v E; cbn [wp]; rewrite (ev_toggle I s y v) by auto; rewrite ev_bot, ev_top.
  - destruct v; [apply emin_top_l | apply emin_bot_l].
  - destruct v; [apply (assume_top Up) | apply (assume_bot Up)].
Qed.

Section Visit.
Variables (C : tcx) (F : filter) (span_at : place -> nat) (isd isf A : string -> bool).
Hypothesis HT : tcx_ok C isd isf A.
Notation add := (add_slice_stmt span_at).

Lemma add_ok anns S p e : exists y S', add anns S p e = Ok (EVar y, S') /\ s_dir S' = s_dir S /\ ity y = TBool /\
  grown S S' [mkslice y (make_selection anns e) p] [].
Proof.
  unfold add_slice_stmt. destruct (fresh_ident_ok (s_tcx S) (mkid "slice_toggle" 0 TBool) (span_at p)) as (y & T' & E & E1 & E2 & E3 & E4 & _).
  rewrite E. cbn [rbind]. unfold declare.
  assert (N : contains_key T' y = false).
  { destruct (contains_key T' y) eqn:Q; auto. apply contains_key_iff in Q. destruct E2. unfold declared in *. now rewrite E1 in Q. }
  rewrite N. cbn [rbind]. exists y. eexists. split; [reflexivity|]. split; [reflexivity|]. split; [exact E4|].
  split; [reflexivity|]. split; [cbn; now rewrite app_nil_r|]. cbn [s_tcx]. split; [|split].
  - intros e' [<-|[]]. cbn [sl_ident]. split; [exact E4|]. split; [exact E2|]. exists (y, true). split; [left; auto | auto].
  - intros x (d & D & H). exists d. split; [right; rewrite E1; auto | auto].
  - constructor; [intros [] | constructor].
Qed.

(** The places of new slice statements are different ones inside of [W]. *)
Definition placed (W : place -> Prop) (N : list slice_stmt) : Prop := (forall e, In e N -> W (sl_at e)) /\ NoDup (map sl_at N).
Lemma placed_nil W : placed W [].
Proof. split; [intros e [] | constructor]. Qed.
Lemma placed_app (W1 W2 W : place -> Prop) N1 N2 : (forall x, W1 x -> ~ W2 x) -> (forall x, W1 x -> W x) -> (forall x, W2 x -> W x) ->
  placed W1 N1 -> placed W2 N2 -> placed W (N1 ++ N2).
Proof.
  intros D H1 H2 [A1 B1] [A2 B2]. split.
  - intros e He. apply in_app_or in He. destruct He; auto.
  - rewrite map_app. apply NoDup_app_intro; auto. intros x X1 X2. apply in_map_iff in X1, X2.
    destruct X1 as (e1 & <- & I1), X2 as (e2 & E & I2). apply (D (sl_at e1)); auto. rewrite <- E. auto.
Qed.
Lemma placed_weaken (W W' : place -> Prop) N : (forall x, W x -> W' x) -> placed W N -> placed W' N.
Proof. intros H [H1 H2]. split; auto. Qed.

(** What a visit of a statement at [p] achieves. *)
Definition done (p : place) (st : stmt) (S : slicer) (r : res (stmt * slicer * bool)) : Prop :=
  exists st' S' ok N K, r = Ok (st', S', ok) /\ grown S S' N K /\ placed (below p) N /\
    sem isd (fun x => writes x st) (below p) (fun off => slice off p st) [st'] N K /\
    (forall d', every neutral st -> mono_visit (s_dir S) st = Ok d' ->
       ok = true /\ s_dir S' = d' /\ eff isd (below p) (fun off => slice off p st) N K (s_dir S) d').
Definition doneb (q : place) (i : nat) (b : list stmt) (S : slicer) (r : res (list stmt * slicer * bool)) : Prop :=
  exists b' S' ok N K, r = Ok (b', S', ok) /\ grown S S' N K /\ placed (inblock q i) N /\
    sem isd (fun x => writes_block x b) (inblock q i) (fun off => slice_from off q i b) b' N K /\
    (forall d', All (every neutral) b -> mono_visit_block (s_dir S) b = Ok d' ->
       ok = true /\ s_dir S' = d' /\ eff isd (inblock q i) (fun off => slice_from off q i b) N K (s_dir S) d').

(** A statement left alone. *)
Lemma done_id p st S S' ok : wts isd isf st -> every not_while st -> grown S S' [] [] ->
  (forall d', every neutral st -> mono_visit (s_dir S) st = Ok d' -> ok = true /\ s_dir S' = d') ->
  done p st S (Ok (st, S', ok)).
Proof.
  intros Hw Hn Hg Hd. exists st, S', ok, [], []. split; [reflexivity|]. split; [exact Hg|]. split; [apply placed_nil|]. split.
  - apply (sem_weaken isd (fun x => writes_block x [st]) _ (below p) (below p) (fun off => slice off p st)).
    + intros x [H|[]]; auto.
    + auto.
    + reflexivity.
    + apply (sem_id isd isf); [split; [exact Hw | exact Logic.I] | split; [exact Hn | exact Logic.I] |].
      intros off Ho. now apply slice_all_on.
  - intros d' Hne Hv. destruct (Hd d' Hne Hv) as [-> ->]. split; [auto|]. split; [auto|].
    apply mono_visit_flips in Hv; auto. subst d'. apply (eff_id isd isf); auto. intros off Ho. now apply slice_all_on.
Qed.
Lemma doneb_id q i b : All (wts isd isf) b -> All (every not_while) b ->
  sem isd (fun x => writes_block x b) (inblock q i) (fun off => slice_from off q i b) b [] [].
Proof. intros Hw Hn. apply (sem_id isd isf); auto. intros off Ho. now apply slice_all_on. Qed.

(** A statement with a toggle. *)
Lemma done_leaf anns p e st S st' S' y : wts isd isf st -> every not_while st -> flips st = false ->
  (forall off, slice off p st = if off p then [] else [st]) -> mono_visit (s_dir S) st = Ok (s_dir S) ->
  s_dir S' = s_dir S -> grown S S' [mkslice y (make_selection anns e) p] [] ->
  (forall I k X s, s y = VBool true -> wp I isd k st' X s = wp I isd k st X s) ->
  (forall I k X s, s y = VBool false -> wp I isd k st' X s = X s) ->
  (forall g I k X s, lab g (mkslice y (make_selection anns e) p) = true -> interp_ok I -> env_ok s ->
     match seen g (s_dir S) with Down => ele (wp I isd k st X s) (X s) | Up => ele (X s) (wp I isd k st X s) end) ->
  done p st S (Ok (st', S', true)).
Proof.
  intros Hw Hn Hf Hs Hm Hd Hg H1 H2 H3. do 5 eexists. split; [reflexivity|]. split; [exact Hg|]. split; [|split].
  - split; [intros e' [<-|[]]; exists []; reflexivity | constructor; [intros [] | constructor]].
  - apply (sem_leaf isd isf p (mkslice y (make_selection anns e) p)); auto.
  - intros d' Hne Hv. rewrite Hm in Hv. inversion Hv; subst d'. split; [auto|]. split; [auto|].
    apply (eff_leaf isd isf p (mkslice y (make_selection anns e) p) st); auto.
Qed.

Lemma bin_top d : exists u, match d with Down => b_top TEUReal | Up => b_bot TEUReal end = Ok u /\ forall I s, ev I u s = match d with Down => etop | Up => ebot end.
Proof. destruct d; eexists; (split; [reflexivity|]); intros; [apply ev_top | apply ev_bot]. Qed.

Lemma lab_disc g y anns p d : lab g (mkslice y (make_selection anns (reductive_effect d)) p) = true -> seen g d = Down.
Proof. destruct g, d; cbn; congruence. Qed.
Lemma lab_conc g y anns p d : lab g (mkslice y (make_selection anns (extensive_effect d)) p) = true -> seen g d = Up.
Proof. destruct g, d; cbn; congruence. Qed.
Lemma lab_amb g y anns p : lab g (mkslice y (make_selection anns Ambiguous) p) = false.
Proof. destruct g; reflexivity. Qed.

Lemma visit_assign anns p x e S : wts isd isf (SAssign [x] e) -> done p (SAssign [x] e) S (transform C F span_at anns p (SAssign [x] e) S).
Proof.
  intros Hw. assert (Hn : every not_while (SAssign [x] e)) by (split; exact Logic.I). unfold transform.
  assert (Id : done p (SAssign [x] e) S (Ok (SAssign [x] e, S, true))).
  { apply done_id; auto using grown_refl. intros d' _ Hv. inversion Hv. auto. }
  destruct (should_slice F anns Ambiguous); [|exact Id].
  assert (P : exists b, is_pure_expr C e = Ok b /\ (b = true -> match e with ECall _ f _ => isd f = false | _ => True end)).
  { destruct e; try (exists true; split; [reflexivity | auto; fail]). cbn [wts assign_ok] in Hw. cbn [is_pure_expr].
    destruct HT as (T1 & T2 & _). destruct (isd f) eqn:Ef.
    - rewrite T1 by auto. exists false. split; [auto | discriminate].
    - destruct Hw as (Hf & _). destruct (T2 f Ef Hf) as [-> | ->]; exists true; auto. }
  destruct P as (b & -> & Pb). cbn [rbind]. destruct b.
  - destruct (add_ok anns S p Ambiguous) as (y & S' & -> & Hd & Ty & Hg). cbn [rbind].
    eapply done_leaf; eauto.
    + intros I k X s V. cbn [wp]. specialize (Pb eq_refl). unfold assign_sem. cbn [eval]. rewrite V.
      destruct e; auto. now rewrite Pb.
    + intros I k X s V. cbn [wp]. unfold assign_sem. cbn [eval]. rewrite V. f_equal.
      extensionality z. unfold upd. destruct (ident_eqb x z) eqn:Ez; auto. apply ident_eqb_eq in Ez. now subst.
    + intros g I k X s L. rewrite lab_amb in L. discriminate.
  - destruct (f_sampling F); [|exact Id].
    destruct (add_ok anns S p Ambiguous) as (y & S' & -> & Hd & Ty & Hg). cbn [rbind].
    eapply done_leaf; eauto.
    + intros I k X s V. cbn [wp fold_right]. unfold holds. cbn [eval]. rewrite V. reflexivity.
    + intros I k X s V. cbn [wp fold_right]. unfold holds. cbn [eval]. rewrite V. reflexivity.
    + intros g I k X s L. rewrite lab_amb in L. discriminate.
Qed.

Lemma visit_assume anns p d e S : wts isd isf (SAssume d e) -> done p (SAssume d e) S (transform C F span_at anns p (SAssume d e) S).
Proof.
  intros Hw. assert (Hn : every not_while (SAssume d e)) by (split; exact Logic.I). unfold transform.
  assert (Id : done p (SAssume d e) S (Ok (SAssume d e, S, true))).
  { apply done_id; auto using grown_refl. intros d' _ Hv. inversion Hv. auto. }
  set (ef := if dir_eqb (s_dir S) d then Concordant else Discordant).
  destruct (should_slice F anns ef); [|exact Id].
  destruct (add_ok anns S p ef) as (y & S' & -> & Hd & Ty & Hg). cbn [rbind]. unfold mk_top_toggle.
  destruct Hw as [W T]. rewrite T. destruct (bin_top d) as (u & -> & Eu). cbn [rbind].
  eapply done_leaf; eauto.
  - split; auto.
  - intros I k X s V. cbn [wp]. rewrite (ev_toggle I s y true) by auto. reflexivity.
  - intros I k X s V. cbn [wp]. rewrite (ev_toggle I s y false) by auto. rewrite Eu. apply assume_top.
  - intros g I k X s L HI Hs. cbn [wp]. assert (Q : seen g (s_dir S) = toggle d).
    { unfold ef in L. destruct g, d, (s_dir S); cbn in L; try discriminate; reflexivity. }
    rewrite Q. destruct d; cbn [toggle assume_sem].
    + destruct (eleb _ _); auto using ele_top, ele_refl.
    + destruct (eleb _ _); auto using ebot_le, ele_refl.
Qed.
Lemma visit_assert anns p d e S : wts isd isf (SAssert d e) -> done p (SAssert d e) S (transform C F span_at anns p (SAssert d e) S).
Proof.
  intros Hw. assert (Hn : every not_while (SAssert d e)) by (split; exact Logic.I). unfold transform.
  assert (Id : done p (SAssert d e) S (Ok (SAssert d e, S, true))).
  { apply done_id; auto using grown_refl. intros d' _ Hv. inversion Hv. auto. }
  set (ef := if dir_eqb (s_dir S) d then Discordant else Concordant).
  destruct (should_slice F anns ef); [|exact Id].
  destruct (add_ok anns S p ef) as (y & S' & -> & Hd & Ty & Hg). cbn [rbind]. unfold mk_top_toggle.
  destruct Hw as [W T]. rewrite T. destruct (bin_top d) as (u & -> & Eu). cbn [rbind].
  eapply done_leaf; eauto.
  - split; auto.
  - intros I k X s V. cbn [wp]. destruct d; rewrite (ev_toggle I s y true) by auto; reflexivity.
  - intros I k X s V. cbn [wp]. destruct d; rewrite (ev_toggle I s y false) by auto; rewrite Eu; [apply emin_top_l | apply emax_bot_l].
  - intros g I k X s L HI Hs. cbn [wp]. assert (Q : seen g (s_dir S) = d).
    { unfold ef in L. destruct g, d, (s_dir S); cbn in L; try discriminate; reflexivity. }
    rewrite Q. destruct d; [apply emin_r | apply emax_r].
Qed.
Lemma visit_tick anns p e S : wts isd isf (STick e) -> done p (STick e) S (transform C F span_at anns p (STick e) S).
Proof.
  intros Hw. assert (Hn : every not_while (STick e)) by (split; exact Logic.I). unfold transform.
  assert (Id : done p (STick e) S (Ok (STick e, S, true))).
  { apply done_id; auto using grown_refl. intros d' _ Hv. inversion Hv. auto. }
  destruct (f_ticks F && should_slice F anns (extensive_effect (s_dir S))); [|exact Id].
  destruct (add_ok anns S p (extensive_effect (s_dir S))) as (y & S' & -> & Hd & Ty & Hg). cbn [rbind]. unfold mk_top_toggle.
  destruct Hw as [W T]. rewrite T. cbn [b_bot rbind].
  eapply done_leaf; eauto.
  - split; auto.
  - intros I k X s V. cbn [wp]. rewrite (ev_toggle I s y true) by auto. reflexivity.
  - intros I k X s V. cbn [wp]. rewrite (ev_toggle I s y false) by auto. rewrite ev_bot. apply eadd_0_r.
  - intros g I k X s L HI Hs. cbn [wp]. rewrite (lab_conc _ _ _ _ _ L).
    rewrite <- (eadd_0_r (X s)) at 1. apply eadd_mono; auto using ele_refl, ebot_le.
Qed.

Lemma weigh_cases d e : is_exp e ->
  (weigh_effect d e = extensive_effect d /\ forall I s, ele eone (ev I e s)) \/
  (weigh_effect d e = reductive_effect d /\ forall I s, ele (ev I e s) eone) \/
  weigh_effect d e = Ambiguous.
Proof.
  intros [W T]. destruct e as [| | | | | | | |t l]; auto. cbn [ty_of] in T. subst t. cbn [weigh_effect].
  destruct l as [n|q| |b]; try discriminate; cbn [lit_ge_one].
  - cbn in W. apply Qle_bool_iff in W. apply Qle_Rle in W. rewrite RMicromega.Q2R_0 in W.
    destruct (Qle_bool 1 q) eqn:E1; [|destruct (Qle_bool q 1) eqn:E2]; auto.
    + left. split; auto. intros I s. unfold ev, eone. cbn. apply Qle_bool_iff, Qle_Rle in E1.
      replace (Q2R 1) with 1%R in E1 by (unfold Q2R; cbn; lra). apply ele_fin; lra.
    + right; left. split; auto. intros I s. unfold ev, eone. cbn. apply Qle_bool_iff, Qle_Rle in E2.
      replace (Q2R 1) with 1%R in E2 by (unfold Q2R; cbn; lra). apply ele_fin; lra.
  - left. split; auto. intros I s. apply ele_top.
Qed.
Lemma visit_weigh anns p e S : wts isd isf (SWeigh e) -> done p (SWeigh e) S (transform C F span_at anns p (SWeigh e) S).
Proof.
  intros Hw. assert (Hn : every not_while (SWeigh e)) by (split; exact Logic.I). unfold transform.
  assert (Id : done p (SWeigh e) S (Ok (SWeigh e, S, true))).
  { apply done_id; auto using grown_refl. intros d' _ Hv. inversion Hv. auto. }
  pose proof (weigh_cases (s_dir S) e Hw) as Hc. set (ef := weigh_effect (s_dir S) e) in *.
  destruct (f_ticks F && should_slice F anns ef); [|exact Id].
  destruct (add_ok anns S p ef) as (y & S' & -> & Hd & Ty & Hg). cbn [rbind].
  destruct Hw as [W T]. rewrite T. cbn [b_one rbind b_cast ty_of b_uint ty_eqb].
  eapply done_leaf; eauto.
  - split; auto.
  - intros I k X s V. cbn [wp]. rewrite (ev_toggle I s y true) by auto. reflexivity.
  - intros I k X s V. cbn [wp]. rewrite (ev_toggle I s y false) by auto.
    change (emul (X s) (ev I (ECast TEUReal (b_uint 1)) s) = X s). rewrite ev_one. apply emul_1_r.
  - intros g I k X s L HI Hs. cbn [wp]. destruct Hc as [[E H]|[[E H]|E]]; rewrite E in L.
    + rewrite (lab_conc _ _ _ _ _ L). rewrite <- (emul_1_r (X s)) at 1. apply emul_mono; auto using ele_refl.
    + rewrite (lab_disc _ _ _ _ _ L). rewrite <- (emul_1_r (X s)) at 2. apply emul_mono; auto using ele_refl.
    + rewrite lab_amb in L. discriminate.
Qed.
Lemma visit_negate anns p d S : done p (SNegate d) S (transform C F span_at anns p (SNegate d) S).
Proof.
  cbn [transform]. destruct (s_dir S) eqn:Ed, d; cbn [negation_forwards]; apply done_id; try exact Logic.I; try (split; exact Logic.I);
    try apply grown_refl; try apply grown_negate; intros d' _ Hv; rewrite Ed in Hv; cbn in Hv; try discriminate; inversion Hv; auto.
Qed.
Lemma visit_plain anns p st S : wts isd isf st -> every not_while st -> transform C F span_at anns p st S = Ok (st, S, true) ->
  mono_visit (s_dir S) st = Ok (s_dir S) -> done p st S (transform C F span_at anns p st S).
Proof. intros Hw Hn -> Hm. apply done_id; auto using grown_refl. intros d' _ Hv. rewrite Hm in Hv. inversion Hv. auto. Qed.

(** ** Blocks and branches *)
Notation vis := (slice_visit C F span_at).
Notation blk := (slice_block C F span_at).
Lemma block_eqs anns : forall b q i S,
  (fix block (q : place) (i : nat) (b : list stmt) (S : slicer) {struct b} : res (list stmt * slicer * bool) :=
    match b with
    | [] => Ok ([], S, true)
    | s :: b' =>
        let? (r, ok) := slice_visit C F span_at anns (i :: q) s S in
        if ok then
          let? (r', ok') := block q (Datatypes.S i) b' (snd r) in
          Ok (fst r :: fst r', snd r', ok')
        else Ok (fst r :: b', snd r, false)
    end) q i b S = blk anns q i b S.
Proof.
  induction b as [|s b IH]; intros q i S; [reflexivity|]. cbn [slice_block].
  destruct (slice_visit C F span_at anns (i :: q) s S) as [[[s' S'] ok]|w|w]; cbn [rbind fst snd]; auto. destruct ok; auto. now rewrite IH.
Qed.
Definition fine (st : stmt) : Prop := forall anns p S, wts isd isf st -> every not_while st -> every (known C) st -> done p st S (vis anns p st S).

Lemma doneb_nil q i S : doneb q i [] S (Ok ([], S, true)).
Proof.
  exists [], S, true, [], []. split; [reflexivity|]. split; [apply grown_refl|]. split; [apply placed_nil|]. split.
  - intros I k s0 off G _ _ _ _ X Y E s Ag. now apply E.
  - intros d' _ Hv. inversion Hv; subst. split; [auto|]. split; [auto|]. intros I k g s1 s2 off1 off2 _ _ _ _ X Y E. exact E.
Qed.
Lemma doneb_cons q i s b S s' S1 : wts isd isf s -> All (wts isd isf) b -> All (every not_while) b ->
  forall ok, done (i :: q) s S (Ok (s', S1, ok)) ->
  forall r, (ok = true -> doneb q (Datatypes.S i) b S1 r) ->
  doneb q i (s :: b) S (if ok then let? (r', ok') := r in Ok (s' :: fst r', snd r', ok') else Ok (s' :: b, S1, false)).
Proof.
  intros Hw Hwb Hnb ok (st' & S' & ok' & N1 & K1 & E & G1 & P1 & M1 & D1) r Hr. inversion E; subst st' S' ok'. clear E.
  destruct ok.
  - destruct (Hr eq_refl) as (b' & S2 & ok2 & N2 & K2 & -> & G2 & P2 & M2 & D2). cbn [rbind fst snd].
    exists (s' :: b'), S2, ok2, (N1 ++ N2), (K1 ++ K2). split; [reflexivity|]. split; [eapply grown_trans; eauto|]. split; [|split].
    + eapply placed_app; try exact P1; try exact P2; eauto using below_inblock, inblock_S. intros x H1 H2; eapply head_disj; eauto.
    + cbn [slice_from]. change (s' :: b') with ([s'] ++ b').
      destruct P1 as [P1 _]; try destruct P2 as [P2 _]; eapply (sem_seq isd (below (i :: q)) (inblock q (Datatypes.S i))); eauto using below_inblock, inblock_S;
        try (intros x H; left; exact H); try (intros x H; right; exact H).
      all: intros x H1 H2; eapply head_disj; eauto.
    + intros d' [N_1 N_2] Hv. cbn [mono_visit_block] in Hv. destruct (mono_visit (s_dir S) s) as [d1|w|w] eqn:V1; try discriminate. cbn [rbind] in Hv.
      destruct (D1 d1 N_1 eq_refl) as (_ & Q1 & F1). rewrite <- Q1 in Hv. destruct (D2 d' N_2 Hv) as (Q2 & Q3 & F2).
      split; [auto|]. split; [auto|]. cbn [slice_from]. rewrite Q1 in F2.
      destruct P1 as [P1 _]; try destruct P2 as [P2 _]; eapply (eff_seq isd (below (i :: q)) (inblock q (Datatypes.S i))); eauto using below_inblock, inblock_S.
      intros x H1 H2. eapply head_disj; eauto.
  - exists (s' :: b), S1, false, (N1 ++ []), (K1 ++ []). split; [reflexivity|]. rewrite (app_nil_r K1). rewrite (app_nil_r N1). split; [exact G1|]. split; [|split].
    + eapply placed_weaken; [|exact P1]. apply below_inblock.
    + cbn [slice_from]. change (s' :: b) with ([s'] ++ b). rewrite <- (app_nil_r K1). rewrite <- (app_nil_r N1).
      destruct P1 as [P1 _]; try destruct P2 as [P2 _]; eapply (sem_seq isd (below (i :: q)) (inblock q (Datatypes.S i))); eauto using below_inblock, inblock_S, doneb_id;
        try (intros x H; left; exact H); try (intros x H; right; exact H); try (intros e []; fail).
      all: intros x H1 H2; eapply head_disj; eauto.
    + intros d' [N_1 N_2] Hv. cbn [mono_visit_block] in Hv. destruct (mono_visit (s_dir S) s) as [d1|w|w] eqn:V1; try discriminate.
      destruct (D1 d1 N_1 eq_refl) as (Q & _). discriminate.
Qed.
Lemma fine_block b : Forall fine b -> forall anns q i S, All (wts isd isf) b -> All (every not_while) b -> All (every (known C)) b ->
  doneb q i b S (blk anns q i b S).
Proof.
  induction 1 as [|s b Hs Hb IH]; intros anns q i S H1 H2 H3; [apply doneb_nil|]. cbn [slice_block].
  destruct H1 as [W1 W2], H2 as [N1 N2], H3 as [K1 K2].
  pose proof (Hs anns (i :: q) S W1 N1 K1) as D. pose proof D as D'.
  destruct D' as (st' & S' & ok & N & K & E & _). rewrite E in D |- *. cbn [rbind fst snd].
  apply doneb_cons; auto. 
Qed.

(** One nested block. *)
Lemma done_one p mk b S r (tr : stmt -> slicer -> res (stmt * slicer * bool)) : doneb (0 :: p) 0 b S r ->
  (forall x S, tr (mk x) S = Ok (mk x, S, true)) ->
  (forall I k x X, wp I isd k (mk x) X = wp_block I isd k x X) ->
  (forall x, writes_block x b -> writes x (mk b)) ->
  (forall off, slice off p (mk b) = if off p then [] else [mk (slice_from off (0 :: p) 0 b)]) ->
  (every neutral (mk b) -> All (every neutral) b) ->
  (forall d, mono_visit d (mk b) = mono_visit_block d b) ->
  done p (mk b) S (let? (r, ok) := r in let st' := mk (fst r) in if ok then tr st' (snd r) else Ok (st', snd r, false)).
Proof.
  intros (b' & S' & ok & N & K & -> & G & PP & M & D) Ht Hwp Hwr Hsl Hne Hmv. cbn [rbind fst snd].
  assert (E : (if ok then tr (mk b') S' else Ok (mk b', S', false)) = Ok (mk b', S', ok)).
  { destruct ok; auto. }
  rewrite E. exists (mk b'), S', ok, N, K. split; [reflexivity|]. split; [exact G|].
  assert (HP : forall x, inblock (0 :: p) 0 x -> below p x) by (intros x Hx; eapply below_up, inblock_below, Hx).
  assert (HO : forall off, (forall x, below p x -> (forall e, In e N -> sl_at e <> x) -> off x = false) -> off p = false).
  { intros off Ho. apply Ho; [exists []; auto|]. intros e He Q. apply (proj1 PP), inblock_below, below_neq in He. auto. }
  destruct PP as [P PN]. split; [split; auto|split].
  - intros I k s0 off G0 H1 H2 H3 H4 X Y Q s Ag. rewrite Hsl, HO by auto. cbn [wp_block fold_right]. rewrite !Hwp.
    eapply M; eauto. intros x Hx Hw. eapply H4; eauto.
  - intros d' Hn Hv. rewrite Hmv in Hv. destruct (D d' (Hne Hn) Hv) as (Q1 & Q2 & Q3). split; [auto|]. split; [auto|].
    intros I k g s1 s2 off1 off2 HI H1 H2 H3 X Y Q. rewrite !Hsl. rewrite !HO by (intros x Hx Hx'; apply (H2 x Hx Hx')). cbn [wp_block fold_right]. rewrite !Hwp.
    eapply Q3; eauto.
Qed.

(** Two nested blocks. *)
Definition both (S : slicer) (p : place) (a b : list stmt) (ra : res (list stmt * slicer * bool)) (rb : slicer -> res (list stmt * slicer * bool))
    (mk : list stmt -> list stmt -> stmt) (tr : stmt -> slicer -> res (stmt * slicer * bool)) : res (stmt * slicer * bool) :=
  let? (r1, ok1) := ra in
  if ok1 then
    let? (r2, ok2) := rb (snd r1) in
    let st' := mk (fst r1) (fst r2) in
    if ok2 then tr st' (snd r2) else Ok (st', snd r2, false)
  else Ok (mk (fst r1) b, snd r1, false).

(** Both blocks were visited, or one of them stopped the visit. *)
Lemma both_cases S p a b (ra : res (list stmt * slicer * bool)) (rb : slicer -> res (list stmt * slicer * bool)) mk tr : All (wts isd isf) b -> All (every not_while) b ->
  doneb (0 :: p) 0 a S ra -> (forall S1, doneb (1 :: p) 0 b S1 (rb S1)) ->
  exists a' b' S1 S2 (ok : bool) N1 K1 N2 K2,
    both S p a b ra rb mk tr = (if ok then tr (mk a' b') S2 else Ok (mk a' b', S2, false)) /\
    grown S S1 N1 K1 /\ grown S1 S2 N2 K2 /\
    placed (inblock (0 :: p) 0) N1 /\ placed (inblock (1 :: p) 0) N2 /\
    sem isd (fun x => writes_block x a) (inblock (0 :: p) 0) (fun off => slice_from off (0 :: p) 0 a) a' N1 K1 /\
    sem isd (fun x => writes_block x b) (inblock (1 :: p) 0) (fun off => slice_from off (1 :: p) 0 b) b' N2 K2 /\
    (All (every neutral) a -> All (every neutral) b -> forall d1 d2, mono_visit_block (s_dir S) a = Ok d1 -> mono_visit_block d1 b = Ok d2 ->
       ok = true /\ s_dir S1 = d1 /\ s_dir S2 = d2 /\
       eff isd (inblock (0 :: p) 0) (fun off => slice_from off (0 :: p) 0 a) N1 K1 (s_dir S) d1 /\
       eff isd (inblock (1 :: p) 0) (fun off => slice_from off (1 :: p) 0 b) N2 K2 d1 d2).
Proof.
  intros Wb Nb (a' & S1 & ok1 & N1 & K1 & -> & G1 & P1 & M1 & D1) Hb. unfold both. cbn [rbind fst snd].
  destruct ok1.
  - destruct (Hb S1) as (b' & S2 & ok2 & N2 & K2 & -> & G2 & P2 & M2 & D2). cbn [rbind fst snd].
    exists a', b', S1, S2, ok2, N1, K1, N2, K2. split; [reflexivity|]. do 6 (split; [assumption|]).
    intros Na Nbn d1 d2 V1 V2. destruct (D1 d1 Na V1) as (_ & Q1 & F1). rewrite <- Q1 in V2. destruct (D2 d2 Nbn V2) as (Q2 & Q3 & F2).
    rewrite Q1 in F2. auto.
  - exists a', b, S1, S1, false, N1, K1, [], []. split; [reflexivity|]. split; [assumption|]. split; [apply grown_refl|]. split; [assumption|].
    split; [apply placed_nil|]. split; [assumption|]. split; [now apply doneb_id|].
    intros Na _ d1 d2 V1 _. destruct (D1 d1 Na V1) as (Q & _). discriminate.
Qed.

Lemma branches_disj p x : inblock (0 :: p) 0 x -> ~ inblock (1 :: p) 0 x.
Proof. intros H1 H2. apply inblock_below in H1, H2. pose proof (below_disj _ _ _ _ H1 H2). discriminate. Qed.
Lemma branch_below p i x : inblock (i :: p) 0 x -> below p x.
Proof. intros H. eapply below_up, inblock_below, H. Qed.
Lemma off_here p N1 N2 (P : place -> Prop) : (forall e, In e N1 -> inblock (0 :: p) 0 (sl_at e)) -> (forall e, In e N2 -> inblock (1 :: p) 0 (sl_at e)) ->
  (forall x, below p x -> (forall e, In e (N1 ++ N2) -> sl_at e <> x) -> P x) -> P p /\ P (0 :: p) /\ P (1 :: p).
Proof.
  intros P1 P2 H.
  assert (Z : forall x, (x = p \/ x = 0 :: p \/ x = 1 :: p) -> P x).
  { intros x Hx. apply H.
    - destruct Hx as [->|[->| ->]]; [exists [] | exists [0] | exists [1]]; reflexivity.
    - intros e He E. apply in_app_or in He.
      assert (L : List.length (sl_at e) >= 2 + List.length p).
      { destruct He as [He|He]; [apply P1 in He | apply P2 in He]; destruct He as (l & j & _ & ->); rewrite app_length; cbn; lia. }
      rewrite E in L. destruct Hx as [->|[->| ->]]; cbn in L; lia. }
  split; [|split]; apply Z; auto.
Qed.

Section Branches.
Variables (mk : list stmt -> list stmt -> stmt) (h : interp -> env -> eur -> eur -> eur).
Hypotheses (Hmk : forall I k a b X s, wp I isd k (mk a b) X s = h I s (wp_block I isd k a X s) (wp_block I isd k b X s))
  (Hmono : forall I s a b a' b', ele a a' -> ele b b' -> ele (h I s a b) (h I s a' b'))
  (Hneu : forall a b, every neutral (mk a b) -> (flips_block a = false /\ flips_block b = false) /\ All (every neutral) a /\ All (every neutral) b)
  (Hvis : forall d a b, mono_visit d (mk a b) = let? d1 := mono_visit_block d a in mono_visit_block d1 b)
  (Hwr : forall x a b, writes_block x a \/ writes_block x b -> writes x (mk a b)).

Lemma vis_flips a b d d' : every neutral (mk a b) -> mono_visit d (mk a b) = Ok d' ->
  mono_visit_block d a = Ok d /\ mono_visit_block d b = Ok d /\ d' = d.
Proof.
  intros Hn Hv. rewrite Hvis in Hv. destruct (Hneu _ _ Hn) as ((Fa & Fb) & Na & Nb). apply rbind_ok in Hv. destruct Hv as (d1 & V1 & V2).
  assert (G : forall c d d', All (every neutral) c -> mono_visit_block d c = Ok d' -> d' = tog (flips_block c) d).
  { intros c e e' Hc Hv. assert (Q : every neutral (SSeq c)) by (split; [exact Logic.I | exact Hc]).
    apply (mono_visit_flips (SSeq c) Q e e'). cbn [mono_visit]. now rewrite mono_visit_stmts_eq. }
  pose proof (G _ _ _ Na V1) as E1. rewrite Fa in E1. subst d1. pose proof (G _ _ _ Nb V2) as E2. rewrite Fb in E2. cbn in E2. subst d'. auto.
Qed.

(** The statement itself is not switchable. *)
Lemma done_two p a b S (ra : res (list stmt * slicer * bool)) (rb : slicer -> res (list stmt * slicer * bool)) tr : All (wts isd isf) b -> All (every not_while) b ->
  doneb (0 :: p) 0 a S ra -> (forall S1, doneb (1 :: p) 0 b S1 (rb S1)) ->
  (forall off, off p = false -> off (0 :: p) = false -> off (1 :: p) = false ->
     slice off p (mk a b) = [mk (slice_from off (0 :: p) 0 a) (slice_from off (1 :: p) 0 b)]) ->
  (forall x y S, tr (mk x y) S = Ok (mk x y, S, true)) ->
  done p (mk a b) S (both S p a b ra rb mk tr).
Proof.
  intros Wb Nb Ha Hb Hsl Ht. destruct (both_cases S p a b ra rb mk tr Wb Nb Ha Hb) as
    (a' & b' & S1 & S2 & ok & N1 & K1 & N2 & K2 & -> & G1 & G2 & PP1 & PP2 & M1 & M2 & D). pose proof (proj1 PP1) as P1. pose proof (proj1 PP2) as P2.
  assert (E : (if ok then tr (mk a' b') S2 else Ok (mk a' b', S2, false)) = Ok (mk a' b', S2, ok)) by (destruct ok; auto).
  rewrite E. exists (mk a' b'), S2, ok, (N1 ++ N2), (K1 ++ K2). split; [reflexivity|]. split; [eapply grown_trans; eauto|].
  split; [eapply placed_app; try exact PP1; try exact PP2; eauto using branches_disj, branch_below|].
  assert (HO : forall off, (forall x, below p x -> (forall e, In e (N1 ++ N2) -> sl_at e <> x) -> off x = false) ->
    forall I k, wp_block I isd k (slice off p (mk a b)) = wp_block I isd k [mk (slice_from off (0 :: p) 0 a) (slice_from off (1 :: p) 0 b)]).
  { intros off Ho I k. destruct (off_here p N1 N2 (fun x => off x = false) P1 P2 Ho) as (O1 & O2 & O3). now rewrite Hsl. }
  split.
  - apply (sem_weaken isd (fun x => writes x (mk a b)) _ (below p) (below p) (fun off => [mk (slice_from off (0 :: p) 0 a) (slice_from off (1 :: p) 0 b)])); auto.
    eapply (sem_two isd (inblock (0 :: p) 0) (inblock (1 :: p) 0)) with (h := h); eauto using branches_disj, branch_below; intros; apply Hwr; auto.
  - intros d' Hn Hv. destruct (vis_flips a b _ _ Hn Hv) as (V1 & V2 & ->). destruct (Hneu _ _ Hn) as (_ & Na & Nbn).
    destruct (D Na Nbn _ _ V1 V2) as (Q1 & Q2 & Q3 & F1 & F2). split; [auto|]. split; [auto|].
    apply (eff_weaken isd (below p) (below p) (fun off => [mk (slice_from off (0 :: p) 0 a) (slice_from off (1 :: p) 0 b)])); auto.
    eapply (eff_two isd (inblock (0 :: p) 0) (inblock (1 :: p) 0)) with (h := h); eauto using branches_disj, branch_below.
Qed.
End Branches.

(** Choices, whose branches may be switchable. *)
Lemma done_choice (mk : list stmt -> list stmt -> stmt) (h : eur -> eur -> eur) (z : eur) (ef : direction -> effect) (guard : direction -> expr -> res stmt)
  (Hmk : forall I k a b X s, wp I isd k (mk a b) X s = h (wp_block I isd k a X s) (wp_block I isd k b X s))
  (Hmono : forall a b a' b', ele a a' -> ele b b' -> ele (h a b) (h a' b'))
  (Hz1 : forall a, h z a = a) (Hz2 : forall a, h a z = a)
  (Hneu : forall a b, every neutral (mk a b) -> (flips_block a = false /\ flips_block b = false) /\ All (every neutral) a /\ All (every neutral) b)
  (Hvis : forall d a b, mono_visit d (mk a b) = let? d1 := mono_visit_block d a in mono_visit_block d1 b)
  (Hwr : forall x a b, writes_block x a \/ writes_block x b -> writes x (mk a b))
  (Hg : forall d y, exists g, guard d (EVar y) = Ok g /\ forall I isd k X s v, s y = VBool v -> wp I isd k g X s = if v then X s else z)
  (Hl : forall g y anns p d, lab g (mkslice y (make_selection anns (ef d)) p) = true ->
     forall a b, match seen g d with Down => ele (h a b) a /\ ele (h a b) b | Up => ele a (h a b) /\ ele b (h a b) end)
  anns p a b S (ra : res (list stmt * slicer * bool)) (rb : slicer -> res (list stmt * slicer * bool)) tr : All (wts isd isf) b -> All (every not_while) b ->
  doneb (0 :: p) 0 a S ra -> (forall S1, doneb (1 :: p) 0 b S1 (rb S1)) ->
  (forall off, off p = false -> slice off p (mk a b) =
     if off (0 :: p) then slice_from off (1 :: p) 0 b else if off (1 :: p) then slice_from off (0 :: p) 0 a
     else [mk (slice_from off (0 :: p) 0 a) (slice_from off (1 :: p) 0 b)]) ->
  (forall x y S, tr (mk x y) S = if should_slice F anns (ef (s_dir S)) then
     let? (ab, S1) := slice_choice span_at anns S p (ef (s_dir S)) guard x y in Ok (mk (fst ab) (snd ab), S1, true) else Ok (mk x y, S, true)) ->
  done p (mk a b) S (both S p a b ra rb mk tr).
Proof.
  intros Wb Nb Ha Hb Hsl Ht. destruct (both_cases S p a b ra rb mk tr Wb Nb Ha Hb) as
    (a' & b' & S1 & S2 & ok & N1 & K1 & N2 & K2 & -> & G1 & G2 & PP1 & PP2 & M1 & M2 & D). pose proof (proj1 PP1) as P1. pose proof (proj1 PP2) as P2.
  destruct (ok && should_slice F anns (ef (s_dir S2))) eqn:Q.
  - apply andb_prop in Q. destruct Q as [-> Q]. rewrite Ht, Q. unfold slice_choice.
    destruct (add_ok anns S2 (0 :: p) (ef (s_dir S2))) as (y1 & S3 & -> & D3 & T3 & G3). cbn [rbind].
    destruct (add_ok anns S3 (1 :: p) (ef (s_dir S2))) as (y2 & S4 & -> & D4 & T4 & G4). cbn [rbind].
    destruct (Hg (s_dir S2) y1) as (g1 & -> & V1). cbn [rbind]. destruct (Hg (s_dir S2) y2) as (g2 & -> & V2). cbn [rbind fst snd].
    set (e1 := mkslice y1 (make_selection anns (ef (s_dir S2))) (0 :: p)) in *. set (e2 := mkslice y2 (make_selection anns (ef (s_dir S2))) (1 :: p)) in *.
    exists (mk (g1 :: a') (g2 :: b')). eexists. exists true, ((N1 ++ N2) ++ [e1; e2]), ((K1 ++ K2) ++ [EBin TBool OOr (EVar y1) (EVar y2)]).
    split; [reflexivity|]. split; [|split; [|split]].
    + pose proof (grown_trans _ _ _ _ _ _ _ (grown_trans _ _ _ _ _ _ _ G1 G2) (grown_trans _ _ _ _ _ _ _ G3 G4)) as (A1 & A2 & A3 & A4 & A5).
      cbn [app] in *. rewrite app_nil_r in A2. split; [exact A1|]. split; [cbn [s_constr]; rewrite A2; now rewrite !app_assoc|]. split; [exact A3|]. split; [exact A4 | exact A5].
    + apply (placed_app (fun x => inblock (0 :: p) 0 x \/ inblock (1 :: p) 0 x) (fun x => x = 0 :: p \/ x = 1 :: p)).
      * intros x [H|H] [-> | ->]; destruct H as (l & j & _ & H); apply (f_equal (@List.length nat)) in H; rewrite app_length in H; cbn in H; lia.
      * intros x [H|H]; eapply branch_below; eauto.
      * intros x [-> | ->]; [exists [0] | exists [1]]; reflexivity.
      * eapply placed_app; try exact PP1; try exact PP2; eauto using branches_disj.
      * split; [intros e [<-|[<-|[]]]; cbn; auto|]. cbn. constructor; [intros [H|[]]; discriminate | constructor; [intros [] | constructor]].
    + apply (sem_choice isd p N1 N2 K1 K2 e1 e2 mk h z) with (o1 := fun off => slice_from off (0 :: p) 0 a) (o2 := fun off => slice_from off (1 :: p) 0 b)
        (wr1 := fun x => writes_block x a) (wr2 := fun x => writes_block x b); auto.
    + intros d' Hn Hv. destruct (vis_flips mk Hneu Hvis a b _ _ Hn Hv) as (W1 & W2 & ->). destruct (Hneu _ _ Hn) as (_ & Na & Nbn).
      destruct (D Na Nbn _ _ W1 W2) as (Q1 & Q2 & Q3 & F1 & F2). split; [auto|]. split; [cbn [s_dir]; congruence|].
      apply (eff_choice isd p N1 N2 K1 K2 e1 e2 mk h) with (o1 := fun off => slice_from off (0 :: p) 0 a) (o2 := fun off => slice_from off (1 :: p) 0 b); auto.
      intros g e [-> | ->] L x y; unfold e1, e2 in L; rewrite Q3 in L; eapply Hl; eauto.
  - assert (E : (if ok then tr (mk a' b') S2 else Ok (mk a' b', S2, false)) = Ok (mk a' b', S2, ok)).
    { destruct ok; auto. rewrite Ht. cbn [andb] in Q. now rewrite Q. }
    rewrite E. exists (mk a' b'), S2, ok, (N1 ++ N2), (K1 ++ K2). split; [reflexivity|]. split; [eapply grown_trans; eauto|].
    split; [eapply placed_app; try exact PP1; try exact PP2; eauto using branches_disj, branch_below|].
    assert (HO : forall off, (forall x, below p x -> (forall e, In e (N1 ++ N2) -> sl_at e <> x) -> off x = false) ->
      forall I k, wp_block I isd k (slice off p (mk a b)) = wp_block I isd k [mk (slice_from off (0 :: p) 0 a) (slice_from off (1 :: p) 0 b)]).
    { intros off Ho I k. destruct (off_here p N1 N2 (fun x => off x = false) P1 P2 Ho) as (O1 & O2 & O3). now rewrite Hsl, O2, O3. }
    split.
    + apply (sem_weaken isd (fun x => writes x (mk a b)) _ (below p) (below p) (fun off => [mk (slice_from off (0 :: p) 0 a) (slice_from off (1 :: p) 0 b)])); auto.
      eapply (sem_two isd (inblock (0 :: p) 0) (inblock (1 :: p) 0)) with (h := fun _ _ => h); eauto using branches_disj, branch_below; intros; apply Hwr; auto.
    + intros d' Hn Hv. destruct (vis_flips mk Hneu Hvis a b _ _ Hn Hv) as (V1 & V2 & ->). destruct (Hneu _ _ Hn) as (_ & Na & Nbn).
      destruct (D Na Nbn _ _ V1 V2) as (Q1 & Q2 & Q3 & F1 & F2). split; [auto|]. split; [auto|].
      apply (eff_weaken isd (below p) (below p) (fun off => [mk (slice_from off (0 :: p) 0 a) (slice_from off (1 :: p) 0 b)])); auto.
      eapply (eff_two isd (inblock (0 :: p) 0) (inblock (1 :: p) 0)) with (h := fun _ _ => h); eauto using branches_disj, branch_below.
Qed.

(** Annotations are transparent. *)
Lemma ann_wp I k l n args : wp_block I isd k (match l with [s'] => [SAnn n args s'] | _ => [SAnn n args (SSeq l)] end) = wp_block I isd k l.
Proof. destruct l as [|s [|s2 l]]; reflexivity. Qed.
Lemma done_ann p n args s S r st'' : done (0 :: p) s S r -> (forall st' S' ok, r = Ok (st', S', ok) ->
    exists w, st'' = Ok (w, S', ok) /\ forall I k, wp I isd k w = wp I isd k st') ->
  done p (SAnn n args s) S st''.
Proof.
  intros (st' & S' & ok & N & K & E & G & P & M & D) Hr. destruct (Hr _ _ _ E) as (w & -> & Hw). 
  exists w, S', ok, N, K. split; [reflexivity|]. split; [exact G|]. destruct P as [P PN]. split; [split; [intros e He; eapply below_up; eauto | exact PN]|].
  assert (HO : forall off, (forall x, below p x -> (forall e, In e N -> sl_at e <> x) -> off x = false) ->
    forall I k, wp_block I isd k (slice off p (SAnn n args s)) = wp_block I isd k (slice off (0 :: p) s)).
  { intros off Ho I k. rewrite slice_eq. rewrite (Ho p).
    - rewrite <- (ann_wp I k (slice off (0 :: p) s) n args). destruct (slice off (0 :: p) s) as [|s1 [|s2 l]]; reflexivity.
    - exists []; auto.
    - intros e He. apply P, below_neq in He. auto. }
  split.
  - apply (sem_weaken isd (fun x => writes x s) _ (below (0 :: p)) (below p) (fun off => slice off (0 :: p) s)); eauto using below_up.
    intros I k s0 off G0 H1 H2 H3 H4 X Y Q s1 Ag. cbn [wp_block fold_right]. rewrite Hw. apply (M I k s0 off G0); auto.
  - intros d' Hn Hv. destruct Hn as [_ Hn]. destruct (D d' Hn Hv) as (Q1 & Q2 & Q3). split; [auto|]. split; [auto|].
    apply (eff_weaken isd (below (0 :: p)) (below p) (fun off => slice off (0 :: p) s)); eauto using below_up.
Qed.

Ltac side :=
  match goal with
  | |- forall a b, every neutral _ -> _ => intros ? ? HH; split; [exact (proj1 HH) | exact (proj2 HH)]
  | |- forall d a b, mono_visit _ _ = _ => let d := fresh in let a := fresh in intros d a ?; cbn [mono_visit]; rewrite mono_visit_stmts_eq;
      destruct (mono_visit_block d a); cbn [rbind]; auto; apply mono_visit_stmts_eq
  | |- forall x a b, _ \/ _ -> writes _ _ => intros ? ? ?; cbn [writes]; now rewrite !writes_block_eq
  | |- forall S1, doneb _ _ _ _ _ => intros ?; rewrite block_eqs; now apply fine_block
  | |- doneb _ _ _ _ _ => now apply fine_block
  | |- forall off, off _ = false -> _ => let H := fresh in intros ? H; intros; rewrite slice_eq, H; reflexivity
  | _ => idtac
  end.
Theorem visit_fine st : fine st.
Proof.
  induction st using stmt_rect'; intros anns p S Hw Hn Hk.
  - cbn [slice_visit]. rewrite block_eqs. apply (done_one p SSeq b S _ (transform C F span_at anns p)); auto.
    + apply fine_block; auto; try apply Hn; try apply Hk.
    + intros x Hx. cbn [writes]. now rewrite writes_block_eq.
    + intros off. apply slice_eq.
    + intros [_ H0]. exact H0.
  - cbn [slice_visit]. apply visit_plain; auto.
  - destruct xs as [|x [|y ys]]; try contradiction. cbn [slice_visit]. apply visit_assign; auto.
  - cbn [slice_visit]. apply visit_plain; auto.
  - cbn [slice_visit]. apply visit_assert; auto.
  - cbn [slice_visit]. apply visit_assume; auto.
  - cbn [slice_visit]. apply visit_plain; auto.
  - cbn [slice_visit]. apply visit_negate; auto.
  - cbn [slice_visit]. apply visit_plain; auto.
  - cbn [slice_visit]. apply visit_tick; auto.
  - cbn [slice_visit]. apply visit_weigh; auto.
  - cbn [slice_visit]. rewrite block_eqs.
    change (done p (SDemonic a b) S (both S p a b (blk anns (0 :: p) 0 a S) (fun S1 => (fix block (q : place) (i : nat) (b : list stmt) (S : slicer) {struct b} : res (list stmt * slicer * bool) :=
    match b with
    | [] => Ok ([], S, true)
    | s :: b' =>
        let? (r, ok) := slice_visit C F span_at anns (i :: q) s S in
        if ok then
          let? (r', ok') := block q (Datatypes.S i) b' (snd r) in
          Ok (fst r :: fst r', snd r', ok')
        else Ok (fst r :: b', snd r, false)
    end) (1 :: p) 0 b S1) SDemonic (transform C F span_at anns p))).
    destruct Hw as [Wa Wb], Hn as (_ & Na & Nb), Hk as (_ & Ka & Kb).
    apply (done_choice SDemonic emin etop reductive_effect demonic_guard) with (anns := anns); side; auto using emin_mono, emin_top_l, emin_top_r, guard_demonic.
    intros g y anns' p' d L x x'. rewrite (lab_disc _ _ _ _ _ L). auto using emin_l, emin_r.
  - cbn [slice_visit]. rewrite block_eqs.
    change (done p (SAngelic a b) S (both S p a b (blk anns (0 :: p) 0 a S) (fun S1 => (fix block (q : place) (i : nat) (b : list stmt) (S : slicer) {struct b} : res (list stmt * slicer * bool) :=
    match b with
    | [] => Ok ([], S, true)
    | s :: b' =>
        let? (r, ok) := slice_visit C F span_at anns (i :: q) s S in
        if ok then
          let? (r', ok') := block q (Datatypes.S i) b' (snd r) in
          Ok (fst r :: fst r', snd r', ok')
        else Ok (fst r :: b', snd r, false)
    end) (1 :: p) 0 b S1) SAngelic (transform C F span_at anns p))).
    destruct Hw as [Wa Wb], Hn as (_ & Na & Nb), Hk as (_ & Ka & Kb).
    apply (done_choice SAngelic emax ebot extensive_effect angelic_guard) with (anns := anns); side; auto using emax_mono, emax_bot_l, emax_bot_r, guard_angelic.
    intros g y anns' p' d L x x'. rewrite (lab_conc _ _ _ _ _ L). auto using emax_l, emax_r.
  - cbn [slice_visit]. rewrite block_eqs.
    change (done p (SAdditive a b) S (both S p a b (blk anns (0 :: p) 0 a S) (fun S1 => (fix block (q : place) (i : nat) (b : list stmt) (S : slicer) {struct b} : res (list stmt * slicer * bool) :=
    match b with
    | [] => Ok ([], S, true)
    | s :: b' =>
        let? (r, ok) := slice_visit C F span_at anns (i :: q) s S in
        if ok then
          let? (r', ok') := block q (Datatypes.S i) b' (snd r) in
          Ok (fst r :: fst r', snd r', ok')
        else Ok (fst r :: b', snd r, false)
    end) (1 :: p) 0 b S1) SAdditive (transform C F span_at anns p))).
    destruct Hw as [Wa Wb], Hn as (_ & Na & Nb), Hk as (_ & Ka & Kb).
    apply (done_two SAdditive (fun _ _ => eadd)); side; auto using eadd_mono.
  - cbn [slice_visit]. rewrite block_eqs.
    change (done p (SIf c a b) S (both S p a b (blk anns (0 :: p) 0 a S) (fun S1 => (fix block (q : place) (i : nat) (b : list stmt) (S : slicer) {struct b} : res (list stmt * slicer * bool) :=
    match b with
    | [] => Ok ([], S, true)
    | s :: b' =>
        let? (r, ok) := slice_visit C F span_at anns (i :: q) s S in
        if ok then
          let? (r', ok') := block q (Datatypes.S i) b' (snd r) in
          Ok (fst r :: fst r', snd r', ok')
        else Ok (fst r :: b', snd r, false)
    end) (1 :: p) 0 b S1) (SIf c) (transform C F span_at anns p))).
    destruct Hw as (_ & Wa & Wb), Hn as (_ & Na & Nb), Hk as (_ & Ka & Kb).
    apply (done_two (SIf c) (fun I s x y => if holds I c s then x else y)); side; auto.
    intros I s x y x' y' H1 H2. destruct (holds I c s); auto.
  - destruct Hn as [[] _].
  - cbn [slice_visit]. destruct Hn as [_ Hn], Hk as [Hka Hk]. cbn [known] in Hka. cbn [wts] in Hw.
    destruct (C n) as [[]|] eqn:Ec; try congruence.
    5:{ eapply done_ann; [apply (IHst (push_annotation n anns) (0 :: p) S Hw Hn Hk)|]. intros st' S' ok E. exists st'. auto. }
    all: eapply done_ann; [apply (IHst anns (0 :: p) S Hw Hn Hk)|]; intros st' S' ok E; rewrite E; cbn [rbind fst snd]; eexists; split; [reflexivity|]; reflexivity.
  - cbn [slice_visit]. apply visit_plain; auto.
Qed.
Theorem block_fine b anns q i S : All (wts isd isf) b -> All (every not_while) b -> All (every (known C)) b ->
  doneb q i b S (blk anns q i b S).
Proof. apply fine_block. apply Forall_forall. intros. apply visit_fine. Qed.
End Visit.
