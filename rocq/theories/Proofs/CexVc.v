(** The pre-quantities shown for a counterexample, and where what is shown is wrong. *)
From Coq Require Import Bool List String ZArith QArith Reals Qreals Lra Arith FunctionalExtensionality.
From Verif.Model Require Import Syntax Builder Dist VcGen TyCtx Subsets Slicing Numerals CexDisplay.
From Verif.Spec Require Import Eur Sem Wp Frame Loops Sliced CexSpec.
From Verif.Proofs Require Import EurLemmas SemLemmas DistProofs VcGenProofs SlicingVerdict NumeralReading CexProofs.
Import ListNotations.
Local Open Scope nat_scope.

(** * Putting true for the slice variables *)
Definition all_true (xs : list ident) (s : env) : env := fold_right (fun x s => upd s x (VBool true)) s xs.
Lemma true_subst I : forall xs f s, ev I (b_subst_by f xs (fun _ => b_bool true)) s = ev I f (all_true xs s).
Proof.
  intros xs f s. unfold b_subst_by, b_subst. revert f. induction xs as [|x xs IH]; intros f; [reflexivity|]. cbn [map fold_left fst snd].
  rewrite IH. cbn [all_true fold_right]. unfold ev. reflexivity.
Qed.
Lemma all_true_value xs s y : all_true xs s y = if existsb (fun x => ident_eqb x y) xs then VBool true else s y.
Proof. induction xs as [|x xs IH]; [reflexivity|]. cbn. unfold upd at 1. destruct (ident_eqb x y); auto. Qed.
Lemma set_on_all l s : set_on l s = all_true (map sl_ident l) s.
Proof. induction l as [|e l IH]; [reflexivity|]. cbn. unfold set_on, all_true in IH. now rewrite IH. Qed.
Lemma all_true_set_on l xs s : (forall x, In x xs -> In x (map sl_ident l)) -> (forall e, In e l -> In (sl_ident e) xs \/ s (sl_ident e) = VBool true) ->
  all_true xs s = set_on l s.
Proof.
  intros H1 H2. rewrite set_on_all. apply functional_extensionality. intros y. rewrite !all_true_value.
  destruct (existsb (fun x => ident_eqb x y) xs) eqn:E.
  - apply existsb_exists in E as (x & Hx & E). assert (K : existsb (fun x => ident_eqb x y) (map sl_ident l) = true) by (apply existsb_exists; eauto). now rewrite K.
  - destruct (existsb _ (map sl_ident l)) eqn:K; auto. apply existsb_exists in K as (x & Hx & K). apply ident_eqb_eq in K. subst y.
    apply in_map_iff in Hx as (e & <- & He). destruct (H2 e He) as [Q|Q]; auto.
    assert (existsb (fun x => ident_eqb x (sl_ident e)) xs = true); [|congruence]. apply existsb_exists. exists (sl_ident e). split; auto. apply ident_eqb_refl.
Qed.

Section Pre.
Variables (C : tcx) (F : filter) (span_at : place -> nat) (isd isf A : string -> bool).
Hypothesis HT : tcx_ok C isd isf A.
Variables (inner : bool) (z : zmodel) (sel : selection) (toggles : list (slice_stmt * term)) (locals : list local) (tr : expr -> symbolic).

Lemma toggle_known (s : env) S (TG : map fst toggles = s_stmts S)
  (TV : forall x t, In (x, t) toggles -> exists v, z_eval z false t = Some (ABool v) /\ s (sl_ident x) = VBool v) :
  forall x r, In (x, r) (map (result_of z) (chosen sel toggles)) -> In x (s_stmts S) /\ enables sel (sl_sel x) = true /\ exists v, r = Ok v /\ s (sl_ident x) = VBool v.
Proof.
  intros x r H. apply in_map_iff in H as ([y t] & [= <- <-] & H). unfold chosen in H. apply filter_In in H as [H E]. cbn [fst snd] in *.
  split; [rewrite <- TG; now apply (in_map fst) in H|]. split; auto. destruct (TV y t H) as (v & E1 & E2). exists v. split; auto. unfold toggle_result. rewrite E1. reflexivity.
Qed.

Theorem shown_pre den T d b post b' S e : completes z den ->
  sliceable C isd isf T b -> scoped_block (fun x => contains_key T x = false) b -> All (every (anns_in A)) b -> vguard_block b -> is_exp post ->
  prepare_slicing C F span_at T d b = Ok (b', S) -> vcgen C (SSeq b') post = Ok e ->
  forall I k s D, interp_ok I -> env_ok s -> meets I S s -> blind (fun x => contains_key T x = false) (ev I post) ->
  map fst toggles = s_stmts S ->
  (forall x t, In (x, t) toggles -> exists v, z_eval z false t = Some (ABool v) /\ s (sl_ident x) = VBool v) ->
  (forall x, In x (s_stmts S) -> enables sel (sl_sel x) = false -> s (sl_ident x) = VBool true) ->
  let selected := List.filter (fun x => enables sel (sl_sel x)) (s_stmts S) in
  value_right z den tr I s e -> value_right z den tr I s (b_subst_by e (map sl_ident selected) (fun _ => b_bool true)) ->
  show_counterexample inner z sel toggles locals tr e = Ok D ->
  (forall v, d_pre D = Value v -> shown_eur v = wp_block I isd k b (ev I post) s) /\
  match d_sliced D with
  | None => forall x, In x (s_stmts S) -> s (sl_ident x) = VBool true
  | Some (c, n, m) => (forall v, c = Value v -> shown_eur v = wp_block I isd k (slice_program (off_in (s_stmts S) s) b) (ev I post) s) /\
      n = List.length (List.filter (fun x => is_off s (sl_ident x)) selected) /\ m = List.length selected /\ 0 < n
  end.
Proof.
  intros HC SL SC AN VG HP PR VC I k s D HI Hs HM BL TG TV UN selected (D1 & N1 & R1) (D2 & N2 & R2) H.
  destruct (slice_vc C F span_at isd isf A HT T d b post SL AN VG HP) as (b1 & S1 & e1 & P1 & V1 & _ & EV). rewrite PR in P1. injection P1 as <- <-. rewrite VC in V1. injection V1 as <-.
  destruct (slices C F span_at isd isf A HT T d b SL) as (b1 & S1 & P1 & _ & _ & _ & SLI). rewrite PR in P1. injection P1 as <- <-.
  destruct (original_value C F span_at isd isf A HT T d b b' S SL SC PR I k (ev I post) s HI Hs BL) as (O1 & O2 & O3).
  assert (ON : ev I e (set_on (s_stmts S) s) = wp_block I isd k b (ev I post) s) by (rewrite EV with (k := k), <- SLI; auto).
  destruct (display_parts _ _ _ _ _ _ _ _ H) as (a & p & sl & _ & -> & PV & _). cbn [d_pre d_sliced].
  set (m := map (result_of z) (chosen sel toggles)) in *.
  assert (MS : map fst m = selected).
  { unfold m, chosen, selected. rewrite <- TG, map_map. cbn. clear. induction toggles as [|p l IH]; cbn; auto. destruct (enables _ _); cbn; rewrite IH; auto. }
  assert (IV : iter_variables m = map sl_ident selected) by (unfold iter_variables; rewrite <- MS, map_map; reflexivity).
  pose proof (toggle_known s S TG TV) as TK. fold m in TK.
  assert (CN : count_sliced m = List.length (List.filter (fun x => is_off s (sl_ident x)) selected)).
  { unfold count_sliced. rewrite <- MS. clear - TK. induction m as [|[x r] m IH]; [reflexivity|]. destruct (TK x r) as (_ & _ & v & -> & E); [now left|].
    assert (O : is_off s (sl_ident x) = negb v) by (unfold is_off; now rewrite E). specialize (IH ltac:(intros; apply TK; now right)).
    cbn [map List.filter fst snd]. rewrite O. destruct v; cbn [negb List.length]; auto. }
  unfold pretty_vc_value in PV. pose proof (outcome_any inner z (tr (original_vc e m)) a) as Q1.
  destruct (eval_symbolic inner z (tr (original_vc e m)) a) as [r1 a1]. cbn [fst] in Q1. subst r1.
  unfold original_vc in PV. destruct (count_sliced m =? 0) eqn:Z.
  - apply Nat.eqb_eq in Z.
    assert (AL : forall x, In x (s_stmts S) -> s (sl_ident x) = VBool true).
    { intros x Hx. destruct (enables sel (sl_sel x)) eqn:E; auto. rewrite CN in Z. apply length_zero_iff_nil in Z.
      assert (Hin : In x selected) by (apply filter_In; auto). rewrite <- MS in Hin. apply in_map_iff in Hin as ([y r] & <- & Hy). cbn [fst] in *.
      destruct (TK y r Hy) as (_ & _ & v & _ & Ev). rewrite Ev. destruct v; auto. exfalso.
      assert (Hf : In y (List.filter (fun x => is_off s (sl_ident x)) selected)) by (apply filter_In; split; [apply filter_In; auto|unfold is_off; now rewrite Ev]). rewrite Z in Hf. destruct Hf. }
    destruct (outcome inner z (tr e)) as [v|x|x] eqn:O; cbn in PV; try discriminate; injection PV as <- <-; (split; [|exact AL]).
    + intros w [= <-]. rewrite (R1 v) by (eapply outcome_denotes; eauto). rewrite <- ON. f_equal.
      rewrite <- (all_true_set_on (s_stmts S) [] s); [reflexivity|intros ? []|]. intros x Hx. right. auto.
    + discriminate.
  - apply Nat.eqb_neq in Z. rewrite IV in PV.
    assert (TS : all_true (map sl_ident selected) s = set_on (s_stmts S) s).
    { apply all_true_set_on.
      - intros x Hx. apply in_map_iff in Hx as (y & <- & Hy). apply filter_In in Hy as [Hy _]. now apply in_map.
      - intros x Hx. destruct (enables sel (sl_sel x)) eqn:E; auto. left. apply in_map. apply filter_In. auto. }
    assert (G : forall v, outcome inner z (tr (b_subst_by e (map sl_ident selected) (fun _ => b_bool true))) = Ok v -> shown_eur v = wp_block I isd k b (ev I post) s).
    { intros v O. rewrite (R2 v) by (eapply outcome_denotes; eauto). rewrite true_subst, TS. exact ON. }
    pose proof (outcome_any inner z (tr e) a1) as Q2. destruct (eval_symbolic inner z (tr e) a1) as [r2 a2]. cbn [fst] in Q2. subst r2.
    destruct (outcome inner z (tr (b_subst_by e (map sl_ident selected) (fun _ => b_bool true)))) as [v|x|x] eqn:O; cbn in PV; try discriminate;
    (destruct (outcome inner z (tr e)) as [v2|x2|x2] eqn:O2'; cbn in PV; try discriminate; injection PV as <- <-;
     (split; [try discriminate; intros w [= <-]; apply G; reflexivity|]; split; [try discriminate; intros w [= <-]; rewrite (R1 v2) by (eapply outcome_denotes; eauto); apply EV; auto|]; split; [exact CN|]; split; [rewrite <- MS, map_length; reflexivity|]; now destruct (count_sliced m); [|auto with arith])).
Qed.
End Pre.
