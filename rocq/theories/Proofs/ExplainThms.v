(** What explanations show: core programs, calls, annotated loops; programs with negations are rejected. *)
From Coq Require Import Bool List String NArith QArith Lia.
From Verif.Model Require Import Syntax Builder Lits TyCtx AstUtil Dist VcGen Subst Unfolder Constfold Negations ProofRules Procs Explain.
From Verif.Spec Require Import Eur Sem Wp Folding Exprs Reach Linear Calls Explained.
From Verif.Proofs Require Import EurLemmas SemLemmas WpLemmas TyCtxProofs SubstProofs DistProofs VcGenProofs SimLemmas UnfolderProofs ConstfoldProofs PipelineProofs CallProofs LoopVc
  ExplainBase ExplainProofs.
Import ListNotations.
Local Open Scope nat_scope.

(** * Core programs *)
Section Core.
Variables (C : tcx) (procs : string -> option proc) (orc : nat -> oracle) (qs : expr -> nat).
Variables (isd isf A : string -> bool) (k : fixkind).
Hypothesis HT : tcx_ok C isd isf A.
Hypothesis HO : forall n, sound_oracle (orc n).

(** A program after desugaring, with the symbol table [T] *)
Definition core_block (T : tyctx) (b : list xstmt) : Prop :=
  wts isd isf (SSeq (map erase b)) /\ every not_while (SSeq (map erase b)) /\ vguard (SSeq (map erase b)) /\ every (anns_in A) (SSeq (map erase b)) /\
  every (fun st => forall x, In x (node_ids st) -> is_var T x) (SSeq (map erase b)) /\ Forall spanned b.

Lemma core_block_good T sp b post d : core_block T b -> send sp <> 0 -> is_exp post -> (forall x, In x (ids post) -> is_var T x) ->
  ExplainProofs.good (Forall no_neg (map erase b)) (xgen_block C procs orc qs sp b post) (mkx d [] None T []) post
    (fun I => wp_block I isd k (map erase b)) (flat_map positions b ++ [brace sp])
    (fun I X => notes_stmts I isd k (Some sp) b X ++ [mknote (brace sp) (Some sp) X]).
Proof.
  intros (H1 & H2 & H3 & H4 & H5 & H6) Hz Hp Hv. cbn [wts every vguard] in H1, H2, H3, H4, H5. rewrite vguard_block_eq in H3.
  unfold xgen_block. apply (good_block C procs orc qs isd isf A k HT sp b); auto.
  - apply Forall_forall. intros s _. now apply explained_good.
  - apply core_forall; try apply H1; try apply H2; try apply H4; apply H5.
Qed.

Theorem explain_core_value T sp b post d e st : core_block T b -> send sp <> 0 -> is_exp post -> (forall x, In x (ids post) -> is_var T x) ->
  explain_raw_vc C procs orc qs T sp b post d = (Ok e, st) -> Forall foldable (x_folds st) ->
  is_exp e /\ (forall I s, interp_ok I -> env_ok s -> ev I e s = wp_block I isd k (map erase b) (ev I post) s) /\
  exists e0, vcgen_block C (map erase b) post = Ok e0 /\ is_exp e0 /\ forall I s, interp_ok I -> env_ok s -> ev I e s = ev I e0 s.
Proof.
  intros HC Hz Hp Hv H Hf. destruct (core_block_good T sp b post d HC Hz Hp Hv _ _ H Hf) as [G _].
  destruct (G e eq_refl) as (A1 & A2 & A3 & A4 & A5 & A6). split; auto.
  assert (V : forall I s, interp_ok I -> env_ok s -> ev I e s = wp_block I isd k (map erase b) (ev I post) s).
  { intros I s HI Hs. apply A5; auto. intros ? ?; reflexivity. }
  split; auto. destruct HC as (H1 & H2 & H3 & H4 & H5 & H6).
  destruct (vcgen_correct C SimplifyRefuted.I5 isd isf A k HT SimplifyRefuted.I5_ok _ H1 H2 H3 H4 post Hp) as (e0 & E0 & W0 & _).
  exists e0. cbn [vcgen] in E0. rewrite vcgen_block_eq in E0. split; auto. split; auto. intros I s HI Hs. rewrite V by auto.
  destruct (vcgen_correct C I isd isf A k HT HI _ H1 H2 H3 H4 post Hp) as (e1 & E1 & _ & V1). cbn [vcgen] in E1. rewrite vcgen_block_eq, E0 in E1. injection E1 as <-.
  symmetry. apply (V1 (ev I post)); auto.
Qed.

Theorem explain_core_entries T sp b post d e st : core_block T b -> send sp <> 0 -> is_exp post -> (forall x, In x (ids post) -> is_var T x) ->
  explain_raw_vc C procs orc qs T sp b post d = (Ok e, st) -> Forall foldable (x_folds st) -> NoDup (flat_map positions b ++ [brace sp]) ->
  forall I, interp_ok I ->
  Forall2 (explains I) (x_entries st) (notes_stmts I isd k (Some sp) b (ev I post) ++ [mknote (brace sp) (Some sp) (ev I post)]).
Proof.
  intros HC Hz Hp Hv H Hf HD I HI. destruct (core_block_good T sp b post d HC Hz Hp Hv _ _ H Hf) as [G _].
  destruct (G e eq_refl) as (A1 & A2 & A3 & A4 & A5 & A6). destruct A6 as (new & B1 & B2 & B3). { unfold spans. cbn. now rewrite app_nil_r. }
  cbn in B1. rewrite app_nil_r in B1. rewrite B1. apply B3; auto. intros ? ?; reflexivity.
Qed.

Theorem explain_core_total T sp b post d r st : core_block T b -> send sp <> 0 -> is_exp post -> (forall x, In x (ids post) -> is_var T x) ->
  explain_raw_vc C procs orc qs T sp b post d = (r, st) -> Forall foldable (x_folds st) -> Forall fits (x_folds st) ->
  NoDup (flat_map positions b ++ [brace sp]) -> Forall (every not_negate) (map erase b) -> exists e, r = Ok e.
Proof.
  intros HC Hz Hp Hv H Hf Hfit HD HN. destruct (core_block_good T sp b post d HC Hz Hp Hv _ _ H Hf) as [_ G].
  apply G; auto. unfold spans. cbn. now rewrite app_nil_r.
Qed.
End Core.

(** * Procedure calls *)
Section Call.
Variables (C : tcx) (procs : string -> option proc) (orc : nat -> oracle) (qs : expr -> nat).
Hypothesis HO : forall n, sound_oracle (orc n).

Lemma fold_spec_exp q l : Forall is_exp l -> is_exp (fold_spec q l).
Proof.
  intros H. unfold fold_spec. destruct H as [|e l He Hl]; [destruct (pdir q); split; reflexivity|].
  revert e He. induction Hl as [|x l Hx Hl IH]; intros e He; cbn [fold_left]; auto. apply IH. destruct (pdir q); apply wte_bin; auto.
Qed.
Lemma fold_spec_value I q l s : interp_ok I -> env_ok s -> Forall is_exp l -> ev I (fold_spec q l) s = all_of (pdir q) (map (fun e => ev I e s) l).
Proof.
  intros HI Hs H. unfold fold_spec, all_of. destruct H as [|e l He Hl].
  - destruct (pdir q); cbn [map fold_right]; reflexivity.
  - assert (G : forall l, Forall is_exp l -> forall e, is_exp e -> ev I (fold_left (EBin TEUReal (match pdir q with Down => OInf | Up => OSup end)) l e) s =
      match pdir q with Down => emin (ev I e s) (fold_right emin etop (map (fun e => ev I e s) l)) | Up => emax (ev I e s) (fold_right emax ebot (map (fun e => ev I e s) l)) end).
    { clear e l He Hl. induction 1 as [|x l Hx Hl IH]; intros e He; cbn [fold_left map fold_right].
      - destruct (pdir q); [apply ele_antisym; auto using emin_l, emin_glb, ele_refl, ele_top|apply ele_antisym; auto using emax_l, emax_lub, ele_refl, ebot_le].
      - rewrite IH by (destruct (pdir q); apply wte_bin; auto). destruct (pdir q); rewrite ev_bin by auto; cbn [eval_bin]; apply ele_antisym.
        + apply emin_glb; [eapply ele_trans; [apply emin_l|apply emin_l]|]. apply emin_glb; [eapply ele_trans; [apply emin_l|apply emin_r]|apply emin_r].
        + apply emin_glb; [apply emin_glb; [apply emin_l|eapply ele_trans; [apply emin_r|apply emin_l]]|eapply ele_trans; [apply emin_r|apply emin_r]].
        + apply emax_lub; [apply emax_lub; [apply emax_l|eapply ele_trans; [apply emax_l|apply emax_r]]|eapply ele_trans; [apply emax_r|apply emax_r]].
        + apply emax_lub; [eapply ele_trans; [apply emax_l|apply emax_l]|]. apply emax_lub; [eapply ele_trans; [apply emax_r|apply emax_l]|apply emax_r]. }
    rewrite G by auto. destruct (pdir q); reflexivity.
Qed.

(** The substituted specification *)
Lemma subst_exp ps : Forall (fun p => wt (snd p) = true /\ ty_of (snd p) = ity (fst p)) ps -> forall e, is_exp e -> is_exp (b_subst e ps).
Proof.
  induction 1 as [|p ps [H1 H2] Hps IH]; intros e He; auto. apply IH. apply wte_subst; auto.
Qed.
Lemma subst_state I ps : forall s, env_ok s -> interp_ok I -> Forall (fun p => wt (snd p) = true /\ ty_of (snd p) = ity (fst p)) ps ->
  exists s', env_ok s' /\ forall e, ev I (b_subst e ps) s = ev I e s'.
Proof.
  intros s Hs HI H. revert s Hs. induction ps as [|p ps IH] using rev_ind; intros s Hs; [exists s; auto|].
  apply Forall_app in H as [H1 H2]. inversion H2 as [|? ? [P1 P2] _]; subst.
  destruct (IH H1 (upd s (fst p) (eval I (snd p) s))) as (s' & O & E). { apply upd_ok; auto. rewrite <- P2. now apply eval_ty. }
  exists s'. split; auto. intros e. unfold b_subst. rewrite fold_left_app. cbn [fold_left]. rewrite ev_subst. apply E.
Qed.
Lemma subst_okv T ps : Forall (fun p => is_var T (fst p) /\ okv T (snd p)) ps -> forall e, okv T e -> okv T (b_subst e ps).
Proof. induction 1 as [|p ps [H1 H2] Hps IH]; intros e He; auto. apply IH. exact (subst_vars (is_var T) _ _ _ H1 H2 He). Qed.
Lemma fold_spec_okv T q l : Forall (okv T) l -> okv T (fold_spec q l).
Proof.
  intros H. unfold fold_spec. destruct H as [|e l He Hl]; [destruct (pdir q); intros x []|].
  revert e He. induction Hl as [|x l Hx Hl IH]; intros e He; cbn [fold_left]; auto. apply IH. exact (bin_vars (is_var T) _ _ _ _ He Hx).
Qed.

(** The callee's preconditions with the arguments of the call *)
Definition pre_of (I : interp) (q : proc) (args : list expr) : exp := fun s =>
  all_of (pdir q) (map (fun e => ev I (subst_all e (combine (pins q) args)) s) (requires q)).

Theorem explain_call sp xs t f args q p st e st' variant isd k : C f = Some DProc -> procs f = Some q ->
  Forall is_exp (requires q) -> Forall2 (fun x a => wt a = true /\ ty_of a = ity x) (pins q) args ->
  (forall x, In x (pins q ++ flat_map ids (requires q) ++ flat_map ids args) -> is_var (x_tcx st) x) ->
  xgen C procs orc qs (XAtom sp (SAssign xs (ECall t f args))) p st = (Ok e, st') -> Forall foldable (x_folds st') ->
  forall I s, interp_ok I -> env_ok s -> ev I e s = pre_of I q args s /\
    forall T b T' X, encode_assign procs variant T xs (ECall t f args) = Ok (Some (b, T')) -> below (pdir q) (wp_block I isd k b X s) (ev I e s).
Proof.
  intros HC HP Hr Ha Hd H Hf I s HI Hs.
  assert (Hps : Forall (fun p => wt (snd p) = true /\ ty_of (snd p) = ity (fst p)) (combine (pins q) args)).
  { clear - Ha. induction Ha; cbn [combine]; constructor; auto. }
  assert (Hpv : Forall (fun p => is_var (x_tcx st) (fst p) /\ okv (x_tcx st) (snd p)) (combine (pins q) args)).
  { apply Forall_forall. intros [x a] Hxa. cbn [fst snd]. split.
    - apply Hd, in_or_app. left. eapply in_combine_l; eauto.
    - intros y Hy. apply Hd, in_or_app. right. apply in_or_app. right. apply in_flat_map. exists a. split; auto. eapply in_combine_r; eauto. }
  cbn [xgen xatom] in H. unfold xassign in H. rewrite HC, HP in H.
  assert (V : ev I e s = pre_of I q args s).
  { eassert (G : ExplainProofs.good True _ st (explain_proc_call q args) (fun _ X => X) [sp] _).
    { apply (good_subst orc qs HO True sp (explain_proc_call q args) st (explain_proc_call q args) (fun _ X => X)).
      - unfold explain_proc_call. apply subst_exp; auto. now apply fold_spec_exp.
      - unfold explain_proc_call. apply subst_okv; auto. apply fold_spec_okv. apply Forall_forall. intros r Hr1 x Hx. apply Hd, in_or_app. right.
        apply in_or_app. left. apply in_flat_map. eauto.
      - auto. }
    destruct (G _ _ H Hf) as [G1 _]. destruct (G1 e eq_refl) as (_ & _ & _ & _ & G5 & _).
    rewrite (G5 I (ev I (explain_proc_call q args)) HI ltac:(intros ? ?; reflexivity) s Hs).
    unfold explain_proc_call. destruct (subst_state I _ s Hs HI Hps) as (s' & Hs' & E). rewrite E, fold_spec_value by auto. unfold pre_of. f_equal.
    apply map_ext. intros r. symmetry. apply E. }
  split; auto. intros T b T' X HE. unfold encode_assign in HE. rewrite HP in HE. apply rbind_ok in HE as [vars [_ HE]]. apply rbind_ok in HE as [[q0 T1] [_ HE]].
  apply rbind_ok in HE as [lhs [_ HE]]. injection HE as <- _. rewrite wp_block_app.
  rewrite (wp_asserts I isd k (pdir q) (fun e => subst_all e (combine (pins q) args)) wrap_with_error_message) by reflexivity. rewrite V. unfold pre_of.
  destruct (pdir q); cbn [below meet]; [apply emin_l|apply emax_l].
Qed.
End Call.

(** * Loops *)
Theorem explain_invariant C procs orc qs sp inv args w c spb b p st e st' : C "invariant"%string <> Some DSlicingAnn ->
  xgen C procs orc qs (XAnn sp "invariant" (inv :: args) (XWhile w c spb b)) p st = (Ok e, st') ->
  e = inv /\ forall I isd k d n body X s, below d (wp_block I isd k (transform_k_induction c body d n inv) X s) (ev I e s).
Proof.
  intros HC H. assert (E : e = inv).
  { assert (G : forall (m : X unit), (let! e := (let! _ := m in xret inv) in let! _ := add_expr sp e false in xret e) st = (Ok e, st') -> e = inv).
    { intros m K. unfold xbind, xret in K. destruct (m st) as [[] st1]; try discriminate. destruct (add_expr sp inv false st1) as [[] st2]; try discriminate. congruence. }
    cbn [xgen String.eqb Ascii.eqb Bool.eqb] in H. destruct (C "invariant"%string) as [[]|]; try congruence; try (apply G in H; exact H).
    discriminate. }
  split; auto. subst e. intros. unfold transform_k_induction. cbn [app encode_loop_spec]. unfold wp_block. cbn [fold_right wp wrap_error].
  destruct d; cbn [below]; [apply emin_l|apply emax_l].
Qed.

Lemma vcgen_vars C T st : forall post e, vcgen C st post = Ok e -> every (declared T) st -> okv T post -> okv T e.
Proof.
  assert (HB : forall b, Forall (fun st => forall post e, vcgen C st post = Ok e -> every (declared T) st -> okv T post -> okv T e) b ->
    forall post e, vcgen_block C b post = Ok e -> All (every (declared T)) b -> okv T post -> okv T e).
  { induction 1 as [|s b Hs Hb IH]; intros post e H D Hp; cbn [vcgen_block] in H; [injection H as <-; auto|].
    apply rbind_ok in H as [p [E1 E2]]. cbn [All] in D. destruct D. eapply Hs; eauto. }
  assert (BV : forall t op a b, okv T a -> okv T b -> okv T (EBin t op a b)) by (intros t op a b Ha Hb; exact (bin_vars (is_var T) _ _ _ _ Ha Hb)).
  induction st using stmt_rect'; intros q0 r0 K D Hp; cbn [vcgen] in K; rewrite ?vcgen_block_eq in K; cbn [every] in D; destruct D as [D0 D];
    unfold declared in D0; cbn [node_ids] in D0;
    try (apply rbind_ok in K as [p1 [E1 K]]; apply rbind_ok in K as [p2 [E2 K]]).
  all: try (injection K as <-; assumption).
  all: try (injection K as <-; apply BV; [exact D0 | assumption]; fail).
  all: try (injection K as <-; apply BV; [apply (fun F D => HB _ F _ _ E1 D Hp) | apply (fun F D => HB _ F _ _ E2 D Hp)]; tauto).
  - eapply HB; eauto.
  - destruct i as [e|]; [|injection K as <-; assumption]. exact (generate_assign_vars C (is_var T) e [x] q0 r0 K D0 Hp).
  - exact (generate_assign_vars C (is_var T) e xs q0 r0 K D0 Hp).
  - injection K as <-. unfold b_quant. intros x Hx. cbn [ids] in Hx. apply in_app_or in Hx as [Hx|Hx]; auto. apply D0. rewrite map_map in Hx. cbn in Hx. now rewrite map_id in Hx.
  - injection K as <-. unfold vcgen_validate. destruct d; destruct q0; try exact Hp; destruct op; exact Hp.
  - injection K as <-. assert (O1 : okv T p1) by (apply (fun F D => HB _ F _ _ E1 D Hp); tauto). assert (O2 : okv T p2) by (apply (fun F D => HB _ F _ _ E2 D Hp); tauto).
    intros x Hx. cbn [ids] in Hx. apply in_app_or in Hx as [Hx|Hx]; [apply D0; exact Hx|]. apply in_app_or in Hx as [Hx|Hx]; auto.
  - discriminate.
  - destruct (C n) as [[]|]; try discriminate. eapply IHst; eauto.
Qed.

Section Unroll.
Variables (C : tcx) (procs : string -> option proc) (orc : nat -> oracle) (qs : expr -> nat).
Variables (isd isf A : string -> bool) (k : fixkind).
Hypothesis HT : tcx_ok C isd isf A.
Hypothesis HO : forall n, sound_oracle (orc n).

Lemma unroll_declared T c b n t d : All (every (declared T)) b -> okv T c -> okv T t -> All (every (declared T)) (encode_unroll c b n (hey_const t d)).
Proof.
  intros Hb Hc Ht. induction n as [|n IH]; cbn [encode_unroll All].
  - cbn [hey_const All every]. split; [split; [exact Ht|exact Logic.I]|]. split; [|exact Logic.I]. split; [|exact Logic.I]. destruct d; intros x [].
  - split; [|exact Logic.I]. cbn [encode_iter every]. split; [exact Hc|]. split; [|exact Logic.I]. apply All_app. auto.
Qed.

(** The value shown is that of the unrolled loop. *)
Theorem explain_unroll sp tn n t w c spb b p st e st' : C "unroll"%string <> Some DSlicingAnn ->
  All (wts isd isf) (map erase b) -> All (every not_while) (map erase b) -> vguard_block (map erase b) -> All (every (anns_in A)) (map erase b) ->
  All (every (fun s => forall x, In x (node_ids s) -> is_var (x_tcx st) x)) (map erase b) -> Forall spanned b -> send spb <> 0 ->
  is_guard c -> is_exp t -> is_exp p -> (forall x, In x (ids c ++ ids t ++ ids p) -> is_var (x_tcx st) x) -> All (every not_negate) (map erase b) ->
  NoDup (sp :: flat_map positions b ++ brace spb :: map en_span (x_entries st)) ->
  xgen C procs orc qs (XAnn sp "unroll" [ELit tn (LUInt n); t] (XWhile w c spb b)) p st = (Ok e, st') ->
  Forall foldable (x_folds st') -> Forall fits (x_folds st') ->
  exists body, unroll_transform [ELit tn (LUInt n); t] c (map erase b) (x_dir st) = Ok body /\
    forall I s, interp_ok I -> env_ok s -> ev I e s = wp_block I isd k body (ev I p) s.
Proof.
  intros HC W1 W2 W3 W4 W5 HS Hz Hc Ht Hp Hd HN ND H Hf Hfit.
  assert (Vc : okv (x_tcx st) c) by (intros x Hx; apply Hd, in_or_app; auto).
  assert (Vt : okv (x_tcx st) t) by (intros x Hx; apply Hd, in_or_app; right; apply in_or_app; auto).
  assert (Vp : okv (x_tcx st) p) by (intros x Hx; apply Hd, in_or_app; right; apply in_or_app; auto).
  assert (U : forall m, exists e0, vcgen_unroll C (x_dir st) c (map erase b) p m t = Ok e0 /\ is_exp e0 /\ okv (x_tcx st) e0 /\
    forall I s, interp_ok I -> env_ok s -> ev I e0 s = wp_block I isd k (encode_unroll c (map erase b) m (hey_const t (x_dir st))) (ev I p) s).
  { intros m. set (u := encode_unroll c (map erase b) m (hey_const t (x_dir st))).
    assert (G : LoopVc.good isd isf A u). { apply good_unroll; auto. split; auto. }
    destruct G as (G1 & G2 & G3 & G4).
    assert (V : forall I, interp_ok I -> vc_correct C I isd k (SSeq u)).
    { intros I HI. apply (vcgen_correct C I isd isf A k HT HI); cbn [wts every vguard not_while anns_in]; rewrite ?vguard_block_eq; auto. }
    destruct (V SimplifyRefuted.I5 SimplifyRefuted.I5_ok p Hp) as (e0 & E0 & W0 & _). exists e0.
    unfold vcgen_unroll. fold u. pose proof E0 as E0'. cbn [vcgen] in E0'. rewrite vcgen_block_eq in E0'. split; auto. split; auto. split.
    - apply (vcgen_vars C (x_tcx st) (SSeq u) p e0 E0); auto. cbn [every]. split; [intros x []|]. apply unroll_declared; auto.
    - intros I s HI Hs. destruct (V I HI p Hp) as (e1 & E1 & _ & V1). rewrite E0 in E1. injection E1 as <-. apply (V1 (ev I p)); auto. }
  assert (TR : exists body, unroll_transform [ELit tn (LUInt n); t] c (map erase b) (x_dir st) = Ok body /\ body = encode_unroll c (map erase b) (N.to_nat n) (hey_const t (x_dir st)) /\ (n < 2 ^ 128)%N).
  { destruct (n <? 2 ^ 128)%N eqn:En.
    - eexists. cbn [unroll_transform lit_u128]. rewrite En. cbn [rbind]. split; [reflexivity|]. split; auto. now apply N.ltb_lt.
    - exfalso. cbn [xgen String.eqb Ascii.eqb Bool.eqb lit_u128] in H. rewrite En in H. destruct (C "unroll"%string) as [[]|]; try congruence; discriminate H. }
  destruct TR as (body & TR & -> & Hn). eexists. split; [exact TR|].
  destruct (U (N.to_nat n)) as (eN & EN & WN & VN & SN).
  assert (K : forall m : X unit, (forall r1 st1, m st = (r1, st1) -> (exists l, x_folds st1 = l ++ x_folds st) /\ (Forall foldable (x_folds st1) -> Forall fits (x_folds st1) -> extends (x_tcx st) (x_tcx st1))) ->
     (let! e := (let! _ := m in let! e := xlift (vcgen_unroll C (x_dir st) c (map erase b) p (N.to_nat n) t) in explain_subst orc qs sp e) in let! _ := add_expr sp e false in xret e) st = (Ok e, st') ->
     forall I s, interp_ok I -> env_ok s -> ev I e s = ev I eN s).
  { intros m Hm Q I s HI Hs. unfold xbind at 2 in Q. destruct (m st) as [r1 st1] eqn:Em. destruct (Hm _ _ eq_refl) as [[l G1] G2]. clear Hm.
    rewrite EN in Q. unfold xbind at 1 in Q. rewrite Em in Q. destruct r1 as [[]| |]; try discriminate.
    change ((let! e := explain_subst orc qs sp eN in let! _ := add_expr sp e false in xret e) st1 = (Ok e, st')) in Q.
    assert (GR : exists l, x_folds st' = l ++ x_folds st1). { eapply (grows_done sp _ (grows_subst orc qs sp eN)); exact Q. }
    destruct GR as [l1 GR].
    assert (F1 : Forall foldable (x_folds st1)) by (rewrite GR in Hf; now apply fits_suffix in Hf).
    assert (F2 : Forall fits (x_folds st1)) by (rewrite GR in Hfit; now apply fits_suffix in Hfit).
    assert (G : ExplainProofs.good True (let! e := explain_subst orc qs sp eN in let! _ := add_expr sp e false in xret e) st1 eN (fun _ X => X) [sp] (fun I X => [mknote sp (x_block st1) X])).
    { apply (good_subst orc qs HO True sp eN st1 eN (fun _ X => X)); auto. eapply okv_extends; eauto. }
    destruct (G _ _ Q Hf) as [G3 _]. destruct (G3 e eq_refl) as (_ & _ & _ & _ & G5 & _). apply (G5 I (ev I eN) HI); auto. intros ? ?; reflexivity. }
  assert (M : exists m : X unit, (forall r1 st1, m st = (r1, st1) -> (exists l, x_folds st1 = l ++ x_folds st) /\ (Forall foldable (x_folds st1) -> Forall fits (x_folds st1) -> extends (x_tcx st) (x_tcx st1))) /\
     (let! e := (let! _ := m in let! e := xlift (vcgen_unroll C (x_dir st) c (map erase b) p (N.to_nat n) t) in explain_subst orc qs sp e) in let! _ := add_expr sp e false in xret e) st = (Ok e, st')).
  { assert (HH : (let! e := (let! _ := match N.to_nat n with
                                       | O => xret tt
                                       | S k' => let! prev := xlift (vcgen_unroll C (x_dir st) c (map erase b) p k' t) in
                                                 xignore (in_block spb prev (xgen_stmts C procs orc qs b prev))
                                       end in let! e := xlift (vcgen_unroll C (x_dir st) c (map erase b) p (N.to_nat n) t) in explain_subst orc qs sp e) in let! _ := add_expr sp e false in xret e) st = (Ok e, st')).
    { cbn [xgen String.eqb Ascii.eqb Bool.eqb lit_u128] in H. rewrite (proj2 (N.ltb_lt _ _) Hn) in H.
      destruct (C "unroll"%string) as [[]|]; try congruence; try exact H. discriminate H. }
    eexists. split; [|exact HH]. clear HH H. intros r1 st1 Q. destruct (N.to_nat n) as [|k'].
    - injection Q as <- <-. split; [now exists []|]. intros; apply extends_refl.
    - destruct (U k') as (eK & EK & WK & VK & SK). rewrite EK in Q. unfold xbind, xlift in Q. unfold xignore in Q.
      destruct (in_block spb eK (xgen_stmts C procs orc qs b eK) st) as [r2 st2] eqn:E2.
      assert (st2 = st1) by (destruct r2; congruence). subst st2.
      assert (GB : grows (in_block spb eK (xgen_stmts C procs orc qs b eK))). { apply grows_block, grows_stmts. apply Forall_forall. intros. apply grows_gen. }
      split; [eapply GB; exact E2|]. intros F1 F2.
      pose proof (good_block C procs orc qs isd isf A k HT spb b st eK) as G.
      assert (G' : ExplainProofs.good (Forall no_neg (map erase b)) (in_block spb eK (xgen_stmts C procs orc qs b eK)) st eK (fun I => wp_block I isd k (map erase b))
         (flat_map positions b ++ [brace spb]) (fun I X => notes_stmts I isd k (Some spb) b X ++ [mknote (brace spb) (Some spb) X])).
      { apply G; auto. - apply Forall_forall. intros. now apply explained_good. - apply core_forall; auto. }
      clear G. destruct (G' _ _ E2 F1) as [G1 G2]. destruct G2 as [e2 ->]; auto.
      + rewrite <- app_assoc. apply NoDup_cons_iff in ND. apply ND.
      + now apply All_Forall.
      + destruct (G1 e2 eq_refl) as (_ & _ & G3 & _). exact G3. }
  destruct M as (m & M1 & M2). intros I s HI Hs. rewrite (K m M1 M2 I s HI Hs). now apply SN.
Qed.
End Unroll.
