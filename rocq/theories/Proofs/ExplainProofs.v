(** Explained verification conditions of core programs have the value of the program, and the explanation is right. *)
From Coq Require Import Bool List String NArith QArith Lia.
From Verif.Model Require Import Syntax Builder Lits TyCtx AstUtil Dist VcGen Subst Unfolder Constfold Negations ProofRules Procs Explain.
From Verif.Spec Require Import Eur Sem Wp Folding Exprs Reach Linear Explained.
From Verif.Proofs Require Import EurLemmas SemLemmas WpLemmas TyCtxProofs SubstProofs DistProofs VcGenProofs SimLemmas UnfolderProofs ConstfoldProofs PipelineProofs ExplainBase.
Import ListNotations.
Local Open Scope nat_scope.

Lemma span_eqb_eq a b : span_eqb a b = true <-> a = b.
Proof.
  unfold span_eqb. rewrite !andb_true_iff, !PeanoNat.Nat.eqb_eq. destruct a, b; cbn. split.
  - intros [[[-> ->] ->] ->]; reflexivity.
  - intros H; injection H as -> -> -> ->; auto.
Qed.
Lemma ospan_eqb_refl b : ospan_eqb b b = true.
Proof. destruct b; cbn; auto. now apply span_eqb_eq. Qed.

Ltac xinj H := cbn beta iota in H; unfold xret, xlift in H; injection H as <- <-.

Definition spans (st : xstate) : list span := map en_span (x_entries st).
Definition okv (T : tyctx) (e : expr) : Prop := forall x, In x (ids e) -> is_var T x.
Lemma okv_extends T T' e : extends T T' -> okv T e -> okv T' e.
Proof. intros [H _] H1 x Hx. auto. Qed.

(** What [add_expr] can do *)
Lemma add_expr_cases sp e self st r st' : add_expr sp e self st = (r, st') ->
  exists en, st' = set_entries en st /\
    (r <> Ok tt -> In sp (spans st)) /\
    (~ In sp (spans st) -> r = Ok tt /\ en = mkentry sp self (x_block st) [e] :: x_entries st) /\
    (forall self' l rest, x_entries st = mkentry sp self' (x_block st) l :: rest -> r = Ok tt /\ en = mkentry sp self' (x_block st) (l ++ [e]) :: rest).
Proof.
  unfold add_expr, spans. destruct st as [d es blk T fs]; cbn. destruct es as [|l rest].
  - intros H; injection H as <- <-. eexists; repeat split; try congruence; discriminate.
  - destruct (span_eqb (en_span l) sp) eqn:E.
    + apply span_eqb_eq in E. destruct (ospan_eqb (en_block l) blk) eqn:F; intros H; injection H as <- <-.
      * eexists; split; [reflexivity|]. split; [congruence|]. split; [intros K; destruct K; now left|].
        intros s0 l0 r0 K. injection K as K1 K2. subst l rest. split; reflexivity.
      * exists (l :: rest). split; [reflexivity|]. split; [intros; now left|]. split; [intros K; destruct K; now left|].
        intros s0 l0 r0 K. injection K as K1 K2. subst l rest. cbn in F. rewrite ospan_eqb_refl in F. discriminate.
    + intros H; injection H as <- <-. eexists; split; [reflexivity|]. split; [congruence|]. split; auto.
      intros s0 l0 r0 K. injection K as -> ->. cbn in E. rewrite (proj2 (span_eqb_eq sp sp) eq_refl) in E. discriminate.
Qed.

Section Good.
Variables (C : tcx) (procs : string -> option proc) (orc : nat -> oracle) (qs : expr -> nat).
Variables (isd isf A : string -> bool) (k : fixkind).
Hypothesis HT : tcx_ok C isd isf A.
Hypothesis HO : forall n, sound_oracle (orc n).

(** [m], started in [st], computes from [p] the value [val] and adds entries for [nts] with spans [pos]. *)
Definition same I (p : expr) (X : exp) : Prop := forall s, env_ok s -> ev I p s = X s.
Definition good (N : Prop) (m : X expr) (st : xstate) (p : expr) (val : interp -> exp -> exp) (pos : list span) (nts : interp -> exp -> list note) : Prop :=
  forall r st', m st = (r, st') -> Forall foldable (x_folds st') ->
  (forall e, r = Ok e -> is_exp e /\ okv (x_tcx st') e /\ extends (x_tcx st) (x_tcx st') /\ x_block st' = x_block st /\
    (forall I X, interp_ok I -> same I p X -> same I e (val I X)) /\
    (NoDup (pos ++ spans st) -> exists new, x_entries st' = new ++ x_entries st /\ map en_span new = pos /\
       forall I X, interp_ok I -> same I p X -> Forall2 (explains I) new (nts I X))) /\
  (NoDup (pos ++ spans st) -> N -> Forall fits (x_folds st') -> exists e, r = Ok e).

Lemma good_lift (N : Prop) f st p val : (forall e, f = Ok e -> is_exp e /\ okv (x_tcx st) e /\
    (forall I X, interp_ok I -> same I p X -> same I e (val I X))) -> (N -> exists e, f = Ok e) -> good N (xlift f) st p val [] (fun _ _ => []).
Proof.
  intros H1 H2 r st' H Hf. xinj H. split; [|auto]. intros e E. destruct (H1 e E) as (A1 & A2 & A3).
  split; auto. split; auto. split; [apply extends_refl|]. split; auto. split; auto. intros _. exists []. cbn. split; auto.
Qed.

Lemma good_done N m st p val pos nts sp : good N m st p val pos nts ->
  good N (let! e := m in let! _ := add_expr sp e false in xret e) st p val (sp :: pos)
    (fun I X => mknote sp (x_block st) (val I X) :: nts I X).
Proof.
  intros Hm r st' H Hf. unfold xbind in H. destruct (m st) as [r1 st1] eqn:E1. specialize (Hm _ _ E1).
  assert (W : forall m, r1 = Err m \/ r1 = Panic m -> (forall e, r1 = Ok e -> False)) by (intros m0 [->| ->]; discriminate).
  destruct r1 as [e1|m1|m1].
  2,3: xinj H; destruct (Hm Hf) as [_ M2]; split; [discriminate|]; intros D Hn Hfit;
       cbn [app] in D; apply NoDup_cons_iff in D as [_ D]; destruct (M2 D Hn Hfit); discriminate.
  destruct (add_expr sp e1 false st1) as [r2 st2] eqn:E2. destruct (add_expr_cases _ _ _ _ _ _ E2) as (en & -> & B1 & B2 & _).
  assert (Hf1 : Forall foldable (x_folds st1)) by (destruct r2; xinj H; exact Hf). destruct (Hm Hf1) as [M1 M2].
  destruct (M1 e1 eq_refl) as (A1 & A2 & A3 & A4 & A5 & A6).
  assert (NI : NoDup ((sp :: pos) ++ spans st) -> ~ In sp (spans st1)).
  { cbn [app]. intros D. apply NoDup_cons_iff in D as [D1 D2]. destruct (A6 D2) as (new & F1 & F2 & _).
    unfold spans. rewrite F1, map_app, F2. exact D1. }
  split.
  - intros e E. subst r. destruct r2; cbn beta iota in H; [|discriminate|discriminate]. unfold xret in H. injection H as <- <-.
    split; auto. split; auto. split; auto. split; auto. split; auto.
    intros D. destruct (B2 (NI D)) as [_ ->]. cbn [app] in D. apply NoDup_cons_iff in D as [D1 D2]. destruct (A6 D2) as (new & F1 & F2 & F3).
    exists (mkentry sp false (x_block st1) [e1] :: new). cbn. split; [now rewrite F1|]. split; [now rewrite F2|]. intros I X HI HX.
    constructor; auto. repeat split; cbn; auto; [discriminate|]. constructor; [|constructor]. now apply A5.
  - intros D Hn Hfit. destruct (B2 (NI D)) as [-> _]. xinj H. eauto.
Qed.

(** * Assignments *)
Lemma fits_suffix (P : expr -> Prop) l l' : Forall P (l ++ l') -> Forall P l'.
Proof. intros H. apply Forall_app in H. tauto. Qed.

Lemma good_subst (N : Prop) sp e st p val : is_exp e -> okv (x_tcx st) e -> (forall I X, interp_ok I -> same I p X -> same I e (val I X)) ->
  good N (let! e' := explain_subst orc qs sp e in let! _ := add_expr sp e' false in xret e') st p val [sp]
    (fun I X => [mknote sp (x_block st) (val I X)]).
Proof.
  intros We Ve Se r st' H Hf. unfold explain_subst in H. unfold xbind at 1 2 in H.
  destruct (add_expr sp e false st) as [r1 st1] eqn:E1. destruct (add_expr_cases _ _ _ _ _ _ E1) as (en1 & -> & B1 & B2 & _).
  assert (NI : NoDup ([sp] ++ spans st) -> ~ In sp (spans st)). { intros D. cbn in D. apply NoDup_cons_iff in D. tauto. }
  destruct r1 as [[]|m1|m1]; cycle 1.
  1,2: xinj H; split; [discriminate|]; intros D; destruct (B2 (NI D)); discriminate.
  cbn [x_tcx set_entries] in H. destruct We as [We Ty].
  destruct (apply_subst_correct qs (x_tcx st) e We Ve) as (e1 & T1 & S1 & _ & W1 & Ty1 & V1). rewrite S1 in H.
  destruct (visit_vars qs e _ _ _ _ S1 Ve ltac:(intros x r0 L; discriminate)) as [X1 O1].
  unfold xbind at 1 in H.
  destruct (add_expr sp e1 false _) as [r2 st2] eqn:E2. destruct (add_expr_cases _ _ _ _ _ _ E2) as (en2 & -> & C1 & _ & C2).
  cbn [x_entries x_block set_tcx set_entries] in *.
  destruct r2 as [[]|m1|m1]; cycle 1.
  1,2: xinj H; split; [discriminate|]; intros D; destruct (B2 (NI D)) as [_ ->]; destruct (C2 _ _ _ eq_refl); discriminate.
  cbn [x_tcx x_folds set_tcx set_entries] in H.
  destruct (unfold_expr_correct (orc (List.length (x_folds st))) qs T1 e1 (HO _) W1 O1) as (e2 & T2 & n2 & S2 & _ & W2 & Ty2 & V2). rewrite S2 in H.
  destruct (unfold_vars _ qs e1 _ _ _ _ _ _ _ S2 O1 ltac:(intros x r0 L; discriminate)) as [X2 O2].
  assert (VE : forall I X, interp_ok I -> same I p X -> same I e (val I X) /\ same I e1 (val I X) /\ same I e2 (val I X)).
  { intros I X HI HX. pose proof (Se I X HI HX) as K. split; auto. split; intros s Hs; rewrite <- (K s Hs); unfold ev; rewrite ?V2, ?V1 by auto; reflexivity. }
  destruct (constfold e2) as [e3|m3|m3] eqn:S3; cycle 1.
  1,2: xinj H; split; [discriminate|]; intros D Hn Hfit; cbn in Hf, Hfit; inversion Hf; inversion Hfit; subst;
    destruct (constfold_total e2) as (e3 & S4 & _); auto; rewrite S4 in S3; discriminate.
  cbn beta iota in H. unfold xbind in H.
  match type of H with (match add_expr sp e3 false ?s with _ => _ end) = _ => set (sF := s) in H end.
  destruct (add_expr sp e3 false sF) as [r4 st4] eqn:E4. destruct (add_expr_cases _ _ _ _ _ _ E4) as (en4 & -> & D1 & _ & D2).
  assert (HF2 : foldable e2). { assert (K : Forall foldable (x_folds sF)) by (destruct r4; xinj H; exact Hf). inversion K; auto. }
  destruct (constfold_sim e2 e3 W2 HF2 S3) as (W3 & Ty3 & V3).
  split.
  - intros e' E. subst r. destruct r4 as [[]| |]; cbn beta iota in H; try discriminate. unfold xret in H. injection H as <- <-.
    assert (We3 : is_exp e3) by (split; auto; congruence).
    split; auto. split. { cbn. intros x Hx. apply O2. eapply constfold_ids; eauto. }
    split. { cbn. eapply extends_trans; eauto. } split; [reflexivity|].
    assert (VE3 : forall I X, interp_ok I -> same I p X -> same I e3 (val I X)).
    { intros I X HI HX s Hs. destruct (VE I X HI HX) as (_ & _ & K). rewrite <- (K s Hs). unfold ev. now rewrite V3. }
    split; auto. intros D. destruct (B2 (NI D)) as [_ ->]. destruct (C2 _ _ _ eq_refl) as [_ ->].
    subst sF. cbn [x_entries set_tcx add_fold set_entries x_block] in D2. destruct (D2 _ _ _ eq_refl) as [_ ->].
    eexists [_]. cbn. split; [reflexivity|]. split; [reflexivity|]. intros I X HI HX. destruct (VE I X HI HX) as (K1 & K2 & K3).
    constructor; [|constructor]. repeat split; cbn; auto; [discriminate|]. repeat constructor; auto. now apply VE3.
  - intros D Hn Hfit. destruct (B2 (NI D)) as [_ ->]. destruct (C2 _ _ _ eq_refl) as [_ ->].
    subst sF. cbn [x_entries set_tcx add_fold set_entries x_block] in D2. destruct (D2 _ _ _ eq_refl) as [-> _].
    xinj H. eauto.
Qed.

Lemma assign_not_proc x e : assign_ok isd isf x e -> forall f args t, e = ECall t f args -> C f <> Some DProc.
Proof.
  intros Ha f args t ->. unfold assign_ok in Ha. destruct HT as (T1 & T2 & _). destruct (isd f) eqn:Ef.
  - rewrite (T1 f Ef). discriminate.
  - destruct Ha as [Hf _]. destruct (T2 f Ef Hf) as [-> | ->]; discriminate.
Qed.

Lemma good_assign N sp x e st p : assign_ok isd isf x e -> is_exp p -> okv (x_tcx st) p -> (forall y, In y ([x] ++ ids e) -> is_var (x_tcx st) y) ->
  good N (let! e' := xassign C procs orc qs sp e [x] p in let! _ := add_expr sp e' false in xret e') st p
    (fun I X => assign_sem I isd [x] e X) [sp] (fun I X => [mknote sp (x_block st) (assign_sem I isd [x] e X)]).
Proof.
  intros Ha Hp Hv Hx.
  destruct (generate_assign_correct C SimplifyRefuted.I5 isd isf A x e p HT SimplifyRefuted.I5_ok Ha Hp) as (e1 & E1 & W1 & _).
  assert (G : good N (let! e' := (let! e2 := xlift (generate_assign C e [x] p) in explain_subst orc qs sp e2) in let! _ := add_expr sp e' false in xret e') st p
    (fun I X => assign_sem I isd [x] e X) [sp] (fun I X => [mknote sp (x_block st) (assign_sem I isd [x] e X)])).
  { rewrite E1. apply (good_subst N sp e1 st p (fun I X => assign_sem I isd [x] e X)); auto.
    - intros y Hy. eapply (generate_assign_vars C (is_var (x_tcx st))); eauto.
    - intros I X HI HX s Hs. destruct (generate_assign_correct C I isd isf A x e p HT HI Ha Hp) as (e2 & E2 & _ & V2).
      rewrite E1 in E2. injection E2 as <-. now apply V2. }
  unfold xassign. destruct e; try exact G. pose proof (assign_not_proc x _ Ha f args t eq_refl) as NP.
  destruct (C f) as [[]|]; try exact G. now destruct NP.
Qed.

(** * Statements *)
Definition declared (T : tyctx) (st : stmt) : Prop := forall x, In x (node_ids st) -> is_var T x.
Definition core (T : tyctx) (s : stmt) : Prop := wts isd isf s /\ every not_while s /\ every (anns_in A) s /\ every (declared T) s.
Definition no_neg (s : stmt) : Prop := every not_negate s.

Definition sgood (s : xstmt) : Prop := forall st p, core (x_tcx st) (erase s) -> vguard (erase s) -> spanned s -> is_exp p -> okv (x_tcx st) p ->
  good (no_neg (erase s)) (xgen C procs orc qs s p) st p (fun I => wp I isd k (erase s)) (positions s) (fun I => notes I isd k (x_block st) s).

Lemma notes_stmts_eq I b : forall blk X0, (fix stmts (blk : option span) (b : list xstmt) (X0 : exp) : list note :=
    match b with
    | [] => []
    | s :: b' => notes I isd k blk s (wp_block I isd k (map erase b') X0) ++ stmts blk b' X0
    end) blk b X0 = notes_stmts I isd k blk b X0.
Proof. induction b as [|s b IH]; intros blk X0; cbn [notes_stmts]; auto. now rewrite IH. Qed.

Lemma good_atom sp s : sgood (XAtom sp s).
Proof.
  intros st p (Hw & Hnw & Ha & Hd) Hg Hs Hp Hv. cbn [erase] in *. cbn [spanned] in Hs. cbn [xgen].
  assert (L : forall N, match s with SAssign _ _ | SVar _ (Some _) | SNegate _ | SValidate _ => False | _ => True end ->
    good N (let! e := xlift (vcgen C s p) in let! _ := add_expr sp e false in xret e) st p (fun I => wp I isd k s) [sp]
      (fun I X => [mknote sp (x_block st) (wp I isd k s X)])).
  { intros N HN. apply (good_done N _ st p (fun I => wp I isd k s) [] (fun _ _ => [])).
    destruct (vcgen_correct C SimplifyRefuted.I5 isd isf A k HT SimplifyRefuted.I5_ok s Hw Hnw Hg Ha p Hp) as (e & E & We & _).
    apply good_lift; eauto. intros e' E'. rewrite E in E'. injection E' as <-. split; auto. split.
    - destruct s; try discriminate; try contradiction; cbn [vcgen] in E; try (destruct init; try contradiction); injection E as <-; auto;
        try (cbn [every] in Hd; destruct Hd as [Hd _]; unfold declared in Hd; cbn [node_ids] in Hd; exact (bin_vars (is_var (x_tcx st)) _ _ _ _ Hd Hv)).
      cbn [every] in Hd; destruct Hd as [Hd _]; unfold declared in Hd; cbn [node_ids] in Hd. unfold b_quant. intros x Hx. cbn [ids] in Hx.
      apply in_app_or in Hx as [Hx|Hx]; auto. apply Hd. rewrite map_map in Hx. cbn in Hx. now rewrite map_id in Hx.
    - intros I X HI HX s0 Hs0. destruct (vcgen_correct C I isd isf A k HT HI s Hw Hnw Hg Ha p Hp) as (e2 & E2 & _ & V2).
      rewrite E in E2. injection E2 as <-. now apply V2. }
  assert (Hd0 : forall x, In x (node_ids s) -> is_var (x_tcx st) x) by (destruct s; cbn [every] in Hd; apply Hd).
  destruct s; cbn [atomic] in Hs; try discriminate; cbn [xatom]; try (apply L; exact Logic.I).
  - destruct init as [e|]; [|apply L; exact Logic.I]. cbn [wts] in Hw. apply good_assign; auto.
  - cbn [wts] in Hw. destruct xs as [|x [|]]; try contradiction. apply good_assign; auto.
  - apply (good_done _ _ st p (fun I => wp I isd k (SNegate d)) [] (fun _ _ => [])).
    intros r st' H Hf. split.
    + intros e E. subst r. destruct (negation_backwards (x_dir st) (SNegate d)) as [d'| |]; try discriminate. injection H as <- <-.
      destruct (vcgen_correct C SimplifyRefuted.I5 isd isf A k HT SimplifyRefuted.I5_ok _ Hw Hnw Hg Ha p Hp) as (e1 & E1 & We & _).
      cbn [vcgen] in E1. injection E1 as <-. split; auto. split. { exact Hv. }
      split; [apply extends_refl|]. split; auto. split.
      * intros I X HI HX s0 Hs0. destruct (vcgen_correct C I isd isf A k HT HI _ Hw Hnw Hg Ha p Hp) as (e2 & E2 & _ & V2).
        cbn [vcgen] in E2. injection E2 as <-. now apply V2.
      * intros _. exists []. split; auto.
    + intros _ HN _. unfold no_neg in HN. cbn [every] in HN. destruct HN as [[] _].
  - destruct Hg.
Qed.

(** A sequence of statements *)
Definition bgood (b : list xstmt) : Prop := forall st p, Forall (core (x_tcx st)) (map erase b) -> vguard_block (map erase b) -> Forall spanned b -> is_exp p -> okv (x_tcx st) p ->
  good (Forall no_neg (map erase b)) (xgen_stmts C procs orc qs b p) st p (fun I => wp_block I isd k (map erase b)) (flat_map positions b)
    (fun I => notes_stmts I isd k (x_block st) b).

Lemma core_extends T T' s : extends T T' -> core T s -> core T' s.
Proof.
  intros [HE _] (A1 & A2 & A3 & A4). split; auto. split; auto. split; auto. clear A1 A2 A3.
  assert (HB : forall b, Forall (fun s => every (declared T) s -> every (declared T') s) b -> All (every (declared T)) b -> All (every (declared T')) b).
  { intros b Hb. rewrite !All_Forall, !Forall_forall in *. auto. }
  induction s using stmt_rect'; cbn [every] in *; destruct A4 as [D A4]; (split; [let y := fresh in let Hy := fresh in intros y Hy; apply HE, D, Hy|]); auto;
    destruct A4; split; auto.
Qed.

Lemma xassume_shape s : every (anns_in A) (erase s) -> forall d e, strip_ann (erase s) = SAssume d e -> spanned s -> forall p st q st', xgen C procs orc qs s p st = (Ok q, st') ->
  q = EBin TEUReal (match d with Down => OImpl | Up => OCoImpl end) e p.
Proof.
  induction s using xstmt_rect'; intros Ha d e0 E Hs p st q st' K; cbn [erase strip_ann] in E; try discriminate; try (destruct c; discriminate).
  - destruct s; cbn in E, Hs; try discriminate. injection E as -> ->. cbn [xgen xatom] in K. unfold xbind, xlift in K. cbn [vcgen] in K.
    destruct (add_expr _ _ _ _) as [[]]; try discriminate. unfold xret in K. congruence.
  - cbn [erase every anns_in] in Ha. destruct Ha as [Ha1 Ha]. destruct HT as (_ & _ & T3). cbn [xgen] in K. rewrite (T3 _ Ha1) in K. eapply IHs; eauto.
Qed.

Lemma NoDup_app_r {T} (a b : list T) : NoDup (a ++ b) -> NoDup b.
Proof. induction a; cbn; auto. intros H. apply NoDup_cons_iff in H. tauto. Qed.

Lemma good_stmts b : Forall sgood b -> bgood b.
Proof.
  induction 1 as [|s b Hs Hb IH]; intros st p HC HG HS Hp Hv; cbn [map vguard_block] in *; cbn [xgen_stmts].
  - apply (good_lift _ (Ok p) st p (fun I X => X)); eauto. intros e E. injection E as <-. auto.
  - inversion HC as [|? ? C1 C2]; inversion HS as [|? ? S1 S2]; subst. destruct HG as [HG1 HG2].
    intros r st' H Hf. unfold xbind in H. destruct (xgen_stmts C procs orc qs b p st) as [r1 st1] eqn:E1.
    pose proof (IH st p C2 HG2 S2 Hp Hv _ _ E1) as IH1.
    destruct r1 as [p1|m1|m1].
    2,3: xinj H; destruct (IH1 Hf) as [_ M2]; split; [discriminate|]; intros D Hn Hfit; inversion Hn; subst;
         cbn [flat_map] in D; rewrite <- app_assoc in D; apply NoDup_app_r in D; destruct (M2 D H2 Hfit); discriminate.
    assert (G : exists l, x_folds st' = l ++ x_folds st1) by (eapply grows_gen; exact H). destruct G as [l0 G].
    assert (Hf1 : Forall foldable (x_folds st1)) by (rewrite G in Hf; now apply fits_suffix in Hf).
    destruct (IH1 Hf1) as [M1 M2]. destruct (M1 p1 eq_refl) as (A1 & A2 & A3 & A4 & A5 & A6). clear IH1.
    assert (Hv0 : vguard (erase s) \/ exists d, erase s = SValidate d) by (destruct (erase s); eauto).
    destruct Hv0 as [Hvg|[d Hd]].
    + destruct (Hs st1 p1 (core_extends _ _ _ A3 C1) Hvg S1 A1 A2 _ _ H Hf) as [K1 K2]. split.
      * intros e E. destruct (K1 e E) as (B1 & B2 & B3 & B4 & B5 & B6). split; auto. split; auto. split; [eapply extends_trans; eauto|].
        split; [congruence|]. split.
        { intros I X HI HX. unfold wp_block. cbn [fold_right]. apply (B5 I _ HI). apply A5; auto. }
        intros D. cbn [flat_map] in D. rewrite <- app_assoc in D. destruct (A6 (NoDup_app_r _ _ D)) as (n1 & F1 & F2 & F3).
        destruct B6 as (n2 & G1 & G2 & G3). { unfold spans. rewrite F1, map_app, F2. exact D. }
        exists (n2 ++ n1). rewrite G1, F1, app_assoc. split; auto. cbn [flat_map]. rewrite map_app, G2, F2. split; auto.
        intros I X HI HX. cbn [notes_stmts]. apply Forall2_app; auto. rewrite <- A4. apply G3; auto.
      * intros D Hn Hfit. cbn [flat_map] in D. rewrite <- app_assoc in D. destruct (A6 (NoDup_app_r _ _ D)) as (n1 & F1 & F2 & F3). inversion Hn; subst.
        apply K2; auto. unfold spans. rewrite F1, map_app, F2. exact D.
    + destruct s as [sp s|sp b0|sp [] sp1 b1 sp2 b2| | |]; try discriminate. cbn [erase] in Hd. subst s. cbn [erase] in HG1.
      destruct b as [|s' b']; [destruct HG1|]. cbn [map opens_with_assume] in HG1. destruct (strip_ann (erase s')) eqn:Es; try contradiction. subst d0.
      cbn [xgen_stmts] in E1. unfold xbind in E1. destruct (xgen_stmts C procs orc qs b' p st) as [[p'| |] st0] eqn:E0; try discriminate.
      inversion C2; inversion S2; subst.
      pose proof (xassume_shape s' ltac:(apply (proj1 (conj (proj1 (proj2 (proj2 H2))) Logic.I))) d e Es ltac:(assumption) p' st0 p1 st1 E1) as Ep. subst p1.
      cbn [xgen xatom] in H. assert (RE : returns_early d (EBin TEUReal (match d with Down => OImpl | Up => OCoImpl end) e p') = true) by (destruct d; reflexivity).
      rewrite RE in H. unfold xlift in H. xinj H.
      apply wte_bin_inv in A1 as A1'; [|destruct d; reflexivity]. destruct A1' as [We Wp].
      split.
      * intros e1 E. split; [destruct d; injection E as <-; apply wte_bin; auto|]. split. { destruct d; injection E as <-; exact A2. }
        split; auto. split; auto. split.
        { intros I X HI HX s0 Hs0. pose proof (A5 I X HI HX s0 Hs0) as V. unfold wp_block in *. cbn [fold_right wp map erase] in *. rewrite <- V.
          destruct d; injection E as <-; rewrite !ev_bin by auto; cbn [eval_bin]; symmetry.
          - exact (compare_validate Down (ev I e s0) (ev I p' s0)).
          - exact (compare_validate Up (ev I e s0) (ev I p' s0)). }
        intros D. cbn [flat_map positions app] in D. exact (A6 D).
      * intros _ _ _. destruct d; cbn; eauto.
Qed.

(** A block *)
Lemma good_block sp b st p : Forall sgood b -> Forall (core (x_tcx st)) (map erase b) -> vguard_block (map erase b) -> Forall spanned b -> is_exp p -> okv (x_tcx st) p ->
  send sp <> 0 ->
  good (Forall no_neg (map erase b)) (in_block sp p (xgen_stmts C procs orc qs b p)) st p (fun I => wp_block I isd k (map erase b)) (flat_map positions b ++ [brace sp])
    (fun I X => notes_stmts I isd k (Some sp) b X ++ [mknote (brace sp) (Some sp) X]).
Proof.
  intros Hb HC HG HS Hp Hv Hz r st' H Hf. unfold in_block in H. rewrite (proj2 (PeanoNat.Nat.eqb_neq _ _) Hz) in H. fold (brace sp) in H. unfold xbind in H.
  destruct (add_expr (brace sp) p true (set_block (Some sp) st)) as [r1 st1] eqn:E1.
  destruct (add_expr_cases _ _ _ _ _ _ E1) as (en1 & -> & B1 & B2 & _). change (spans (set_block (Some sp) st)) with (spans st) in *.
  assert (NI : NoDup ((flat_map positions b ++ [brace sp]) ++ spans st) -> ~ In (brace sp) (spans st)).
  { intros D. rewrite <- app_assoc in D. apply NoDup_app_r in D. cbn in D. apply NoDup_cons_iff in D. tauto. }
  destruct r1 as [[]|m1|m1]; cycle 1.
  1,2: xinj H; split; [discriminate|]; intros D; destruct (B2 (NI D)); discriminate.
  destruct (xgen_stmts C procs orc qs b p _) as [r2 st2] eqn:E2.
  pose proof (good_stmts b Hb (set_entries en1 (set_block (Some sp) st)) p HC HG HS Hp Hv _ _ E2) as M. cbn [x_tcx set_block set_entries x_block] in M.
  assert (Hf2 : Forall foldable (x_folds st2)) by (xinj H; destruct r2; exact Hf). destruct (M Hf2) as [M1 M2]. clear M.
  split.
  - intros e ->. injection H as -> <-. destruct (M1 e eq_refl) as (A1 & A2 & A3 & A4 & A5 & A6). split; auto. split; auto. split; auto. split; auto. split; auto.
    intros D. destruct (B2 (NI D)) as [_ ->]. rewrite <- app_assoc in D. destruct (A6 D) as (n1 & F1 & F2 & F3).
    exists (n1 ++ [mkentry (brace sp) true (Some sp) [p]]). cbn. cbn in F1. rewrite F1, <- app_assoc. split; auto. rewrite map_app, F2. split; auto.
    intros I X HI HX. apply Forall2_app; auto. constructor; [|constructor]. repeat split; cbn; auto. discriminate.
  - intros D Hn Hfit. destruct (B2 (NI D)) as [_ ->]. rewrite <- app_assoc in D. xinj H.
    apply M2; auto. destruct r2; exact Hfit.
Qed.

Lemma good_pair (N1 N2 : Prop) m1 (m2 : X expr) st p v1 v2 pos1 pos2 nt1 nt2 f val : grows m2 ->
  good N1 m1 st p v1 pos1 nt1 -> (forall st1, extends (x_tcx st) (x_tcx st1) -> x_block st1 = x_block st -> good N2 m2 st1 p v2 pos2 nt2) ->
  (forall e1 e2, is_exp e1 -> is_exp e2 -> is_exp (f e1 e2)) ->
  (forall T e1 e2, extends (x_tcx st) T -> okv T e1 -> okv T e2 -> okv T (f e1 e2)) ->
  (forall I X e1 e2, interp_ok I -> is_exp e1 -> is_exp e2 -> same I e1 (v1 I X) -> same I e2 (v2 I X) -> same I (f e1 e2) (val I X)) ->
  good (N1 /\ N2) (let! e1 := m1 in let! e2 := m2 in xret (f e1 e2)) st p val (pos2 ++ pos1) (fun I X => nt2 I X ++ nt1 I X).
Proof.
  intros Hgr H1 H2 Hf1 Hf2 Hf3 r st' H Hf. unfold xbind in H. destruct (m1 st) as [r1 st1] eqn:E1. pose proof (H1 _ _ E1) as M.
  destruct r1 as [e1|m|m].
  2,3: xinj H; destruct (M Hf) as [_ M2]; split; [discriminate|]; intros D [Hn _] Hfit; rewrite <- app_assoc in D; apply NoDup_app_r in D; destruct (M2 D Hn Hfit); discriminate.
  destruct (m2 st1) as [r2 st2] eqn:E2. destruct (Hgr _ _ _ E2) as [l0 G].
  assert (F2 : Forall foldable (x_folds st2)) by (destruct r2; xinj H; exact Hf).
  assert (F1 : Forall foldable (x_folds st1)) by (rewrite G in F2; now apply fits_suffix in F2).
  destruct (M F1) as [M1 _]. destruct (M1 e1 eq_refl) as (A1 & A2 & A3 & A4 & A5 & A6).
  destruct (H2 st1 A3 A4 _ _ E2 F2) as [K1 K2].
  assert (ND : NoDup ((pos2 ++ pos1) ++ spans st) -> NoDup (pos1 ++ spans st) /\ NoDup (pos2 ++ spans st1)).
  { intros D. rewrite <- app_assoc in D. pose proof (NoDup_app_r _ _ D) as D1. split; auto. destruct (A6 D1) as (n1 & L1 & L2 & _).
    unfold spans. rewrite L1, map_app, L2. exact D. }
  split.
  - intros e E. subst r. destruct r2 as [e2| |]; cbn beta iota in H; try discriminate. unfold xret in H. injection H as <- <-.
    destruct (K1 e2 eq_refl) as (B1 & B2 & B3 & B4 & B5 & B6). split; auto. split. { apply Hf2; auto. - eapply extends_trans; eauto. - eapply okv_extends; eauto. }
    split; [eapply extends_trans; eauto|]. split; [congruence|]. split. { intros I X HI HX. apply Hf3; auto. }
    intros D. destruct (ND D) as [D1 D2]. destruct (A6 D1) as (n1 & L1 & L2 & L3). destruct (B6 D2) as (n2 & Q1 & Q2 & Q3).
    exists (n2 ++ n1). rewrite Q1, L1, app_assoc. split; auto. rewrite map_app, Q2, L2. split; auto. intros I X HI HX. apply Forall2_app; auto.
  - intros D [HN1 HN2] Hfit. destruct (ND D) as [D1 D2].
    assert (Hfit2 : Forall fits (x_folds st2)) by (destruct r2; xinj H; exact Hfit).
    destruct (K2 D2 HN2 Hfit2) as [e2 ->]. xinj H. eauto.
Qed.

Lemma good_iff (N N' : Prop) m st p val pos nts val' nts' : good N m st p val pos nts -> (N' -> N) -> (forall I X s, env_ok s -> val' I X s = val I X s) -> (forall I X, nts I X = nts' I X) ->
  good N' m st p val' pos nts'.
Proof.
  intros G HN HV HX r st' H Hf. destruct (G r st' H Hf) as [G1 G2]. split; auto. intros e E. destruct (G1 e E) as (A1 & A2 & A3 & A4 & A5 & A6).
  split; auto. split; auto. split; auto. split; auto. split.
  - intros I X HI K s Hs. rewrite HV by auto. now apply A5.
  - intros D. destruct (A6 D) as (n & B1 & B2 & B3). exists n. split; auto. split; auto. intros I X HI K. rewrite <- HX. auto.
Qed.

Lemma spanned_forall b : fold_right (fun s P => spanned s /\ P) True b -> Forall spanned b.
Proof. induction b; cbn; constructor; tauto. Qed.
Lemma core_forall T b : All (wts isd isf) (map erase b) -> All (every not_while) (map erase b) -> All (every (anns_in A)) (map erase b) -> All (every (declared T)) (map erase b) ->
  Forall (core T) (map erase b).
Proof. rewrite !All_Forall, !Forall_forall. unfold core. auto. Qed.

Theorem explained_good s : sgood s.
Proof.
  assert (PB : forall b st p, Forall sgood b -> All (wts isd isf) (map erase b) -> All (every not_while) (map erase b) -> All (every (anns_in A)) (map erase b) -> All (every (declared (x_tcx st))) (map erase b) ->
    vguard_block (map erase b) -> fold_right (fun s P => spanned s /\ P) True b -> is_exp p -> okv (x_tcx st) p -> forall sp, send sp <> 0 ->
    good (Forall no_neg (map erase b)) (in_block sp p (xgen_stmts C procs orc qs b p)) st p (fun I => wp_block I isd k (map erase b)) (flat_map positions b ++ [brace sp])
      (fun I X => notes_stmts I isd k (Some sp) b X ++ [mknote (brace sp) (Some sp) X])).
  { intros. apply good_block; auto using core_forall, spanned_forall. }
  assert (GB : forall b p sp, grows (in_block sp p (xgen_stmts C procs orc qs b p))).
  { intros. apply grows_block, grows_stmts. apply Forall_forall. intros. apply grows_gen. }
  assert (AE : forall b T T', extends T T' -> All (every (declared T)) b -> All (every (declared T')) b).
  { intros b T T' [HE _]. assert (Q : forall s, every (declared T) s -> every (declared T') s).
    { assert (HB : forall b, Forall (fun s => every (declared T) s -> every (declared T') s) b -> All (every (declared T)) b -> All (every (declared T')) b).
      { intros b0 Hb. rewrite !All_Forall, !Forall_forall in *. auto. }
      intros s0. induction s0 using stmt_rect'; cbn [every] in *; intros [D A4];
        (split; [let y := fresh in let Hy := fresh in intros y Hy; apply HE, D, Hy|]); auto; destruct A4; split; auto. }
    rewrite !All_Forall, !Forall_forall. auto. }
  induction s using xstmt_rect'.
  - apply good_atom.
  - intros st p (W1 & W2 & W3 & W4) HG HS Hp Hv. cbn [erase wts every vguard spanned] in W1, W2, W3, W4, HG, HS. rewrite vguard_block_eq in HG.
    cbn [xgen]. rewrite (xgen_stmts_eq C procs orc qs).
    pose proof (good_stmts b H st p (core_forall _ _ W1 (proj2 W2) (proj2 W3) (proj2 W4)) HG (spanned_forall _ HS) Hp Hv) as G.
    eapply good_iff; [apply (good_done _ _ _ _ _ _ _ sp G)|..].
    + unfold no_neg. cbn [erase every]. intros [_ K]. now apply All_Forall.
    + reflexivity.
    + intros. cbn [notes]. rewrite notes_stmts_eq. reflexivity.
  - intros st p (W1 & W2 & W3 & W4) HG HS Hp Hv. cbn [spanned] in HS. destruct HS as (Z1 & Z2 & S1 & S2).
    assert (Q : (All (wts isd isf) (map erase b1) /\ All (wts isd isf) (map erase b2)) /\ (All (every not_while) (map erase b1) /\ All (every not_while) (map erase b2)) /\
      (All (every (anns_in A)) (map erase b1) /\ All (every (anns_in A)) (map erase b2)) /\ (All (every (declared (x_tcx st))) (map erase b1) /\ All (every (declared (x_tcx st))) (map erase b2)) /\
      vguard_block (map erase b1) /\ vguard_block (map erase b2)).
    { destruct c; cbn [erase wts every vguard] in W1, W2, W3, W4, HG; rewrite !vguard_block_eq in HG; tauto. }
    clear W1 W2 W3 W4 HG. destruct Q as ([W1 W1'] & [W2 W2'] & [W3 W3'] & [W4 W4'] & G1 & G2).
    cbn [xgen]. rewrite !(xgen_stmts_eq C procs orc qs).
    pose (val := fun I X s0 => match c with CDemonic => emin | CAngelic => emax | CAdditive => eadd end (wp_block I isd k (map erase b1) X s0) (wp_block I isd k (map erase b2) X s0)).
    pose proof (good_pair (Forall no_neg (map erase b1)) (Forall no_neg (map erase b2))
      (in_block sp1 p (xgen_stmts C procs orc qs b1 p)) (in_block sp2 p (xgen_stmts C procs orc qs b2 p)) st p
      (fun I => wp_block I isd k (map erase b1)) (fun I => wp_block I isd k (map erase b2))
      (flat_map positions b1 ++ [brace sp1]) (flat_map positions b2 ++ [brace sp2])
      (fun I X => notes_stmts I isd k (Some sp1) b1 X ++ [mknote (brace sp1) (Some sp1) X])
      (fun I X => notes_stmts I isd k (Some sp2) b2 X ++ [mknote (brace sp2) (Some sp2) X])
      (fun p1 p2 => EBin TEUReal (match c with CDemonic => OInf | CAngelic => OSup | CAdditive => OAdd end) p1 p2) val) as G.
    eapply good_iff; [eapply good_done; apply G|..]; clear G; auto.
    + intros st1 X1 X2. apply PB; eauto. eapply okv_extends; eauto.
    + intros e1 e2 E1 E2. destruct c; apply wte_bin; auto.
    + intros T e1 e2 HE E1 E2. exact (bin_vars (is_var T) _ _ _ _ E1 E2).
    + intros I X e1 e2 HI E1 E2 V1 V2 s0 Hs0. unfold val. rewrite <- (V1 s0 Hs0), <- (V2 s0 Hs0). destruct c; rewrite ev_bin by auto; reflexivity.
    + unfold no_neg. destruct c; cbn [erase every]; rewrite !All_Forall; tauto.
    + intros. unfold val. destruct c; cbn [erase wp]; reflexivity.
    + intros. cbn [notes]. rewrite !notes_stmts_eq. unfold val. destruct c; reflexivity.
  - intros st p (W1 & W2 & W3 & W4) HG HS Hp Hv. cbn [spanned] in HS. destruct HS as (Z1 & Z2 & S1 & S2).
    cbn [erase wts every vguard] in W1, W2, W3, W4, HG; rewrite !vguard_block_eq in HG.
    destruct W1 as (Wc & W1 & W1'), W2 as (_ & W2 & W2'), W3 as (_ & W3 & W3'), W4 as (Dc & W4 & W4'), HG as (G1 & G2).
    cbn [xgen]. rewrite !(xgen_stmts_eq C procs orc qs).
    pose proof (good_pair (Forall no_neg (map erase b1)) (Forall no_neg (map erase b2))
      (in_block sp1 p (xgen_stmts C procs orc qs b1 p)) (in_block sp2 p (xgen_stmts C procs orc qs b2 p)) st p
      (fun I => wp_block I isd k (map erase b1)) (fun I => wp_block I isd k (map erase b2))
      (flat_map positions b1 ++ [brace sp1]) (flat_map positions b2 ++ [brace sp2])
      (fun I X => notes_stmts I isd k (Some sp1) b1 X ++ [mknote (brace sp1) (Some sp1) X])
      (fun I X => notes_stmts I isd k (Some sp2) b2 X ++ [mknote (brace sp2) (Some sp2) X])
      (fun p1 p2 => EIte TEUReal c p1 p2) (fun I X s0 => wp I isd k (erase (XIf sp c sp1 b1 sp2 b2)) X s0)) as G.
    eapply good_iff; [eapply good_done; apply G|..]; clear G; auto.
    + intros st1 X1 X2. apply PB; eauto. eapply okv_extends; eauto.
    + intros e1 e2 E1 E2. apply wte_ite; tauto.
    + intros T e1 e2 [HE _] E1 E2 x Hx. cbn [ids] in Hx. apply in_app_or in Hx as [Hx|Hx]; [apply HE, Dc; exact Hx|]. apply in_app_or in Hx as [Hx|Hx]; auto.
    + intros I X e1 e2 HI E1 E2 V1 V2 s0 Hs0. rewrite ev_ite by tauto. rewrite (V1 s0 Hs0), (V2 s0 Hs0). reflexivity.
    + unfold no_neg. cbn [erase every]; rewrite !All_Forall; tauto.
    + intros. cbn [notes]. rewrite !notes_stmts_eq. reflexivity.
  - intros st p (W1 & W2 & W3 & W4). cbn [erase every not_while] in W2. destruct W2 as [[] _].
  - intros st p (W1 & W2 & W3 & W4) HG HS Hp Hv. cbn [erase wts every vguard spanned anns_in] in W1, W2, W3, W4, HG, HS.
    cbn [xgen]. destruct HT as (_ & _ & T3). rewrite (T3 _ (proj1 W3)).
    eapply good_iff; [apply IHs; auto; split; [|split; [|split]]; tauto|..]; auto.
    unfold no_neg. cbn [erase every]. tauto.
Qed.
End Good.
