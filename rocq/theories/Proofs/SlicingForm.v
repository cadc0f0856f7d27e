(** The form of the programs, constraints and selections that the slicing visitor makes. *)
From Coq Require Import Bool List String ZArith NArith QArith Lia.
From Verif.Model Require Import Syntax Builder VcGen Negations TyCtx Subsets Slicing.
From Verif.Spec Require Import Eur Sem Wp Sliced.
From Verif.Proofs Require Import SemLemmas WpLemmas DistProofs VcGenProofs TyCtxProofs SlicingSteps SlicingVisit.
Import ListNotations.
Local Open Scope nat_scope.
Local Open Scope list_scope.

Section Form.
Variables (C : tcx) (F : filter) (span_at : place -> nat) (isd isf A : string -> bool).
Hypothesis HT : tcx_ok C isd isf A.

Definition well (st : stmt) : Prop := wts isd isf st /\ every not_while st /\ every (anns_in A) st /\ vguard st.
Definition wellb (b : list stmt) : Prop := All (wts isd isf) b /\ All (every not_while) b /\ All (every (anns_in A)) b /\ vguard_block b.

Lemma add_inv anns S p e t S' : add_slice_stmt span_at anns S p e = Ok (t, S') ->
  exists y, t = EVar y /\ ity y = TBool /\ s_dir S' = s_dir S /\ s_constr S' = s_constr S /\ s_stmts S' = s_stmts S ++ [mkslice y (make_selection anns e) p].
Proof.
  intros E. destruct (add_ok span_at anns S p e) as (y & S2 & E2 & D & Ty & (G1 & G2 & _)). rewrite E2 in E. inversion E; subst.
  exists y. rewrite app_nil_r in G2. auto.
Qed.

Lemma well_seq b : wellb b -> well (SSeq b).
Proof. intros (H1 & H2 & H3 & H4). repeat split; auto; cbn [vguard]; now rewrite ?vguard_block_eq. Qed.
Lemma well_two (mk : list stmt -> list stmt -> stmt) a b : (mk = SDemonic \/ mk = SAngelic \/ mk = SAdditive \/ exists c, is_guard c /\ mk = SIf c) ->
  wellb a -> wellb b -> well (mk a b).
Proof.
  intros Hm (H1 & H2 & H3 & H4) (I1 & I2 & I3 & I4).
  destruct Hm as [-> | [-> | [-> | (c & Hc & ->)]]]; repeat split; auto; try apply Hc; cbn [vguard]; rewrite !vguard_block_eq; auto.
Qed.
Lemma two_well (mk : list stmt -> list stmt -> stmt) a b : (mk = SDemonic \/ mk = SAngelic \/ mk = SAdditive \/ exists c, mk = SIf c) ->
  well (mk a b) -> wellb a /\ wellb b /\ (mk = SDemonic \/ mk = SAngelic \/ mk = SAdditive \/ exists c, is_guard c /\ mk = SIf c).
Proof.
  intros Hm (H1 & H2 & H3 & H4).
  destruct Hm as [-> | [-> | [-> | (c & ->)]]]; cbn [wts every vguard] in *; rewrite !vguard_block_eq in H4; unfold wellb; try tauto.
  assert (is_guard c) by tauto. intuition eauto 6.
Qed.

Lemma ite_exp y e u : ity y = TBool -> is_exp e -> is_exp u -> is_exp (EIte (ty_of e) (EVar y) e u).
Proof.
  intros Hy [W1 T1] [W2 T2]. split; [|exact T1]. cbn [wt ty_of]. rewrite Hy, W1, W2, T1, T2. reflexivity.
Qed.
Lemma guard_well (lat : direction -> expr -> stmt) d y g : (forall d e, is_exp e -> well (lat d e) /\ forall d', lat d e <> SValidate d') -> ity y = TBool ->
  branch_guard lat d (EVar y) = Ok g -> well g /\ forall d', g <> SValidate d'.
Proof.
  intros Hl Hy E. cbn in E. inversion E; subst g. apply Hl.
  destruct d; (split; [|reflexivity]); cbn [wt ty_of]; rewrite Hy; reflexivity.
Qed.
Lemma leaf_well st : (match st with SAssert _ e | SAssume _ e | STick e | SWeigh e => is_exp e | _ => False end) -> well st.
Proof. destruct st; try contradiction; intros H; repeat split; auto; apply H. Qed.
Lemma wellb_cons g a : well g -> (forall d, g <> SValidate d) -> wellb a -> wellb (g :: a).
Proof.
  intros (H1 & H2 & H3 & H4) Hv (I1 & I2 & I3 & I4). split; [split; auto|]. split; [split; auto|]. split; [split; auto|]. cbn [vguard_block].
  split; [|exact I4]. destruct g; auto; destruct H4.
Qed.
Lemma choice_well anns S p e (lat : direction -> expr -> stmt) a b a' b' S' :
  (forall d e, is_exp e -> well (lat d e) /\ forall d', lat d e <> SValidate d') ->
  wellb a -> wellb b -> slice_choice span_at anns S p e (branch_guard lat) a b = Ok (a', b', S') -> wellb a' /\ wellb b'.
Proof.
  intros Hl Ha Hb E. unfold slice_choice in E.
  apply rbind_ok in E as ((t1 & S1) & E1 & E). apply rbind_ok in E as ((t2 & S2) & E2 & E).
  apply add_inv in E1 as (y1 & -> & T1 & _). apply add_inv in E2 as (y2 & -> & T2 & _).
  apply rbind_ok in E as (g1 & Eg1 & E). apply rbind_ok in E as (g2 & Eg2 & E). inversion E; subst.
  destruct (guard_well lat _ _ _ Hl T1 Eg1), (guard_well lat _ _ _ Hl T2 Eg2). split; apply wellb_cons; auto.
Qed.

Lemma transform_well anns p st S st' S' ok : well st \/ (exists d, st = SValidate d) -> transform C F span_at anns p st S = Ok (st', S', ok) ->
  (well st -> well st') /\ (forall d e, st = SAssume d e -> exists e', st' = SAssume d e') /\ (forall d, st = SValidate d -> st' = st).
Proof.
  intros Hw E.
  assert (Same : st' = st -> (well st -> well st') /\ (forall d e, st = SAssume d e -> exists e', st' = SAssume d e') /\ (forall d, st = SValidate d -> st' = st)).
  { intros ->. repeat split; auto; try (apply H); eauto. }
  destruct Hw as [Hw|[d ->]]; [|cbn in E; inversion E; subst; now apply Same].
  destruct st; cbn [transform] in E; try (inversion E; subst; now apply Same).
  - destruct xs as [|x [|x2 xs]]; try (inversion E; subst; now apply Same).
    destruct (should_slice _ _ _); [|inversion E; subst; now apply Same].
    destruct (is_pure_expr C e) as [pure|w|w] eqn:Ep; try discriminate. cbn [rbind] in E. destruct pure.
    + apply rbind_ok in E as ((t & S1) & Ea & E). apply add_inv in Ea as (y & -> & Ty & _). inversion E; subst.
      split; [|split; [discriminate | discriminate]]. intros (W & _). refine (conj _ (conj (conj Logic.I Logic.I) (conj (conj Logic.I Logic.I) Logic.I))). cbn [wts] in *.
      assert (Q : wt e = true /\ ty_of e = ity x).
      { destruct e; cbn [assign_ok] in W; auto. cbn [is_pure_expr] in Ep. destruct HT as (T1 & _). destruct (isd f) eqn:Ef.
        - rewrite T1 in Ep by auto. discriminate.
        - destruct W as (_ & W1 & W2). auto. }
      destruct Q as [Q1 Q2]. split; [|exact Q2]. cbn [wt ty_of]. rewrite Ty, Q1, Q2. cbn. rewrite !ty_eqb_refl. reflexivity.
    + destruct (f_sampling F); [|inversion E; subst; now apply Same].
      apply rbind_ok in E as ((t & S1) & Ea & E). apply add_inv in Ea as (y & -> & Ty & _). inversion E; subst.
      split; [|split; [discriminate | discriminate]]. intros (W & _). repeat split; auto.
  - set (ef := if dir_eqb (s_dir S) d then Discordant else Concordant) in *. destruct (should_slice _ _ _); [|inversion E; subst; now apply Same].
    apply rbind_ok in E as ((t & S1) & Ea & E). apply add_inv in Ea as (y & -> & Ty & _).
    destruct Hw as ((W & T) & _). unfold mk_top_toggle in E. rewrite T in E.
    assert (Q : exists e', is_exp e' /\ st' = SAssert d e').
    { destruct d; cbn in E; inversion E; subst; eexists; (split; [|reflexivity]); rewrite <- T at 1; apply ite_exp; try (split; auto; fail); auto; split; reflexivity. }
    destruct Q as (e' & Q & ->). split; [|split; discriminate]. intros _. now apply leaf_well.
  - set (ef := if dir_eqb (s_dir S) d then Concordant else Discordant) in *. destruct (should_slice _ _ _); [|inversion E; subst; now apply Same].
    apply rbind_ok in E as ((t & S1) & Ea & E). apply add_inv in Ea as (y & -> & Ty & _).
    destruct Hw as ((W & T) & _). unfold mk_top_toggle in E. rewrite T in E.
    assert (Q : exists e', is_exp e' /\ st' = SAssume d e').
    { destruct d; cbn in E; inversion E; subst; eexists; (split; [|reflexivity]); rewrite <- T at 1; apply ite_exp; try (split; auto; fail); auto; split; reflexivity. }
    destruct Q as (e' & Q & ->). split; [|split; [|discriminate]]; [intros _; now apply leaf_well|]. intros d0 e0 E0. inversion E0; subst. eauto.
  - destruct (negation_forwards (s_dir S) (SNegate d)); inversion E; subst; now apply Same.
  - destruct (f_ticks F && _); [|inversion E; subst; now apply Same].
    apply rbind_ok in E as ((t & S1) & Ea & E). apply add_inv in Ea as (y & -> & Ty & _).
    destruct Hw as ((W & T) & _). unfold mk_top_toggle in E. rewrite T in E.
    assert (Q : exists e', is_exp e' /\ st' = STick e').
    { cbn in E; inversion E; subst; eexists; (split; [|reflexivity]); rewrite <- T at 1; apply ite_exp; try (split; auto; fail); auto; split; reflexivity. }
    destruct Q as (e' & Q & ->). split; [|split; discriminate]. intros _. now apply leaf_well.
  - destruct (f_ticks F && _); [|inversion E; subst; now apply Same].
    apply rbind_ok in E as ((t & S1) & Ea & E). apply add_inv in Ea as (y & -> & Ty & _).
    destruct Hw as ((W & T) & _). rewrite T in E.
    assert (Q : exists e', is_exp e' /\ st' = SWeigh e').
    { cbn in E; inversion E; subst; eexists; (split; [|reflexivity]); rewrite <- T at 1; apply ite_exp; try (split; auto; fail); auto; split; reflexivity. }
    destruct Q as (e' & Q & ->). split; [|split; discriminate]. intros _. now apply leaf_well.
  - destruct (should_slice _ _ _); [|inversion E; subst; now apply Same].
    apply rbind_ok in E as (((x & y) & S1) & Ea & E). inversion E; subst. destruct (two_well SDemonic b1 b2) as (Ha & Hb & _); auto.
    split; [|split; discriminate]. intros _. apply choice_well in Ea; auto.
    + destruct Ea. apply well_two; auto.
    + intros d e He. destruct d; (split; [now apply leaf_well | discriminate]).
  - destruct (should_slice _ _ _); [|inversion E; subst; now apply Same].
    apply rbind_ok in E as (((x & y) & S1) & Ea & E). inversion E; subst. destruct (two_well SAngelic b1 b2) as (Ha & Hb & _); auto.
    split; [|split; discriminate]. intros _. apply choice_well in Ea; auto.
    + destruct Ea. apply well_two; auto.
    + intros d e He. destruct d; (split; [now apply leaf_well | discriminate]).
Qed.

Notation vis := (slice_visit C F span_at).
Notation blk := (slice_block C F span_at).
Definition vwell (st : stmt) : Prop := forall anns p S st' S' ok, vis anns p st S = Ok (st', S', ok) -> well st ->
  well st' /\ (forall d e, strip_ann st = SAssume d e -> exists e', strip_ann st' = SAssume d e').

Lemma strip_not_validate st d : well st -> strip_ann st <> SValidate d.
Proof.
  induction st using stmt_rect'; try discriminate.
  - intros (_ & _ & _ & []).
  - intros (H1 & [_ H2] & [_ H3] & H4). cbn [strip_ann]. apply IHst. split; [exact H1|]. auto.
Qed.
Lemma block_well b : Forall vwell b -> forall anns q i S b' S' ok, blk anns q i b S = Ok (b', S', ok) -> wellb b ->
  wellb b' /\ forall d, opens_with_assume d b -> opens_with_assume d b'.
Proof.
  induction 1 as [|s b Hs Hb IH]; intros anns q i S b' S' ok E W.
  - inversion E; subst. auto.
  - cbn [slice_block] in E. apply rbind_ok in E as (((s1 & S1) & ok1) & E1 & E). cbn [fst snd] in E.
    destruct W as ((W1 & W2) & (N1 & N2) & (A1 & A2) & (V1 & V2)).
    assert (Wb : wellb b) by (split; [exact W2|]; auto).
    assert (R : exists b1, b' = s1 :: b1 /\ wellb b1 /\ forall d, opens_with_assume d b -> opens_with_assume d b1).
    { destruct ok1.
      - apply rbind_ok in E as (((b1 & S2) & ok2) & E2 & E). cbn [fst snd] in E. inversion E; subst. exists b1. split; auto. eapply IH; eauto.
      - inversion E; subst. exists b. auto. }
    destruct R as (b1 & -> & Wb1 & Op).
    assert (V : (exists d, s = SValidate d) \/ well s).
    { destruct s; try (right; split; [exact W1|]; auto; fail). left. eauto. }
    destruct V as [(d & ->)|Ws].
    + cbn [slice_visit transform] in E1. inversion E1; subst. split.
      * destruct Wb1 as (B1 & B2 & B3 & B4). split; [split; auto|]. split; [split; auto|]. split; [split; auto|]. split; auto.
      * intros d' [].
    + destruct (Hs _ _ _ _ _ _ E1 Ws) as [Ws1 Os]. split.
      * apply wellb_cons; auto. intros d Q. apply (strip_not_validate s1 d Ws1). now subst s1.
      * intros d Ho. cbn [opens_with_assume] in *. destruct (strip_ann s) eqn:Es; try contradiction. destruct (Os _ _ eq_refl) as (e' & ->). exact Ho.
Qed.

Lemma visit_well st : vwell st.
Proof.
  induction st using stmt_rect'; intros anns p S st' S' ok E W.
  12,13,14,15: cbn [slice_visit] in E; rewrite block_eqs in E; apply rbind_ok in E as (((a1 & S1) & ok1) & E1 & E); cbn [fst snd] in E.
  12:{ destruct (two_well SDemonic a b) as (Wa & Wb & M); auto. destruct (block_well a H _ _ _ _ _ _ _ E1 Wa) as [Wa1 _]. split; [|discriminate].
       destruct ok1; [|inversion E; subst; apply well_two; auto]. rewrite block_eqs in E. apply rbind_ok in E as (((b1 & S2) & ok2) & E2 & E). cbn [fst snd] in E.
       destruct (block_well b H0 _ _ _ _ _ _ _ E2 Wb) as [Wb1 _]. pose proof (well_two SDemonic _ _ M Wa1 Wb1) as Q.
       destruct ok2; [|inversion E; subst; exact Q]. destruct (transform_well _ _ _ _ _ _ _ (or_introl Q) E). auto. }
  12:{ destruct (two_well SAngelic a b) as (Wa & Wb & M); auto. destruct (block_well a H _ _ _ _ _ _ _ E1 Wa) as [Wa1 _]. split; [|discriminate].
       destruct ok1; [|inversion E; subst; apply well_two; auto]. rewrite block_eqs in E. apply rbind_ok in E as (((b1 & S2) & ok2) & E2 & E). cbn [fst snd] in E.
       destruct (block_well b H0 _ _ _ _ _ _ _ E2 Wb) as [Wb1 _]. pose proof (well_two SAngelic _ _ M Wa1 Wb1) as Q.
       destruct ok2; [|inversion E; subst; exact Q]. destruct (transform_well _ _ _ _ _ _ _ (or_introl Q) E). auto. }
  12:{ destruct (two_well SAdditive a b) as (Wa & Wb & M); auto. destruct (block_well a H _ _ _ _ _ _ _ E1 Wa) as [Wa1 _]. split; [|discriminate].
       destruct ok1; [|inversion E; subst; apply well_two; auto]. rewrite block_eqs in E. apply rbind_ok in E as (((b1 & S2) & ok2) & E2 & E). cbn [fst snd] in E.
       destruct (block_well b H0 _ _ _ _ _ _ _ E2 Wb) as [Wb1 _]. pose proof (well_two SAdditive _ _ M Wa1 Wb1) as Q.
       destruct ok2; [|inversion E; subst; exact Q]. destruct (transform_well _ _ _ _ _ _ _ (or_introl Q) E). auto. }
  12:{ destruct (two_well (SIf c) a b) as (Wa & Wb & M); eauto 6. destruct (block_well a H _ _ _ _ _ _ _ E1 Wa) as [Wa1 _]. split; [|discriminate].
       destruct ok1; [|inversion E; subst; apply well_two; auto]. rewrite block_eqs in E. apply rbind_ok in E as (((b1 & S2) & ok2) & E2 & E). cbn [fst snd] in E.
       destruct (block_well b H0 _ _ _ _ _ _ _ E2 Wb) as [Wb1 _]. pose proof (well_two (SIf c) _ _ M Wa1 Wb1) as Q.
       destruct ok2; [|inversion E; subst; exact Q]. destruct (transform_well _ _ _ _ _ _ _ (or_introl Q) E). auto. }
  1:{ cbn [slice_visit] in E. rewrite block_eqs in E. apply rbind_ok in E as (((a1 & S1) & ok1) & E1 & E). cbn [fst snd] in E.
      destruct W as (W1 & (_ & W2) & (_ & W3) & W4). cbn [vguard wts] in W1, W4. rewrite vguard_block_eq in W4.
      assert (Wb : wellb b) by (split; [exact W1|]; auto). destruct (block_well b H _ _ _ _ _ _ _ E1 Wb) as [Wb1 _].
      split; [|discriminate]. destruct ok1; [|inversion E; subst; now apply well_seq].
      destruct (transform_well _ _ _ _ _ _ _ (or_introl (well_seq _ Wb1)) E). apply H0. now apply well_seq. }
  1-10: cbn [slice_visit] in E; destruct (transform_well _ _ _ _ _ _ _ (or_introl W) E) as (Q1 & Q2 & _); (split; [auto|]); intros d0 e0 E0;
    cbn [strip_ann] in E0; try discriminate; destruct (Q2 _ _ E0) as (e' & ->); exists e'; reflexivity.
  - destruct W as (_ & [[] _] & _).
  - cbn [slice_visit] in E. destruct W as (W1 & [_ W2] & [W3' W3] & W4). cbn [anns_in] in W3'.
    assert (C n = Some DSlicingAnn) as Ec by (apply HT; auto). rewrite Ec in E.
    destruct (IHst _ _ _ _ _ _ E) as [Q1 Q2]; [split; [exact W1|]; auto|]. auto.
  - cbn [slice_visit] in E; destruct (transform_well _ _ _ _ _ _ _ (or_introl W) E) as (Q1 & Q2 & _). split; [auto|]. discriminate.
Qed.
Theorem prepare_well T d b b' S : wellb b -> prepare_slicing C F span_at T d b = Ok (b', S) -> wellb b'.
Proof.
  intros W E. unfold prepare_slicing in E. apply rbind_ok in E as (((b1 & S1) & ok) & E1 & E). inversion E; subst.
  eapply (block_well b); [|exact E1 | exact W]. apply Forall_forall. intros. apply visit_well.
Qed.

(** * What is recorded *)
Section Flag.
Variables (f : selection -> bool) (okn : string -> Prop).
Hypotheses (Hf : forall anns e, f (make_selection anns e) = f anns) (Hp : forall n anns, okn n -> f (push_annotation n anns) = f anns).

(** Constraints are about two toggles each; slice statements pass the filter and do not carry the flag. *)
Definition recorded (S : slicer) : Prop :=
  (forall c, In c (s_constr S) -> exists e1 e2, In e1 (s_stmts S) /\ In e2 (s_stmts S) /\ c = EBin TBool OOr (EVar (sl_ident e1)) (EVar (sl_ident e2))) /\
  (forall e, In e (s_stmts S) -> f (sl_sel e) = false /\ enables (f_sel F) (sl_sel e) = true).
Definition not_ann (st : stmt) : Prop := match st with SAnn n _ _ => okn n | _ => True end.

Lemma recorded_add anns S p e t S' : f anns = false -> recorded S -> should_slice F anns e = true -> add_slice_stmt span_at anns S p e = Ok (t, S') -> recorded S'.
Proof.
  intros Ha [R1 R2] Hs E. apply add_inv in E as (y & -> & _ & _ & E1 & E2). split; rewrite ?E1, ?E2.
  - intros c Hc. destruct (R1 c Hc) as (e1 & e2 & I1 & I2 & ->). exists e1, e2. rewrite !in_app_iff. auto.
  - intros e' He. apply in_app_or in He. destruct He as [He|[<-|[]]]; auto. cbn [sl_sel]. rewrite Hf. auto.
Qed.
Lemma recorded_choice anns S p e g a b a' b' S' : f anns = false -> recorded S -> should_slice F anns e = true -> slice_choice span_at anns S p e g a b = Ok (a', b', S') -> recorded S'.
Proof.
  intros Ha HR Hs E. unfold slice_choice in E.
  apply rbind_ok in E as ((t1 & S1) & E1 & E). apply rbind_ok in E as ((t2 & S2) & E2 & E).
  pose proof (recorded_add _ _ _ _ _ _ Ha HR Hs E1) as R1. pose proof (recorded_add _ _ _ _ _ _ Ha R1 Hs E2) as [R2 R3].
  apply add_inv in E1 as (y1 & -> & _ & _ & C1 & L1). apply add_inv in E2 as (y2 & -> & _ & _ & C2 & L2).
  apply rbind_ok in E as (g1 & Eg1 & E). apply rbind_ok in E as (g2 & Eg2 & E). inversion E; subst. split; cbn [s_stmts s_constr]; [|exact R3].
  intros c Hc. apply in_app_or in Hc. destruct Hc as [Hc|[<-|[]]]; [auto|].
  eexists (mkslice y1 _ _), (mkslice y2 _ _). rewrite L2, L1, !in_app_iff. cbn [In]. split; [left; right; left; reflexivity|]. split; [right; left; reflexivity|]. reflexivity.
Qed.
Lemma recorded_transform anns p st S st' S' ok : f anns = false -> recorded S -> transform C F span_at anns p st S = Ok (st', S', ok) -> recorded S'.
Proof.
  intros Ha HR E. destruct st; cbn [transform] in E; try (inversion E; subst; exact HR).
  - destruct xs as [|x [|x2 xs]]; try (inversion E; subst; exact HR).
    destruct (should_slice _ _ _) eqn:Hs; [|inversion E; subst; exact HR]. apply rbind_ok in E as (pure & _ & E). destruct pure; [|destruct (f_sampling F)].
    3: inversion E; subst; exact HR.
    all: apply rbind_ok in E as ((t & S1) & Ea & E); inversion E; subst; eapply recorded_add; eauto.
  - destruct (should_slice _ _ _) eqn:Hs; [|inversion E; subst; exact HR].
    try (apply andb_prop in Hs; destruct Hs as [_ Hs]). apply rbind_ok in E as ((t & S1) & Ea & E). apply rbind_ok in E as (e' & _ & E). inversion E; subst; eapply recorded_add; eauto.
  - destruct (should_slice _ _ _) eqn:Hs; [|inversion E; subst; exact HR].
    try (apply andb_prop in Hs; destruct Hs as [_ Hs]). apply rbind_ok in E as ((t & S1) & Ea & E). apply rbind_ok in E as (e' & _ & E). inversion E; subst; eapply recorded_add; eauto.
  - destruct (negation_forwards (s_dir S) (SNegate d)); inversion E; subst; exact HR.
  - destruct (f_ticks F && _) eqn:Hs; [|inversion E; subst; exact HR].
    try (apply andb_prop in Hs; destruct Hs as [_ Hs]). apply rbind_ok in E as ((t & S1) & Ea & E). apply rbind_ok in E as (e' & _ & E). inversion E; subst; eapply recorded_add; eauto.
  - destruct (f_ticks F && _) eqn:Hs; [|inversion E; subst; exact HR].
    try (apply andb_prop in Hs; destruct Hs as [_ Hs]). apply rbind_ok in E as ((t & S1) & Ea & E). apply rbind_ok in E as (e' & _ & E). inversion E; subst; eapply recorded_add; eauto.
  - destruct (should_slice _ _ _) eqn:Hs; [|inversion E; subst; exact HR].
    apply rbind_ok in E as (((x & y) & S1) & Ea & E). inversion E; subst. eapply recorded_choice; eauto.
  - destruct (should_slice _ _ _) eqn:Hs; [|inversion E; subst; exact HR].
    apply rbind_ok in E as (((x & y) & S1) & Ea & E). inversion E; subst. eapply recorded_choice; eauto.
Qed.
Definition vrec (st : stmt) : Prop := forall anns p S st' S' ok, vis anns p st S = Ok (st', S', ok) -> f anns = false -> every not_ann st -> recorded S -> recorded S'.
Lemma block_rec b : Forall vrec b -> forall anns q i S b' S' ok, blk anns q i b S = Ok (b', S', ok) -> f anns = false -> All (every not_ann) b -> recorded S -> recorded S'.
Proof.
  induction 1 as [|s b Hs Hb IH]; intros anns q i S b' S' ok E Ha Hn HR.
  - inversion E; subst. auto.
  - cbn [slice_block] in E. apply rbind_ok in E as (((s1 & S1) & ok1) & E1 & E). cbn [fst snd] in E. destruct Hn as [N1 N2].
    pose proof (Hs _ _ _ _ _ _ E1 Ha N1 HR) as R1. destruct ok1; [|inversion E; subst; auto].
    apply rbind_ok in E as (((b1 & S2) & ok2) & E2 & E). cbn [fst snd] in E. inversion E; subst. eapply IH; eauto.
Qed.
Lemma visit_rec st : vrec st.
Proof.
  induction st using stmt_rect'; intros anns p S st' S' ok E Ha Hn HR.
  12-15: cbn [slice_visit] in E; rewrite block_eqs in E; apply rbind_ok in E as (((a1 & S1) & ok1) & E1 & E); cbn [fst snd] in E;
    destruct Hn as (_ & Na & Nb); pose proof (block_rec a H _ _ _ _ _ _ _ E1 Ha Na HR) as R1;
    (destruct ok1; [|inversion E; subst; exact R1]); rewrite block_eqs in E; apply rbind_ok in E as (((b1 & S2) & ok2) & E2 & E); cbn [fst snd] in E;
    pose proof (block_rec b H0 _ _ _ _ _ _ _ E2 Ha Nb R1) as R2;
    (destruct ok2; [|inversion E; subst; exact R2]); eapply recorded_transform; eauto.
  12:{ cbn [slice_visit] in E. rewrite block_eqs in E. apply rbind_ok in E as (((a1 & S1) & ok1) & E1 & E). cbn [fst snd] in E.
    destruct Hn as (_ & Na). pose proof (block_rec b H _ _ _ _ _ _ _ E1 Ha Na HR) as R1.
    destruct ok1; [|inversion E; subst; exact R1]. eapply recorded_transform; eauto. }
  12:{ cbn [slice_visit] in E. destruct Hn as [Hn1 Hn]. cbn [not_ann] in Hn1. destruct (C n) as [[]|]; try discriminate.
    5:{ apply (IHst _ _ _ _ _ _ E); auto; now rewrite Hp. }
    all: apply rbind_ok in E as (((s1 & S1) & ok1) & E1 & E); cbn [fst snd] in E; inversion E; subst; apply (IHst _ _ _ _ _ _ E1); auto. }
  1:{ cbn [slice_visit] in E. rewrite block_eqs in E. apply rbind_ok in E as (((a1 & S1) & ok1) & E1 & E). cbn [fst snd] in E.
    destruct Hn as (_ & Na). pose proof (block_rec b H _ _ _ _ _ _ _ E1 Ha Na HR) as R1.
    destruct ok1; [|inversion E; subst; exact R1]. eapply recorded_transform; eauto. }
  all: exact (recorded_transform _ _ _ _ _ _ _ Ha HR E).
Qed.
Lemma prepare_rec T d b b' S : f no_anns = false -> All (every not_ann) b -> prepare_slicing C F span_at T d b = Ok (b', S) -> recorded S.
Proof.
  intros H0 Hn E. unfold prepare_slicing in E. apply rbind_ok in E as (((b1 & S1) & ok) & E1 & E). inversion E; subst.
  eapply (block_rec b); [|exact E1 | exact H0 | exact Hn |].
  - apply Forall_forall. intros. apply visit_rec.
  - split; intros ? [].
Qed.
End Flag.
End Form.
