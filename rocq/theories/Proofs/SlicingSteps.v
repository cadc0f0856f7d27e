(** The induction over the slicing visitor. *)
From Coq Require Import Bool List String ZArith NArith QArith Qreals Reals Lia Lra FunctionalExtensionality.
From Verif.Model Require Import Syntax Builder VcGen Negations TyCtx Subsets Slicing.
From Verif.Spec Require Import Eur Sem Wp Frame Sliced.
From Verif.Proofs Require Import EurLemmas SemLemmas WpLemmas DistProofs VcGenProofs MonoProofs FrameProofs TyCtxProofs SlicingProofs.
Import ListNotations.
Local Open Scope nat_scope.
Local Open Scope list_scope.
Local Arguments eleb : simpl never.

(** * Order by direction *)
Definition ord (d : direction) (X Y : exp) : Prop := match d with Down => exp_le X Y | Up => exp_le Y X end.
Definition seen (g : bool) (d : direction) : direction := if g then d else toggle d.
Definition lab (g : bool) (e : slice_stmt) : bool := if g then discordant (sl_sel e) else concordant (sl_sel e).

Lemma ord_of d X Y : (forall s, env_ok s -> match d with Down => ele (X s) (Y s) | Up => ele (Y s) (X s) end) -> ord d X Y.
Proof. destruct d; intros H s Hs; apply H, Hs. Qed.
Lemma ord_at d X Y s : ord d X Y -> env_ok s -> match d with Down => ele (X s) (Y s) | Up => ele (Y s) (X s) end.
Proof. destruct d; intros H Hs; apply H, Hs. Qed.
Lemma ord_refl d X : ord d X X.
Proof. destruct d; intros s Hs; apply ele_refl. Qed.

Section Steps.
Variables (isd isf : string -> bool).

(** [grown S S' N K]: between [S] and [S'] the slice statements [N] with fresh toggles and the constraints [K] were added. *)
Definition grown (S S' : slicer) (N : list slice_stmt) (K : list expr) : Prop :=
  s_stmts S' = s_stmts S ++ N /\ s_constr S' = s_constr S ++ K /\
  (forall e, In e N -> ity (sl_ident e) = TBool /\ ~ declared (s_tcx S) (sl_ident e) /\ declared (s_tcx S') (sl_ident e)) /\
  (forall x, declared (s_tcx S) x -> declared (s_tcx S') x) /\
  NoDup (map sl_ident N).

Lemma grown_refl S : grown S S [] [].
Proof. split; [now rewrite app_nil_r|]. split; [now rewrite app_nil_r|]. split; [intros e []|]. split; [auto|constructor]. Qed.
Lemma NoDup_app_intro {A} (l l' : list A) : NoDup l -> NoDup l' -> (forall x, In x l -> ~ In x l') -> NoDup (l ++ l').
Proof.
  induction 1 as [|a l Ha Hl IH]; intros H' D; [exact H'|]. cbn. constructor.
  - rewrite in_app_iff. intros [H|H]; [auto|]. eapply D; [left; reflexivity | exact H].
  - apply IH; auto. intros x Hx. apply D. now right.
Qed.
Lemma grown_trans S1 S2 S3 N1 K1 N2 K2 : grown S1 S2 N1 K1 -> grown S2 S3 N2 K2 -> grown S1 S3 (N1 ++ N2) (K1 ++ K2).
Proof.
  intros (A1 & A2 & A3 & A4 & A5) (B1 & B2 & B3 & B4 & B5). repeat apply conj.
  - now rewrite B1, A1, app_assoc.
  - now rewrite B2, A2, app_assoc.
  - intros e He. apply in_app_or in He. destruct He as [He|He].
    + destruct (A3 e He) as (? & ? & ?). auto.
    + destruct (B3 e He) as (? & ? & ?). split; [auto|]. split; auto.
  - auto.
  - rewrite map_app. apply NoDup_app_intro; auto. intros x H1 H2. apply in_map_iff in H1, H2.
    destruct H1 as (e1 & <- & I1), H2 as (e2 & E & I2). destruct (A3 e1 I1) as (_ & _ & D1), (B3 e2 I2) as (_ & D2 & _).
    rewrite E in D2. auto.
Qed.
Lemma grown_negate S d : grown S (mkslicer (s_tcx S) d (s_stmts S) (s_constr S)) [] [].
Proof. apply (grown_refl S). Qed.

(** The transformed statements [b'] behave like what is left of the original ones. *)
Definition sem (wr : ident -> Prop) (W : place -> Prop) (orig : (place -> bool) -> list stmt) (b' : list stmt)
    (N : list slice_stmt) (K : list expr) : Prop :=
  forall I k s0 off (G : ident -> Prop),
  (forall e, In e N -> G (sl_ident e) /\ exists v, s0 (sl_ident e) = VBool v /\ off (sl_at e) = negb v) ->
  (forall x, W x -> (forall e, In e N -> sl_at e <> x) -> off x = false) ->
  (forall c, In c K -> holds I c s0 = true) ->
  (forall x, G x -> ~ wr x) ->
  forall X Y, (forall s, agree G s0 s -> X s = Y s) ->
  forall s, agree G s0 s -> wp_block I isd k b' X s = wp_block I isd k (orig off) Y s.

(** Removing more statements of one effect moves the value in one direction. *)
Definition eff (W : place -> Prop) (orig : (place -> bool) -> list stmt) (N : list slice_stmt) (K : list expr) (d d' : direction) : Prop :=
  forall I k g s1 s2 off1 off2, interp_ok I ->
  (forall e, In e N -> exists v1 v2, s1 (sl_ident e) = VBool v1 /\ s2 (sl_ident e) = VBool v2 /\
     off1 (sl_at e) = negb v1 /\ off2 (sl_at e) = negb v2 /\ (v1 = v2 \/ v1 = true /\ v2 = false /\ lab g e = true)) ->
  (forall x, W x -> (forall e, In e N -> sl_at e <> x) -> off1 x = false /\ off2 x = false) ->
  (forall c, In c K -> holds I c s1 = true /\ holds I c s2 = true) ->
  forall X Y, ord (seen g d') X Y -> ord (seen g d) (wp_block I isd k (orig off1) X) (wp_block I isd k (orig off2) Y).

(** ** Nothing done *)
Lemma sem_id (W : place -> Prop) orig b : All (wts isd isf) b -> All (every not_while) b ->
  (forall off, (forall x, W x -> off x = false) -> orig off = b) -> sem (fun x => writes_block x b) W orig b [] [].
Proof.
  intros H1 H2 H3 I k s0 off G _ Ho _ Hg X Y E s A. rewrite H3 by (intros; apply Ho; auto).
  eapply wp_block_agree; eauto.
Qed.
Lemma eff_id (W : place -> Prop) orig st : wts isd isf st -> every neutral st ->
  (forall off, (forall x, W x -> off x = false) -> orig off = [st]) ->
  forall d, eff W orig [] [] d (tog (flips st) d).
Proof.
  intros H1 H2 H3 d I k g s1 s2 off1 off2 HI _ Ho _ X Y E. rewrite !H3 by (intros; apply Ho; auto).
  pose proof (wp_pol I isd isf k HI st H1 H2) as P. cbn [wp_block fold_right].
  destruct (flips st); cbn [pol tog] in P, E; destruct g, d; cbn [seen toggle ord] in *; apply P; auto.
Qed.

(** ** Composition *)
Lemma sem_weaken (wr wr' : ident -> Prop) (W W' : place -> Prop) orig orig' b' N K :
  (forall x, wr x -> wr' x) ->
  (forall x, W x -> W' x) ->
  (forall off, (forall x, W' x -> (forall e, In e N -> sl_at e <> x) -> off x = false) ->
     forall I k, wp_block I isd k (orig' off) = wp_block I isd k (orig off)) ->
  sem wr W orig b' N K -> sem wr' W' orig' b' N K.
Proof.
  intros Hw HW Ho H I k s0 off G H1 H2 H3 H4 X Y E s A. rewrite Ho by auto. eapply H; [exact H1 | intros x Hx; apply H2; auto | exact H3 | | exact E | exact A].
  intros x Hx Hx'. eapply H4; eauto.
Qed.
Lemma eff_weaken (W W' : place -> Prop) orig orig' N K d d' :
  (forall x, W x -> W' x) ->
  (forall off, (forall x, W' x -> (forall e, In e N -> sl_at e <> x) -> off x = false) ->
     forall I k, wp_block I isd k (orig' off) = wp_block I isd k (orig off)) ->
  eff W orig N K d d' -> eff W' orig' N K d d'.
Proof.
  intros HW Ho H I k g s1 s2 off1 off2 HI H1 H2 H3 X Y E. rewrite !Ho by (intros; apply H2; auto). eapply H; [exact HI | exact H1 | intros x Hx; apply H2; auto | exact H3 | exact E].
Qed.

Section Two.
Variables (W1 W2 W : place -> Prop) (N1 N2 : list slice_stmt).
Hypotheses (D12 : forall x, W1 x -> ~ W2 x) (I1 : forall x, W1 x -> W x) (I2 : forall x, W2 x -> W x)
  (P1 : forall e, In e N1 -> W1 (sl_at e)) (P2 : forall e, In e N2 -> W2 (sl_at e)).

Lemma sep1 (P : place -> Prop) : (forall x, W x -> (forall e, In e (N1 ++ N2) -> sl_at e <> x) -> P x) ->
  forall x, W1 x -> (forall e, In e N1 -> sl_at e <> x) -> P x.
Proof.
  intros H x Hx Hn. apply H; auto. intros e He E. apply in_app_or in He. destruct He as [He|He]; [eapply Hn; eauto|].
  apply P2 in He. rewrite E in He. eapply D12; eauto.
Qed.
Lemma sep2 (P : place -> Prop) : (forall x, W x -> (forall e, In e (N1 ++ N2) -> sl_at e <> x) -> P x) ->
  forall x, W2 x -> (forall e, In e N2 -> sl_at e <> x) -> P x.
Proof.
  intros H x Hx Hn. apply H; auto. intros e He E. apply in_app_or in He. destruct He as [He|He]; [|eapply Hn; eauto].
  apply P1 in He. rewrite E in He. eapply D12; eauto.
Qed.

Lemma sem_seq (wr1 wr2 wr : ident -> Prop) o1 o2 b1 b2 K1 K2 : (forall x, wr1 x -> wr x) -> (forall x, wr2 x -> wr x) ->
  sem wr1 W1 o1 b1 N1 K1 -> sem wr2 W2 o2 b2 N2 K2 ->
  sem wr W (fun off => o1 off ++ o2 off) (b1 ++ b2) (N1 ++ N2) (K1 ++ K2).
Proof.
  intros Hw1 Hw2 S1 S2 I k s0 off G H1 H2 H3 H4 X Y E s A. rewrite !app_wp.
  eapply S1; eauto.
  - intros e He. apply H1, in_or_app. auto.
  - apply (sep1 (fun x => off x = false)), H2.
  - intros c Hc. apply H3, in_or_app. auto.
  - intros x Hx Hw. eapply H4; eauto.
  - intros s' A'. eapply S2; eauto.
    + intros e He. apply H1, in_or_app. auto.
    + apply (sep2 (fun x => off x = false)), H2.
    + intros c Hc. apply H3, in_or_app. auto.
    + intros x Hx Hw. eapply H4; eauto.
Qed.
Lemma eff_seq o1 o2 K1 K2 d1 d2 d3 : eff W1 o1 N1 K1 d1 d2 -> eff W2 o2 N2 K2 d2 d3 ->
  eff W (fun off => o1 off ++ o2 off) (N1 ++ N2) (K1 ++ K2) d1 d3.
Proof.
  intros S1 S2 I k g s1 s2 off1 off2 HI H1 H2 H3 X Y E. rewrite !app_wp.
  eapply S1; eauto.
  - intros e He. apply H1, in_or_app. auto.
  - apply (sep1 (fun x => off1 x = false /\ off2 x = false)), H2.
  - intros c Hc. apply H3, in_or_app. auto.
  - eapply S2; eauto.
    + intros e He. apply H1, in_or_app. auto.
    + apply (sep2 (fun x => off1 x = false /\ off2 x = false)), H2.
    + intros c Hc. apply H3, in_or_app. auto.
Qed.

(** Statements with two branches. *)
Variables (mk : list stmt -> list stmt -> stmt) (h : interp -> env -> eur -> eur -> eur).
Hypotheses (Hmk : forall I k a b X s, wp I isd k (mk a b) X s = h I s (wp_block I isd k a X s) (wp_block I isd k b X s))
  (Hmono : forall I s a b a' b', ele a a' -> ele b b' -> ele (h I s a b) (h I s a' b')).
Lemma sem_two (wr1 wr2 wr : ident -> Prop) o1 o2 b1 b2 K1 K2 : (forall x, wr1 x -> wr x) -> (forall x, wr2 x -> wr x) ->
  sem wr1 W1 o1 b1 N1 K1 -> sem wr2 W2 o2 b2 N2 K2 ->
  sem wr W (fun off => [mk (o1 off) (o2 off)]) [mk b1 b2] (N1 ++ N2) (K1 ++ K2).
Proof.
  intros Hw1 Hw2 S1 S2 I k s0 off G H1 H2 H3 H4 X Y E s A. cbn [wp_block fold_right]. rewrite !Hmk. f_equal.
  - eapply S1; eauto.
    + intros e He. apply H1, in_or_app. auto.
    + apply (sep1 (fun x => off x = false)), H2.
    + intros c Hc. apply H3, in_or_app. auto.
    + intros x Hx Hw. eapply H4; eauto.
  - eapply S2; eauto.
    + intros e He. apply H1, in_or_app. auto.
    + apply (sep2 (fun x => off x = false)), H2.
    + intros c Hc. apply H3, in_or_app. auto.
    + intros x Hx Hw. eapply H4; eauto.
Qed.
Lemma eff_two o1 o2 K1 K2 d : eff W1 o1 N1 K1 d d -> eff W2 o2 N2 K2 d d ->
  eff W (fun off => [mk (o1 off) (o2 off)]) (N1 ++ N2) (K1 ++ K2) d d.
Proof.
  intros S1 S2 I k g s1 s2 off1 off2 HI H1 H2 H3 X Y E.
  assert (A1 : ord (seen g d) (wp_block I isd k (o1 off1) X) (wp_block I isd k (o1 off2) Y)).
  { eapply S1; eauto.
    - intros e He. apply H1, in_or_app. auto.
    - apply (sep1 (fun x => off1 x = false /\ off2 x = false)), H2.
    - intros c Hc. apply H3, in_or_app. auto. }
  assert (A2 : ord (seen g d) (wp_block I isd k (o2 off1) X) (wp_block I isd k (o2 off2) Y)).
  { eapply S2; eauto.
    - intros e He. apply H1, in_or_app. auto.
    - apply (sep2 (fun x => off1 x = false /\ off2 x = false)), H2.
    - intros c Hc. apply H3, in_or_app. auto. }
  apply ord_of. intros s Hs. pose proof (ord_at _ _ _ s A1 Hs) as B1. pose proof (ord_at _ _ _ s A2 Hs) as B2.
  cbn [wp_block fold_right]. rewrite !Hmk. destruct (seen g d); auto.
Qed.
End Two.

(** ** Statements with a toggle of their own *)
Lemma sem_leaf p e st st' (orig : (place -> bool) -> list stmt) : sl_at e = p -> wts isd isf st -> every not_while st ->
  (forall off, orig off = if off p then [] else [st]) ->
  (forall I k X s, s (sl_ident e) = VBool true -> wp I isd k st' X s = wp I isd k st X s) ->
  (forall I k X s, s (sl_ident e) = VBool false -> wp I isd k st' X s = X s) ->
  sem (fun x => writes x st) (below p) orig [st'] [e] [].
Proof.
  intros Ep Hw Hn Ho Hon Hoff I k s0 off G H1 H2 _ H4 X Y E s A.
  destruct (H1 e (or_introl eq_refl)) as (HG & v & V1 & V2). rewrite Ho. rewrite Ep in V2. rewrite V2.
  assert (Vs : s (sl_ident e) = VBool v) by (rewrite A by auto; exact V1).
  destruct v; cbn [negb wp_block fold_right].
  - rewrite Hon by auto. eapply wp_agree; eauto.
  - rewrite Hoff by auto. auto.
Qed.
Lemma eff_leaf p e st (orig : (place -> bool) -> list stmt) d : sl_at e = p -> wts isd isf st -> every neutral st -> flips st = false ->
  (forall off, orig off = if off p then [] else [st]) ->
  (forall g I k X s, lab g e = true -> interp_ok I -> env_ok s ->
     match seen g d with Down => ele (wp I isd k st X s) (X s) | Up => ele (X s) (wp I isd k st X s) end) ->
  eff (below p) orig [e] [] d d.
Proof.
  intros Ep Hw Hn Hf Ho Hl I k g s1 s2 off1 off2 HI H1 _ _ X Y E.
  destruct (H1 e (or_introl eq_refl)) as (v1 & v2 & _ & _ & O1 & O2 & HD). rewrite !Ho. rewrite Ep in O1, O2. rewrite O1, O2.
  pose proof (wp_pol I isd isf k HI st Hw Hn) as P. rewrite Hf in P. cbn [pol] in P.
  assert (Q : ord (seen g d) (wp I isd k st X) (wp I isd k st Y)) by (destruct (seen g d); apply P; exact E).
  destruct HD as [-> | (-> & -> & L)].
  - destruct v2; cbn [negb wp_block fold_right]; auto.
  - cbn [negb wp_block fold_right]. apply ord_of. intros s Hs. pose proof (ord_at _ _ _ s E Hs) as B.
    pose proof (Hl g I k X s L HI Hs) as Z. destruct (seen g d); eapply ele_trans; eauto.
Qed.

(** ** Choices with toggles for their branches *)
Section Choice.
Variables (p : place) (N1 N2 : list slice_stmt) (K1 K2 : list expr) (e1 e2 : slice_stmt).
Variables (mk : list stmt -> list stmt -> stmt) (h : eur -> eur -> eur) (z : eur).
Hypotheses (Hmk : forall I k a b X s, wp I isd k (mk a b) X s = h (wp_block I isd k a X s) (wp_block I isd k b X s))
  (Hmono : forall a b a' b', ele a a' -> ele b b' -> ele (h a b) (h a' b'))
  (Hz1 : forall a, h z a = a) (Hz2 : forall a, h a z = a).
Hypotheses (P1 : forall e, In e N1 -> inblock (0 :: p) 0 (sl_at e)) (P2 : forall e, In e N2 -> inblock (1 :: p) 0 (sl_at e))
  (E1 : sl_at e1 = 0 :: p) (E2 : sl_at e2 = 1 :: p).
Variables (o1 o2 orig : (place -> bool) -> list stmt).
Hypothesis Ho : forall off, off p = false -> orig off = if off (0 :: p) then o2 off else if off (1 :: p) then o1 off else [mk (o1 off) (o2 off)].
Let N := (N1 ++ N2) ++ [e1; e2].
Let K := (K1 ++ K2) ++ [EBin TBool OOr (EVar (sl_ident e1)) (EVar (sl_ident e2))].

Lemma choice_p (P : place -> Prop) : (forall x, below p x -> (forall e, In e N -> sl_at e <> x) -> P x) -> P p.
Proof.
  intros H. apply H; [exists []; reflexivity|]. intros e He E. unfold N in He. rewrite !in_app_iff in He.
  destruct He as [[He|He]|[<-|[<-|[]]]].
  - apply P1, inblock_below, below_neq in He. auto.
  - apply P2, inblock_below, below_neq in He. auto.
  - rewrite E1 in E. apply (f_equal (@List.length nat)) in E. cbn in E. lia.
  - rewrite E2 in E. apply (f_equal (@List.length nat)) in E. cbn in E. lia.
Qed.
Lemma choice_1 (P : place -> Prop) : (forall x, below p x -> (forall e, In e N -> sl_at e <> x) -> P x) ->
  forall x, inblock (0 :: p) 0 x -> (forall e, In e N1 -> sl_at e <> x) -> P x.
Proof.
  intros H x Hx Hn. apply H; [apply inblock_below, below_up in Hx; auto|]. intros e He E. unfold N in He. rewrite !in_app_iff in He.
  pose proof (inblock_below _ _ _ Hx) as Bx.
  destruct He as [[He|He]|[<-|[<-|[]]]].
  - eapply Hn; eauto.
  - apply P2, inblock_below in He. rewrite E in He. pose proof (below_disj _ _ _ _ Bx He). discriminate.
  - rewrite E1 in E. subst x. eapply inblock_neq; [exact Hx | reflexivity].
  - rewrite E2 in E. subst x. assert (B2 : below (1 :: p) (1 :: p)) by (exists []; auto).
    pose proof (below_disj _ _ _ _ Bx B2). discriminate.
Qed.
Lemma choice_2 (P : place -> Prop) : (forall x, below p x -> (forall e, In e N -> sl_at e <> x) -> P x) ->
  forall x, inblock (1 :: p) 0 x -> (forall e, In e N2 -> sl_at e <> x) -> P x.
Proof.
  intros H x Hx Hn. apply H; [apply inblock_below, below_up in Hx; auto|]. intros e He E. unfold N in He. rewrite !in_app_iff in He.
  pose proof (inblock_below _ _ _ Hx) as Bx.
  destruct He as [[He|He]|[<-|[<-|[]]]].
  - apply P1, inblock_below in He. rewrite E in He. pose proof (below_disj _ _ _ _ Bx He). discriminate.
  - eapply Hn; eauto.
  - rewrite E1 in E. subst x. assert (B2 : below (0 :: p) (0 :: p)) by (exists []; auto).
    pose proof (below_disj _ _ _ _ Bx B2). discriminate.
  - rewrite E2 in E. subst x. eapply inblock_neq; [exact Hx | reflexivity].
Qed.
Lemma not_both I s v1 v2 : (forall c, In c K -> holds I c s = true) -> s (sl_ident e1) = VBool v1 -> s (sl_ident e2) = VBool v2 -> v1 || v2 = true.
Proof.
  intros H V1 V2. specialize (H (EBin TBool OOr (EVar (sl_ident e1)) (EVar (sl_ident e2)))).
  unfold holds in H. cbn [eval] in H. rewrite V1, V2 in H. cbn [eval_bin] in H. apply H. unfold K. apply in_or_app. right. left. reflexivity.
Qed.

Lemma sem_choice (wr1 wr2 wr : ident -> Prop) b1 b2 g1 g2 : (forall x, wr1 x -> wr x) -> (forall x, wr2 x -> wr x) ->
  sem wr1 (inblock (0 :: p) 0) o1 b1 N1 K1 -> sem wr2 (inblock (1 :: p) 0) o2 b2 N2 K2 ->
  (forall I k X s v, s (sl_ident e1) = VBool v -> wp I isd k g1 X s = if v then X s else z) ->
  (forall I k X s v, s (sl_ident e2) = VBool v -> wp I isd k g2 X s = if v then X s else z) ->
  sem wr (below p) orig [mk (g1 :: b1) (g2 :: b2)] N K.
Proof.
  intros Hw1 Hw2 S1 S2 G1 G2 I k s0 off G H1 H2 H3 H4 X Y E s A.
  destruct (H1 e1) as (T1 & v1 & V1 & O1); [unfold N; apply in_or_app; right; left; reflexivity|].
  destruct (H1 e2) as (T2 & v2 & V2 & O2); [unfold N; apply in_or_app; right; right; left; reflexivity|].
  pose proof (not_both I s0 v1 v2 H3 V1 V2) as NB. rewrite E1 in O1. rewrite E2 in O2.
  rewrite Ho by (apply (choice_p (fun x => off x = false)), H2). rewrite O1, O2.
  assert (A1 : wp_block I isd k b1 X s = wp_block I isd k (o1 off) Y s).
  { eapply S1; eauto.
    - intros e He. apply H1. unfold N. rewrite !in_app_iff. auto.
    - apply (choice_1 (fun x => off x = false)), H2.
    - intros c Hc. apply H3. unfold K. rewrite !in_app_iff. auto.
    - intros x Hx Hw. eapply H4; eauto. }
  assert (A2 : wp_block I isd k b2 X s = wp_block I isd k (o2 off) Y s).
  { eapply S2; eauto.
    - intros e He. apply H1. unfold N. rewrite !in_app_iff. auto.
    - apply (choice_2 (fun x => off x = false)), H2.
    - intros c Hc. apply H3. unfold K. rewrite !in_app_iff. auto.
    - intros x Hx Hw. eapply H4; eauto. }
  cbn [wp_block fold_right]. rewrite Hmk. cbn [wp_block fold_right].
  fold (wp_block I isd k b1 X). fold (wp_block I isd k b2 X).
  rewrite (G1 I k _ s v1), (G2 I k _ s v2) by (rewrite A by auto; auto). rewrite A1, A2.
  destruct v1, v2; cbn [negb] in *; try discriminate; cbn [wp_block fold_right]; rewrite ?Hmk, ?Hz1, ?Hz2; reflexivity.
Qed.

Lemma eff_choice d : eff (inblock (0 :: p) 0) o1 N1 K1 d d -> eff (inblock (1 :: p) 0) o2 N2 K2 d d ->
  (forall g e, (e = e1 \/ e = e2) -> lab g e = true -> forall a b,
     match seen g d with Down => ele (h a b) a /\ ele (h a b) b | Up => ele a (h a b) /\ ele b (h a b) end) ->
  eff (below p) orig N K d d.
Proof.
  intros S1 S2 HL I k g s1 s2 off1 off2 HI H1 H2 H3 X Y E.
  destruct (H1 e1) as (v1 & w1 & V1 & U1 & O1 & Q1 & D1); [unfold N; apply in_or_app; right; left; reflexivity|].
  destruct (H1 e2) as (v2 & w2 & V2 & U2 & O2 & Q2 & D2); [unfold N; apply in_or_app; right; right; left; reflexivity|].
  pose proof (not_both I s1 v1 v2 (fun c Hc => proj1 (H3 c Hc)) V1 V2) as NB1.
  pose proof (not_both I s2 w1 w2 (fun c Hc => proj2 (H3 c Hc)) U1 U2) as NB2.
  rewrite E1 in O1, Q1. rewrite E2 in O2, Q2.
  destruct (choice_p (fun x => off1 x = false /\ off2 x = false) H2) as [F1 F2].
  rewrite !Ho by auto. rewrite O1, O2, Q1, Q2.
  assert (A1 : ord (seen g d) (wp_block I isd k (o1 off1) X) (wp_block I isd k (o1 off2) Y)).
  { eapply S1; eauto.
    - intros e He. apply H1. unfold N. rewrite !in_app_iff. auto.
    - apply (choice_1 (fun x => off1 x = false /\ off2 x = false)), H2.
    - intros c Hc. apply H3. unfold K. rewrite !in_app_iff. auto. }
  assert (A2 : ord (seen g d) (wp_block I isd k (o2 off1) X) (wp_block I isd k (o2 off2) Y)).
  { eapply S2; eauto.
    - intros e He. apply H1. unfold N. rewrite !in_app_iff. auto.
    - apply (choice_2 (fun x => off1 x = false /\ off2 x = false)), H2.
    - intros c Hc. apply H3. unfold K. rewrite !in_app_iff. auto. }
  apply ord_of. intros s Hs. pose proof (ord_at _ _ _ s A1 Hs) as B1. pose proof (ord_at _ _ _ s A2 Hs) as B2.
  pose proof (fun L => HL g e1 (or_introl eq_refl) L (wp_block I isd k (o1 off1) X s) (wp_block I isd k (o2 off1) X s)) as L1.
  pose proof (fun L => HL g e2 (or_intror eq_refl) L (wp_block I isd k (o1 off1) X s) (wp_block I isd k (o2 off1) X s)) as L2.
  destruct D1 as [<- | (-> & -> & D1)], D2 as [<- | (-> & -> & D2)]; try (destruct v1); try (destruct v2); cbn [negb orb] in *; try discriminate;
    cbn [wp_block fold_right]; rewrite ?Hmk; destruct (seen g d); auto;
    try (specialize (L1 D1)); try (specialize (L2 D2)); try tauto;
    try (eapply ele_trans; [|eassumption]; tauto); try (eapply ele_trans; [eassumption|]; tauto).
Qed.
End Choice.
End Steps.
