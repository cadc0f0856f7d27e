(** Literal-initialised declarations can be made before anything else. *)
From Coq Require Import Bool List ZArith NArith QArith Reals Lia FunctionalExtensionality.
From Verif.Model Require Import Syntax Lits Builder Dist Jani.
From Verif.Spec Require Import Eur Sem Wp Frame JaniSem.
From Verif.Proofs Require Import EurLemmas SemLemmas WpLemmas VcGenProofs MonoProofs FrameProofs JaniFrag.
Import ListNotations.

(** Translated statements have no negations. *)
Lemma tr_no_negate fbody dir st : forall next a r, tr_stmt fbody dir st next a = Ok r -> every not_negate st.
Proof.
  assert (HB : forall b, Forall (fun st => forall next a r, tr_stmt fbody dir st next a = Ok r -> every not_negate st) b ->
    forall next a r, tr_block fbody dir b next a = Ok r -> All (every not_negate) b).
  { induction 1 as [|st0 b Hst Hb IH]; intros next a r Ht; [exact Logic.I|]. cbn [tr_block] in Ht.
    destruct (tr_block fbody dir b next a) as [[l a1]| |] eqn:Eb; try discriminate. split; eauto. }
  induction st using stmt_rect'; intros next a0 r Ht; cbn [tr_stmt] in Ht; cbn [every not_negate]; try discriminate Ht;
    try (split; exact Logic.I); repeat rewrite tr_block_eq in Ht.
  - split; eauto.
  - destruct dir; [|discriminate]. cbn [fresh_loc] in Ht. rewrite tr_block_eq in Ht.
    destruct (tr_block fbody Down a _ _) as [[l1 a2]| |] eqn:Ea; try discriminate. cbn [rbind] in Ht. rewrite tr_block_eq in Ht.
    destruct (tr_block fbody Down b _ _) as [[l2 a3]| |] eqn:Eb; try discriminate. split; [exact Logic.I|]. split; eauto.
  - destruct dir; [discriminate|]. cbn [fresh_loc] in Ht. rewrite tr_block_eq in Ht.
    destruct (tr_block fbody Up a _ _) as [[l1 a2]| |] eqn:Ea; try discriminate. cbn [rbind] in Ht. rewrite tr_block_eq in Ht.
    destruct (tr_block fbody Up b _ _) as [[l2 a3]| |] eqn:Eb; try discriminate. split; [exact Logic.I|]. split; eauto.
  - cbn [fresh_loc] in Ht. destruct (jtr fbody c); try discriminate. cbn [rbind] in Ht. rewrite tr_block_eq in Ht.
    destruct (tr_block fbody dir a _ _) as [[l1 a2]| |] eqn:Ea; try discriminate. cbn [rbind] in Ht. rewrite tr_block_eq in Ht.
    destruct (tr_block fbody dir b _ _) as [[l2 a3]| |] eqn:Eb; try discriminate. split; [exact Logic.I|]. split; eauto.
  - cbn [fresh_loc] in Ht. destruct (jtr fbody c); try discriminate. cbn [rbind] in Ht. rewrite tr_block_eq in Ht.
    destruct (tr_block fbody dir b _ _) as [[l1 a2]| |] eqn:Ea; try discriminate. split; [exact Logic.I|]. eauto.
  - split; [exact Logic.I|]. eauto.
Qed.
Lemma tr_block_no_negate fbody dir b : forall next a r, tr_block fbody dir b next a = Ok r -> All (every not_negate) b.
Proof.
  induction b as [|st b IH]; intros next a r Ht; [exact Logic.I|]. cbn [tr_block] in Ht.
  destruct (tr_block fbody dir b next a) as [[l a1]| |] eqn:Eb; try discriminate. split; eauto using tr_no_negate.
Qed.

Lemma strip_none st : lit_decls st = [] -> strip st = st.
Proof.
  assert (HB : forall b, Forall (fun st => lit_decls st = [] -> strip st = st) b -> flat_map lit_decls b = [] -> map strip b = b).
  { induction 1 as [|st0 b Hst Hb IH]; intros E; [reflexivity|]. cbn [flat_map map] in *. apply app_eq_nil in E. destruct E. f_equal; auto. }
  induction st using stmt_rect'; cbn [lit_decls strip]; intros E; auto;
    try (apply app_eq_nil in E; destruct E; f_equal; auto; fail); try (f_equal; auto; fail).
  destruct i as [e|]; auto. destruct (is_constant e); [discriminate | reflexivity].
Qed.

Lemma inits_block_eq b :
  (fix block b := match b with
    | [] => True
    | s :: b' => inits_ok s /\ (forall x e, In (x, e) (flat_map lit_decls b') -> ~ writes x s) /\ block b'
    end) b <-> inits_ok_block b.
Proof. induction b as [|s b IH]; [reflexivity|]. cbn [inits_ok_block]. rewrite IH. reflexivity. Qed.

Section Hoist.
  Context (isf : String.string -> bool) (I : interp) (HI : interp_ok I).
  (** The declared variables have their values. *)
  Definition given (s : env) (l : list (ident * expr)) : Prop := forall x e, In (x, e) l -> is_constant e = true -> s x = eval I e s.
  Lemma lit_decls_constant st x e : In (x, e) (lit_decls st) -> is_constant e = true.
  Proof.
    assert (HB : forall b, Forall (fun st => In (x, e) (lit_decls st) -> is_constant e = true) b -> In (x, e) (flat_map lit_decls b) -> is_constant e = true).
    { induction 1 as [|st' b Hst Hb IH]; cbn [flat_map]; intros H; [destruct H|]. apply in_app_or in H. destruct H; auto. }
    induction st using stmt_rect'; cbn [lit_decls]; try (intros []; fail); eauto;
      try (intros K; apply in_app_or in K; destruct K; eauto; fail).
    destruct i as [e'|]; [|intros []]. destruct (is_constant e') eqn:Ec; [|intros []]. intros [E|[]]. now injection E as <- <-.
  Qed.
  Lemma eval_constant e s s' : is_constant e = true -> eval I e s = eval I e s'.
  Proof. destruct e; try discriminate. reflexivity. Qed.

  Definition hoists (st : stmt) : Prop := wts is_dist isf st -> every not_negate st -> inits_ok st ->
    forall X s, env_ok s -> given s (lit_decls st) -> wp I is_dist Least st X s = wp I is_dist Least (strip st) X s.

  Lemma hoist_block b : Forall hoists b -> All (wts is_dist isf) b -> All (every not_negate) b -> inits_ok_block b ->
    forall X s, env_ok s -> given s (flat_map lit_decls b) -> wp_block I is_dist Least b X s = wp_block I is_dist Least (map strip b) X s.
  Proof.
    induction 1 as [|st0 b Hst Hb IH]; intros Hw Hn Hi X s Hs Hg; [reflexivity|].
    destruct Hw as [W1 W2], Hn as [N1 N2], Hi as (I1 & I2 & I3). cbn [wp_block fold_right map flat_map] in *.
    fold (wp_block I is_dist Least b X). fold (wp_block I is_dist Least (map strip b) X).
    rewrite <- (Hst W1 N1 I1 (wp_block I is_dist Least (map strip b) X) s Hs) by (intros x e Hx; apply Hg; apply in_or_app; auto).
    apply (frame_eq I is_dist isf Least (fun x => writes x st0)); auto. intros s' [Hs' Ho]. apply IH; auto.
    intros x e Hx Hc. rewrite Ho by (eapply I2; eauto). rewrite (eval_constant e s' s) by auto. apply Hg; auto. apply in_or_app. auto.
  Qed.

  Lemma upd_id s x : upd s x (s x) = s.
  Proof.
    apply functional_extensionality. intros y. destruct (ident_dec x y) as [<-|Ne]; [apply upd_same | now apply upd_other].
  Qed.

  Lemma given_app s l l' : given s (l ++ l') -> given s l /\ given s l'.
  Proof. intros H. split; intros x e Hx; apply H; apply in_or_app; auto. Qed.

  Theorem hoist st : hoists st.
  Proof.
    induction st using stmt_rect'; unfold hoists; cbn [wts every inits_ok lit_decls strip]; intros Hw Hn Hi X s Hs Hg; try reflexivity.
    - apply hoist_block; auto; first [apply Hn | now apply inits_block_eq].
    - destruct i as [e|]; [|reflexivity]. destruct (is_constant e) eqn:Ec; [|reflexivity]. cbn [wp fold_right].
      specialize (Hg x e (or_introl eq_refl) Ec). destruct e; try discriminate Ec. cbn [assign_sem]. now rewrite <- Hg, upd_id.
    - apply given_app in Hg. destruct Hw as [W1 W2], Hn as (_ & N1 & N2), Hi as [I1 I2], Hg as [G1 G2]. apply inits_block_eq in I1, I2. cbn [wp].
      f_equal; apply hoist_block; auto.
    - apply given_app in Hg. destruct Hw as [W1 W2], Hn as (_ & N1 & N2), Hi as [I1 I2], Hg as [G1 G2]. apply inits_block_eq in I1, I2. cbn [wp].
      f_equal; apply hoist_block; auto.
    - apply given_app in Hg. destruct Hw as [W1 W2], Hn as (_ & N1 & N2), Hi as [I1 I2], Hg as [G1 G2]. apply inits_block_eq in I1, I2. cbn [wp].
      f_equal; apply hoist_block; auto.
    - apply given_app in Hg. destruct Hw as (_ & W1 & W2), Hn as (_ & N1 & N2), Hi as [I1 I2], Hg as [G1 G2]. apply inits_block_eq in I1, I2. cbn [wp].
      destruct (holds I c s); apply hoist_block; auto.
    - assert (E : map strip b = b); [|now rewrite E].
      clear - Hi. induction b as [|st b IH]; [reflexivity|]. cbn [flat_map map] in *. apply app_eq_nil in Hi. destruct Hi. f_equal; auto using strip_none.
    - apply IHst; auto. apply Hn.
  Qed.
  Theorem hoist_all b : All (wts is_dist isf) b -> All (every not_negate) b -> inits_ok_block b ->
    forall X s, env_ok s -> given s (flat_map lit_decls b) -> wp_block I is_dist Least b X s = wp_block I is_dist Least (map strip b) X s.
  Proof. apply hoist_block. induction b; constructor; auto using hoist. Qed.
End Hoist.
