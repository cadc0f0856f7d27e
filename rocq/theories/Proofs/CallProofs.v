(** Procedure verification and procedure calls. *)
From Coq Require Import Bool List String FunctionalExtensionality Lia.
From Verif.Model Require Import Syntax TyCtx AstUtil Procs.
From Verif.Spec Require Import Eur Sem Wp Frame Calls.
From Verif.Proofs Require Import EurLemmas SemLemmas SimLemmas WpLemmas VcGenProofs MonoProofs FrameProofs SubstProofs TyCtxProofs.
Import ListNotations.
Local Open Scope list_scope.
Local Arguments eleb : simpl never.

(** ** Orders *)
Definition meet (d : direction) (a b : eur) : eur := match d with Down => emin a b | Up => emax a b end.
Definition dtop (d : direction) : eur := match d with Down => etop | Up => ebot end.
Definition dbot (d : direction) : eur := match d with Down => ebot | Up => etop end.
Lemma below_refl d a : below d a a. Proof. destruct d; apply ele_refl. Qed.
Lemma below_trans d a b c : below d a b -> below d b c -> below d a c.
Proof. destruct d; cbn [below meet dtop dbot]; eauto using ele_trans. Qed.
Lemma below_mono1 d f a b : (forall x y, ele x y -> ele (f x) (f y)) -> below d a b -> below d (f a) (f b).
Proof. destruct d; cbn [below meet dtop dbot]; auto. Qed.
Lemma below_mono2 d f a b a' b' : (forall x y z w, ele x y -> ele z w -> ele (f x z) (f y w)) -> below d a a' -> below d b b' -> below d (f a b) (f a' b').
Proof. destruct d; cbn [below meet dtop dbot]; auto. Qed.
Lemma below_top d a : below d a (dtop d). Proof. destruct d; cbn [below meet dtop dbot]; auto using ele_top, ebot_le. Qed.
Lemma below_bot d a : below d (dbot d) a. Proof. destruct d; cbn [below meet dtop dbot]; auto using ele_top, ebot_le. Qed.
Lemma top_below d a : below d (dtop d) a -> a = dtop d. Proof. destruct d; cbn [below meet dtop dbot]; auto using top_le, le_ebot. Qed.
Lemma meet_l d a b : below d (meet d a b) a. Proof. destruct d; cbn [below meet dtop dbot]; auto using emin_l, emax_l. Qed.
Lemma meet_r d a b : below d (meet d a b) b. Proof. destruct d; cbn [below meet dtop dbot]; auto using emin_r, emax_r. Qed.
Lemma meet_glb d a b c : below d c a -> below d c b -> below d c (meet d a b). Proof. destruct d; cbn [below meet dtop dbot]; auto using emin_glb, emax_lub. Qed.
Lemma all_of_cons d a l : all_of d (a :: l) = meet d a (all_of d l). Proof. destruct d; reflexivity. Qed.
Lemma all_of_nil d : all_of d [] = dtop d. Proof. destruct d; reflexivity. Qed.
Lemma assume_top d a b : assume_sem d a b = dtop d <-> below d a b.
Proof.
  destruct d; cbn [assume_sem below dtop]; match goal with |- context [eleb ?a ?c] => destruct (eleb a c) eqn:L end.
  - apply eleb_iff in L. tauto.
  - apply eleb_false in L. split; [intros ->; exfalso; apply L, ele_top | tauto].
  - apply eleb_iff in L. tauto.
  - apply eleb_false in L. split; [intros ->; exfalso; apply L, ebot_le | tauto].
Qed.
Lemma assume_adj d a b c : below d c (assume_sem d a b) <-> below d (meet d c a) b.
Proof.
  destruct d; cbn [assume_sem below meet]; match goal with |- context [eleb ?a ?c] => destruct (eleb a c) eqn:L end;
    first [apply eleb_iff in L | apply eleb_false in L].
  - split; intros _; [eapply ele_trans; [apply emin_r | exact L] | apply ele_top].
  - rewrite emin_le_iff. tauto.
  - split; intros _; [eapply ele_trans; [exact L | apply emax_r] | apply ebot_le].
  - rewrite le_emax_iff. tauto.
Qed.

(** ** Blocks *)
Lemma wp_block_app I isd k a b X : wp_block I isd k (a ++ b) X = wp_block I isd k a (wp_block I isd k b X).
Proof. unfold wp_block. apply fold_right_app. Qed.
Lemma wp_asserts I isd k d (g : expr -> expr) (w : stmt -> stmt) : (forall s, w s = wrap_with_error_message s) -> forall l X s,
  wp_block I isd k (map (fun e => w (SAssert d (g e))) l) X s = meet d (all_of d (map (fun e => ev I (g e) s) l)) (X s).
Proof.
  intros Hw l X s. induction l as [|e l IH]; cbn [map].
  - rewrite all_of_nil. cbn [wp_block fold_right]. destruct d; cbn [below meet dtop dbot]; unfold emin, emax.
    + destruct (eleb etop (X s)) eqn:L; auto. apply eleb_iff, top_le in L. congruence.
    + destruct (eleb ebot (X s)) eqn:L; auto. apply eleb_false in L. destruct L. apply ebot_le.
  - rewrite all_of_cons. cbn [wp_block fold_right]. rewrite Hw. fold (wp_block I isd k (map (fun e => w (SAssert d (g e))) l) X).
    assert (A : forall a b, below d a b -> below d b a -> a = b) by (destruct d; cbn [below]; auto using ele_antisym).
    transitivity (meet d (ev I (g e) s) (wp_block I isd k (map (fun e => w (SAssert d (g e))) l) X s)); [now destruct d|].
    rewrite IH. apply A; repeat apply meet_glb; eauto using meet_l, meet_r, below_trans.
Qed.
Lemma wp_assumes I isd k d l X s :
  (wp_block I isd k (map (fun e => wrap_with_success_message (SAssume d e)) l) X s = dtop d <-> below d (spec_exp I d l s) (X s)) /\
  forall c, below d c (wp_block I isd k (map (fun e => wrap_with_success_message (SAssume d e)) l) X s) <-> below d (meet d c (spec_exp I d l s)) (X s).
Proof.
  assert (H : forall c, below d c (wp_block I isd k (map (fun e => wrap_with_success_message (SAssume d e)) l) X s) <-> below d (meet d c (spec_exp I d l s)) (X s)).
  { unfold spec_exp. induction l as [|e l IH]; intros c; cbn [map].
    - rewrite all_of_nil. cbn [wp_block fold_right]. assert (E : meet d c (dtop d) = c); [|now rewrite E].
      destruct d; cbn [below meet dtop dbot]; apply ele_antisym; auto using emin_l, emax_l, emin_glb, emax_lub, ele_refl, ele_top, ebot_le.
    - rewrite all_of_cons. cbn [wp_block fold_right]. cbn [wrap_with_success_message wp].
      fold (wp_block I isd k (map (fun e => wrap_with_success_message (SAssume d e)) l) X).
      change (fun e => SAnn "success_msg" [] (SAssume d e)) with (fun e => wrap_with_success_message (SAssume d e)).
      rewrite assume_adj, IH.
      assert (E : meet d (meet d c (ev I e s)) (all_of d (map (fun e0 => ev I e0 s) l)) = meet d c (meet d (ev I e s) (all_of d (map (fun e0 => ev I e0 s) l)))); [|now rewrite E].
      set (q := all_of _ _). assert (A : forall a b, below d a b -> below d b a -> a = b) by (destruct d; cbn [below meet dtop dbot]; auto using ele_antisym).
      apply A; repeat apply meet_glb; eauto using meet_l, meet_r, below_trans. }
  split; [|exact H]. split.
  - intros E. assert (K := H (dtop d)). rewrite E in K. destruct K as [K _]. specialize (K (below_refl _ _)).
    eapply below_trans; [|exact K]. apply meet_glb; [apply below_top | apply below_refl].
  - intros L. apply top_below. apply H. eapply below_trans; [apply meet_r | exact L].
Qed.

(** * C11 *)
Theorem proc_verify_correct I isd k p d b body : encode_proc_verify p = Some (d, b) -> pbody p = Some body ->
  d = pdir p /\ forall s, wp_block I isd k b (fun _ => dtop d) s = dtop d <->
    below d (spec_exp I d (requires p) s) (wp_block I isd k body (wp_block I isd k (map (fun e => wrap_with_error_message (SAssert d e)) (ensures p)) (fun _ => dtop d)) s).
Proof.
  intros E B. unfold encode_proc_verify in E. rewrite B in E. injection E as <- <-. split; [reflexivity|]. intros s.
  rewrite !wp_block_app. apply wp_assumes.
Qed.
Lemma ensures_exp I isd k d l : wp_block I isd k (map (fun e => wrap_with_error_message (SAssert d e)) l) (fun _ => dtop d) = spec_exp I d l.
Proof.
  apply functional_extensionality. intros s. unfold spec_exp. rewrite (wp_asserts I isd k d (fun e => e) wrap_with_error_message); [|reflexivity].
  set (q := all_of _ _). assert (A : forall a b, below d a b -> below d b a -> a = b) by (destruct d; cbn [below meet dtop dbot]; auto using ele_antisym).
  apply A; [apply meet_l | apply meet_glb; [apply below_refl | apply below_top]].
Qed.
Theorem proc_verified_iff I isd k p d b body : encode_proc_verify p = Some (d, b) -> pbody p = Some body ->
  d = pdir p /\ ((forall s, env_ok s -> wp_block I isd k b (fun _ => dtop d) s = dtop d) <-> meets I p (wp_block I isd k body)).
Proof.
  intros E B. destruct (proc_verify_correct I isd k p d b body E B) as [-> H]. split; [reflexivity|]. unfold meets. rewrite (ensures_exp I isd k) in H.
  split; intros K s Hs; apply H; auto.
Qed.
(** Switching to lower bounds. *)
Theorem lower_bounds_correct I isd k d b d' b' : to_direction_lower_bounds (d, b) = (d', b') -> d' = Down /\
  forall s, wp_block I isd k b' (fun _ => etop) s = etop <-> wp_block I isd k b (fun _ => dtop d) s = dtop d.
Proof.
  destruct d; cbn [to_direction_lower_bounds fst snd]; intros E; injection E as <- <-; split; auto; intros s; [tauto|].
  change (SNegate Down :: b ++ [SNegate Up]) with ([SNegate Down] ++ b ++ [SNegate Up]). rewrite !wp_block_app.
  assert (Z : wp_block I isd k [SNegate Up] (fun _ => etop) = (fun _ => dtop Up)) by reflexivity. rewrite Z.
  cbn [wp_block fold_right wp negate_sem]. fold (wp_block I isd k b (fun _ => dtop Up)). cbn [dtop].
  match goal with |- context [eleb ?a ?c] => destruct (eleb a c) eqn:L end.
  - apply eleb_iff, le_ebot in L. tauto.
  - apply eleb_false in L. split; [intros C; now destruct ebot_neq_etop | intros C; exfalso; apply L; rewrite C; apply ele_refl].
Qed.
