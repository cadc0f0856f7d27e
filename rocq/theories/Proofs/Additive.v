(** Without nondeterminism the preexpectation of a sum is the sum of the preexpectations: programs that assign, sample,
    branch, weigh and loop, for least fixpoints. *)
From Coq Require Import Bool List String Reals Lra.
From Verif.Model Require Import Syntax.
From Verif.Spec Require Import Eur Sem Wp Loops Termination.
From Verif.Proofs Require Import EurLemmas SemLemmas WpLemmas MonoProofs Scaling.
Import ListNotations.
Local Open Scope R_scope.

Definition plus (X Y : exp) : exp := fun s => eadd (X s) (Y s).
Lemma eadd_swap a b c d : eadd (eadd a b) (eadd c d) = eadd (eadd a c) (eadd b d).
Proof. rewrite !eadd_assoc. f_equal. rewrite <- !eadd_assoc. f_equal. apply eadd_comm. Qed.
Lemma emul_eadd p a b : emul p (eadd a b) = eadd (emul p a) (emul p b).
Proof.
  destruct (eur_cases p) as [(r & Hr & ->)| ->].
  - destruct (Req_dec r 0) as [->|N]; [change (fin 0) with ebot; now rewrite !emul_0_l, eadd_0_l|].
    symmetry. apply scale_eadd. lra.
  - destruct (eur_cases a) as [(x & Hx & ->)| ->]; [|now rewrite eadd_Inf_l; change (emul Inf Inf) with Inf; rewrite eadd_Inf_l].
    destruct (eur_cases b) as [(y & Hy & ->)| ->]; [|now rewrite eadd_Inf_r; change (emul Inf Inf) with Inf; rewrite eadd_Inf_r].
    rewrite eadd_fin by auto. destruct (Req_dec x 0) as [->|Nx].
    + rewrite Rplus_0_l. change (fin 0) with ebot. now rewrite emul_0_r, eadd_0_l.
    + rewrite (emul_Inf_l x), eadd_Inf_l by lra. apply emul_Inf_l. lra.
Qed.
Lemma expected_eadd d f g : expected d (fun v => eadd (f v) (g v)) = eadd (expected d f) (expected d g).
Proof.
  induction d as [|[p v] d IH]; cbn [expected]; [now rewrite eadd_0_l|]. rewrite IH, emul_eadd. apply eadd_swap.
Qed.
Lemma plus_assign I isd xs e X Y s : assign_sem I isd xs e (plus X Y) s = eadd (assign_sem I isd xs e X s) (assign_sem I isd xs e Y s).
Proof.
  unfold assign_sem. destruct xs as [|x [|y xs]]; try (now rewrite eadd_0_l).
  destruct e; try reflexivity. destruct (isd f); [|reflexivity]. destruct (dist_sem _ _); [|now rewrite eadd_0_l].
  unfold plus. apply expected_eadd.
Qed.

Lemma linear_scalable st : every linear st -> every scalable st.
Proof.
  assert (HB : forall b, Forall (fun st => every linear st -> every scalable st) b -> All (every linear) b -> All (every scalable) b)
    by (induction 1; cbn; tauto).
  induction st using stmt_rect'; intros P; cbn [every scalable linear] in *; try tauto;
    repeat match goal with Hf : Forall _ ?b |- _ => pose proof (HB _ Hf); clear Hf end; tauto.
Qed.
Lemma linear_block_scalable b : All (every linear) b -> All (every scalable) b.
Proof. induction b as [|s b IH]; cbn; auto. intros [A B]. split; auto using linear_scalable. Qed.

Lemma mono_ext F X Y s : mono F -> (forall t, env_ok t -> X t = Y t) -> env_ok s -> F X s = F Y s.
Proof.
  intros M H Hs. apply ele_antisym; apply M; auto; intros t Ht; rewrite (H t Ht); apply ele_refl.
Qed.
Lemma lfp_fix F s : mono F -> env_ok s -> lfp F s = F (lfp F) s.
Proof. intros M Hs. apply ele_antisym; [now apply lfp_postfix | now apply lfp_prefix]. Qed.

(** What is left of [a] without [b], for [b] below [a]. *)
Definition rest (a b : eur) : eur := match b with Inf => Inf | _ => emonus a b end.
Lemma rest_fin x y : 0 <= x -> 0 <= y -> rest (fin x) (fin y) = fin (x - y).
Proof. intros Hx Hy. unfold rest. rewrite <- emonus_fin by auto. reflexivity. Qed.
Lemma rest_Inf_l a : rest Inf a = Inf.
Proof. destruct a; reflexivity. Qed.
Lemma rest_sum a b : ele b a -> eadd (rest a b) b = a.
Proof.
  destruct (eur_cases b) as [(y & Hy & ->)| ->].
  - destruct (eur_cases a) as [(x & Hx & ->)| ->]; intros L; [|now rewrite rest_Inf_l, eadd_Inf_l].
    apply (proj1 (ele_fin y x Hy Hx)) in L. rewrite rest_fin by auto. rewrite eadd_fin by lra. f_equal. lra.
  - intros L. apply top_le in L. subst a. reflexivity.
Qed.
Lemma rest_unique a b x : eadd x b = a -> ele x (rest a b).
Proof.
  destruct (eur_cases b) as [(y & Hy & ->)| ->]; [|intros; apply ele_top].
  intros <-. destruct (eur_cases x) as [(z & Hz & ->)| ->]; [|rewrite eadd_Inf_l, rest_Inf_l; apply ele_top].
  rewrite eadd_fin, rest_fin by lra. replace (z + y - y) with z by lra. apply ele_refl.
Qed.

Definition additive (F : exp -> exp) : Prop := forall X Y s, env_ok s -> F (plus X Y) s = eadd (F X s) (F Y s).

Section Loop.
  Variables (g : env -> bool) (B : exp -> exp).
  Hypothesis M : mono B.
  Hypothesis A : additive B.
  Let F (X Y : exp) : exp := fun s => if g s then B Y s else X s.
  Lemma F_mono X : mono (F X).
  Proof. intros Y Z H s Hs. unfold F. destruct (g s); [now apply M | apply ele_refl]. Qed.
  Lemma loop_additive : additive (fun X => lfp (F X)).
  Proof.
    intros X Y. set (L := lfp (F (plus X Y))).
    assert (FT : forall Z s, env_ok s -> g s = true -> lfp (F Z) s = B (lfp (F Z)) s).
    { intros Z s Hs E. rewrite lfp_fix at 1 by auto using F_mono. unfold F at 1. now rewrite E. }
    assert (FF : forall Z s, env_ok s -> g s = false -> lfp (F Z) s = Z s).
    { intros Z s Hs E. rewrite lfp_fix at 1 by auto using F_mono. unfold F at 1. now rewrite E. }
    assert (Up : exp_le L (plus (lfp (F X)) (lfp (F Y)))).
    { apply lfp_least. intros s Hs. unfold F at 1. destruct (g s) eqn:E.
      - rewrite A by auto. rewrite <- !FT by auto. apply ele_refl.
      - unfold plus. rewrite !FF by auto. apply ele_refl. }
    assert (LY : exp_le (lfp (F Y)) L).
    { apply lfp_mono. intros Z s Hs. unfold F. destruct (g s); [apply ele_refl|]. unfold plus. rewrite <- (eadd_0_l (Y s)) at 1.
      apply eadd_mono; [apply ebot_le | apply ele_refl]. }
    set (D := fun s => rest (L s) (lfp (F Y) s)).
    assert (SD : forall s, env_ok s -> plus D (lfp (F Y)) s = L s) by (intros s Hs; unfold plus, D; apply rest_sum, LY, Hs).
    assert (LX : exp_le (lfp (F X)) D).
    { apply lfp_least. intros s Hs. apply rest_unique. unfold F at 1. destruct (g s) eqn:E.
      - rewrite (FT Y s) by auto. unfold L. rewrite (FT (plus X Y) s) by auto. rewrite <- A by auto. apply mono_ext; auto.
      - rewrite (FF Y s) by auto. symmetry. now apply (FF (plus X Y)). }
    intros s Hs. apply ele_antisym; [now apply Up|]. fold L. rewrite <- (SD s Hs). unfold plus.
    apply eadd_mono; [now apply LX | apply ele_refl].
  Qed.
End Loop.

Section Additive.
  Variables (I : interp) (isd isf : string -> bool).
  Hypothesis HI : interp_ok I.
  Lemma all_additive b : Forall (fun st => wts isd isf st -> every linear st -> additive (wp I isd Least st)) b ->
    All (wts isd isf) b -> All (every linear) b -> additive (wp_block I isd Least b).
  Proof.
    induction 1 as [|st b H F IH]; intros W P X Y s Hs; [reflexivity|]. destruct W as [W1 W2], P as [P1 P2]. cbn [wp_block fold_right].
    change (fold_right (wp I isd Least) ?Z b) with (wp_block I isd Least b Z).
    rewrite <- (H W1 P1) by auto. apply mono_ext; auto.
    - apply (wp_mono I isd isf Least st HI W1). apply scalable_no_negate. now apply linear_scalable.
    - intros t Ht. now apply IH.
  Qed.
  Theorem stmt_additive st : wts isd isf st -> every linear st -> additive (wp I isd Least st).
  Proof.
    induction st using stmt_rect'; intros W P; cbn [wts every linear] in W, P; try (destruct P as [[] _]; fail);
      try (intros X Y s0 Hs0).
    all: repeat match goal with Hf : Forall _ ?b |- _ => pose proof (all_additive b Hf); clear Hf end.
    all: repeat match goal with H : _ /\ _ |- _ => destruct H end.
    all: cbn [wp]; repeat match goal with |- context [fold_right (wp I isd Least) ?Y ?b] => change (fold_right (wp I isd Least) Y b) with (wp_block I isd Least b Y) end.
    all: try reflexivity.
    all: try (apply plus_assign).
    - match goal with H : _ -> _ -> additive (wp_block I isd Least b) |- _ => apply H; auto end.
    - destruct i; [apply plus_assign | reflexivity].
    - unfold plus. rewrite !(emul_comm _ (ev I e s0)). apply emul_eadd.
    - match goal with H : _ -> _ -> additive (wp_block I isd Least a), H' : _ -> _ -> additive (wp_block I isd Least b) |- _ => rewrite (H ltac:(auto) ltac:(auto)), (H' ltac:(auto) ltac:(auto)) by auto end. apply eadd_swap.
    - destruct (holds I c s0); match goal with H : _ -> _ -> additive (wp_block I isd Least ?x) |- wp_block I isd Least ?x _ _ = _ => apply H; auto end.
    - refine (loop_additive (holds I c) (wp_block I isd Least b) _ _ X Y s0 Hs0); auto.
      apply (wp_block_mono I isd isf Least b HI); auto. apply scalable_block_no_negate. now apply linear_block_scalable.
    - apply IHst; auto.
  Qed.
  Theorem block_additive b : All (wts isd isf) b -> All (every linear) b -> additive (wp_block I isd Least b).
  Proof. intros W P. apply (stmt_additive (SSeq b)); cbn [wts every linear]; auto. Qed.
End Additive.
