(** The rules for almost-sure termination and optional stopping, for loops whose body is a program without nondeterminism,
    possibly with loops: all that matters about the body is that its preexpectation is linear in the postexpectation.
    The rule for positive almost-sure termination is in PastProofs. *)
From Coq Require Import Bool List String Reals Lra Lia.
From Verif.Model Require Import Syntax.
From Verif.Spec Require Import Eur Sem Wp Loops Termination.
From Verif.Proofs Require Import EurLemmas SemLemmas WpLemmas MonoProofs Scaling Additive.
Import ListNotations.
Local Open Scope R_scope.

(** Finite values as reals. *)
Definition rv (a : eur) : R := match a with Fin x => nval x | Inf => 0 end.
Lemma rv_pos a : 0 <= rv a.
Proof. destruct a; cbn; [apply nval_nonneg | lra]. Qed.
Lemma rv_fin a : a <> Inf -> a = fin (rv a).
Proof. destruct a; [intros _; apply Fin_fin | congruence]. Qed.
Lemma rv_of r : 0 <= r -> rv (fin r) = r.
Proof. intros H. cbn. now apply nval_of. Qed.
Lemma fin_le r q : ele (fin r) (fin q) -> 0 <= r -> 0 <= q -> r <= q.
Proof. intros H Hr Hq. now apply (ele_fin r q Hr Hq). Qed.
Lemma le_fin x r : ele x (fin r) -> 0 <= r -> exists q, 0 <= q /\ q <= r /\ x = fin q.
Proof.
  intros H Hr. destruct (eur_cases x) as [(q & Hq & ->)| ->]; [|now apply not_ele_Inf_fin in H].
  exists q. repeat split; auto. now apply fin_le.
Qed.
Lemma emonus_le a b x : ele (emonus a b) x <-> ele a (eadd b x).
Proof.
  destruct (eur_cases b) as [(q & Hq & ->)| ->]; [|rewrite emonus_Inf_r, eadd_Inf_l; split; intros; [apply ele_top | apply ebot_le]].
  destruct (eur_cases x) as [(r & Hr & ->)| ->]; [|rewrite eadd_Inf_r; split; intros; apply ele_top].
  rewrite eadd_fin by auto. destruct (eur_cases a) as [(p & Hp & ->)| ->].
  - rewrite emonus_fin by auto. rewrite (ele_fin p (q + r)) by lra. destruct (Rle_dec 0 (p - q)).
    + rewrite ele_fin by lra. split; lra.
    + rewrite fin_neg by lra. split; intros; [lra | apply ebot_le].
  - change (emonus Inf (fin q)) with Inf. split; intros H; now apply not_ele_Inf_fin in H.
Qed.

Definition distance (a b : eur) : eur := if eleb a b then emonus b a else emonus a b.
Lemma distance_fin a b : a <> Inf -> b <> Inf -> distance a b = fin (Rabs (rv b - rv a)).
Proof.
  intros Ha Hb. rewrite (rv_fin a Ha), (rv_fin b Hb). pose proof (rv_pos a). pose proof (rv_pos b). rewrite !rv_of by auto.
  unfold distance. rewrite !emonus_fin by auto. destruct (eleb (fin (rv a)) (fin (rv b))) eqn:El.
  - apply eleb_iff in El. apply fin_le in El; auto. f_equal. symmetry. apply Rabs_right. lra.
  - apply eleb_false in El. rewrite ele_fin in El by auto. f_equal. rewrite Rabs_minus_sym. symmetry. apply Rabs_right. lra.
Qed.

Section Abstract.
  Variables (g : env -> bool) (B : exp -> exp).
  Hypothesis M : mono B.
  Hypothesis A : additive B.
  Hypothesis Sc : forall r X s, 0 < r -> env_ok s -> B (scale r X) s = emul (fin r) (B X s).
  Hypothesis B1 : forall s, env_ok s -> ele (B (fun _ => eone) s) eone.
  Definition Lf (X Y : exp) : exp := fun s => if g s then B Y s else X s.
  Lemma Lf_mono X : mono (Lf X).
  Proof. intros Y Z H s Hs. unfold Lf. destruct (g s); [now apply M | apply ele_refl]. Qed.
  Lemma Lf_true X s : env_ok s -> g s = true -> lfp (Lf X) s = B (lfp (Lf X)) s.
  Proof. intros Hs E. rewrite lfp_fix at 1 by auto using Lf_mono. unfold Lf at 1. now rewrite E. Qed.
  Lemma Lf_false X s : env_ok s -> g s = false -> lfp (Lf X) s = X s.
  Proof. intros Hs E. rewrite lfp_fix at 1 by auto using Lf_mono. unfold Lf at 1. now rewrite E. Qed.
  Lemma B_1 s : env_ok s -> exists q, 0 <= q /\ q <= 1 /\ B (fun _ => eone) s = fin q.
  Proof. intros Hs. apply le_fin; [now apply B1 | lra]. Qed.
  Lemma B_0 s : env_ok s -> B (fun _ => ebot) s = ebot.
  Proof.
    intros Hs. destruct (B_1 s Hs) as (q & Q0 & Q1 & Eq).
    assert (L : ele (B (fun _ => ebot) s) (fin q)) by (rewrite <- Eq; apply M; auto; intros t Ht; apply ebot_le).
    destruct (le_fin _ _ L Q0) as (x & X0 & _ & Ex). pose proof (Sc 2 (fun _ => ebot) s ltac:(lra) Hs) as E.
    rewrite (mono_ext B (scale 2 (fun _ => ebot)) (fun _ => ebot) s) in E by (auto; intros; unfold scale; apply emul_0_r).
    rewrite Ex, emul_fin in E by lra. apply fin_inj in E; try lra. rewrite Ex. apply fin_neg. lra.
  Qed.
  Lemma Sc0 r X s : 0 <= r -> env_ok s -> B (scale r X) s = emul (fin r) (B X s).
  Proof.
    intros Hr Hs. destruct (Req_dec r 0) as [->|N]; [|apply Sc; auto; lra]. change (fin 0) with ebot. rewrite emul_0_l.
    rewrite <- (B_0 s Hs). apply mono_ext; auto. intros t Ht. unfold scale. change (fin 0) with ebot. apply emul_0_l.
  Qed.

  (** The expected number of iterations. *)
  Definition Ef (Y : exp) : exp := fun s => if g s then eadd eone (B Y s) else ebot.
  Lemma Ef_mono : mono Ef.
  Proof. intros Y Z H s Hs. unfold Ef. destruct (g s); [|apply ele_refl]. apply eadd_mono; [apply ele_refl | now apply M]. Qed.
  Lemma Ef_true s : env_ok s -> g s = true -> lfp Ef s = eadd eone (B (lfp Ef) s).
  Proof. intros Hs E. rewrite lfp_fix at 1 by auto using Ef_mono. unfold Ef at 1. now rewrite E. Qed.
  Lemma Ef_false s : env_ok s -> g s = false -> lfp Ef s = ebot.
  Proof. intros Hs E. rewrite lfp_fix at 1 by auto using Ef_mono. unfold Ef at 1. now rewrite E. Qed.

  (** What does not decrease and stays below a finite expected number of iterations is nothing. *)
  Lemma gap (D : exp) : (forall s, env_ok s -> lfp Ef s <> Inf) -> exp_le D (lfp Ef) ->
    (forall s, env_ok s -> g s = true -> ele (D s) (B D s)) -> forall s, env_ok s -> D s = ebot.
  Proof.
    intros Ef_fin HD HB. set (W := fun s => rest (lfp Ef s) (D s)).
    assert (SW : forall s, env_ok s -> plus W D s = lfp Ef s) by (intros s Hs; apply rest_sum, HD, Hs).
    assert (L : exp_le (lfp Ef) W).
    { apply lfp_least. intros s Hs. unfold Ef at 1. destruct (g s) eqn:E; [|apply ebot_le].
      pose proof (HB s Hs E) as Hd. pose proof (Ef_true s Hs E) as Ee. pose proof (Ef_fin s Hs) as Fe.
      assert (S : eadd (B W s) (B D s) = B (lfp Ef) s) by (rewrite <- A by auto; apply mono_ext; auto).
      unfold W at 2. rewrite Ee in Fe |- *. rewrite <- S in Fe |- *.
      destruct (eur_cases (B W s)) as [(w & W0 & Ew)|Ew]; rewrite Ew in *; [|now rewrite eadd_Inf_l, eadd_Inf_r in Fe].
      destruct (eur_cases (B D s)) as [(d & D0 & Ed)|Ed]; rewrite Ed in *; [|now rewrite !eadd_Inf_r in Fe].
      destruct (le_fin _ _ Hd D0) as (x & X0 & X1 & ->). unfold eone. rewrite !eadd_fin, rest_fin by lra. apply ele_fin; lra. }
    intros s Hs. specialize (L s Hs). unfold W in L. pose proof (HD s Hs) as Hd.
    rewrite (rv_fin _ (Ef_fin s Hs)) in L, Hd. apply le_fin in Hd; [|apply rv_pos]. destruct Hd as (d & D0 & D1 & Ed).
    rewrite Ed in L |- *. rewrite rest_fin in L by (auto; apply rv_pos). apply fin_le in L; [|apply rv_pos|lra]. apply fin_neg. lra.
  Qed.

  (** * Optional stopping *)
  Theorem stopping (J post past : exp) (b : R) : 0 <= b ->
    (forall s, env_ok s -> past s <> Inf) ->
    (forall s, env_ok s -> g s = true -> ele (B (fun t => eadd (past t) eone) s) (past s)) ->
    (forall s, env_ok s -> g s = true -> ele (B (fun t => distance (J s) (J t)) s) (fin b)) ->
    (forall s, env_ok s -> g s = false -> J s = post s) ->
    (forall s, env_ok s -> J s <> Inf) ->
    exp_le J (Lf post J) -> exp_le J (lfp (Lf post)).
  Proof.
    intros Hb Hfin Hpast Hdiff Hharm FJ Hlow. set (E := lfp Ef). set (L := lfp (Lf post)).
    (* few iterations are expected *)
    assert (EF : forall s, env_ok s -> E s <> Inf).
    { assert (H : exp_le E (fun s => eadd (past s) eone)).
      { apply lfp_least. intros s Hs. unfold Ef. destruct (g s) eqn:G; [|apply ebot_le]. rewrite eadd_comm.
        apply eadd_mono; [now apply Hpast | apply ele_refl]. }
      intros s Hs Es. specialize (H s Hs). rewrite Es in H. apply top_le in H. specialize (Hfin s Hs).
      rewrite (rv_fin _ Hfin) in H. unfold eone in H. rewrite eadd_fin in H by (try apply rv_pos; lra). discriminate. }
    (* the loop ends, or its body gets lost *)
    set (Tf := fun (Y : exp) s => if g s then eadd (emonus eone (B (fun _ => eone) s)) (B Y s) else eone).
    assert (TM : mono Tf).
    { intros Y Z H s Hs. unfold Tf. destruct (g s); [|apply ele_refl]. apply eadd_mono; [apply ele_refl | now apply M]. }
    set (T := lfp Tf).
    assert (TT : forall s, env_ok s -> g s = true -> T s = eadd (emonus eone (B (fun _ => eone) s)) (B T s)).
    { intros s Hs G. unfold T. rewrite lfp_fix at 1 by auto. unfold Tf at 1. now rewrite G. }
    assert (TF : forall s, env_ok s -> g s = false -> T s = eone).
    { intros s Hs G. unfold T. rewrite lfp_fix at 1 by auto. unfold Tf at 1. now rewrite G. }
    assert (T1 : exp_le T (fun _ => eone)).
    { apply lfp_least. intros s Hs. unfold Tf. destruct (g s); [|apply ele_refl]. destruct (B_1 s Hs) as (q & Q0 & Q1 & ->).
      unfold eone. rewrite emonus_fin, eadd_fin by lra. apply ele_fin; lra. }
    assert (TE : forall s, env_ok s -> T s = eone).
    { set (N := fun s => rest eone (T s)).
      assert (SN : forall s, env_ok s -> plus N T s = eone) by (intros s Hs; apply rest_sum; now apply T1).
      assert (N0 : forall s, env_ok s -> N s = ebot).
      { apply gap; [exact EF| |].
        - intros s Hs. fold E. unfold N. destruct (g s) eqn:G.
          + unfold E. rewrite Ef_true by auto. destruct (le_fin _ _ (T1 s Hs) ltac:(lra)) as (x & X0 & X1 & ->).
            apply ele_trans with eone; [unfold eone; rewrite rest_fin by lra; apply ele_fin; lra|].
            rewrite <- (eadd_0_r eone) at 1. apply eadd_mono; [apply ele_refl | apply ebot_le].
          + rewrite TF by auto. unfold eone. rewrite rest_fin by lra. rewrite fin_neg by lra. apply ebot_le.
        - intros s Hs G. unfold N at 1. rewrite TT by auto.
          assert (S : eadd (B N s) (B T s) = B (fun _ => eone) s) by (rewrite <- A by auto; apply mono_ext; auto).
          destruct (B_1 s Hs) as (q & Q0 & Q1 & Eq). rewrite Eq in S |- *.
          destruct (eur_cases (B N s)) as [(x & X0 & Ex)|Ex]; rewrite Ex in *; [|discriminate S].
          destruct (eur_cases (B T s)) as [(y & Y0 & Ey)|Ey]; rewrite Ey in *; [|discriminate S].
          rewrite eadd_fin in S by auto. apply fin_inj in S; try lra. unfold eone. rewrite emonus_fin by lra. rewrite eadd_fin, rest_fin by lra.
          apply ele_fin; lra. }
      intros s Hs. rewrite <- (SN s Hs). unfold plus. now rewrite N0, eadd_0_l by auto. }
    (* so the invariant is not far below *)
    set (W := plus L (scale (2 * b) E)).
    set (Z := fun s => if Rlt_dec 0 (rv (J s)) then emin eone (emul (fin (/ rv (J s))) (W s)) else eone).
    assert (Z1 : forall s, ele (Z s) eone) by (intros s; unfold Z; destruct (Rlt_dec _ _); [apply emin_l | apply ele_refl]).
    assert (Z2 : forall s, ele (emul (fin (rv (J s))) (Z s)) (W s)).
    { intros s. unfold Z. destruct (Rlt_dec _ _) as [P|P].
      - rewrite <- (scale_inv (rv (J s)) (W s) P) at 2. apply emul_mono; [apply ele_refl | apply emin_r].
      - rewrite fin_neg by lra. rewrite emul_0_l. apply ebot_le. }
    assert (Z3 : forall s t, env_ok s -> env_ok t -> ele (emul (fin (rv (J s))) (Z t)) (eadd (W t) (distance (J s) (J t)))).
    { intros s t Hs Ht. rewrite distance_fin by auto. specialize (Z2 t). destruct (le_fin _ _ (Z1 t) ltac:(lra)) as (z & z0 & z1 & Ez).
      rewrite Ez in *. pose proof (rv_pos (J s)) as Ps. pose proof (rv_pos (J t)) as Pt.
      destruct (eur_cases (W t)) as [(w & W0 & Ew)|Ew]; rewrite Ew in *; [|rewrite eadd_Inf_l; apply ele_top].
      assert (0 <= rv (J t) * z) by (apply Rmult_le_pos; auto). assert (0 <= rv (J s) * z) by (apply Rmult_le_pos; auto).
      pose proof (Rabs_pos (rv (J t) - rv (J s))) as Ap.
      rewrite emul_fin in * by auto. apply fin_le in Z2; auto. rewrite eadd_fin by auto. apply ele_fin; [auto|lra|].
      assert ((rv (J s) - rv (J t)) * z <= Rabs (rv (J t) - rv (J s)) * 1); [|lra].
      rewrite Rabs_minus_sym in *. destruct (Rle_dec 0 (rv (J s) - rv (J t))) as [Q|Q].
      - rewrite Rabs_right by lra. apply Rmult_le_compat_l; auto.
      - assert (0 <= (rv (J t) - rv (J s)) * z) by (apply Rmult_le_pos; lra). lra. }
    assert (TZ : exp_le T Z).
    { apply lfp_least. intros s Hs. unfold Tf. destruct (g s) eqn:G.
      - assert (X1 : ele (eadd (emonus eone (B (fun _ => eone) s)) (B Z s)) eone).
        { destruct (B_1 s Hs) as (q & Q0 & Q1 & Eq). assert (Lz : ele (B Z s) (fin q)) by (rewrite <- Eq; apply M; auto; intros t Ht; apply Z1).
          destruct (le_fin _ _ Lz Q0) as (z & z0 & z1 & Ez). rewrite Ez. rewrite Eq. unfold eone. rewrite emonus_fin, eadd_fin by lra. apply ele_fin; lra. }
        unfold Z at 2. destruct (Rlt_dec 0 (rv (J s))) as [P|P]; [|exact X1]. apply emin_glb; [exact X1|].
        apply le_scale; [now apply Rinv_0_lt_compat|]. rewrite Rinv_inv. rewrite emul_eadd. rewrite <- Sc by auto.
        assert (Q1 : ele (emul (fin (rv (J s))) (emonus eone (B (fun _ => eone) s))) (fin b)).
        { pose proof (Hlow s Hs) as Hl. unfold Lf in Hl. rewrite G in Hl.
          assert (Hl' : ele (B J s) (eadd (emul (fin (rv (J s))) (B (fun _ => eone) s)) (fin b))).
          { apply ele_trans with (B (plus (scale (rv (J s)) (fun _ => eone)) (fun t => distance (J s) (J t))) s).
            - apply M; auto. intros t Ht. unfold plus, scale. rewrite emul_1_r, distance_fin by auto. rewrite (rv_fin (J t)) at 1 by auto.
              rewrite eadd_fin by (apply rv_pos || apply Rabs_pos). pose proof (Rle_abs (rv (J t) - rv (J s))).
              pose proof (rv_pos (J s)). pose proof (Rabs_pos (rv (J t) - rv (J s))). apply ele_fin; [apply rv_pos | lra | lra].
            - rewrite A by auto. rewrite Sc by auto. apply eadd_mono; [apply ele_refl | now apply Hdiff]. }
          pose proof (ele_trans _ _ _ Hl Hl') as Hx. destruct (B_1 s Hs) as (q & Q0 & Q1 & Eq). rewrite Eq in *.
          rewrite (rv_fin (J s)) in Hx at 1 by auto. assert (0 <= rv (J s) * q) by (apply Rmult_le_pos; lra).
          rewrite emul_fin, eadd_fin in Hx by lra. apply fin_le in Hx; try lra. unfold eone. rewrite emonus_fin by lra.
          assert (0 <= rv (J s) * (1 - q)) by (apply Rmult_le_pos; lra). rewrite emul_fin by lra. apply ele_fin; lra. }
        assert (Q2 : ele (B (scale (rv (J s)) Z) s) (eadd (B W s) (fin b))).
        { apply ele_trans with (B (plus W (fun t => distance (J s) (J t))) s).
          - apply M; auto. intros t Ht. now apply Z3.
          - rewrite A by auto. apply eadd_mono; [apply ele_refl | now apply Hdiff]. }
        eapply ele_trans; [apply eadd_mono; [exact Q1 | exact Q2]|].
        assert (EW : B W s = eadd (B L s) (emul (fin (2 * b)) (B E s))) by (unfold W; rewrite A by auto; rewrite Sc0 by (auto; lra); reflexivity).
        rewrite EW. unfold W, plus, scale. unfold L at 2. rewrite Lf_true by auto. unfold E at 2. rewrite Ef_true by auto.
        rewrite emul_eadd. fold L E. unfold eone. rewrite emul_fin by lra.
        assert (R : forall x y, eadd (fin b) (eadd (eadd x y) (fin b)) = eadd x (eadd (fin (2 * b * 1)) y)).
        { intros x y. rewrite (eadd_comm (eadd x y)), eadd_assoc, eadd_fin by auto. replace (2 * b * 1) with (b + b) by lra.
          rewrite !eadd_assoc. f_equal. apply eadd_comm. }
        rewrite R. apply ele_refl.
      - unfold Z. destruct (Rlt_dec 0 (rv (J s))) as [P|P]; [|apply ele_refl]. apply emin_glb; [apply ele_refl|].
        apply le_scale; [now apply Rinv_0_lt_compat|]. rewrite Rinv_inv, emul_1_r. rewrite <- rv_fin by auto. rewrite (Hharm s Hs G).
        unfold W, plus. unfold L. rewrite Lf_false by auto. rewrite <- (eadd_0_r (post s)) at 1. apply eadd_mono; [apply ele_refl | apply ebot_le]. }
    assert (JW : exp_le J W).
    { intros s Hs. pose proof (TZ s Hs) as H. rewrite TE in H by auto. eapply ele_trans; [|apply Z2]. rewrite (rv_fin (J s)) at 1 by auto.
      rewrite <- (emul_1_r (fin (rv (J s)))) at 1. apply emul_mono; [apply ele_refl | exact H]. }
    (* and the difference does not decrease *)
    set (D := fun s => emonus (J s) (L s)). set (c := 2 * b + 1).
    assert (D0 : forall s, env_ok s -> scale (/ c) D s = ebot).
    { apply gap; [exact EF| |].
      - intros s Hs. unfold scale. apply scale_le; [unfold c; lra|]. apply emonus_le. eapply ele_trans; [now apply JW|].
        unfold W, plus, scale. apply eadd_mono; [apply ele_refl|]. apply emul_mono; [apply ele_fin; unfold c; lra | apply ele_refl].
      - intros s Hs G. rewrite Sc0 by (auto; left; apply Rinv_0_lt_compat; unfold c; lra). unfold scale.
        apply emul_mono; [apply ele_refl|]. apply emonus_le. pose proof (Hlow s Hs) as Hl. unfold Lf in Hl. rewrite G in Hl.
        eapply ele_trans; [exact Hl|]. unfold L. rewrite Lf_true by auto. fold L. rewrite <- A by auto. apply M; auto. intros t Ht.
        unfold plus, D. apply emonus_le, ele_refl. }
    intros s Hs. rewrite <- (eadd_0_r (L s)). apply emonus_le. specialize (D0 s Hs). unfold scale in D0. fold (D s).
    rewrite <- (scale_inv c (D s)) by (unfold c; lra). rewrite D0, emul_0_r. apply ele_refl.
  Qed.

  (** * Almost-sure termination *)
  Section Terminating.
    Variables (J : env -> bool) (V : env -> R) (prob decr : R -> R).
    Hypothesis HV : forall s, env_ok s -> 0 <= V s.
    Hypothesis Hprob : forall a b, 0 <= a -> a <= b -> prob b <= prob a.
    Hypothesis Hdecr : forall a b, 0 <= a -> a <= b -> decr b <= decr a.
    Hypothesis Pprob : forall a, 0 < a -> 0 < prob a.
    Hypothesis Pdecr : forall a, 0 < a -> 0 < decr a.
    Hypothesis Hinv : forall s, env_ok s -> J s = true -> g s = true -> ele eone (B (fun t => if J t then eone else ebot) s).
    Hypothesis Hterm : forall s, env_ok s -> J s = true -> g s = true -> 0 < V s.
    Hypothesis Hsup : forall s, env_ok s -> J s = true -> g s = true -> ele (B (fun t => fin (V t)) s) (fin (V s)).
    Hypothesis Hprog : forall s, env_ok s -> J s = true -> g s = true ->
      ele (fin (prob (V s))) (B (fun t => if Rle_dec (V t) (Rmax 0 (V s - decr (V s))) then eone else ebot) s).

    Lemma kept s : env_ok s -> J s = true -> g s = true ->
      B (fun _ => eone) s = eone /\ B (fun t => if J t then ebot else eone) s = ebot.
    Proof.
      intros Hs Js G. specialize (Hinv s Hs Js G). destruct (B_1 s Hs) as (q & Q0 & Q1 & Eq). rewrite Eq.
      assert (S : eadd (B (fun t => if J t then eone else ebot) s) (B (fun t => if J t then ebot else eone) s) = fin q).
      { rewrite <- Eq, <- A by auto. apply mono_ext; auto. intros t Ht. unfold plus. destruct (J t); [apply eadd_0_r | apply eadd_0_l]. }
      destruct (eur_cases (B (fun t => if J t then eone else ebot) s)) as [(x & X0 & Ex)|Ex]; rewrite Ex in *; [|discriminate S].
      destruct (eur_cases (B (fun t => if J t then ebot else eone) s)) as [(y & Y0 & Ey)|Ey]; rewrite Ey in *; [|rewrite eadd_Inf_r in S; discriminate S].
      rewrite eadd_fin in S by auto. apply fin_inj in S; try lra. apply fin_le in Hinv; try lra. split; [unfold eone; f_equal; lra | apply fin_neg; lra].
    Qed.

    Section Bound.
      Variables (N : env -> R) (H : R).
      Hypothesis HH : 0 < H.
      Hypothesis HN : forall s, env_ok s -> J s = true -> g s = true -> ele (fin (N s)) (B (fun t => fin (N t)) s).
      Hypothesis HN' : forall s, env_ok s -> g s = false -> N s = 0.
      Hypothesis N0 : forall s, env_ok s -> 0 <= N s.
      Hypothesis N1 : forall s, env_ok s -> N s <= 1.
      Let q := Rmin 1 (prob H).
      Lemma q_range : 0 < q <= 1.
      Proof. unfold q. split; [apply Rmin_glb_lt; [lra | auto] | apply Rmin_l]. Qed.

      Lemma improve m : 0 <= m -> (forall s, env_ok s -> J s = true -> N s <= V s / H + m) ->
        forall j s, env_ok s -> J s = true -> V s <= INR j * decr H -> V s <= H -> N s <= V s / H + (1 - q ^ j) * m.
      Proof.
        intros Hm IHm. pose proof q_range as Hq. assert (HinvH : 0 < / H) by (apply Rinv_0_lt_compat; auto).
        induction j as [|j IH]; intros s Hs Js Hj HVH.
        - cbn in Hj. assert (E : g s = false).
          { destruct (g s) eqn:E; auto. specialize (Hterm s Hs Js E). lra. }
          rewrite HN' by auto. cbn. assert (0 <= V s / H); [|lra].
          apply Rmult_le_pos; auto. lra.
        - assert (Hqj : 0 <= q ^ j <= 1).
          { split; [apply pow_le; lra|]. rewrite <- (pow1 j). apply pow_incr. lra. }
          assert (Hqj' : 0 <= q ^ Datatypes.S j <= 1).
          { split; [apply pow_le; lra|]. rewrite <- (pow1 (Datatypes.S j)). apply pow_incr. lra. }
          pose proof (HV s Hs) as Vp. destruct (g s) eqn:E.
          2:{ rewrite HN' by auto. assert (0 <= V s / H) by (apply Rmult_le_pos; [auto | lra]).
              assert (0 <= (1 - q ^ Datatypes.S j) * m) by (apply Rmult_le_pos; lra). lra. }
          pose proof (Hterm s Hs Js E) as Vs. set (ind := fun t => if Rle_dec (V t) (Rmax 0 (V s - decr (V s))) then eone else ebot).
          assert (Hqm : 0 <= q ^ j * m) by (apply Rmult_le_pos; lra).
          assert (Le : ele (B (plus (fun t => fin (N t)) (scale (q ^ j * m) ind)) s)
            (B (plus (plus (scale (/ H) (fun t => fin (V t))) (scale m (fun _ => eone))) (scale (1 + q ^ j * m) (fun t => if J t then ebot else eone))) s)).
          { apply M; auto. intros t Ht. unfold plus, scale. pose proof (N0 t Ht) as n0. pose proof (N1 t Ht) as n1. pose proof (HV t Ht) as vt.
            assert (P : 0 <= / H * V t) by (apply Rmult_le_pos; lra).
            assert (L1 : ele (emul (fin (q ^ j * m)) (ind t)) (fin (q ^ j * m))).
            { rewrite <- (emul_1_r (fin (q ^ j * m))) at 2. apply emul_mono; [apply ele_refl|]. unfold ind.
              destruct (Rle_dec _ _); [apply ele_refl | apply ebot_le]. }
            destruct (J t) eqn:Jt.
            - rewrite emul_0_r, eadd_0_r, emul_1_r. rewrite emul_fin by lra. rewrite (eadd_fin (/ H * V t)) by lra.
              unfold ind. destruct (Rle_dec (V t) (Rmax 0 (V s - decr (V s)))) as [Hd | Hd].
              + assert (Hdd : decr H <= decr (V s)) by (apply Hdecr; lra). pose proof (Pdecr H HH) as PH.
                assert (A1 : V t <= INR j * decr H).
                { pose proof (pos_INR j). assert (0 <= INR j * decr H) by (apply Rmult_le_pos; lra).
                  rewrite S_INR in Hj. unfold Rmax in Hd. destruct (Rle_dec 0 (V s - decr (V s))); lra. }
                assert (A2 : V t <= H) by (unfold Rmax in Hd; destruct (Rle_dec 0 (V s - decr (V s))); lra).
                specialize (IH t Ht Jt A1 A2). unfold Rdiv in IH. rewrite emul_1_r, eadd_fin by lra. apply ele_fin; lra.
              + rewrite emul_0_r, eadd_0_r. specialize (IHm t Ht Jt). unfold Rdiv in IHm. apply ele_fin; lra.
            - rewrite !emul_1_r. eapply ele_trans; [apply eadd_mono; [apply ele_refl | exact L1]|]. rewrite emul_fin, !eadd_fin by lra.
              apply ele_fin; lra. }
          destruct (kept s Hs Js E) as [K1 K2].
          rewrite !A in Le by auto. rewrite !Sc0 in Le by (auto; lra). rewrite K1, K2, emul_0_r, eadd_0_r, emul_1_r in Le.
          assert (Hi : ele (fin q) (B ind s)).
          { apply ele_trans with (fin (prob (V s))); [|now apply Hprog]. pose proof (Pprob H HH). pose proof (Hprob (V s) H ltac:(lra) HVH).
            apply ele_fin; try lra. apply Rle_trans with (prob H); [apply Rmin_r | auto]. }
          assert (Le2 : ele (eadd (fin (N s)) (emul (fin (q ^ j * m)) (fin q))) (eadd (emul (fin (/ H)) (fin (V s))) (fin m))).
          { eapply ele_trans; [apply eadd_mono; [now apply HN | apply emul_mono; [apply ele_refl | exact Hi]]|].
            eapply ele_trans; [exact Le|]. apply eadd_mono; [|apply ele_refl]. apply emul_mono; [apply ele_refl | now apply Hsup]. }
          assert (P1 : 0 <= q ^ j * m * q) by (apply Rmult_le_pos; lra). assert (P2 : 0 <= / H * V s) by (apply Rmult_le_pos; lra).
          pose proof (N0 s Hs). rewrite !emul_fin in Le2 by lra. rewrite !eadd_fin in Le2 by lra. apply fin_le in Le2; try lra.
          cbn [pow]. unfold Rdiv. lra.
      Qed.
      Lemma jump : exists j, H <= INR j * decr H.
      Proof.
        pose proof (Pdecr H HH) as PH. destruct (archimed (H / decr H)) as [Ha _].
        assert (0 < H / decr H) by (apply Rdiv_lt_0_compat; auto).
        exists (Z.to_nat (up (H / decr H))). rewrite INR_IZR_INZ, Z2Nat.id.
        - apply Rlt_le. apply Rmult_lt_reg_r with (/ decr H); [apply Rinv_0_lt_compat; auto|].
          rewrite Rmult_assoc, Rinv_r, Rmult_1_r by lra. exact Ha.
        - apply le_IZR. lra.
      Qed.
      Lemma bounded s : env_ok s -> J s = true -> N s <= V s / H.
      Proof.
        intros Hs Js. destruct jump as (j & Hj). pose proof q_range as Hq.
        assert (Hqj : 0 < q ^ j <= 1).
        { split; [apply pow_lt; lra|]. rewrite <- (pow1 j). apply pow_incr. lra. }
        set (th := 1 - q ^ j). assert (Hth : 0 <= th < 1) by (unfold th; lra).
        assert (HinvH : 0 < / H) by (apply Rinv_0_lt_compat; auto).
        assert (A1 : forall m s, env_ok s -> J s = true -> N s <= V s / H + th ^ m).
        { induction m as [|m IH]; intros t Ht Jt; pose proof (N1 t Ht); pose proof (HV t Ht).
          - cbn. assert (0 <= V t / H) by (apply Rmult_le_pos; [auto | lra]). lra.
          - cbn. destruct (Rle_dec (V t) H) as [Hv | Hv].
            + apply (improve (th ^ m)); auto; [apply pow_le; lra | lra].
            + assert (1 <= V t / H).
              { apply Rmult_le_reg_r with H; auto. unfold Rdiv. rewrite Rmult_assoc, Rinv_l by lra. lra. }
              assert (0 <= th * th ^ m) by (apply Rmult_le_pos; [lra | apply pow_le; lra]). lra. }
        apply Rnot_lt_le. intros Hlt. destruct (pow_lt_1_zero th ltac:(rewrite Rabs_right; lra) (N s - V s / H) ltac:(lra)) as (n0 & Hn).
        specialize (Hn n0 (Nat.le_refl _)). specialize (A1 n0 s Hs Js). pose proof (Rle_abs (th ^ n0)). lra.
      Qed.
    End Bound.

    Theorem terminating s : env_ok s -> J s = true -> lfp (Lf (fun _ => eone)) s = eone.
    Proof.
      intros Hs Js. set (P := lfp (Lf (fun _ => eone))).
      assert (P1 : exp_le P (fun _ => eone)).
      { apply lfp_least. intros t Ht. unfold Lf. destruct (g t); [now apply B1 | apply ele_refl]. }
      set (N := fun t => 1 - rv (P t)).
      assert (Pf : forall t, env_ok t -> P t = fin (rv (P t)) /\ rv (P t) <= 1).
      { intros t Ht. destruct (le_fin _ _ (P1 t Ht) ltac:(lra)) as (x & X0 & X1 & ->). rewrite rv_of by auto. auto. }
      assert (Z : N s <= 0).
      { apply Rnot_lt_le. intros Hpos. pose proof (HV s Hs) as Vs.
        set (H := (V s + 1) / N s). assert (HH : 0 < H) by (apply Rdiv_lt_0_compat; lra).
        assert (Hb : N s <= V s / H).
        { apply (bounded N H HH); auto.
          - intros t Ht Jt G. destruct (kept t Ht Jt G) as [K1 _].
            assert (S : eadd (B (fun u => fin (N u)) t) (B P t) = eone).
            { rewrite <- K1, <- A by auto. apply mono_ext; auto. intros u Hu. unfold plus, N. destruct (Pf u Hu) as [E L].
              pose proof (rv_pos (P u)). rewrite E at 2. rewrite eadd_fin by lra. unfold eone. f_equal. lra. }
            destruct (Pf t Ht) as [E L]. pose proof (rv_pos (P t)) as Pp. rewrite <- (Lf_true (fun _ => eone) t Ht G : P t = B P t), E in S.
            destruct (eur_cases (B (fun u => fin (N u)) t)) as [(x & X0 & Ex)|Ex]; rewrite Ex in *; [|discriminate S].
            rewrite eadd_fin in S by auto. apply fin_inj in S; try lra. unfold N. apply ele_fin; lra.
          - intros t Ht G. unfold N, P. rewrite Lf_false by auto. unfold eone. rewrite rv_of by lra. lra.
          - intros t Ht. destruct (Pf t Ht). unfold N. lra.
          - intros t Ht. pose proof (rv_pos (P t)). unfold N. lra. }
        unfold H in Hb. apply Rmult_le_compat_r with (r := (V s + 1) / N s) in Hb; [|fold H; lra].
        replace (V s / ((V s + 1) / N s) * ((V s + 1) / N s)) with (V s) in Hb by (field; lra).
        replace (N s * ((V s + 1) / N s)) with (V s + 1) in Hb by (field; lra). lra. }
      destruct (Pf s Hs) as [E L]. rewrite E. unfold N in Z. unfold eone. f_equal. lra.
    Qed.
  End Terminating.
End Abstract.

Section Rules.
  Variables (I : interp) (isd isf : string -> bool) (c : expr) (body : list stmt).
  Hypothesis HI : interp_ok I.
  Hypothesis Wb : All (wts isd isf) body.
  Hypothesis Pb : All (every linear) body.
  Let B := wp_block I isd Least body.

  Lemma linear_no_negate : All (every not_negate) body.
  Proof. apply scalable_block_no_negate. now apply linear_block_scalable. Qed.
  Lemma body_mono : mono B.
  Proof. apply (wp_block_mono I isd isf Least body HI Wb). apply linear_no_negate. Qed.

  Hypothesis Tb : subtotal I isd Least body.
  Theorem stopping_rule (J post past : exp) (b : R) : 0 <= b ->
    (forall s, env_ok s -> past s <> Inf) ->
    (forall s, env_ok s -> holds I c s = true -> ele (B (fun t => eadd (past t) eone) s) (past s)) ->
    (forall s, env_ok s -> holds I c s = true -> ele (B (fun t => distance (J s) (J t)) s) (fin b)) ->
    (forall s, env_ok s -> holds I c s = false -> J s = post s) ->
    (forall s, env_ok s -> Phi I isd Least c body post J s <> Inf) ->
    exp_le J (Phi I isd Least c body post J) ->
    exp_le J (lfp (Phi I isd Least c body post)).
  Proof.
    intros Hb Hfin Hpast Hdiff Hharm Hlt Hlow.
    refine (stopping (holds I c) B body_mono (block_additive I isd isf HI body Wb Pb) _ Tb J post past b Hb Hfin Hpast Hdiff Hharm _ Hlow).
    - intros r X s Hr Hs. apply (block_scales I isd isf Least HI); auto. now apply linear_block_scalable.
    - intros t Ht E. specialize (Hlow t Ht). rewrite E in Hlow. apply (Hlt t Ht). now apply top_le.
  Qed.
  Theorem ast_rule (J : env -> bool) (V : env -> R) (prob decr : R -> R) :
    (forall s, env_ok s -> 0 <= V s) ->
    (forall a b, 0 <= a -> a <= b -> prob b <= prob a) ->
    (forall a b, 0 <= a -> a <= b -> decr b <= decr a) ->
    (forall a, 0 < a -> 0 < prob a) -> (forall a, 0 < a -> 0 < decr a) ->
    (forall s, env_ok s -> J s = true -> holds I c s = true -> ele eone (B (fun t => if J t then eone else ebot) s)) ->
    (forall s, env_ok s -> J s = true -> holds I c s = true -> 0 < V s) ->
    (forall s, env_ok s -> J s = true -> holds I c s = true -> ele (B (fun t => fin (V t)) s) (fin (V s))) ->
    (forall s, env_ok s -> J s = true -> holds I c s = true ->
      ele (fin (prob (V s))) (B (fun t => if Rle_dec (V t) (Rmax 0 (V s - decr (V s))) then eone else ebot) s)) ->
    forall s, env_ok s -> J s = true -> lfp (Phi I isd Least c body (fun _ => eone)) s = eone.
  Proof.
    intros HV Hprob Hdecr Pp Pd Hinv Hterm Hsup Hprog.
    refine (terminating (holds I c) B body_mono (block_additive I isd isf HI body Wb Pb) _ Tb J V prob decr HV Hprob Hdecr Pp Pd Hinv Hterm Hsup Hprog).
    intros r X s Hr Hs. apply (block_scales I isd isf Least HI); auto. now apply linear_block_scalable.
  Qed.
End Rules.
