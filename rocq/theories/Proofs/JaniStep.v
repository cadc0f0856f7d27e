(** The total expected reward is below every prefixpoint of the one-step operator, and a prefixpoint itself. *)
From Coq Require Import Bool List ZArith NArith Reals Lia Lra Classical.
From Verif.Model Require Import Syntax Jani.
From Verif.Spec Require Import Eur Sem JaniSem.
From Verif.Proofs Require Import EurLemmas.
Import ListNotations.

Definition chain (a : nat -> eur) : Prop := forall n, ele (a n) (a (S n)).
Definition lim (a : nat -> eur) : eur := esup (fun r => exists n, r = a n).

Lemma chain_le a : chain a -> forall n m, (n <= m)%nat -> ele (a n) (a m).
Proof. intros H n m. induction 1; [apply ele_refl|]. eapply ele_trans; eauto. Qed.
Lemma lim_ub a n : ele (a n) (lim a).
Proof. apply esup_ub. eauto. Qed.
Lemma lim_lub a u : (forall n, ele (a n) u) -> ele (lim a) u.
Proof. intros H. apply esup_lub. intros x [n ->]. auto. Qed.
Lemma lim_mono a b : (forall n, ele (a n) (b n)) -> ele (lim a) (lim b).
Proof. intros H. apply lim_lub. intros n. apply ele_trans with (b n); auto using lim_ub. Qed.
Lemma lim_const c : lim (fun _ => c) = c.
Proof. apply ele_antisym; [apply lim_lub; intros; apply ele_refl | apply (lim_ub (fun _ => c) 0)]. Qed.
Lemma lim_above a u : ~ ele (lim a) u -> exists n, ~ ele (a n) u.
Proof.
  intros H. apply NNPP. intros K. apply H. apply lim_lub. intros n. apply NNPP. intros Hn. apply K. eauto.
Qed.

Lemma add_lim_const c a : ele (eadd c (lim a)) (lim (fun n => eadd c (a n))).
Proof.
  set (S := lim (fun n => eadd c (a n))). assert (HS : forall n, ele (eadd c (a n)) S) by (intros n; apply (lim_ub (fun n => eadd c (a n)))).
  destruct (eur_cases S) as [(s & Ps & Es)|Es]; [|rewrite Es; apply ele_top]. rewrite Es in *.
  destruct (eur_cases c) as [(r & Pr & ->)| ->].
  2:{ specialize (HS 0%nat). rewrite eadd_Inf_l in HS. exfalso. revert HS. apply not_ele_Inf_fin. }
  assert (B : forall n, ele (a n) (fin (s - r)) /\ (r <= s)%R).
  { intros n. specialize (HS n). destruct (eur_cases (a n)) as [(x & Px & E)|E]; rewrite E in *.
    - rewrite eadd_fin in HS by auto. assert (K : (r + x <= s)%R) by (apply (proj1 (ele_fin (r + x) s ltac:(lra) ltac:(lra))), HS). split; [apply ele_fin; lra | lra].
    - rewrite eadd_Inf_r in HS. exfalso. revert HS. apply not_ele_Inf_fin. }
  pose proof (proj2 (B 0%nat)). replace (fin s) with (eadd (fin r) (fin (s - r))) by (rewrite eadd_fin by lra; f_equal; lra).
  apply eadd_mono; [apply ele_refl|]. apply lim_lub. intros n. apply B.
Qed.

Lemma add_lim a b : chain a -> chain b -> ele (eadd (lim a) (lim b)) (lim (fun n => eadd (a n) (b n))).
Proof.
  intros Ca Cb. rewrite eadd_comm. eapply ele_trans; [apply add_lim_const|]. apply lim_lub. intros n.
  rewrite eadd_comm. eapply ele_trans; [apply add_lim_const|]. apply lim_lub. intros m.
  eapply ele_trans; [|apply (lim_ub (fun n => eadd (a n) (b n)) (max n m))]. apply eadd_mono; apply chain_le; auto; lia.
Qed.

Lemma mul_lim c a : ele (emul c (lim a)) (lim (fun n => emul c (a n))).
Proof.
  set (S := lim (fun n => emul c (a n))). assert (HS : forall n, ele (emul c (a n)) S) by (intros n; apply (lim_ub (fun n => emul c (a n)))).
  destruct (eur_cases S) as [(s & Ps & Es)|Es]; [|rewrite Es; apply ele_top]. rewrite Es in *.
  destruct (eur_cases c) as [(r & Pr & ->)| ->].
  - destruct (Req_dec r 0) as [->|Nr].
    { change (fin 0) with ebot. rewrite emul_0_l. apply ebot_le. }
    assert (Rp : (0 < r)%R) by lra.
    assert (Pq : (0 <= s / r)%R) by (apply Rmult_le_pos; [auto|]; left; now apply Rinv_0_lt_compat).
    replace (fin s) with (emul (fin r) (fin (s / r))) by (rewrite emul_fin by auto; f_equal; field; lra).
    apply emul_mono; [apply ele_refl|]. apply lim_lub. intros n. specialize (HS n).
    destruct (eur_cases (a n)) as [(x & Px & E)|E]; rewrite E in *.
    + rewrite emul_fin in HS by auto. assert (0 <= r * x)%R by now apply Rmult_le_pos. assert (K : (r * x <= s)%R) by (apply (proj1 (ele_fin (r * x) s ltac:(lra) ltac:(lra))), HS). apply ele_fin; auto.
      apply Rmult_le_reg_l with r; auto. replace (r * (s / r))%R with s by (field; lra). lra.
    + rewrite emul_Inf_r in HS by auto. exfalso. revert HS. apply not_ele_Inf_fin.
  - assert (Z : lim a = ebot).
    { apply le_ebot. apply lim_lub. intros n. specialize (HS n). destruct (eur_cases (a n)) as [(x & Px & E)|E]; rewrite E in *.
      - destruct (Req_dec x 0) as [->|Nx]; [apply ele_refl|]. rewrite emul_Inf_l in HS by lra. exfalso. revert HS. apply not_ele_Inf_fin.
      - exfalso. revert HS. apply not_ele_Inf_fin. }
    rewrite Z, emul_0_r. apply ebot_le.
Qed.

Lemma best_lim d a b : chain a -> chain b -> ele (best d (lim a) (lim b)) (lim (fun n => best d (a n) (b n))).
Proof.
  intros Ca Cb. destruct d; cbn [best].
  - apply NNPP. intros H. set (S := lim (fun n => emin (a n) (b n))) in *.
    assert (Ha : ~ ele (lim a) S) by (intros K; apply H; eapply ele_trans; [apply emin_l|auto]).
    assert (Hb : ~ ele (lim b) S) by (intros K; apply H; eapply ele_trans; [apply emin_r|auto]).
    apply lim_above in Ha. apply lim_above in Hb. destruct Ha as [n Hn], Hb as [m Hm].
    pose proof (lim_ub (fun n => emin (a n) (b n)) (max n m)) as K. fold S in K. apply emin_le_iff in K. destruct K as [K|K].
    + apply Hn. eapply ele_trans; [|exact K]. apply chain_le; auto; lia.
    + apply Hm. eapply ele_trans; [|exact K]. apply chain_le; auto; lia.
  - apply emax_lub; apply lim_mono; intros n; [apply emax_l | apply emax_r].
Qed.

Lemma best_mono d a b a' b' : ele a a' -> ele b b' -> ele (best d a b) (best d a' b').
Proof. destruct d; [apply emin_mono | apply emax_mono]. Qed.
Lemma best_of_mono d l l' : Forall2 ele l l' -> ele (best_of d l) (best_of d l').
Proof.
  intros H. destruct H as [|a b l l' Hab H]; [apply ele_refl|]. cbn [best_of].
  induction H; [auto|]. cbn [fold_right]. now apply best_mono.
Qed.

Section Value.
  Context (J : jint) (m : jmodel).

  Definition vle (V W : jvalf) : Prop := forall l t, ele (V l t) (W l t).

  Lemma edge_val_mono V W e t : vle V W -> ele (edge_val J V t e) (edge_val J W t e).
  Proof.
    intros H. unfold edge_val. induction (e_dests e) as [|d ds IH]; [apply ele_refl|]. cbn [fold_right]. apply eadd_mono; auto.
    apply emul_mono; [apply ele_refl|]. apply eadd_mono; [apply ele_refl|apply H].
  Qed.
  Lemma bellman_mono V W : vle V W -> vle (bellman J m V) (bellman J m W).
  Proof.
    intros H l t. unfold bellman. apply eadd_mono; [apply ele_refl|]. apply best_of_mono.
    induction (enabled J m l t); cbn [map]; constructor; auto. now apply edge_val_mono.
  Qed.
  Lemma within_chain n : vle (reward_within J m n) (reward_within J m (S n)).
  Proof. induction n as [|n IH]; [intros l t; apply ebot_le|]. cbn [reward_within] in *. now apply bellman_mono. Qed.

  Lemma within_below V : vle (bellman J m V) V -> forall n, vle (reward_within J m n) V.
  Proof.
    intros H n. induction n as [|n IH]; [intros l t; apply ebot_le|]. cbn [reward_within].
    intros l t. apply ele_trans with (bellman J m V l t); [now apply bellman_mono|apply H].
  Qed.
  (** Below every prefixpoint *)
  Lemma total_below V t : vle (bellman J m V) V -> ele (total_reward J m t) (V (m_start m) t).
  Proof. intros H. apply esup_lub. intros r [n ->]. now apply within_below. Qed.

  Definition limit : jvalf := fun l t => lim (fun n => reward_within J m n l t).
  Lemma limit_chain l t : chain (fun n => reward_within J m n l t).
  Proof. intros n. apply within_chain. Qed.

  Lemma dest_chain t d : chain (fun n => dest_val J (reward_within J m n) t d).
  Proof. intros n. apply emul_mono; [apply ele_refl|]. apply eadd_mono; [apply ele_refl|apply limit_chain]. Qed.
  Lemma edge_chain t e : chain (fun n => edge_val J (reward_within J m n) t e).
  Proof. intros n. apply edge_val_mono. apply within_chain. Qed.

  Lemma edge_limit t e : ele (edge_val J limit t e) (lim (fun n => edge_val J (reward_within J m n) t e)).
  Proof.
    unfold edge_val. induction (e_dests e) as [|d ds IH]; [cbn [fold_right map best_of]; rewrite lim_const; apply ele_refl|]. cbn [fold_right].
    assert (Cds : chain (fun n => fold_right (fun d r => eadd (dest_val J (reward_within J m n) t d) r) ebot ds)).
    { intros n. clear. induction ds; [apply ele_refl|]. cbn [fold_right]. apply eadd_mono; auto. apply dest_chain. }
    eapply ele_trans; [|apply add_lim; auto; apply dest_chain]. apply eadd_mono; auto.
    unfold dest_val. eapply ele_trans; [|apply mul_lim]. apply emul_mono; [apply ele_refl|]. apply add_lim_const.
  Qed.

  Lemma best_of_limit d t es : ele (best_of d (map (edge_val J limit t) es)) (lim (fun n => best_of d (map (edge_val J (reward_within J m n) t) es))).
  Proof.
    destruct es as [|e es]; [cbn [fold_right map best_of]; rewrite lim_const; apply ele_refl|]. cbn [map best_of].
    induction es as [|e' es IH]; [apply edge_limit|]. cbn [map fold_right].
    eapply ele_trans; [|apply best_lim].
    - apply best_mono; [apply edge_limit | exact IH].
    - apply edge_chain.
    - intros n. clear. induction es; [apply edge_chain|]. cbn [map fold_right]. apply best_mono; [apply edge_chain|auto].
  Qed.

  (** A prefixpoint *)
  Lemma limit_prefix : vle (bellman J m limit) limit.
  Proof.
    intros l t. unfold bellman. apply ele_trans with (lim (fun n => bellman J m (reward_within J m n) l t)).
    - unfold bellman. eapply ele_trans; [|apply add_lim_const]. apply eadd_mono; [apply ele_refl|]. apply best_of_limit.
    - apply lim_lub. intros n. apply (lim_ub (fun n => reward_within J m n l t) (S n)).
  Qed.
  Lemma total_limit t : total_reward J m t = limit (m_start m) t.
  Proof. reflexivity. Qed.
End Value.
