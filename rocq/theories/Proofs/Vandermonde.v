(** Binomial coefficients: Pascal's triangle against factorials and Vandermonde's identity. *)
From Coq Require Import List ZArith NArith Reals Lia Lra.
From Verif.Model Require Import Dist.
Import ListNotations.

Lemma choose_0 n : forall k, (n < k)%nat -> choose_nat n k = 0%N.
Proof.
  induction n as [|n IH]; intros [|k] H; try lia; cbn [choose_nat]; [reflexivity|].
  rewrite !IH by lia. reflexivity.
Qed.

Lemma choose_n0 n : choose_nat n 0 = 1%N.
Proof. destruct n; reflexivity. Qed.

Lemma C_n0 n : Binomial.C n 0 = 1%R.
Proof.
  unfold Binomial.C. rewrite Nat.sub_0_r. simpl (fact 0). rewrite Rmult_1_l. unfold Rdiv. apply Rinv_r, INR_fact_neq_0.
Qed.
Lemma C_nn n : Binomial.C n n = 1%R.
Proof.
  unfold Binomial.C. rewrite Nat.sub_diag. simpl (fact 0). rewrite Rmult_1_r. unfold Rdiv. apply Rinv_r, INR_fact_neq_0.
Qed.

Lemma choose_C n : forall k, (k <= n)%nat -> IZR (Z.of_N (choose_nat n k)) = Binomial.C n k.
Proof.
  induction n as [|n IH]; intros k H.
  - assert (k = 0)%nat by lia. subst. now rewrite C_n0.
  - destruct k as [|k]; [now rewrite C_n0|]. cbn [choose_nat]. rewrite N2Z.inj_add, plus_IZR.
    destruct (Nat.eq_dec k n) as [->|Hk].
    + rewrite (choose_0 n (S n)) by lia. rewrite IH by lia. rewrite !C_nn. simpl. lra.
    + rewrite !IH by lia. apply Binomial.pascal. lia.
Qed.

Definition nsumf (f : nat -> N) (n : nat) : N := fold_right N.add 0%N (map f (seq 0 n)).

Lemma nsumf_S f n : nsumf f (S n) = (f 0%nat + nsumf (fun i => f (S i)) n)%N.
Proof. unfold nsumf. cbn [seq map fold_right]. f_equal. now rewrite <- seq_shift, map_map. Qed.

Lemma nsumf_ext f g n : (forall i, (i < n)%nat -> f i = g i) -> nsumf f n = nsumf g n.
Proof. intros H. unfold nsumf. f_equal. apply map_ext_in. intros i Hi. apply in_seq in Hi. apply H. lia. Qed.

Lemma nsumf_add f g n : nsumf (fun i => f i + g i)%N n = (nsumf f n + nsumf g n)%N.
Proof.
  unfold nsumf. induction (seq 0 n) as [|a l IH]; [reflexivity|]. cbn [map fold_right]. rewrite IH. lia.
Qed.

Lemma nsumf_zero f n : (forall i, f i = 0%N) -> nsumf f n = 0%N.
Proof. intros H. unfold nsumf. induction (seq 0 n) as [|a l IH]; [reflexivity|]. cbn [map fold_right]. now rewrite IH, H. Qed.

Lemma vandermonde k l : forall i,
  nsumf (fun j => choose_nat k j * choose_nat l (i - j))%N (S i) = choose_nat (k + l) i.
Proof.
  induction k as [|k IH]; intros i.
  - rewrite nsumf_S, choose_n0, Nat.sub_0_r, N.mul_1_l, nsumf_zero; [cbn [Nat.add]; lia|]. reflexivity.
  - destruct i as [|i].
    + rewrite nsumf_S, !choose_n0. reflexivity.
    + rewrite nsumf_S, choose_n0, Nat.sub_0_r, N.mul_1_l.
      rewrite (nsumf_ext _ (fun j => choose_nat k j * choose_nat l (i - j) + choose_nat k (S j) * choose_nat l (i - j))%N).
      2:{ intros j _. cbn [choose_nat Nat.sub]. lia. }
      rewrite nsumf_add, IH. cbn [Nat.add choose_nat]. rewrite <- (IH (S i)).
      rewrite (nsumf_S _ (S i)), choose_n0, Nat.sub_0_r, N.mul_1_l. cbn [Nat.sub]. lia.
Qed.
