(** Proofs about reading and showing numbers. *)
From Coq Require Import Bool List String Arith ZArith NArith Lia.
From Verif.Model Require Import Syntax Numerals.
From Verif.Spec Require Import Decimal.
Import ListNotations.
Local Open Scope list_scope.
Local Open Scope Z_scope.

Lemma pow10_pos m : 0 < 10 ^ Z.of_nat m.
Proof. apply Z.pow_pos_nonneg; lia. Qed.
Lemma pow10_add a b : 10 ^ Z.of_nat (a + b) = 10 ^ Z.of_nat a * 10 ^ Z.of_nat b.
Proof. rewrite Nat2Z.inj_add, Z.pow_add_r; lia. Qed.
Lemma dval_app a b : dval (a ++ b) = dval a * 10 ^ Z.of_nat (List.length b) + dval b.
Proof.
  induction a as [|x a IH]; cbn [dval app]; [lia|].
  rewrite IH, app_length, pow10_add. ring.
Qed.
Lemma dval_bound ds : Forall digit ds -> 0 <= dval ds < 10 ^ Z.of_nat (List.length ds).
Proof.
  induction 1 as [|x l [A B] F IH]; [cbn; lia|].
  cbn [dval List.length]. rewrite Nat2Z.inj_succ, Z.pow_succ_r by lia. pose proof (pow10_pos (List.length l)). nia.
Qed.

Lemma digits_go_ok fuel : forall n acc, 0 <= n < 10 ^ Z.of_nat fuel -> fuel <> O ->
  exists ds, digits_go fuel n acc = ds ++ acc /\ dval ds = n /\ ds <> [] /\ Forall digit ds /\ (forall r, ds = 0 :: r -> n = 0 /\ r = []).
Proof.
  induction fuel as [|k IH]; intros n acc B NE; [congruence|].
  cbn [digits_go]. destruct (Z.ltb_spec n 10).
  - exists [n]. cbn. repeat split; [lia|discriminate|constructor; [red; lia|constructor]|injection H0; auto|injection H0; auto].
  - rewrite Nat2Z.inj_succ, Z.pow_succ_r in B by lia.
    assert (k <> O) as KE by (intros ->; cbn in B; lia).
    pose proof (Z.div_mod n 10 ltac:(lia)) as DM. pose proof (Z.mod_pos_bound n 10 ltac:(lia)) as MB.
    destruct (IH (n / 10) (n mod 10 :: acc)) as (ds & E & V & NN & F & LZ); [lia|exact KE|].
    exists (ds ++ [n mod 10]). rewrite E, <- app_assoc, dval_app, V. cbn.
    repeat split; [lia|destruct ds; discriminate|apply Forall_app; split; [exact F|constructor; [red; lia|constructor]]| |];
      destruct ds as [|x ds]; try congruence; cbn in H0; injection H0 as -> HR; destruct (LZ _ eq_refl); lia.
Qed.
Lemma size_bound n : 0 <= n -> n < 10 ^ Z.of_nat (S (N.size_nat (Z.to_N n))).
Proof.
  intros P. assert (n < 2 ^ Z.of_nat (N.size_nat (Z.to_N n))) as A.
  { destruct n as [|p|p]; [cbn; lia| |lia]. cbn [Z.to_N N.size_nat].
    induction p as [p IH|p IH|]; cbn [Pos.size_nat]; [| |cbn; lia]; rewrite Nat2Z.inj_succ, Z.pow_succ_r by lia; lia. }
  eapply Z.lt_le_trans; [exact A|]. transitivity (10 ^ Z.of_nat (N.size_nat (Z.to_N n))).
  - apply Z.pow_le_mono_l; lia.
  - apply Z.pow_le_mono_r; lia.
Qed.
Lemma digits_ok n : 0 <= n -> numeral (digits n) /\ dval (digits n) = n.
Proof.
  intros P. destruct (digits_go_ok (S (N.size_nat (Z.to_N n))) n []) as (ds & E & V & NN & F & LZ);
    [split; [exact P|apply size_bound, P]|discriminate|].
  unfold digits. rewrite E, app_nil_r. repeat split; auto. intros r H. apply (LZ r H).
Qed.

Lemma sign_ok n : sign_of n (if n <? 0 then [GMinus] else []).
Proof. destruct (Z.ltb_spec n 0); [left|right]; auto. Qed.
Lemma show_int_ok z : shows_int (show_int z) z.
Proof. destruct (digits_ok (Z.abs z) ltac:(lia)). exists (if z <? 0 then [GMinus] else []), (digits (Z.abs z)). repeat split; auto using sign_ok; apply H. Qed.
Lemma show_ratio_ok n d : shows_fraction (show_ratio n d) n d.
Proof.
  unfold show_ratio. destruct (Pos.eqb_spec d 1) as [->|]; [left; split; auto using show_int_ok|].
  right. exists (show_int n), (show_int (Zpos d)). auto using show_int_ok.
Qed.

Section Expansion.
  Variables (d : positive) (r0 : Z).
  Let D := Zpos d.
  Definition inv (rem : Z) (frac : list Z) (seen : list (Z * nat)) : Prop :=
    0 <= rem < D /\ r0 * 10 ^ Z.of_nat (List.length frac) = dval frac * D + rem /\ Forall digit frac /\
    (forall r j, In (r, j) seen -> (j < List.length frac)%nat /\ 0 <= r < D /\ r0 * 10 ^ Z.of_nat j = dval (firstn j frac) * D + r).
  Lemma expand_ok k : forall rem frac seen rem' frac' seen' approx,
    inv rem frac seen -> expand k D rem frac seen = (rem', frac', seen', approx) ->
    inv rem' frac' seen' /\ (approx = false -> rem' = 0 \/ exists i, find_rem rem' seen' = Some i) /\
    (approx = true -> rem' <> 0) /\ (List.length frac <= List.length frac')%nat /\
    (rem <> 0 -> find_rem rem seen = None -> k <> O -> frac' <> []).
  Proof.
    induction k as [|k IH]; intros rem frac seen rem' frac' seen' approx I E; cbn [expand] in E;
      destruct (Z.eqb_spec rem 0) as [Z0|NZ]; cbn [orb] in E.
    1,3: injection E as <- <- <- <-; split; [exact I|]; split; [intros; try discriminate; eauto|]; split; [intros; try discriminate; assumption|]; split; [lia|intros; exfalso; congruence].
    - destruct (find_rem rem seen) eqn:FR; injection E as <- <- <- <-.
      + split; [exact I|]; split; [intros; try discriminate; eauto|]; split; [intros; try discriminate; assumption|]; split; [lia|intros; exfalso; congruence].
      + split; [exact I|]; split; [intros; try discriminate; eauto|]; split; [intros; try discriminate; assumption|]; split; [lia|intros; exfalso; congruence].
    - destruct (find_rem rem seen) eqn:FR.
      + injection E as <- <- <- <-. split; [exact I|]; split; [intros; try discriminate; eauto|]; split; [intros; try discriminate; assumption|]; split; [lia|intros; exfalso; congruence].
      + destruct I as (B & V & F & SN).
        pose proof (Z.div_mod (rem * 10) D ltac:(unfold D; lia)) as DM.
        pose proof (Z.mod_pos_bound (rem * 10) D ltac:(unfold D; lia)) as MB.
        apply IH in E as (I' & A1 & A2 & A3 & _).
        * rewrite app_length in A3. cbn in A3. split; [exact I'|]. split; [exact A1|]. split; [exact A2|]. split; [lia|].
          intros _ _ _ ->. cbn in A3. lia.
        * split; [exact MB|]. split; [|split].
          -- rewrite app_length, pow10_add, dval_app. cbn. nia.
          -- apply Forall_app. split; [exact F|]. constructor; [|constructor]. red. nia.
          -- intros r j [H|H].
             ++ injection H as <- <-. rewrite app_length, firstn_app, Nat.sub_diag, firstn_all, app_nil_r. cbn. repeat split; auto; lia.
             ++ destruct (SN r j H) as (J & RB & RV). rewrite app_length, firstn_app.
                replace (j - List.length frac)%nat with O by lia. cbn. rewrite app_nil_r. repeat split; auto; lia.
  Qed.
  Lemma period pre rp rem k :
    r0 * 10 ^ Z.of_nat (List.length pre) = dval pre * D + rem ->
    r0 * 10 ^ Z.of_nat (List.length (pre ++ rp)) = dval (pre ++ rp) * D + rem ->
    r0 * 10 ^ Z.of_nat (List.length pre + k * List.length rp) = dval (pre ++ times k rp) * D + rem.
  Proof.
    intros A B. rewrite app_length, pow10_add, dval_app in B.
    induction k as [|k IH]; cbn [times]; [rewrite app_nil_r, Nat.add_0_r; exact A|].
    rewrite app_assoc, dval_app. replace (List.length pre + S k * List.length rp)%nat with ((List.length pre + k * List.length rp) + List.length rp)%nat by lia.
    rewrite pow10_add, Z.mul_assoc, IH. rewrite Z.mul_assoc, A in B. nia.
  Qed.
End Expansion.

Lemma find_rem_in r seen i : find_rem r seen = Some i -> In (r, i) seen.
Proof.
  unfold find_rem. destruct (find _ seen) as [[a b]|] eqn:E; [|discriminate]. cbn. intros [= <-].
  apply find_some in E as [H K]. cbn in K. apply Z.eqb_eq in K as ->. exact H.
Qed.

Theorem pretty_denotes limit n d : limit <> O -> denotes (pretty limit n d) n d.
Proof.
  intros LN. unfold pretty. set (a := Z.abs n). set (r0 := a mod Zpos d).
  pose proof (Z.div_mod a (Zpos d) ltac:(lia)) as DM. pose proof (Z.mod_pos_bound a (Zpos d) ltac:(lia)) as MB. fold r0 in DM, MB.
  assert (0 <= a / Zpos d) as QP by (apply Z.div_pos; unfold a; lia).
  destruct (digits_ok _ QP) as (NU & DV). pose proof (sign_ok n) as SG.
  destruct (expand limit (Zpos d) r0 [] []) as [[[rem frac] seen] approx] eqn:E.
  assert (inv d r0 r0 [] []) as I0 by (repeat split; cbn; auto; try lia; contradiction).
  destruct (expand_ok d r0 _ _ _ _ _ _ _ _ I0 E) as ((B & V & F & SN) & A1 & A2 & _ & NEF).
  assert (forall fs, dval (digits (a / Zpos d) ++ fs) * Zpos d = (a - r0) * 10 ^ Z.of_nat (List.length fs) + dval fs * Zpos d) as WH.
  { intros fs. rewrite dval_app, DV. replace (a - r0) with (Zpos d * (a / Zpos d)) by lia. ring. }
  destruct frac as [|x frac'].
  - assert (r0 = 0) as R0.
    { destruct (Z.eq_dec r0 0) as [|NZ]; [assumption|]. exfalso. apply (NEF NZ eq_refl LN eq_refl). }
    apply den_int; auto. rewrite DV. fold a. lia.
  - set (frac := x :: frac') in *. assert (frac <> []) as FN by discriminate.
    destruct approx; cbn [orb negb].
    + rewrite !orb_true_r. rewrite <- !app_assoc. cbn [app]. apply den_cut; auto using show_ratio_ok.
      red. fold a. specialize (WH frac). nia.
    + rewrite !orb_false_r. destruct (Z.eqb_spec rem 0) as [->|NZ]; cbn [negb].
      * rewrite !app_nil_r. apply den_finite; auto. fold a. specialize (WH frac). nia.
      * destruct (A1 eq_refl) as [|[i FI]]; [contradiction|]. rewrite FI.
        apply find_rem_in in FI. destruct (SN _ _ FI) as (J & RB & RV).
        rewrite <- (firstn_skipn i frac) in F, V. apply Forall_app in F as [F1 F2].
        rewrite <- app_assoc. apply den_repeating; auto using show_ratio_ok.
        -- intros H. apply (f_equal (@List.length _)) in H. rewrite skipn_length in H. cbn [List.length] in H. lia.
        -- intros k. red. fold a.
           assert (List.length (firstn i frac) = i) as LI by (apply firstn_length_le; lia).
           pose proof (period d r0 (firstn i frac) (skipn i frac) rem k ltac:(rewrite LI; exact RV) V) as PK.
           specialize (WH (firstn i frac ++ times k (skipn i frac))).
           assert (List.length (firstn i frac ++ times k (skipn i frac)) = List.length (firstn i frac) + k * List.length (skipn i frac))%nat as LL.
           { rewrite app_length. f_equal. clear. induction k; cbn [times]; [reflexivity|]. rewrite app_length. lia. }
           rewrite LL in WH. nia.
Qed.
