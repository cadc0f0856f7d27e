From Coq Require Import Reals Lra Lia Bool Setoid Classical.
From Verif.Spec Require Import Eur EncSpec.
From Verif.Model Require Import Orders EurEncodings.
From Verif.Proofs Require Import EurLemmas.
Local Open Scope R_scope.

Lemma Rleb_iff a b : Rleb a b = true <-> a <= b.
Proof. unfold Rleb; destruct (Rle_dec a b); split; easy. Qed.
Lemma Rltb_iff a b : Rltb a b = true <-> a < b.
Proof. unfold Rltb; destruct (Rlt_dec a b); split; easy. Qed.
Lemma Reqb_iff a b : Reqb a b = true <-> a = b.
Proof. unfold Reqb; destruct (Req_EM_T a b); split; easy. Qed.
Lemma Reqb_refl a : Reqb a a = true.
Proof. now apply Reqb_iff. Qed.

Lemma ele_total_order : total_order ele.
Proof.
  repeat split; intros.
  - apply ele_refl. - eapply ele_trans; eauto. - now apply ele_antisym. - apply ele_total.
Qed.

Definition ble (a b : bool) : Prop := implb a b = true.
Lemma ble_total_order : total_order ble.
Proof.
  unfold ble; repeat split.
  - now intros []. - now intros [] [] []. - now intros [] []. - intros [] []; simpl; auto.
Qed.

Lemma flip_total_order {A} (le : A -> A -> Prop) :
  total_order le -> total_order (fun x y => le y x).
Proof. intros (r & t & a & tt). repeat split; eauto. Qed.

(** *** Arithmetic refinements *)
Lemma real_monus_max a b : real_monus a b = Rmax 0 (a - b).
Proof.
  unfold real_monus, Rleb. destruct (Rle_dec b a).
  - rewrite Rmax_right; lra. - rewrite Rmax_left; lra.
Qed.

Lemma fin_max r : fin (Rmax 0 r) = fin r.
Proof.
  unfold fin; f_equal. apply nnr_eq. rewrite !nval_of_max.
  apply Rmax_right, Rmax_l.
Qed.

Lemma pair_add_ok a b : pair_ok a -> pair_ok b -> pair_ok (pair_add a b).
Proof. unfold pair_ok; simpl; lra. Qed.
Lemma pair_mul_ok a b : pair_ok a -> pair_ok b -> pair_ok (pair_mul a b).
Proof. unfold pair_ok; simpl; intros; nra. Qed.
Lemma pair_sub_ok a b : pair_ok (pair_sub a b).
Proof. unfold pair_ok; simpl. rewrite real_monus_max. apply Rmax_l. Qed.

Lemma pair_add_correct a b : pair_ok a -> pair_ok b ->
  pair_val (pair_add a b) = eadd (pair_val a) (pair_val b).
Proof.
  destruct a as [[] x], b as [[] y]; unfold pair_ok, pair_val; simpl; intros; auto.
  now rewrite !nval_of.
Qed.

Lemma pair_mul_correct a b : pair_ok a -> pair_ok b ->
  pair_val (pair_mul a b) = emul (pair_val a) (pair_val b).
Proof.
  destruct a as [[] x], b as [[] y]; unfold pair_ok, pair_val; simpl; intros Hx Hy; auto.
  - rewrite nval_of by auto. unfold Reqb. destruct (Req_EM_T y 0) as [->|]; simpl; auto.
    now rewrite Rmult_0_r.
  - rewrite nval_of by auto. unfold Reqb. destruct (Req_EM_T x 0) as [->|]; simpl; auto.
    now rewrite Rmult_0_l.
  - now rewrite !nval_of.
Qed.

(** Exactly when pair subtraction is right. *)
Lemma pair_sub_correct_iff a b : pair_ok a -> pair_ok b ->
  pair_val (pair_sub a b) = emonus (pair_val a) (pair_val b) <->
  (p_inf b = true -> p_num a <= p_num b).
Proof.
  destruct a as [[] x], b as [[] y]; unfold pair_ok, pair_val; simpl; intros Hx Hy.
  - rewrite real_monus_max, fin_max. change (fin 0) with ebot. split.
    + intros E _. destruct (Rle_dec x y); auto. exfalso.
      assert (fin (x - y) = fin 0) by exact E. apply fin_inj in H; lra.
    + intros H. apply fin_neg. specialize (H eq_refl); lra.
  - split; [discriminate|auto].
  - rewrite real_monus_max, fin_max. change (fin 0) with ebot. split.
    + intros E _. destruct (Rle_dec x y); auto. exfalso.
      assert (fin (x - y) = fin 0) by exact E. apply fin_inj in H; lra.
    + intros H. apply fin_neg. specialize (H eq_refl); lra.
  - rewrite !nval_of by auto. rewrite real_monus_max, fin_max. split; [discriminate|auto].
Qed.

Lemma dt_ops_correct junk a b : dt_ok a -> dt_ok b ->
  (dt_ok (dt_add junk a b) /\ dt_val (dt_add junk a b) = eadd (dt_val a) (dt_val b)) /\
  (dt_ok (dt_sub junk a b) /\ dt_val (dt_sub junk a b) = emonus (dt_val a) (dt_val b)) /\
  (dt_ok (dt_mul junk a b) /\ dt_val (dt_mul junk a b) = emul (dt_val a) (dt_val b)).
Proof.
  destruct a as [|x], b as [|y]; cbn; intros Hx Hy; repeat split; try lra; auto.
  - unfold Reqb. destruct (Req_EM_T y 0); simpl; lra || auto.
  - rewrite nval_of by auto. unfold Reqb. destruct (Req_EM_T y 0); simpl; auto.
  - unfold Reqb. destruct (Req_EM_T x 0); simpl; lra || auto.
  - rewrite nval_of by auto. unfold Reqb. destruct (Req_EM_T x 0); simpl; auto.
  - now rewrite !nval_of.
  - rewrite real_monus_max. apply Rmax_l.
  - rewrite !nval_of by auto. now rewrite real_monus_max, fin_max.
  - nra.
  - now rewrite !nval_of.
Qed.

Lemma concrete_ops_correct a b : concrete_ok a -> concrete_ok b ->
  concrete_val (concrete_add a b) = eadd (concrete_val a) (concrete_val b) /\
  concrete_val (concrete_mul a b) = emul (concrete_val a) (concrete_val b) /\
  (forall c, concrete_sub a b = Some c -> concrete_val c = emonus (concrete_val a) (concrete_val b)) /\
  (concrete_sub a b = None <-> concrete_val b = Inf).
Proof.
  destruct a as [x|], b as [y|]; cbn; intros Hx Hy; repeat split; auto; try discriminate;
    try (intros c [= <-]; reflexivity).
  - now rewrite !nval_of.
  - rewrite !nval_of by auto. unfold Reqb. destruct (Req_EM_T x 0) as [->|]; [now rewrite Rmult_0_l|].
    destruct (Req_EM_T y 0) as [->|]; [now rewrite Rmult_0_r|]. reflexivity.
  - intros c. rewrite !nval_of by auto. unfold Rleb. destruct (Rle_dec y x); intros [= <-]; auto.
    simpl. symmetry. apply fin_neg. lra.
  - destruct (Rleb y x); discriminate.
  - rewrite nval_of by auto. unfold Reqb. destruct (Req_EM_T x 0); auto.
  - rewrite nval_of by auto. unfold Reqb. destruct (Req_EM_T y 0); auto.
Qed.

(** *** Order *)
Lemma fin_eq_iff r s : 0 <= r -> 0 <= s -> fin r = fin s <-> r = s.
Proof. intros; split; [now apply fin_inj | now intros ->]. Qed.

Lemma pair_cmp_le a b : pair_ok a -> pair_ok b -> pair_le a b = true <-> ele (pair_val a) (pair_val b).
Proof.
  destruct a as [[] x], b as [[] y]; unfold pair_ok, pair_val, pair_le; simpl; intros; try easy.
  rewrite !nval_of by auto. apply Rleb_iff.
Qed.
Lemma pair_cmp_eq a b : pair_ok a -> pair_ok b -> pair_eq a b = true <-> pair_val a = pair_val b.
Proof.
  destruct a as [[] x], b as [[] y]; unfold pair_ok, pair_val, pair_eq; simpl; intros; try easy.
  rewrite fin_eq_iff by auto. apply Reqb_iff.
Qed.
Lemma strict_iff a b : ~ ele b a <-> ele a b /\ a <> b.
Proof.
  split.
  - intros H; split; [now apply not_ele|]. intros ->; apply H, ele_refl.
  - intros [H N] H2. apply N. now apply ele_antisym.
Qed.
Lemma pair_branch_ite c a b : pair_branch c a b = if c then a else b.
Proof. destruct c, a, b; reflexivity. Qed.

Lemma min_rep {T A} (br : bool -> T -> T -> T) c (ok : T -> Prop) (abs : T -> A) le :
  total_order le ->
  (forall (x : bool) a b, br x a b = if x then a else b) ->
  (forall a b, ok a -> ok b -> c a b OLe = true <-> le (abs a) (abs b)) ->
  forall a b, ok a -> ok b -> ok (smt_min_with br c a b) /\
    forall x, le x (abs (smt_min_with br c a b)) <-> le x (abs a) /\ le x (abs b).
Proof.
  intros (R & T' & AS & TT) Hbr Hle a b Ha Hb. unfold smt_min_with. rewrite Hbr.
  destruct (c a b OLe) eqn:E.
  - apply Hle in E; auto. split; auto. intros x; split; [|tauto]. intros; split; eauto.
  - assert (N : ~ le (abs a) (abs b)) by (rewrite <- Hle by auto; congruence).
    split; auto. intros x; split; [|tauto]. intros; split; auto.
    destruct (TT (abs a) (abs b)); [tauto|eauto].
Qed.
Lemma max_rep {T A} (br : bool -> T -> T -> T) c (ok : T -> Prop) (abs : T -> A) le :
  total_order le ->
  (forall (x : bool) a b, br x a b = if x then a else b) ->
  (forall a b, ok a -> ok b -> c a b OGe = true <-> le (abs b) (abs a)) ->
  forall a b, ok a -> ok b -> ok (smt_max_with br c a b) /\
    forall x, le (abs (smt_max_with br c a b)) x <-> le (abs a) x /\ le (abs b) x.
Proof.
  intros (R & T' & AS & TT) Hbr Hle a b Ha Hb. unfold smt_max_with. rewrite Hbr.
  destruct (c a b OGe) eqn:E.
  - apply Hle in E; auto. split; auto. intros x; split; [|tauto]. intros; split; eauto.
  - assert (N : ~ le (abs b) (abs a)) by (rewrite <- Hle by auto; congruence).
    split; auto. intros x; split; [|tauto]. intros; split; auto.
    destruct (TT (abs a) (abs b)); [eauto|tauto].
Qed.

Lemma pair_represents : represents pair_lattice pair_ok pair_val ele.
Proof.
  split; simpl.
  - apply pair_cmp_le.
  - intros; now apply pair_cmp_le.
  - intros. rewrite negb_true_iff, <- not_true_iff_false, pair_cmp_le by auto. apply strict_iff.
  - intros a b Ha Hb. rewrite negb_true_iff, <- not_true_iff_false, pair_cmp_le by auto.
    rewrite strict_iff. intuition congruence.
  - apply pair_cmp_eq.
  - apply pair_branch_ite.
  - split; [unfold pair_ok; simpl; lra|]. intros; apply ebot_le.
  - split; [unfold pair_ok; simpl; lra|]. intros; apply ele_top.
  - apply min_rep; auto using ele_total_order, pair_branch_ite. intros; now apply pair_cmp_le.
  - apply max_rep; auto using ele_total_order, pair_branch_ite. intros; now apply pair_cmp_le.
Qed.

Lemma dt_cmp_le junk a b : dt_ok a -> dt_ok b -> dt_le junk a b = true <-> ele (dt_val a) (dt_val b).
Proof.
  destruct a as [|x], b as [|y]; cbn; intros; try easy.
  rewrite !nval_of by auto. apply Rleb_iff.
Qed.
Lemma dt_cmp_eq a b : dt_ok a -> dt_ok b -> dt_eq a b = true <-> dt_val a = dt_val b.
Proof.
  destruct a as [|x], b as [|y]; cbn; intros; try easy.
  rewrite fin_eq_iff by auto. apply Reqb_iff.
Qed.
Lemma dt_cmp_ge junk a b : dt_ok a -> dt_ok b ->
  orb (negb (dt_le junk a b)) (dt_eq a b) = true <-> ele (dt_val b) (dt_val a).
Proof.
  intros Ha Hb. rewrite orb_true_iff, negb_true_iff, <- not_true_iff_false, dt_cmp_le, dt_cmp_eq by auto.
  split.
  - intros [H| ->]; [now apply not_ele | apply ele_refl].
  - intros H. destruct (classic (ele (dt_val a) (dt_val b))); [right; now apply ele_antisym|now left].
Qed.

Lemma dt_represents junk : represents (dt_lattice junk) dt_ok dt_val ele.
Proof.
  split; simpl.
  - apply dt_cmp_le.
  - apply dt_cmp_ge.
  - intros. rewrite andb_true_iff, negb_true_iff, <- not_true_iff_false, dt_cmp_le, dt_cmp_eq by auto. tauto.
  - intros a b Ha Hb. rewrite negb_true_iff, <- not_true_iff_false, dt_cmp_le by auto.
    rewrite strict_iff. intuition congruence.
  - apply dt_cmp_eq.
  - reflexivity.
  - split; [lra|]. intros; apply ebot_le.
  - split; [exact I|]. intros; apply ele_top.
  - apply min_rep; auto using ele_total_order. apply dt_cmp_le.
  - apply max_rep; auto using ele_total_order. apply dt_cmp_ge.
Qed.

Lemma bool_represents : represents bool_lattice (fun _ => True) (fun b => b) ble.
Proof.
  unfold ble; split; simpl; try tauto.
  - intros [] [] _ _; simpl; intuition congruence.
  - intros [] [] _ _; simpl; intuition congruence.
  - intros [] [] _ _; simpl; intuition congruence.
  - split; auto. now intros [].
  - intros [] [] _ _; simpl; split; auto; intros []; simpl; intuition congruence.
  - intros [] [] _ _; simpl; split; auto; intros []; simpl; intuition congruence.
Qed.

Lemma opp_represents {T A} (L : smt_lattice T) ok (abs : T -> A) le :
  represents L ok abs le -> represents (opp L) ok abs (fun x y => le y x).
Proof.
  intros [a1 a2 a3 a4 a5 a6 a7 a8 a9 a10]; split; simpl; auto.
Qed.

(** *** Heyting algebra *)
Section Heyting.
  Context {T A : Type} (L : smt_lattice T) (ok : T -> Prop) (abs : T -> A) (le : A -> A -> Prop).
  Hypothesis Hrep : represents L ok abs le.
  Hypothesis Hord : total_order le.

  Lemma impl_ok a b : ok a -> ok b -> ok (implication L a b).
  Proof.
    intros. unfold implication. rewrite (rep_branch _ _ _ _ Hrep).
    destruct (cmp _ _ _ _); auto. apply Hrep.
  Qed.

  Lemma impl_adjoint a b c : ok a -> ok b ->
    le c (abs (implication L a b)) <-> (forall x, le x c -> le x (abs a) -> le x (abs b)).
  Proof.
    destruct Hord as (R & TR & AS & TT).
    intros Ha Hb. unfold implication. rewrite (rep_branch _ _ _ _ Hrep).
    destruct (cmp L a b OLe) eqn:E.
    - apply (rep_le _ _ _ _ Hrep) in E; auto. split; eauto. intros; apply Hrep.
    - assert (N : ~ le (abs a) (abs b)) by (rewrite <- (rep_le _ _ _ _ Hrep) by auto; congruence).
      split.
      + intros; eauto.
      + intros H. destruct (TT c (abs a)) as [H1|H1]; [now apply H|].
        exfalso. apply N. apply H; auto.
  Qed.

  Lemma compare_spec a b : ok a -> ok b ->
    ok (compare L a b) /\
    (le (abs a) (abs b) -> abs (compare L a b) = abs (top L)) /\
    (~ le (abs a) (abs b) -> abs (compare L a b) = abs (bot L)).
  Proof.
    intros Ha Hb. unfold compare. rewrite (rep_branch _ _ _ _ Hrep).
    rewrite <- (rep_le _ _ _ _ Hrep) by auto.
    destruct (cmp L a b OLe); repeat split; try apply Hrep; auto; congruence.
  Qed.

  Lemma negate_spec a : ok a -> ok (negate L a) /\ abs (negate L a) = abs (implication L a (bot L)).
  Proof.
    intros Ha. unfold negate, implication. rewrite !(rep_branch _ _ _ _ Hrep).
    destruct (cmp L a (bot L) OLe); split; auto; apply Hrep.
  Qed.
End Heyting.

(** *** Infima *)
Lemma infimum_axioms_sound {T AR Q : Type} (L : smt_lattice T) (ok inv : T -> Prop) (abs : T -> eur)
    (body : AR -> Q -> T) ext :
  represents L ok abs ele ->
  (forall t, inv t -> ok t) ->
  (forall v, exists t, inv t /\ abs t = v) ->
  (forall a q, ok (body a q)) ->
  infimum_axioms L inv body ext <->
  (forall a, inv (ext a) /\ is_inf (fun v => exists q, v = abs (body a q)) (abs (ext a))).
Proof.
  intros Hr Hio Hsur Hb. unfold infimum_axioms, is_inf. split.
  - intros (H1 & H2 & H3) a. split; auto. split.
    + intros x (q & ->). apply (rep_le _ _ _ _ Hr); auto.
    + intros u Hu. destruct (Hsur u) as (t & Ht & <-).
      apply (rep_le _ _ _ _ Hr); auto. apply H3; auto.
      intros q. apply (rep_le _ _ _ _ Hr); auto. apply Hu; eauto.
  - intros H. repeat split.
    + intros a; apply H.
    + intros a q. destruct (H a) as (H1 & H2 & H3). apply (rep_le _ _ _ _ Hr); auto. apply H2; eauto.
    + intros a c Hc Hlb. destruct (H a) as (H1 & H2 & H3). apply (rep_le _ _ _ _ Hr); auto.
      apply H3. intros x (q & ->). apply (rep_le _ _ _ _ Hr); auto.
Qed.

Lemma supremum_axioms_sound {T AR Q : Type} (L : smt_lattice T) (ok inv : T -> Prop) (abs : T -> eur)
    (body : AR -> Q -> T) ext :
  represents L ok abs ele ->
  (forall t, inv t -> ok t) ->
  (forall v, exists t, inv t /\ abs t = v) ->
  (forall a q, ok (body a q)) ->
  supremum_axioms L inv body ext <->
  (forall a, inv (ext a) /\ is_sup (fun v => exists q, v = abs (body a q)) (abs (ext a))).
Proof.
  intros Hr Hio Hsur Hb. unfold supremum_axioms, infimum_axioms, is_sup; simpl. split.
  - intros (H1 & H2 & H3) a. split; auto. split.
    + intros x (q & ->). apply (rep_ge _ _ _ _ Hr); auto.
    + intros u Hu. destruct (Hsur u) as (t & Ht & <-).
      apply (rep_ge _ _ _ _ Hr); auto. apply H3; auto.
      intros q. apply (rep_ge _ _ _ _ Hr); auto. apply Hu; eauto.
  - intros H. repeat split.
    + intros a; apply H.
    + intros a q. destruct (H a) as (H1 & H2 & H3). apply (rep_ge _ _ _ _ Hr); auto. apply H2; eauto.
    + intros a c Hc Hlb. destruct (H a) as (H1 & H2 & H3). apply (rep_ge _ _ _ _ Hr); auto.
      apply H3. intros x (q & ->). apply (rep_ge _ _ _ _ Hr); auto.
Qed.

(** Canonical representatives. *)
Lemma pair_invariant_iff a : pair_invariant a = true <-> (0 <= p_num a /\ (p_inf a = true -> p_num a = 1)).
Proof.
  unfold pair_invariant, ureal_inv. rewrite andb_true_iff, Rleb_iff.
  destruct (p_inf a); simpl; rewrite ?Reqb_iff; intuition congruence.
Qed.
Lemma pair_invariant_ok a : pair_invariant a = true -> pair_ok a.
Proof. intros H; apply pair_invariant_iff in H. apply H. Qed.
Lemma pair_canonical v : exists a, (pair_invariant a = true /\ pair_val a = v) /\
  forall b, pair_invariant b = true /\ pair_val b = v -> b = a.
Proof.
  destruct (eur_cases v) as [(r & h & ->)| ->].
  - exists (mkpair false r). split; [split; [apply pair_invariant_iff; simpl; split; [lra|discriminate]|reflexivity]|].
    intros [[] y] [H E]; apply pair_invariant_iff in H; unfold pair_val in E; simpl in *; [discriminate|].
    apply fin_inj in E; subst; tauto.
  - exists (mkpair true 1). split; [split; [apply pair_invariant_iff; simpl; split; [lra|auto]|reflexivity]|].
    intros [[] y] [H E]; apply pair_invariant_iff in H; unfold pair_val in E; simpl in *; [|discriminate].
    f_equal; apply H; auto.
Qed.
Lemma pair_surj v : exists a, pair_invariant a = true /\ pair_val a = v.
Proof. destruct (pair_canonical v) as (a & H & _); eauto. Qed.

Lemma dt_surj junk v : 0 <= junk -> exists a, dt_invariant junk a = true /\ dt_val a = v.
Proof.
  intros Hj. destruct (eur_cases v) as [(r & h & ->)| ->].
  - exists (DReal r). split; auto. apply Rleb_iff; auto.
  - exists DInf. split; auto. apply Rleb_iff; auto.
Qed.
Lemma dt_invariant_ok junk a : dt_invariant junk a = true -> dt_ok a.
Proof. destruct a; simpl; auto. apply Rleb_iff. Qed.

(** *** Statements used by the property files *)
Lemma pair_arith_correct a b : pair_ok a -> pair_ok b ->
  (pair_ok (pair_add a b) /\ pair_val (pair_add a b) = eadd (pair_val a) (pair_val b)) /\
  (pair_ok (pair_mul a b) /\ pair_val (pair_mul a b) = emul (pair_val a) (pair_val b)) /\
  (forall c : bool, pair_val (pair_branch c a b) = if c then pair_val a else pair_val b) /\
  (pair_val (smt_min_with pair_branch pair_cmp a b) = emin (pair_val a) (pair_val b)) /\
  (pair_val (smt_max_with pair_branch pair_cmp a b) = emax (pair_val a) (pair_val b)).
Proof.
  intros Ha Hb. repeat split; auto using pair_add_ok, pair_mul_ok, pair_add_correct, pair_mul_correct.
  - intros c. rewrite pair_branch_ite. now destruct c.
  - apply ele_antisym.
    + apply emin_glb; apply (proj2 (rep_inf _ _ _ _ pair_represents a b Ha Hb)); apply ele_refl.
    + apply (proj2 (rep_inf _ _ _ _ pair_represents a b Ha Hb)). split; [apply emin_l|apply emin_r].
  - apply ele_antisym.
    + apply (proj2 (rep_sup _ _ _ _ pair_represents a b Ha Hb)). split; [apply emax_l|apply emax_r].
    + apply emax_lub; apply (proj2 (rep_sup _ _ _ _ pair_represents a b Ha Hb)); apply ele_refl.
Qed.

Lemma dt_arith_correct junk a b : dt_ok a -> dt_ok b ->
  (dt_ok (dt_add junk a b) /\ dt_val (dt_add junk a b) = eadd (dt_val a) (dt_val b)) /\
  (dt_ok (dt_sub junk a b) /\ dt_val (dt_sub junk a b) = emonus (dt_val a) (dt_val b)) /\
  (dt_ok (dt_mul junk a b) /\ dt_val (dt_mul junk a b) = emul (dt_val a) (dt_val b)) /\
  (dt_val (smt_min_with dt_branch (dt_cmp junk) a b) = emin (dt_val a) (dt_val b)) /\
  (dt_val (smt_max_with dt_branch (dt_cmp junk) a b) = emax (dt_val a) (dt_val b)).
Proof.
  intros Ha Hb. destruct (dt_ops_correct junk a b Ha Hb) as (H1 & H2 & H3).
  refine (conj H1 (conj H2 (conj H3 (conj _ _)))).
  - apply ele_antisym.
    + apply emin_glb; apply (proj2 (rep_inf _ _ _ _ (dt_represents junk) a b Ha Hb)); apply ele_refl.
    + apply (proj2 (rep_inf _ _ _ _ (dt_represents junk) a b Ha Hb)). split; [apply emin_l|apply emin_r].
  - apply ele_antisym.
    + apply (proj2 (rep_sup _ _ _ _ (dt_represents junk) a b Ha Hb)). split; [apply emax_l|apply emax_r].
    + apply emax_lub; apply (proj2 (rep_sup _ _ _ _ (dt_represents junk) a b Ha Hb)); apply ele_refl.
Qed.

Lemma pair_sub_refuted : exists a b, pair_invariant a = true /\ pair_invariant b = true /\
  pair_val a = fin 5 /\ pair_val b = Inf /\
  pair_val (pair_sub a b) = fin 4 /\ emonus (pair_val a) (pair_val b) = ebot /\ fin 4 <> ebot.
Proof.
  exists (mkpair false 5), (mkpair true 1). repeat split.
  - apply pair_invariant_iff; simpl; split; [lra|discriminate].
  - apply pair_invariant_iff; simpl; split; [lra|auto].
  - unfold pair_val, pair_sub; simpl. rewrite real_monus_max. rewrite fin_max. f_equal; lra.
  - intros H. apply fin_inj in H; lra.
Qed.

Lemma encodings_disagree : exists (p q : epair) (a b : dt) (junk : R),
  pair_invariant p = true /\ pair_invariant q = true /\ dt_invariant junk a = true /\ dt_invariant junk b = true /\
  pair_val p = dt_val a /\ pair_val q = dt_val b /\ pair_val (pair_sub p q) <> dt_val (dt_sub junk a b).
Proof.
  exists (mkpair false 5), (mkpair true 1), (DReal 5), DInf, 0. repeat split.
  - apply pair_invariant_iff; simpl; split; [lra|discriminate].
  - apply pair_invariant_iff; simpl; split; [lra|auto].
  - apply Rleb_iff; simpl; lra.
  - apply Rleb_iff; simpl; lra.
  - unfold pair_val, pair_sub; simpl. rewrite real_monus_max, fin_max.
    intros H. apply fin_inj in H; lra.
Qed.

Lemma encodings_agree p q a b junk : pair_ok p -> pair_ok q -> dt_ok a -> dt_ok b ->
  pair_val p = dt_val a -> pair_val q = dt_val b ->
  pair_val (pair_add p q) = dt_val (dt_add junk a b) /\
  pair_val (pair_mul p q) = dt_val (dt_mul junk a b) /\
  (forall o, pair_cmp p q o = dt_cmp junk a b o) /\
  (dt_val b <> Inf -> pair_val (pair_sub p q) = dt_val (dt_sub junk a b)).
Proof.
  intros Hp Hq Ha Hb E1 E2. destruct (dt_ops_correct junk a b Ha Hb) as ((_ & H1) & (_ & H2) & (_ & H3)).
  rewrite H1, H2, H3, pair_add_correct, pair_mul_correct, E1, E2 by auto. repeat split; auto.
  - pose proof pair_represents as P; pose proof (dt_represents junk) as D.
    intros o. apply eq_true_iff_eq.
    change (pair_cmp p q o) with (cmp pair_lattice p q o).
    change (dt_cmp junk a b o) with (cmp (dt_lattice junk) a b o).
    destruct o.
    + rewrite (rep_lt _ _ _ _ P), (rep_lt _ _ _ _ D) by auto. now rewrite E1, E2.
    + rewrite (rep_le _ _ _ _ P), (rep_le _ _ _ _ D) by auto. now rewrite E1, E2.
    + rewrite (rep_eq _ _ _ _ P), (rep_eq _ _ _ _ D) by auto. now rewrite E1, E2.
    + rewrite (rep_ge _ _ _ _ P), (rep_ge _ _ _ _ D) by auto. now rewrite E1, E2.
    + rewrite (rep_gt _ _ _ _ P), (rep_gt _ _ _ _ D) by auto. now rewrite E1, E2.
  - intros Hf. rewrite (proj2 (pair_sub_correct_iff p q Hp Hq)).
    + now rewrite E1, E2.
    + intros Hi. unfold pair_val in E2. rewrite Hi in E2. congruence.
Qed.

Lemma dt_invariant_excludes_infinity : exists junk, forall a, dt_invariant junk a = true -> dt_val a <> Inf.
Proof.
  exists (-1). intros [|r] H; [|discriminate].
  apply Rleb_iff in H; simpl in H; lra.
Qed.

Lemma concrete_roundtrip c : concrete_ok c -> pair_eval (to_symbolic c) = c /\ pair_val (to_symbolic c) = concrete_val c.
Proof. destruct c; split; reflexivity. Qed.

Lemma pair_eval_correct a : pair_ok a -> concrete_ok (pair_eval a) /\ concrete_val (pair_eval a) = pair_val a.
Proof. destruct a as [[] x]; unfold pair_ok; simpl; auto. Qed.

Lemma monus_spec a b c : ele (emonus a b) c <-> ele a (eadd b c).
Proof.
  destruct (eur_cases a) as [(x & hx & ->)| ->], (eur_cases b) as [(y & hy & ->)| ->],
    (eur_cases c) as [(z & hz & ->)| ->]; rewrite ?eadd_Inf_l, ?eadd_Inf_r, ?emonus_Inf_r;
    try (split; intros; solve [apply ele_top | apply ebot_le]).
  - rewrite emonus_fin, eadd_fin by lra. rewrite (ele_fin x (y+z)) by lra.
    unfold fin; simpl. rewrite nval_of_max, nval_of by lra.
    split; intros H.
    + assert (x - y <= Rmax 0 (x - y)) by apply Rmax_r. lra.
    + apply Rmax_lub; lra.
  - unfold fin at 1; cbn [emonus]. simpl. split; easy.
Qed.

Lemma uint_monus_spec a b : (0 <= a)%Z -> (0 <= b)%Z ->
  int_monus a b = Z.max 0 (a - b).
Proof. unfold int_monus. rewrite Z.geb_leb. destruct (Z.leb_spec b a); lia. Qed.

(** The constants meet the invariant of fresh variables and have the value they name. *)
Lemma pair_constants :
  (pair_invariant pair_infinity = true /\ pair_val pair_infinity = Inf) /\
  (pair_invariant pair_zero = true /\ pair_val pair_zero = ebot) /\
  (forall r, 0 <= r -> pair_invariant (pair_from_ureal r) = true /\ pair_val (pair_from_ureal r) = fin r) /\
  (forall c : bool, pair_invariant (pair_iverson c) = true /\ pair_val (pair_iverson c) = if c then fin 1 else ebot).
Proof.
  assert (Hf : forall r, 0 <= r -> pair_invariant (pair_from_ureal r) = true /\ pair_val (pair_from_ureal r) = fin r).
  { intros r Hr. unfold pair_invariant, ureal_inv, pair_from_ureal; cbn.
    split; [|unfold pair_val; cbn; reflexivity].
    rewrite Bool.andb_true_r. apply Rleb_iff; exact Hr. }
  assert (H0 := Hf 0 (Rle_refl 0)). assert (H1 := Hf 1 Rle_0_1).
  assert (Hi : pair_invariant pair_infinity = true).
  { unfold pair_invariant, ureal_inv; cbn. rewrite (proj2 (Reqb_iff 1 1) eq_refl).
    rewrite Bool.andb_true_r. apply Rleb_iff. exact Rle_0_1. }
  refine (conj (conj Hi eq_refl) (conj H0 (conj Hf _))).
  intros []; [exact H1|exact H0].
Qed.
