From Coq Require Import Reals Lra Bool Setoid.
From Verif.Spec Require Import Eur EncSpec.
From Verif.Model Require Import Orders EurEncodings.
From Verif.Proofs Require Import EurLemmas EncProofs.
Local Open Scope R_scope.

Lemma min_adj a b c : (forall x, ele x c -> ele x a -> ele x b) <-> ele (emin c a) b.
Proof.
  split.
  - intros H. apply H; [apply emin_l|apply emin_r].
  - intros H x Hc Ha. apply (ele_trans _ (emin c a)); auto. now apply emin_glb.
Qed.
Lemma max_adj a b c : (forall x, ele c x -> ele a x -> ele b x) <-> ele b (emax a c).
Proof.
  split.
  - intros H. apply H; [apply emax_r|apply emax_l].
  - intros H x Hc Ha. apply (ele_trans _ (emax a c)); auto. now apply emax_lub.
Qed.

Lemma pair_impl_adjoint a b c : pair_ok a -> pair_ok b ->
  ele c (pair_val (implication pair_lattice a b)) <-> ele (emin c (pair_val a)) (pair_val b).
Proof.
  intros. rewrite <- min_adj. exact (impl_adjoint _ _ _ _ pair_represents ele_total_order a b c H H0).
Qed.
Lemma dt_impl_adjoint junk a b c : dt_ok a -> dt_ok b ->
  ele c (dt_val (implication (dt_lattice junk) a b)) <-> ele (emin c (dt_val a)) (dt_val b).
Proof.
  intros. rewrite <- min_adj. exact (impl_adjoint _ _ _ _ (dt_represents junk) ele_total_order a b c H H0).
Qed.
Lemma pair_coimpl_adjoint a b c : pair_ok a -> pair_ok b ->
  ele (pair_val (coimplication pair_lattice a b)) c <-> ele (pair_val b) (emax (pair_val a) c).
Proof.
  intros. rewrite <- max_adj.
  exact (impl_adjoint _ _ _ _ (opp_represents _ _ _ _ pair_represents)
    (flip_total_order _ ele_total_order) a b c H H0).
Qed.
Lemma dt_coimpl_adjoint junk a b c : dt_ok a -> dt_ok b ->
  ele (dt_val (coimplication (dt_lattice junk) a b)) c <-> ele (dt_val b) (emax (dt_val a) c).
Proof.
  intros. rewrite <- max_adj.
  exact (impl_adjoint _ _ _ _ (opp_represents _ _ _ _ (dt_represents junk))
    (flip_total_order _ ele_total_order) a b c H H0).
Qed.

Section Values.
  Context {T : Type} (L : smt_lattice T) (ok : T -> Prop) (abs : T -> eur).
  Hypothesis Hrep : represents L ok abs ele.
  Lemma abs_top : abs (top L) = etop.
  Proof. apply top_le. apply Hrep. Qed.
  Lemma abs_bot : abs (bot L) = ebot.
  Proof. apply le_ebot. apply Hrep. Qed.
  Lemma cmp_le_eleb a b : ok a -> ok b -> cmp L a b OLe = eleb (abs a) (abs b).
  Proof. intros. apply eq_true_iff_eq. rewrite (rep_le _ _ _ _ Hrep), eleb_iff by auto. reflexivity. Qed.
  Lemma cmp_ge_eleb a b : ok a -> ok b -> cmp L a b OGe = eleb (abs b) (abs a).
  Proof. intros. apply eq_true_iff_eq. rewrite (rep_ge _ _ _ _ Hrep), eleb_iff by auto. reflexivity. Qed.
  Lemma operator_values a b : ok a -> ok b ->
    abs (implication L a b) = (if eleb (abs a) (abs b) then etop else abs b) /\
    abs (coimplication L a b) = (if eleb (abs b) (abs a) then ebot else abs b) /\
    abs (compare L a b) = (if eleb (abs a) (abs b) then etop else ebot) /\
    abs (cocompare L a b) = (if eleb (abs b) (abs a) then ebot else etop) /\
    abs (negate L a) = (if eleb (abs a) ebot then etop else ebot) /\
    abs (conegate L a) = (if eleb etop (abs a) then ebot else etop).
  Proof.
    intros Ha Hb.
    unfold coimplication, cocompare, conegate, implication, compare, negate; cbn [opp cmp branch top bot reverse].
    rewrite !(rep_branch _ _ _ _ Hrep), !cmp_le_eleb, !cmp_ge_eleb, ?abs_bot, ?abs_top by (auto; apply Hrep).
    repeat split; destruct (eleb _ _); auto using abs_top, abs_bot.
  Qed.
End Values.

Lemma pair_operator_values a b : pair_ok a -> pair_ok b ->
  pair_val (implication pair_lattice a b) = (if eleb (pair_val a) (pair_val b) then etop else pair_val b) /\
  pair_val (coimplication pair_lattice a b) = (if eleb (pair_val b) (pair_val a) then ebot else pair_val b) /\
  pair_val (compare pair_lattice a b) = (if eleb (pair_val a) (pair_val b) then etop else ebot) /\
  pair_val (cocompare pair_lattice a b) = (if eleb (pair_val b) (pair_val a) then ebot else etop) /\
  pair_val (negate pair_lattice a) = (if eleb (pair_val a) ebot then etop else ebot) /\
  pair_val (conegate pair_lattice a) = (if eleb etop (pair_val a) then ebot else etop).
Proof. exact (operator_values _ _ _ pair_represents a b). Qed.
Lemma dt_operator_values junk a b : dt_ok a -> dt_ok b ->
  dt_val (implication (dt_lattice junk) a b) = (if eleb (dt_val a) (dt_val b) then etop else dt_val b) /\
  dt_val (coimplication (dt_lattice junk) a b) = (if eleb (dt_val b) (dt_val a) then ebot else dt_val b) /\
  dt_val (compare (dt_lattice junk) a b) = (if eleb (dt_val a) (dt_val b) then etop else ebot) /\
  dt_val (cocompare (dt_lattice junk) a b) = (if eleb (dt_val b) (dt_val a) then ebot else etop) /\
  dt_val (negate (dt_lattice junk) a) = (if eleb (dt_val a) ebot then etop else ebot) /\
  dt_val (conegate (dt_lattice junk) a) = (if eleb etop (dt_val a) then ebot else etop).
Proof. exact (operator_values _ _ _ (dt_represents junk) a b). Qed.

Lemma bool_operator_values (a b : bool) :
  implication bool_lattice a b = implb a b /\ negate bool_lattice a = negb a /\
  conegate bool_lattice a = negb a /\ compare bool_lattice a b = implb a b /\
  coimplication bool_lattice a b = andb b (negb a) /\ cocompare bool_lattice a b = andb b (negb a) /\
  bool_embed bool_lattice a = a.
Proof. destruct a, b; repeat split. Qed.

Lemma opp_opp_cmp {T} (L : smt_lattice T) a b o : cmp (opp (opp L)) a b o = cmp L a b o.
Proof. now destruct o. Qed.

Lemma embed_values (c : bool) :
  pair_val (bool_embed pair_lattice c) = (if c then etop else ebot) /\
  (forall junk, dt_val (bool_embed (dt_lattice junk) c) = (if c then etop else ebot)) /\
  pair_val (pair_iverson c) = (if c then eone else ebot) /\ dt_val (dt_iverson c) = (if c then eone else ebot).
Proof. destruct c; repeat split. Qed.

Lemma pair_impl_example : pair_ok (mkpair true 3) /\ pair_ok (mkpair false 2) /\
  pair_val (implication pair_lattice (mkpair true 3) (mkpair false 2)) = fin 2.
Proof. repeat split; unfold pair_ok; simpl; lra. Qed.

(** Extrema *)
Lemma pair_infimum {A Q} (body : A -> Q -> epair) ext : (forall a q, pair_ok (body a q)) ->
  infimum_axioms pair_lattice (fun t => pair_invariant t = true) body ext <->
  (forall a, pair_invariant (ext a) = true /\ pair_val (ext a) = einf (fun v => exists q, v = pair_val (body a q))).
Proof.
  intros Hb. rewrite (infimum_axioms_sound pair_lattice pair_ok _ pair_val);
    auto using pair_represents, pair_invariant_ok, pair_surj.
  split; intros H a; destruct (H a) as [H1 H2]; split; auto.
  - symmetry; now apply einf_eq. - rewrite H2. apply einf_spec.
Qed.
Lemma pair_supremum {A Q} (body : A -> Q -> epair) ext : (forall a q, pair_ok (body a q)) ->
  supremum_axioms pair_lattice (fun t => pair_invariant t = true) body ext <->
  (forall a, pair_invariant (ext a) = true /\ pair_val (ext a) = esup (fun v => exists q, v = pair_val (body a q))).
Proof.
  intros Hb. rewrite (supremum_axioms_sound pair_lattice pair_ok _ pair_val);
    auto using pair_represents, pair_invariant_ok, pair_surj.
  split; intros H a; destruct (H a) as [H1 H2]; split; auto.
  - symmetry; now apply esup_eq. - rewrite H2. apply esup_spec.
Qed.
Lemma canonical_choice (v : eur) : {a : epair | pair_invariant a = true /\ pair_val a = v}.
Proof. apply ClassicalEpsilon.constructive_indefinite_description, pair_surj. Qed.
Lemma pair_extrema_exist {A Q} (body : A -> Q -> epair) : (forall a q, pair_ok (body a q)) ->
  (exists ext, infimum_axioms pair_lattice (fun t => pair_invariant t = true) body ext) /\
  (exists ext, supremum_axioms pair_lattice (fun t => pair_invariant t = true) body ext).
Proof.
  intros Hb. split.
  - exists (fun a => proj1_sig (canonical_choice (einf (fun v => exists q, v = pair_val (body a q))))).
    apply pair_infimum; auto. intros a. now destruct (canonical_choice _) as [x Hx].
  - exists (fun a => proj1_sig (canonical_choice (esup (fun v => exists q, v = pair_val (body a q))))).
    apply pair_supremum; auto. intros a. now destruct (canonical_choice _) as [x Hx].
Qed.
Lemma dt_infimum junk {A Q} (body : A -> Q -> dt) ext : 0 <= junk -> (forall a q, dt_ok (body a q)) ->
  infimum_axioms (dt_lattice junk) (fun t => dt_invariant junk t = true) body ext <->
  (forall a, dt_invariant junk (ext a) = true /\ dt_val (ext a) = einf (fun v => exists q, v = dt_val (body a q))).
Proof.
  intros Hj Hb. rewrite (infimum_axioms_sound (dt_lattice junk) dt_ok _ dt_val);
    auto using dt_represents, dt_surj. 2: now apply dt_invariant_ok.
  split; intros H a; destruct (H a) as [H1 H2]; split; auto.
  - symmetry; now apply einf_eq. - rewrite H2. apply einf_spec.
Qed.
(** With a negative junk value the constraints for [inf q. oo] have no solution. *)
Lemma dt_infimum_unsat junk : junk < 0 ->
  ~ exists ext : unit -> dt, infimum_axioms (dt_lattice junk) (fun t => dt_invariant junk t = true)
      (fun (_ : unit) (_ : unit) => DInf) ext.
Proof.
  intros Hj (ext & H1 & H2 & H3).
  pose proof (H1 tt) as I. destruct (ext tt) as [|r] eqn:E.
  - apply Rleb_iff in I; simpl in I; lra.
  - apply Rleb_iff in I; simpl in I.
    assert (C : cmp (dt_lattice junk) (DReal (r + 1)) (ext tt) OLe = true).
    { apply H3; [apply Rleb_iff; simpl; lra|]. reflexivity. }
    rewrite E in C. simpl in C. unfold dt_le in C. simpl in C. apply Rleb_iff in C. lra.
Qed.
