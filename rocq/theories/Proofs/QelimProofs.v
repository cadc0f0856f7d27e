(** Quantifier elimination preserves validity. *)
From Coq Require Import Bool List String NArith QArith Reals Qreals Lra Lia Classical.
From Verif.Model Require Import Syntax Builder Lits TyCtx Qelim Subst.
From Verif.Spec Require Import Eur Sem Linear Valid.
From Verif.Proofs Require Import EurLemmas SemLemmas SimLemmas TyCtxProofs SubstProofs.
Import ListNotations.
Local Open Scope nat_scope.

(** * Infima and suprema of sets of values *)
Definition is_ext (d : direction) (P : eur -> Prop) (x : eur) : Prop :=
  match d with Down => is_inf P x | Up => is_sup P x end.
Definition opp (d : direction) : direction := match d with Down => Up | Up => Down end.
Definition dle (d : direction) (a b : eur) : Prop := match d with Down => ele a b | Up => ele b a end.

Lemma ext_iff d P x : is_ext d P x <-> (forall y, P y -> dle d x y) /\ (forall u, (forall y, P y -> dle d u y) -> dle d u x).
Proof. destruct d; reflexivity. Qed.
Lemma dle_refl d a : dle d a a.
Proof. destruct d; apply ele_refl. Qed.
Lemma dle_trans d a b c : dle d a b -> dle d b c -> dle d a c.
Proof. destruct d; simpl; intros; eapply ele_trans; eauto. Qed.

Lemma ext_eq d P Q x : (forall y, P y <-> Q y) -> is_ext d P x -> is_ext d Q x.
Proof.
  intros H. rewrite !ext_iff. intros [H1 H2]. split.
  - intros y Hy. apply H1, H, Hy.
  - intros u Hu. apply H2. intros y Hy. apply Hu, H, Hy.
Qed.
Lemma ext_single d x : is_ext d (fun y => y = x) x.
Proof. apply ext_iff. split; [intros y ->; apply dle_refl | intros u H; apply H; auto]. Qed.
Lemma ext_ext {A} d (S : A -> Prop) (P : A -> eur -> Prop) f m :
  (forall s, S s -> is_ext d (P s) (f s)) -> is_ext d (fun r => exists s, S s /\ f s = r) m ->
  is_ext d (fun r => exists s, S s /\ P s r) m.
Proof.
  intros H. rewrite !ext_iff. intros [H1 H2]. split.
  - intros y [s [Hs Hy]]. pose proof (H s Hs) as Hx. apply ext_iff in Hx. destruct Hx as [Ha _].
    eapply dle_trans; [apply H1; eauto | apply Ha, Hy].
  - intros u Hu. apply H2. intros y [s [Hs <-]]. pose proof (H s Hs) as Hx. apply ext_iff in Hx. apply Hx.
    intros y Hy. apply Hu. eauto.
Qed.

(** An operation that turns extrema into extrema. *)
Definition cont2 (d da db : direction) (g : eur -> eur -> eur) : Prop := forall PA PB a b,
  (exists x, PA x) -> (exists y, PB y) -> is_ext da PA a -> is_ext db PB b ->
  is_ext d (fun r => exists x y, PA x /\ PB y /\ r = g x y) (g a b).

(** It is enough that it is monotone and has residuals in each argument. *)
Lemma cont2_res d da db g :
  (forall x x' y y', dle da x x' -> dle db y y' -> dle d (g x y) (g x' y')) ->
  (forall u y (P : eur -> Prop) a, (exists x, P x) -> is_ext da P a -> (forall x, P x -> dle d u (g x y)) -> dle d u (g a y)) ->
  (forall u x (P : eur -> Prop) b, (exists y, P y) -> is_ext db P b -> (forall y, P y -> dle d u (g x y)) -> dle d u (g x b)) ->
  cont2 d da db g.
Proof.
  intros Hm H1 H2 PA PB a b NA NB HA HB. apply ext_iff. split.
  - intros r (x & y & Hx & Hy & ->). apply ext_iff in HA, HB. apply Hm; [apply HA | apply HB]; auto.
  - intros u Hu. apply (H1 u b PA a NA HA). intros x Hx. apply (H2 u x PB b NB HB). intros y Hy. apply Hu. eauto 6.
Qed.
(** A residual: [dle d u (g x)] is a lower-bound condition on [x]. *)
Lemma res_ext d da (g : eur -> eur) u P a : (exists x, P x) -> is_ext da P a ->
  (exists w, forall x, dle d u (g x) <-> dle da w x) -> (forall x, P x -> dle d u (g x)) -> dle d u (g a).
Proof. intros _ H [w Hw] Hu. apply Hw. apply ext_iff in H. apply H. intros x Hx. apply Hw, Hu, Hx. Qed.

Lemma emonus_res u x y : ele u (eadd x y) <-> ele (emonus u x) y.
Proof.
  destruct u as [u|], x as [x|], y as [y|]; unfold eadd, emonus, fin, ele; try tauto;
    rewrite ?nval_of_max;
    repeat match goal with z : nnr |- _ => lazymatch goal with H : (0 <= nval z)%R |- _ => fail | _ => pose proof (nval_nonneg z) end end;
    unfold Rmax; repeat match goal with |- context [Rle_dec ?a ?b] => destruct (Rle_dec a b) end; split; intros; try lra; auto.
Qed.

Lemma cont_add_inf : cont2 Down Down Down eadd.
Proof.
  apply cont2_res.
  - intros. apply eadd_mono; auto.
  - intros u y P a N H Hu. apply (res_ext Down Down (fun x => eadd x y) u P a); auto. exists (emonus u y). intros x. simpl.
    rewrite eadd_comm. apply emonus_res.
  - intros u x P a N H Hu. apply (res_ext Down Down (fun y => eadd x y) u P a); auto. exists (emonus u x). intros y. simpl.
    apply emonus_res.
Qed.

Lemma sup_add u x P b : (exists y, P y) -> is_sup P b -> (forall y, P y -> ele (eadd x y) u) -> ele (eadd x b) u.
Proof.
  intros [y0 Hy0] [H1 H2] Hu.
  destruct u as [u|]; [|apply ele_top]. destruct x as [x|]; [|exfalso; apply (Hu y0 Hy0)].
  assert (Hx : (nval x <= nval u)%R).
  { specialize (Hu y0 Hy0). destruct y0 as [y0|]; [|contradiction]. unfold eadd, fin, ele in Hu. rewrite nval_of_max in Hu.
    pose proof (nval_nonneg y0). pose proof (nval_nonneg x). unfold Rmax in Hu. destruct (Rle_dec _ _) in Hu; lra. }
  assert (Hb : ele b (fin (nval u - nval x))).
  { apply H2. intros y Hy. specialize (Hu y Hy). destruct y as [y|]; [|contradiction]. unfold eadd, fin, ele in *.
    rewrite nval_of_max in *. pose proof (nval_nonneg y). pose proof (nval_nonneg x). unfold Rmax in *.
    repeat destruct (Rle_dec _ _) in *; lra. }
  destruct b as [b|]; [|contradiction]. unfold eadd, fin, ele in *.
    rewrite nval_of_max in *. pose proof (nval_nonneg b). pose proof (nval_nonneg x). unfold Rmax in *.
    repeat destruct (Rle_dec _ _) in *; lra.
Qed.
Lemma cont_add_sup : cont2 Up Up Up eadd.
Proof.
  apply cont2_res.
  - simpl. intros. apply eadd_mono; auto.
  - simpl. intros u y P a N H Hu. rewrite eadd_comm. apply (sup_add u y P); auto. intros x Hx. rewrite eadd_comm. auto.
  - simpl. intros u x P b N H Hu. apply (sup_add u x P); auto.
Qed.

Lemma cont_min d : cont2 d d d emin.
Proof.
  destruct d; apply cont2_res; simpl; try (intros; apply emin_mono; auto; fail).
  - intros u y P a N H Hu. apply emin_glb.
    + apply H. intros x Hx. exact (ele_trans _ _ _ (Hu x Hx) (emin_l x y)).
    + destruct N as [x Hx]. exact (ele_trans _ _ _ (Hu x Hx) (emin_r x y)).
  - intros u x P a N H Hu. apply emin_glb.
    + destruct N as [y Hy]. exact (ele_trans _ _ _ (Hu y Hy) (emin_l x y)).
    + apply H. intros y Hy. exact (ele_trans _ _ _ (Hu y Hy) (emin_r x y)).
  - intros u y P a N H Hu. apply emin_le_iff. destruct (ele_dec y u) as [?|n]; auto. left. apply H. intros x Hx.
    specialize (Hu x Hx). apply emin_le_iff in Hu. tauto.
  - intros u x P a N H Hu. apply emin_le_iff. destruct (ele_dec x u) as [?|n]; auto. right. apply H. intros y Hy.
    specialize (Hu y Hy). apply emin_le_iff in Hu. tauto.
Qed.
Lemma cont_max d : cont2 d d d emax.
Proof.
  destruct d; apply cont2_res; simpl; try (intros; apply emax_mono; auto; fail).
  - intros u y P a N H Hu. apply le_emax_iff. destruct (ele_dec u y) as [?|n]; auto. left. apply H. intros x Hx.
    specialize (Hu x Hx). apply le_emax_iff in Hu. tauto.
  - intros u x P a N H Hu. apply le_emax_iff. destruct (ele_dec u x) as [?|n]; auto. right. apply H. intros y Hy.
    specialize (Hu y Hy). apply le_emax_iff in Hu. tauto.
  - intros u y P a N H Hu. apply emax_lub.
    + apply H. intros x Hx. exact (ele_trans _ _ _ (emax_l x y) (Hu x Hx)).
    + destruct N as [x Hx]. exact (ele_trans _ _ _ (emax_r x y) (Hu x Hx)).
  - intros u x P a N H Hu. apply emax_lub.
    + destruct N as [y Hy]. exact (ele_trans _ _ _ (emax_l x y) (Hu y Hy)).
    + apply H. intros y Hy. exact (ele_trans _ _ _ (emax_r x y) (Hu y Hy)).
Qed.

Definition eimpl (a b : eur) : eur := if eleb a b then etop else b.
Definition ecoimpl (a b : eur) : eur := if eleb b a then ebot else b.
Definition ecomp (a b : eur) : eur := if eleb a b then etop else ebot.
Definition ecocomp (a b : eur) : eur := if eleb b a then ebot else etop.

Lemma le_eimpl u a b : ele u (eimpl a b) <-> ele (emin u a) b.
Proof.
  unfold eimpl. rewrite emin_le_iff. destruct (eleb a b) eqn:E.
  - apply eleb_iff in E. split; auto. intros _. apply ele_top.
  - apply eleb_false in E. tauto.
Qed.
Lemma ecoimpl_le u a b : ele (ecoimpl a b) u <-> ele b (emax u a).
Proof.
  unfold ecoimpl. rewrite le_emax_iff. destruct (eleb b a) eqn:E.
  - apply eleb_iff in E. split; auto. intros _. apply ebot_le.
  - apply eleb_false in E. tauto.
Qed.
Lemma cont_impl : cont2 Down Up Down eimpl.
Proof.
  apply cont2_res; simpl.
  - intros x x' y y' Hx Hy. apply le_eimpl. eapply ele_trans; [|exact Hy]. apply (ele_trans _ (emin (eimpl x y) x)).
    + apply emin_mono; auto. apply ele_refl.
    + apply le_eimpl, ele_refl.
  - intros u y P a N H Hu. apply le_eimpl. rewrite emin_le_iff. destruct (ele_dec u y) as [?|n]; auto. right. apply H. intros x Hx.
    specialize (Hu x Hx). apply le_eimpl in Hu. rewrite emin_le_iff in Hu. tauto.
  - intros u x P b N H Hu. apply le_eimpl. apply H. intros y Hy. apply le_eimpl. auto.
Qed.
Lemma cont_coimpl : cont2 Up Down Up ecoimpl.
Proof.
  apply cont2_res; simpl.
  - intros x x' y y' Hx Hy. apply ecoimpl_le. eapply ele_trans; [exact Hy|]. apply (ele_trans _ (emax (ecoimpl x y) x)).
    + apply ecoimpl_le, ele_refl.
    + apply emax_mono; auto. apply ele_refl.
  - intros u y P a N H Hu. apply ecoimpl_le. rewrite le_emax_iff. destruct (ele_dec y u) as [?|n]; auto. right. apply H. intros x Hx.
    specialize (Hu x Hx). apply ecoimpl_le in Hu. rewrite le_emax_iff in Hu. tauto.
  - intros u x P b N H Hu. apply ecoimpl_le. apply H. intros y Hy. apply ecoimpl_le. auto.
Qed.
Lemma le_ecomp u a b : ele u (ecomp a b) <-> ele u ebot \/ ele a b.
Proof.
  unfold ecomp. destruct (eleb a b) eqn:E.
  - apply eleb_iff in E. split; auto. intros _. apply ele_top.
  - apply eleb_false in E. tauto.
Qed.
Lemma ecocomp_le u a b : ele (ecocomp a b) u <-> ele etop u \/ ele b a.
Proof.
  unfold ecocomp. destruct (eleb b a) eqn:E.
  - apply eleb_iff in E. split; auto. intros _. apply ebot_le.
  - apply eleb_false in E. tauto.
Qed.
Lemma cont_comp : cont2 Down Up Down ecomp.
Proof.
  apply cont2_res; simpl.
  - intros x x' y y' Hx Hy. apply le_ecomp. unfold ecomp. destruct (eleb x y) eqn:E.
    + right. apply eleb_iff in E. eapply ele_trans; eauto. eapply ele_trans; eauto.
    + left. apply ele_refl.
  - intros u y P a N H Hu. apply le_ecomp. destruct (ele_dec u ebot) as [?|n]; auto. right. apply H. intros x Hx.
    specialize (Hu x Hx). apply le_ecomp in Hu. tauto.
  - intros u x P b N H Hu. apply le_ecomp. destruct (ele_dec u ebot) as [?|n]; auto. right. apply H. intros y Hy.
    specialize (Hu y Hy). apply le_ecomp in Hu. tauto.
Qed.
Lemma cont_cocomp : cont2 Up Down Up ecocomp.
Proof.
  apply cont2_res; simpl.
  - intros x x' y y' Hx Hy. apply ecocomp_le. unfold ecocomp. destruct (eleb y x) eqn:E.
    + right. apply eleb_iff in E. eapply ele_trans; eauto. eapply ele_trans; eauto.
    + left. apply ele_refl.
  - intros u y P a N H Hu. apply ecocomp_le. destruct (ele_dec etop u) as [?|n]; auto. right. apply H. intros x Hx.
    specialize (Hu x Hx). apply ecocomp_le in Hu. tauto.
  - intros u x P b N H Hu. apply ecocomp_le. destruct (ele_dec etop u) as [?|n]; auto. right. apply H. intros y Hy.
    specialize (Hu y Hy). apply ecocomp_le in Hu. tauto.
Qed.

(** Multiplication by a finite constant. *)
Lemma emul_inv r x : (0 < r)%R -> emul (fin (/ r)) (emul (fin r) x) = x.
Proof.
  intros Hr. assert (0 < / r)%R by (apply Rinv_0_lt_compat; auto). destruct (eur_cases x) as [[y [Hy ->]] | ->].
  - rewrite emul_fin by lra. rewrite emul_fin; try lra. f_equal. field. lra. apply Rmult_le_pos; lra.
  - rewrite !emul_Inf_r; auto.
Qed.
Lemma emul_inv' r x : (0 < r)%R -> emul (fin r) (emul (fin (/ r)) x) = x.
Proof.
  intros Hr. assert (0 < / r)%R by (apply Rinv_0_lt_compat; auto).
  rewrite <- (Rinv_inv r) at 1. apply emul_inv. auto.
Qed.
Lemma mul_ext d c P b : c <> Inf -> (exists y, P y) -> is_ext d P b ->
  is_ext d (fun r => exists y, P y /\ r = emul c y) (emul c b).
Proof.
  intros Hc N H. destruct (eur_cases c) as [[r [Hr ->]]|E]; [|contradiction].
  destruct (Req_dec r 0) as [->|Hr0].
  - change (fin 0) with ebot. rewrite emul_0_l. eapply ext_eq; [|apply ext_single]. intros y. split.
    + intros ->. destruct N as [z Hz]. exists z. now rewrite emul_0_l.
    + intros [z [_ ->]]. apply emul_0_l.
  - assert (Hp : (0 < r)%R) by lra. apply ext_iff in H. destruct H as [H1 H2].
    assert (Mo : forall e x y, dle d x y -> dle d (emul e x) (emul e y)).
    { intros e x y. destruct d; simpl; intros; apply emul_mono; auto using ele_refl. }
    apply ext_iff. split.
    + intros y [z [Hz ->]]. apply Mo. auto.
    + intros u Hu. rewrite <- (emul_inv' r u Hp). apply Mo. apply H2. intros y Hy.
      rewrite <- (emul_inv r y Hp). apply Mo. apply Hu. eauto.
Qed.

Definition enot (a : eur) : eur := if eleb a ebot then etop else ebot.
Definition enon (a : eur) : eur := if eleb etop a then ebot else etop.
Lemma cont_not P a : (exists x, P x) -> is_sup P a -> is_inf (fun r => exists x, P x /\ r = enot x) (enot a).
Proof.
  intros N H. assert (L : forall u x, ele u (enot x) <-> ele u ebot \/ ele x ebot).
  { intros u x. apply (le_ecomp u x ebot). }
  split.
  - intros y [x [Hx ->]]. apply L. unfold enot. destruct (eleb a ebot) eqn:E; [|left; apply ele_refl].
    right. apply eleb_iff in E. eapply ele_trans; [apply H; eauto | auto].
  - intros u Hu. apply L. destruct (ele_dec u ebot) as [?|n]; auto. right. apply H. intros x Hx.
    assert (Hux : ele u (enot x)) by (apply Hu; eauto). apply L in Hux. tauto.
Qed.
Lemma cont_non P a : (exists x, P x) -> is_inf P a -> is_sup (fun r => exists x, P x /\ r = enon x) (enon a).
Proof.
  intros N H. assert (L : forall u x, ele (enon x) u <-> ele etop u \/ ele etop x).
  { intros u x. apply (ecocomp_le u x etop). }
  split.
  - intros y [x [Hx ->]]. apply L. unfold enon. destruct (eleb etop a) eqn:E; [|left; apply ele_refl].
    right. apply eleb_iff in E. eapply ele_trans; [exact E | apply H; eauto].
  - intros u Hu. apply L. destruct (ele_dec etop u) as [?|n]; auto. right. apply H. intros x Hx.
    assert (Hux : ele (enon x) u) by (apply Hu; eauto). apply L in Hux. tauto.
Qed.

(** * Values of the two lattices as elements of [0,oo] *)
Definition lv (v : val) : eur := match v with VBool b => etruth b | VEur x => x | _ => ebot end.

Definition reach (I : interp) (F : list ident) (e : expr) (s : env) (r : eur) : Prop :=
  exists s', havocked F s s' /\ lv (eval I e s') = r.
Lemma reach_ne I F e s : env_ok s -> exists r, reach I F e s r.
Proof. intros Hs. eexists. exists s. split; [apply havocked_refl; auto | reflexivity]. Qed.

Lemma reach_pair I Fa Fb a b s : (forall x, fv x a -> ~ In x Fb) -> (forall x, fv x b -> ~ In x Fa) ->
  forall va vb, (exists s', havocked (Fa ++ Fb) s s' /\ eval I a s' = va /\ eval I b s' = vb) <->
    (exists s1, havocked Fa s s1 /\ eval I a s1 = va) /\ (exists s2, havocked Fb s s2 /\ eval I b s2 = vb).
Proof.
  intros Ha Hb va vb. split.
  - intros (s' & [H1 H2] & Ea & Eb). split.
    + exists (splice Fa s s'). split; [apply splice_havocked; intros; apply H2, in_or_app; auto|]. rewrite <- Ea. apply eval_ext.
      intros x Hx. unfold splice. destruct (in_dec ident_dec x Fa); auto. symmetry. apply H1. rewrite in_app_iff. specialize (Ha x Hx). tauto.
    + exists (splice Fb s s'). split; [apply splice_havocked; intros; apply H2, in_or_app; auto|]. rewrite <- Eb. apply eval_ext.
      intros x Hx. unfold splice. destruct (in_dec ident_dec x Fb); auto. symmetry. apply H1. rewrite in_app_iff. specialize (Hb x Hx). tauto.
  - intros [(s1 & [H1 H2] & Ea) (s2 & [H3 H4] & Eb)]. exists (splice Fa (splice Fb s s2) s1). split; [split|split].
    + intros x Hx. rewrite in_app_iff in Hx. unfold splice. destruct (in_dec ident_dec x Fa); [tauto|]. destruct (in_dec ident_dec x Fb); tauto.
    + intros x Hx. unfold splice. destruct (in_dec ident_dec x Fa); auto. destruct (in_dec ident_dec x Fb); auto.
      rewrite in_app_iff in Hx. tauto.
    + rewrite <- Ea. apply eval_ext. intros x Hx. unfold splice. destruct (in_dec ident_dec x Fa); auto.
      destruct (in_dec ident_dec x Fb); [exfalso; eapply Ha; eauto|]. symmetry. auto.
    + rewrite <- Eb. apply eval_ext. intros x Hx. unfold splice. destruct (in_dec ident_dec x Fa); [exfalso; eapply Hb; eauto|].
      destruct (in_dec ident_dec x Fb); auto. symmetry. auto.
Qed.

(** What elimination achieves: [F] are the variables that replace bound ones. *)
Record spec (d : direction) (T : tyctx) (e : expr) (e' : expr) (T' : tyctx) (F : list ident) : Prop := {
  sp_ext : extends T T';
  sp_wt : wt e' = true;
  sp_ty : ty_of e' = ty_of e;
  sp_ids : forall x, In x (ids e') -> is_var T' x;
  sp_fv : forall x, fv x e' -> In x (ids e) \/ In x F;
  sp_F : forall x, In x F -> (~ declared T x /\ is_var T' x) \/ In x (elim_bound d e);
  sp_val : forall I s, interp_ok I -> env_ok s -> is_ext d (reach I F e' s) (lv (eval I e s)) }.

Lemma all_ids_ids e : all_ids e = ids e.
Proof. reflexivity. Qed.
Lemma fresh_names_in xs x : In x (fresh_names xs) -> In x (map qname xs).
Proof.
  unfold fresh_names. intros H. apply in_flat_map in H as [v [H1 H2]]. destruct v as [y|y]; simpl in H2; [contradiction|].
  destruct H2 as [<-|[]]. apply in_map_iff. exists (QFresh y). auto.
Qed.
Lemma fresh_ids d e x : In x (elim_bound d e) -> In x (ids e).
Proof.
  revert d. induction e using expr_rect'; intros d; simpl; rewrite ?in_app_iff; auto; try tauto.
  - intros [Hx|Hx]; eauto.
  - destruct (pull2 d op) as [[da db]|]; [|intros []]. rewrite in_app_iff. intros [Hx|Hx]; eauto.
  - destruct (pull1 d op); [eauto | intros []].
  - destruct (pullq d op); [|intros []]. rewrite in_app_iff. intros [Hx|Hx]; eauto. left. now apply fresh_names_in.
Qed.

Lemma spec_id d T e : wt e = true -> (forall x, In x (ids e) -> is_var T x) -> spec d T e e T [].
Proof.
  intros Hw HT. split; auto using extends_refl.
  - intros x Hx. left. apply fv_ids; auto.
  - intros x [].
  - intros I s HI Hs. eapply ext_eq; [|apply ext_single]. intros y. split.
    + intros ->. exists s. split; auto. apply havocked_refl; auto.
    + intros [s' [H <-]]. f_equal. apply eval_ext. intros x _. apply H. auto.
Qed.

Lemma spec_disj da db T a b a' b' T1 T2 Fa Fb : (forall x, In x (ids a) -> is_var T x) -> (forall x, In x (ids b) -> is_var T x) ->
  disjoint (elim_bound da a) (ids b) -> disjoint (elim_bound db b) (ids a) ->
  spec da T a a' T1 Fa -> spec db T1 b b' T2 Fb ->
  (forall x, fv x a' -> ~ In x Fb) /\ (forall x, fv x b' -> ~ In x Fa).
Proof.
  intros Ha Hb D1 D2 Sa Sb. split; intros x Hx Hf.
  - pose proof (sp_F _ _ _ _ _ _ Sb x Hf) as [[N _]|HF].
    + apply N. apply is_var_declared. apply (sp_ids _ _ _ _ _ _ Sa). now apply fv_ids.
    + apply (sp_fv _ _ _ _ _ _ Sa) in Hx as [Hx|Hx]; [apply (D2 x); auto|].
      pose proof (sp_F _ _ _ _ _ _ Sa x Hx) as [[N _]|HF2].
      * apply N, is_var_declared, Hb; eapply fresh_ids; eauto.
      * apply (D1 x HF2). eapply fresh_ids; eauto.
  - apply (sp_fv _ _ _ _ _ _ Sb) in Hx as [Hx|Hx].
    + pose proof (sp_F _ _ _ _ _ _ Sa x Hf) as [[N _]|HF].
      * apply N, is_var_declared, Hb, Hx.
      * apply (D1 x HF Hx).
    + pose proof (sp_F _ _ _ _ _ _ Sb x Hx) as [[N _]|HF]; pose proof (sp_F _ _ _ _ _ _ Sa x Hf) as [[N2 V]|HF2].
      * apply N. apply is_var_declared, V.
      * apply N. apply is_var_declared. apply (sp_ext _ _ _ _ _ _ Sa), Ha; eapply fresh_ids; eauto.
      * apply N2. apply is_var_declared, Hb; eapply fresh_ids; eauto.
      * apply (D1 x HF2). eapply fresh_ids; eauto.
Qed.

(** Two operands. *)
Lemma spec_bin d da db g t op T a b a' b' T1 T2 Fa Fb :
  (forall x, In x (ids a) -> is_var T x) -> (forall x, In x (ids b) -> is_var T x) ->
  pull2 d op = Some (da, db) -> linear d (EBin t op a b) -> wt (EBin t op a b) = true ->
  spec da T a a' T1 Fa -> spec db T1 b b' T2 Fb ->
  (forall I s a0 b0, interp_ok I -> env_ok s -> wt a0 = true -> wt b0 = true -> ty_of a0 = ty_of a -> ty_of b0 = ty_of b ->
     lv (eval I (EBin t op a0 b0) s) = g (lv (eval I a0 s)) (lv (eval I b0 s))) ->
  (forall I s, interp_ok I -> env_ok s -> is_ext d (fun r => exists x y, reach I Fa a' s x /\ reach I Fb b' s y /\ r = g x y)
     (g (lv (eval I a s)) (lv (eval I b s)))) ->
  spec d T (EBin t op a b) (EBin t op a' b') T2 (Fa ++ Fb).
Proof.
  intros Ha Hb HP HL Hw Sa Sb Hg Hc. simpl in HL. rewrite HP in HL. destruct HL as (L1 & L2 & D1 & D2). pose proof Hw as Hw0. cbn [wt] in Hw. split_andb.
  destruct (spec_disj da db T a b a' b' T1 T2 Fa Fb Ha Hb D1 D2 Sa Sb) as [I1 I2].
  destruct Sa as [A1 A2 A3 A4 A5 A6 A7], Sb as [B1 B2 B3 B4 B5 B6 B7]. split.
  - eapply extends_trans; eauto.
  - cbn [wt]. rewrite A2, B2, A3, B3. auto.
  - reflexivity.
  - simpl. intros x Hx. apply in_app_iff in Hx as [Hx|Hx]; auto. apply B1; auto.
  - simpl. intros x Hx. rewrite !in_app_iff. destruct Hx as [Hx|Hx]; [apply A5 in Hx | apply B5 in Hx]; tauto.
  - intros x Hx. simpl. rewrite HP, in_app_iff. apply in_app_iff in Hx as [Hx|Hx].
    + destruct (A6 x Hx) as [[N V]|]; auto. left. split; auto. apply B1; auto.
    + destruct (B6 x Hx) as [[N V]|]; auto. left. split; auto. intros D. apply N. apply A1. auto.
  - intros I s HI Hs. rewrite Hg; auto. eapply ext_eq; [|apply Hc; auto]. intros r. split.
    + intros (x & y & (s1 & X1 & X2) & (s2 & Y1 & Y2) & ->).
      assert (Z : exists s', havocked (Fa ++ Fb) s s' /\ eval I a' s' = eval I a' s1 /\ eval I b' s' = eval I b' s2)
        by (apply reach_pair; auto; split; [exists s1 | exists s2]; auto).
      destruct Z as (s' & Z1 & Z2 & Z3).
      exists s'. split; auto. assert (env_ok s') by (eapply havocked_ok; eauto). rewrite Hg; auto. rewrite Z2, Z3. congruence.
    + intros (s' & Z1 & <-). assert (Hok : env_ok s') by (eapply havocked_ok; eauto). rewrite Hg; auto.
      assert (Z : (exists s1, havocked Fa s s1 /\ eval I a' s1 = eval I a' s') /\ (exists s2, havocked Fb s s2 /\ eval I b' s2 = eval I b' s'))
        by (apply reach_pair; auto; exists s'; auto).
      destruct Z as [(s1 & X1 & X2) (s2 & Y1 & Y2)]. do 2 eexists. split; [exists s1; split; eauto|]. split; [exists s2; split; eauto|]. now rewrite X2, Y2.
Qed.

(** One operand. *)
Lemma spec_un d da g t op T a a' T1 Fa : pull1 d op = Some da ->
  (forall x, In x (ids a) -> is_var T x) -> wt (EUn t op a) = true -> spec da T a a' T1 Fa ->
  (forall I s a0, interp_ok I -> env_ok s -> wt a0 = true -> ty_of a0 = ty_of a -> lv (eval I (EUn t op a0) s) = g (lv (eval I a0 s))) ->
  (forall P x, (exists y, P y) -> is_ext da P x -> is_ext d (fun r => exists y, P y /\ r = g y) (g x)) ->
  spec d T (EUn t op a) (EUn t op a') T1 Fa.
Proof.
  intros HP Ha Hw Sa Hg Hc. cbn [wt] in Hw. split_andb. destruct Sa as [A1 A2 A3 A4 A5 A6 A7]. split; auto.
  - cbn [wt]. rewrite A2, A3. auto.
  - simpl. now rewrite HP.
  - intros I s HI Hs. rewrite Hg; auto. eapply ext_eq; [|apply Hc; [apply reach_ne; eauto | apply A7; auto]]. intros r. split.
    + intros (x & (s1 & X1 & X2) & ->). exists s1. split; auto. assert (env_ok s1) by (eapply havocked_ok; eauto). rewrite Hg; auto. congruence.
    + intros (s' & Z1 & <-). assert (Hok : env_ok s') by (eapply havocked_ok; eauto). rewrite Hg; auto. eexists. split; [|reflexivity].
      exists s'. auto.
Qed.

(** Finite factors. *)
Lemma fin_add a b : eadd a b = Inf -> a = Inf \/ b = Inf.
Proof. destruct a, b; simpl; auto; discriminate. Qed.
Lemma fin_mul a b : emul a b = Inf -> a = Inf \/ b = Inf.
Proof. unfold emul. destruct a, b; simpl; auto; discriminate. Qed.
Lemma fin_monus a b : emonus a b = Inf -> a = Inf.
Proof. destruct a, b; simpl; auto; discriminate. Qed.
Lemma fin_min a b : emin a b = Inf -> a = Inf /\ b = Inf.
Proof.
  unfold emin. destruct (eleb a b) eqn:L; intros ->.
  - apply eleb_iff in L. split; auto. destruct b; auto. contradiction.
  - split; auto. destruct a; auto. exfalso. apply Bool.not_true_iff_false in L. apply L. apply eleb_iff. exact Logic.I.
Qed.
Lemma fin_max a b : emax a b = Inf -> a = Inf \/ b = Inf.
Proof. unfold emax. destruct (eleb a b); auto. Qed.

Lemma is_finite_val I : interp_ok I -> forall e, wt e = true -> is_finite e = true -> forall s, env_ok s -> eval I e s <> VEur Inf.
Proof.
  intros HI e.
  assert (N : forall e, wt e = true -> (match ty_of e with TUInt | TUReal => true | _ => false end) = true ->
    forall s, env_ok s -> eval I e s <> VEur Inf).
  { intros e0 Hw Ht s Hs E. pose proof (eval_ty I HI e0 Hw s Hs) as Hv. rewrite E in Hv. unfold has_ty in Hv. simpl in Hv.
    destruct (ty_of e0); discriminate. }
  induction e using expr_rect'; intros Hw Hf s Hs.
  - apply N; auto.
  - apply N; auto.
  - apply N; auto.
  - (* bin *)
    assert (Ht : (match t with TUInt | TUReal => true | _ => false end) = true \/
      match op with OAdd | OMul | OSup => is_finite e1 && is_finite e2 | OInf => is_finite e1 || is_finite e2
        | OSub => is_finite e1 | _ => false end = true) by (simpl in Hf; destruct t; auto).
    destruct Ht as [Ht|Ht]; [apply N; auto|]. clear Hf. pose proof Hw as Hw0. cbn [wt] in Hw. split_andb. intros E. simpl in E.
    assert (V1 := eval_ty I HI e1 H s Hs). assert (V2 := eval_ty I HI e2 H1 s Hs). specialize (IHe1 H). specialize (IHe2 H1).
    destruct op; simpl in Ht; try discriminate; destruct t; simpl in H0; try discriminate; split_andb;
      repeat match goal with H : ty_eqb _ _ = true |- _ => apply ty_eqb_eq in H end;
      match goal with H : ty_of e1 = _ |- _ => rewrite H in V1 end; match goal with H : ty_of e2 = _ |- _ => rewrite H in V2 end;
      inv_ty V1; inv_ty V2; rewrite V1, V2 in E; simpl in E; try discriminate E; inversion E as [E']; clear E.
    + apply fin_add in E' as [->| ->]; [eapply IHe1 | eapply IHe2]; eauto.
    + apply fin_monus in E' as ->. eapply IHe1; eauto.
    + apply fin_mul in E' as [->| ->]; [eapply IHe1 | eapply IHe2]; eauto.
    + apply fin_min in E' as [-> ->]. apply orb_prop in Ht. destruct Ht; [eapply IHe1 | eapply IHe2]; eauto.
    + apply fin_max in E' as [->| ->]; [eapply IHe1 | eapply IHe2]; eauto.
  - (* un *)
    assert (Ht : (match t with TUInt | TUReal => true | _ => false end) = true \/
      match op with OIverson => true | OParens => is_finite e | _ => false end = true) by (simpl in Hf; destruct t; auto).
    destruct Ht as [Ht|Ht]; [apply N; auto|]. clear Hf. cbn [wt] in Hw. split_andb. intros E. simpl in E.
    assert (V := eval_ty I HI e H s Hs).
    destruct op; simpl in Ht; try discriminate; destruct t; simpl in H0; try discriminate; apply ty_eqb_eq in H0; rewrite H0 in V;
      inv_ty V; rewrite V in E; simpl in E; try discriminate E.
    + destruct b; discriminate E.
    + rewrite dec_true in E by reflexivity. discriminate.
    + rewrite dec_true in E by reflexivity. discriminate.
    + rewrite dec_true in E by reflexivity. discriminate.
    + rewrite dec_true in E by reflexivity. discriminate.
    + rewrite dec_true in E by reflexivity. discriminate.
    + rewrite dec_true in E by reflexivity. inversion E; subst. eapply IHe; eauto.
  - (* cast *) cbn [wt] in Hw. split_andb. intros E. simpl in E. pose proof (eval_ty I HI e H s Hs) as V.
    destruct t, (ty_of e); simpl in H0; try discriminate; inv_ty V; rewrite V in E; simpl in E; discriminate.
  - (* quant *) apply N; auto.
  - apply N; auto.
  - (* lit *) simpl in Hw. destruct t, l; simpl in *; try discriminate; intros E; discriminate E.
Qed.

Local Arguments eleb : simpl never.
Local Arguments emin : simpl never.
Local Arguments emax : simpl never.

(** Operators on values of the lattices. *)
Definition gop (op : binop) : eur -> eur -> eur :=
  match op with
  | OAdd => eadd | OMul => emul | OAnd | OInf => emin | OOr | OSup => emax
  | OImpl => eimpl | OCoImpl => ecoimpl | OCompare => ecomp | OCoCompare => ecocomp
  | _ => fun _ _ => ebot
  end.
Definition gop_ok (op : binop) : bool :=
  match op with OAdd | OMul | OAnd | OInf | OOr | OSup | OImpl | OCoImpl | OCompare | OCoCompare => true | _ => false end.

Lemma et_min a b : etruth (a && b) = emin (etruth a) (etruth b).
Proof. destruct a, b; unfold emin; simpl; rewrite ?eleb_refl, ?eleb_bot, ?top_bot; reflexivity. Qed.
Lemma et_max a b : etruth (a || b) = emax (etruth a) (etruth b).
Proof. destruct a, b; unfold emax; simpl; rewrite ?eleb_refl, ?eleb_bot, ?top_bot; reflexivity. Qed.
Lemma et_impl a b : etruth (implb a b) = eimpl (etruth a) (etruth b).
Proof. destruct a, b; unfold eimpl; simpl; rewrite ?eleb_refl, ?eleb_bot, ?top_bot; reflexivity. Qed.
Lemma et_not a : etruth (negb a) = enot (etruth a).
Proof. destruct a; unfold enot; simpl; rewrite ?eleb_refl, ?top_bot; reflexivity. Qed.
Lemma et_non a : etruth (negb a) = enon (etruth a).
Proof. destruct a; unfold enon; simpl; rewrite ?eleb_refl, ?top_bot; reflexivity. Qed.

Lemma bin_operands t op a b : wt (EBin t op a b) = true -> lattice t = true -> gop_ok op = true ->
  wt a = true /\ wt b = true /\ ty_of a = t /\ ty_of b = t /\ bin_ok t op t t = true.
Proof.
  intros Hw Hl Ho. cbn [wt] in Hw. split_andb.
  destruct t, op; simpl in *; try discriminate; split_andb;
    repeat match goal with H : ty_eqb _ _ = true |- _ => apply ty_eqb_eq in H end; auto.
Qed.

Lemma lv_bin I t op a b s : interp_ok I -> env_ok s -> wt a = true -> wt b = true -> ty_of a = t -> ty_of b = t ->
  lattice t = true -> bin_ok t op t t = true -> gop_ok op = true ->
  lv (eval I (EBin t op a b) s) = gop op (lv (eval I a s)) (lv (eval I b s)).
Proof.
  intros HI Hs Ha Hb Ta Tb Hl Hok Ho. simpl. assert (V1 := eval_ty I HI a Ha s Hs). assert (V2 := eval_ty I HI b Hb s Hs).
  rewrite Ta in V1. rewrite Tb in V2. destruct t, op; simpl in Hl, Hok, Ho; try discriminate; inv_ty V1; inv_ty V2; rewrite V1, V2; simpl;
    auto using et_min, et_max, et_impl.
Qed.

(** Binary operators that elimination descends into on both sides. *)
Lemma spec_op d da db t op T a b a' b' T1 T2 Fa Fb :
  (forall x, In x (ids a) -> is_var T x) -> (forall x, In x (ids b) -> is_var T x) ->
  pull2 d op = Some (da, db) -> linear d (EBin t op a b) -> wt (EBin t op a b) = true -> lattice t = true -> gop_ok op = true -> cont2 d da db (gop op) ->
  spec da T a a' T1 Fa -> spec db T1 b b' T2 Fb -> spec d T (EBin t op a b) (EBin t op a' b') T2 (Fa ++ Fb).
Proof.
  intros Ha Hb HP HL Hw Hl Ho Hc Sa Sb. destruct (bin_operands t op a b Hw Hl Ho) as (W1 & W2 & Y1 & Y2 & Hok).
  eapply (spec_bin d da db (gop op)); eauto.
  - intros I s a0 b0 HI Hs Wa Wb Ta Tb. rewrite Y1 in Ta. rewrite Y2 in Tb. apply lv_bin; auto.
  - intros I s HI Hs. apply Hc; [apply reach_ne; auto | apply reach_ne; auto | apply (sp_val _ _ _ _ _ _ Sa); auto | apply (sp_val _ _ _ _ _ _ Sb); auto].
Qed.

Lemma emul_comm' a b : emul a b = emul b a.
Proof. destruct a, b; simpl; auto. f_equal. apply Rmult_comm. Qed.

Lemma finite_lv I e s : interp_ok I -> env_ok s -> wt e = true -> ty_of e = TEUReal -> is_finite e = true -> lv (eval I e s) <> Inf.
Proof.
  intros HI Hs Hw Ht Hf E. destruct (eval_eur I e s HI Hw Ht Hs) as [r Hr]. rewrite Hr in E. simpl in E. subst r.
  exact (is_finite_val I HI e Hw Hf s Hs Hr).
Qed.

Lemma single_reach I a s r : env_ok s -> reach I [] a s r <-> r = lv (eval I a s).
Proof.
  intros Hs. split.
  - intros [s' [H <-]]. f_equal. apply eval_ext. intros x _. apply H. auto.
  - intros ->. exists s. split; auto. apply havocked_refl; auto.
Qed.

Lemma spec_mul_r d t T a b b' T2 Fb :
  (forall x, In x (ids a) -> is_var T x) -> (forall x, In x (ids b) -> is_var T x) ->
  linear d (EBin t OMul a b) -> wt (EBin t OMul a b) = true -> lattice t = true -> is_finite a = true ->
  spec d T b b' T2 Fb -> spec d T (EBin t OMul a b) (EBin t OMul a b') T2 Fb.
Proof.
  intros Ha Hb HL Hw Hl Hf Sb. destruct (bin_operands t OMul a b Hw Hl eq_refl) as (W1 & W2 & Y1 & Y2 & Hok).
  assert (Te : t = TEUReal) by (destruct t; simpl in Hok; try discriminate; auto).
  change Fb with ([] ++ Fb). eapply (spec_bin d d d emul); eauto using spec_id.
  - intros I s a0 b0 HI Hs Wa Wb Ta Tb. rewrite Y1 in Ta. rewrite Y2 in Tb. apply lv_bin; auto.
  - intros I s HI Hs. eapply ext_eq; [|apply mul_ext; [apply finite_lv; eauto; congruence | apply reach_ne; eauto | apply (sp_val _ _ _ _ _ _ Sb); auto]].
    intros r. split.
    + intros (y & Hy & ->). exists (lv (eval I a s)), y. split; [apply single_reach; auto | auto].
    + intros (x & y & Hx & Hy & ->). apply single_reach in Hx; auto. subst x. eauto.
Qed.
Lemma spec_mul_l d t T a b a' T2 Fa :
  (forall x, In x (ids a) -> is_var T x) -> (forall x, In x (ids b) -> is_var T x) ->
  linear d (EBin t OMul a b) -> wt (EBin t OMul a b) = true -> lattice t = true -> is_finite b = true ->
  spec d T a a' T2 Fa -> spec d T (EBin t OMul a b) (EBin t OMul a' b) T2 Fa.
Proof.
  intros Ha Hb HL Hw Hl Hf Sa. destruct (bin_operands t OMul a b Hw Hl eq_refl) as (W1 & W2 & Y1 & Y2 & Hok).
  assert (Te : t = TEUReal) by (destruct t; simpl in Hok; try discriminate; auto).
  rewrite <- (app_nil_r Fa). eapply (spec_bin d d d emul); eauto.
  - apply spec_id; auto. intros x Hx. apply (sp_ext _ _ _ _ _ _ Sa). auto.
  - intros I s a0 b0 HI Hs Wa Wb Ta Tb. rewrite Y1 in Ta. rewrite Y2 in Tb. apply lv_bin; auto.
  - intros I s HI Hs. rewrite emul_comm'.
    eapply ext_eq; [|apply mul_ext; [apply (finite_lv I b s); eauto; congruence | apply reach_ne; eauto | apply (sp_val _ _ _ _ _ _ Sa); auto]].
    intros r. split.
    + intros (y & Hy & ->). exists y, (lv (eval I b s)). split; [auto|]. split; [apply single_reach; auto | apply emul_comm'].
    + intros (x & y & Hx & Hy & ->). apply single_reach in Hy; auto. subst y. exists x. split; auto. apply emul_comm'.
Qed.

(** Unary operators. *)
Lemma un_operand t op a : wt (EUn t op a) = true -> lattice t = true -> match op with ONot | ONon | OParens => true | _ => false end = true ->
  wt a = true /\ ty_of a = t /\ un_ok t op t = true.
Proof.
  intros Hw Hl Ho. cbn [wt] in Hw. split_andb. destruct t, op; simpl in *; try discriminate;
    repeat match goal with H : ty_eqb _ _ = true |- _ => apply ty_eqb_eq in H end; auto.
Qed.
Lemma spec_not t T a a' T1 F : (forall x, In x (ids a) -> is_var T x) -> wt (EUn t ONot a) = true -> lattice t = true ->
  spec Up T a a' T1 F -> spec Down T (EUn t ONot a) (EUn t ONot a') T1 F.
Proof.
  intros Ha Hw Hl Sa. destruct (un_operand t ONot a Hw Hl eq_refl) as (W & Y & Hok).
  eapply (spec_un Down Up enot); eauto.
  - intros I s a0 HI Hs Wa Ta. assert (V := eval_ty I HI a0 Wa s Hs). rewrite Ta, Y in V. simpl.
    destruct t; try discriminate; inv_ty V; rewrite V; simpl; auto using et_not.
  - intros P x. apply cont_not.
Qed.
Lemma spec_non t T a a' T1 F : (forall x, In x (ids a) -> is_var T x) -> wt (EUn t ONon a) = true -> lattice t = true ->
  spec Down T a a' T1 F -> spec Up T (EUn t ONon a) (EUn t ONon a') T1 F.
Proof.
  intros Ha Hw Hl Sa. destruct (un_operand t ONon a Hw Hl eq_refl) as (W & Y & Hok).
  eapply (spec_un Up Down enon); eauto.
  - intros I s a0 HI Hs Wa Ta. assert (V := eval_ty I HI a0 Wa s Hs). rewrite Ta, Y in V. simpl.
    destruct t; try discriminate; inv_ty V; rewrite V; simpl; auto using et_non.
  - intros P x. apply cont_non.
Qed.
Lemma spec_parens d t T a a' T1 F : (forall x, In x (ids a) -> is_var T x) -> wt (EUn t OParens a) = true -> lattice t = true ->
  spec d T a a' T1 F -> spec d T (EUn t OParens a) (EUn t OParens a') T1 F.
Proof.
  intros Ha Hw Hl Sa. destruct (un_operand t OParens a Hw Hl eq_refl) as (W & Y & Hok).
  eapply (spec_un d d (fun x => x)); eauto.
  - intros I s a0 HI Hs Wa Ta. assert (V := eval_ty I HI a0 Wa s Hs). rewrite Ta, Y in V. simpl.
    destruct t; try discriminate; inv_ty V; rewrite V; simpl; rewrite dec_true by reflexivity; reflexivity.
  - intros P x _ H. eapply ext_eq; [|exact H]. intros y. split; [eauto | intros (z & Hz & ->); auto].
Qed.

(** Conditionals. *)
Lemma spec_ite d t T c a b a' b' T1 T2 Fa Fb :
  (forall x, In x (ids c) -> is_var T x) -> (forall x, In x (ids a) -> is_var T x) -> (forall x, In x (ids b) -> is_var T x) ->
  linear d (EIte t c a b) -> wt (EIte t c a b) = true ->
  spec d T a a' T1 Fa -> spec d T1 b b' T2 Fb -> spec d T (EIte t c a b) (EIte t c a' b') T2 (Fa ++ Fb).
Proof.
  intros Hc Ha Hb HL Hw Sa Sb. simpl in HL. destruct HL as (L1 & L2 & D1 & D2 & D3 & D4). cbn [wt] in Hw. split_andb.
  destruct (spec_disj d d T a b a' b' T1 T2 Fa Fb Ha Hb D2 D4 Sa Sb) as [I1 I2].
  assert (IC : forall x, fv x c -> ~ In x (Fa ++ Fb)).
  { intros x Hx Hf. apply fv_ids in Hx. apply in_app_iff in Hf as [Hf|Hf].
    - destruct (sp_F _ _ _ _ _ _ Sa x Hf) as [[N _]|HF]; [apply N, is_var_declared; auto | apply (D1 x); auto].
    - destruct (sp_F _ _ _ _ _ _ Sb x Hf) as [[N _]|HF]; [|apply (D3 x); auto].
      apply N, is_var_declared, (sp_ext _ _ _ _ _ _ Sa). auto. }
  destruct Sa as [A1 A2 A3 A4 A5 A6 A7], Sb as [B1 B2 B3 B4 B5 B6 B7]. split.
  - eapply extends_trans; eauto.
  - cbn [wt]. rewrite A2, B2, A3, B3. repeat (apply andb_true_intro; split); auto.
  - reflexivity.
  - simpl. intros x Hx. rewrite !in_app_iff in Hx. destruct Hx as [Hx|[Hx|Hx]]; auto; [|apply B1; auto]. apply B1, A1; auto.
  - simpl. intros x Hx. rewrite !in_app_iff. destruct Hx as [Hx|[Hx|Hx]]; [apply fv_ids in Hx | apply A5 in Hx | apply B5 in Hx]; tauto.
  - intros x Hx. simpl. rewrite !in_app_iff. apply in_app_iff in Hx as [Hx|Hx].
    + destruct (A6 x Hx) as [[N V]|]; auto. left. split; auto. apply B1; auto.
    + destruct (B6 x Hx) as [[N V]|]; auto. left. split; auto. intros D. apply N. apply A1. auto.
  - intros I s HI Hs.
    assert (EC : forall s', havocked (Fa ++ Fb) s s' -> eval I c s' = eval I c s).
    { intros s' [Z _]. apply eval_ext. intros x Hx. apply Z. auto. }
    match goal with H : ty_eqb (ty_of c) TBool = true |- _ => apply ty_eqb_eq in H; rename H into Tc end.
    match goal with H : wt c = true |- _ => destruct (eval_bool I c s HI H Tc Hs) as [v Hv] end.
    destruct v; simpl; rewrite Hv.
    + eapply ext_eq; [|apply (A7 I s HI Hs)]. intros r. split.
      * intros (s1 & X1 & X2).
        assert (Z : exists s', havocked (Fa ++ Fb) s s' /\ eval I a' s' = eval I a' s1 /\ eval I b' s' = eval I b' s)
          by (apply reach_pair; auto; split; [exists s1 | exists s]; auto using havocked_refl).
        destruct Z as (s' & Z1 & Z2 & _). exists s'. split; auto. simpl. rewrite EC, Hv, Z2; auto.
      * intros (s' & Z1 & Z2). simpl in Z2. rewrite EC, Hv in Z2 by auto.
        assert (Z : (exists s1, havocked Fa s s1 /\ eval I a' s1 = eval I a' s') /\ (exists s2, havocked Fb s s2 /\ eval I b' s2 = eval I b' s'))
          by (apply reach_pair; auto; exists s'; auto).
        destruct Z as [(s1 & X1 & X2) _]. exists s1. split; auto. congruence.
    + eapply ext_eq; [|apply (B7 I s HI Hs)]. intros r. split.
      * intros (s1 & X1 & X2).
        assert (Z : exists s', havocked (Fa ++ Fb) s s' /\ eval I a' s' = eval I a' s /\ eval I b' s' = eval I b' s1)
          by (apply reach_pair; auto; split; [exists s | exists s1]; auto using havocked_refl).
        destruct Z as (s' & Z1 & _ & Z2). exists s'. split; auto. simpl. rewrite EC, Hv, Z2; auto.
      * intros (s' & Z1 & Z2). simpl in Z2. rewrite EC, Hv in Z2 by auto.
        assert (Z : (exists s1, havocked Fa s s1 /\ eval I a' s1 = eval I a' s') /\ (exists s2, havocked Fb s s2 /\ eval I b' s2 = eval I b' s'))
          by (apply reach_pair; auto; exists s'; auto).
        destruct Z as [_ (s1 & X1 & X2)]. exists s1. split; auto. congruence.
Qed.

(** Quantifiers. *)
Definition direction_dec (a b : direction) : {a = b} + {a <> b}.
Proof. decide equality. Defined.
Definition quant_dir (op : quantop) : direction := match op with QInf | QForall => Down | QSup | QExists => Up end.

Lemma etruth_dle_inf b c : ele (etruth b) (etruth c) <-> (b = true -> c = true).
Proof.
  destruct b.
  - destruct c; [split; auto; intros; apply ele_refl|]. split; [intros H; destruct H | intros H; discriminate (H eq_refl)].
  - split; [intros _ E; discriminate E | intros _; apply ebot_le].
Qed.

Lemma lv_quant I op xs e s : interp_ok I -> env_ok s -> wt (EQuant op xs e) = true ->
  is_ext (quant_dir op) (fun r => exists s', havocked (map qname xs) s s' /\ lv (eval I e s') = r) (lv (eval I (EQuant op xs e) s)).
Proof.
  intros HI Hs Hw. cbn [wt] in Hw. split_andb.
  assert (HE : ty_of e = TEUReal -> forall s', env_ok s' -> eval I e s' = VEur (lv (eval I e s'))).
  { intros Ht s' Hs'. destruct (eval_eur I e s' HI H Ht Hs') as [r Hr]. now rewrite Hr. }
  assert (HB : ty_of e = TBool -> forall s', env_ok s' -> exists b, eval I e s' = VBool b).
  { intros Ht s' Hs'. apply (eval_bool I e s' HI H Ht Hs'). }
  destruct (ty_of e) eqn:Ht; try (destruct op; discriminate).
  - (* Bool *)
    assert (HBF : is_inf (fun r => exists s', havocked (map qname xs) s s' /\ lv (eval I e s') = r)
      (etruth (dec (forall v, (exists s', havocked (map qname xs) s s' /\ eval I e s' = v) -> v = VBool true)))).
    { split.
      - intros r (s' & Z & <-). destruct (HB eq_refl s' (havocked_ok _ _ _ Hs Z)) as [b Hb]. rewrite Hb. simpl.
        apply etruth_dle_inf. intros D. apply (proj1 (dec_iff _)) in D. assert (VBool b = VBool true) by (apply D; eauto). congruence.
      - intros u Hu. destruct (dec _) eqn:D; [apply ele_top|]. apply dec_false in D.
        destruct (classic (exists s', havocked (map qname xs) s s' /\ eval I e s' = VBool false)) as [(s' & Z & E)|N].
        + specialize (Hu ebot). apply Hu. exists s'. rewrite E. auto.
        + exfalso. apply D. intros v (s' & Z & <-). destruct (HB eq_refl s' (havocked_ok _ _ _ Hs Z)) as [b Hb]. destruct b; auto.
          exfalso. apply N. eauto. }
    assert (HBE : is_sup (fun r => exists s', havocked (map qname xs) s s' /\ lv (eval I e s') = r)
      (etruth (dec (exists s', havocked (map qname xs) s s' /\ eval I e s' = VBool true)))).
    { split.
      - intros r (s' & Z & <-). destruct (HB eq_refl s' (havocked_ok _ _ _ Hs Z)) as [b Hb]. rewrite Hb. simpl.
        apply etruth_dle_inf. intros ->. apply dec_true. eauto.
      - intros u Hu. destruct (dec (exists s', havocked (map qname xs) s s' /\ eval I e s' = VBool true)) eqn:D; [|apply ebot_le]. apply (proj1 (dec_iff _)) in D. destruct D as (s' & Z & E).
        apply Hu. exists s'. rewrite E. auto. }
    destruct op; simpl; rewrite Ht; simpl; auto.
  - (* EUReal *)
    assert (Hi : is_inf (fun r => exists s', havocked (map qname xs) s s' /\ lv (eval I e s') = r)
      (einf (fun r => exists s', havocked (map qname xs) s s' /\ eval I e s' = VEur r))).
    { eapply (ext_eq Down); [|apply einf_spec]. intros r. split; intros (s' & Z & E); exists s'; split; auto.
      - now rewrite E.
      - rewrite <- E. apply HE; auto. eapply havocked_ok; eauto. }
    assert (Hu : is_sup (fun r => exists s', havocked (map qname xs) s s' /\ lv (eval I e s') = r)
      (esup (fun r => exists s', havocked (map qname xs) s s' /\ eval I e s' = VEur r))).
    { eapply (ext_eq Up); [|apply esup_spec]. intros r. split; intros (s' & Z & E); exists s'; split; auto.
      - now rewrite E.
      - rewrite <- E. apply HE; auto. eapply havocked_ok; eauto. }
    destruct op; try discriminate; simpl; rewrite Ht; simpl; auto.
Qed.

Fixpoint renv (xs ys : list ident) (s : env) : env :=
  match xs, ys with
  | x :: xs', y :: ys' => upd (renv xs' ys' s) x (s y)
  | _, _ => s
  end.
Lemma renv_other xs : forall ys s z, ~ In z xs -> renv xs ys s z = s z.
Proof.
  induction xs as [|x xs IH]; intros [|y ys] s z Hz; simpl; auto. rewrite upd_other by (simpl in Hz; intuition).
  apply IH. simpl in Hz; tauto.
Qed.
Lemma renv_in xs : forall ys (s t : env) z, Forall2 (fun x y => s y = t x) xs ys -> In z xs -> renv xs ys s z = t z.
Proof.
  induction xs as [|x xs IH]; intros ys s t z F Hz; inversion F; subst; [destruct Hz|]. simpl.
  unfold upd. destruct (ident_eqb_spec x z); [now subst|]. destruct Hz as [->|Hz]; [congruence|]. apply IH; auto.
Qed.
Lemma renv_ty xs : forall ys s, map ity ys = map ity xs -> env_ok s -> env_ok (renv xs ys s).
Proof.
  induction xs as [|x xs IH]; intros [|y ys] s E Hs; simpl in *; auto; try discriminate. inversion E. apply upd_ok; auto.
  rewrite <- H0. apply Hs.
Qed.
Lemma renv_onto xs : forall ys (s t : env), NoDup ys -> map ity ys = map ity xs -> env_ok t ->
  exists s', havocked ys s s' /\ Forall2 (fun x y => s' y = t x) xs ys.
Proof.
  induction xs as [|x xs IH]; intros [|y ys] s t ND E Ht; try discriminate.
  - exists s. split; [split; auto; intros ? [] | constructor].
  - inversion ND; subst. simpl in E. inversion E. destruct (IH ys s t) as (s' & [Z1 Z2] & F); auto.
    exists (upd s' y (t x)). split; [split|].
    + intros z Hz. simpl in Hz. rewrite upd_other by intuition. apply Z1. tauto.
    + intros z Hz. unfold upd. destruct (ident_eqb_spec y z) as [->|n]; [rewrite H0; apply Ht|]. apply Z2. destruct Hz; [congruence|auto].
    + constructor; [apply upd_same|]. clear -F H1. induction F; constructor; simpl in *; [|apply IHF; tauto].
      rewrite upd_other; intuition.
Qed.

Lemma elim_quant_spec span xs : forall T e, (forall x, In x xs -> is_var T x) -> wt e = true -> (forall x, In x (ids e) -> is_var T x) ->
  exists e' T' ys, elim_quant span T xs e = Ok (e', T') /\ extends T T' /\ wt e' = true /\ ty_of e' = ty_of e /\
    (forall x, In x (ids e') -> is_var T' x) /\ (forall y, In y ys -> ~ declared T y /\ is_var T' y) /\ NoDup ys /\
    map ity ys = map ity xs /\ (forall x, fv x e' -> fv x e \/ In x ys) /\
    forall I s, eval I e' s = eval I e (renv xs ys s).
Proof.
  induction xs as [|x xs IH]; intros T e Hx Hw Hi; simpl.
  - exists e, T, []. repeat split; auto using extends_refl; try contradiction; constructor.
  - destruct (clone_extends T x span) as (y & T1 & E & X & N & V & Ty); [apply Hx; now left|]. rewrite E. cbn [rbind].
    destruct (IH T1 (ESubst x (EVar y) e)) as (e' & T' & ys & E' & X' & W & Ty' & Id & F & ND & MT & FV & EV).
    + intros z Hz. apply X. apply Hx. now right.
    + cbn [wt ty_of]. rewrite Hw, Ty. simpl. apply ty_eqb_eq. reflexivity.
    + simpl. intros z [<-|[<-|Hz]]; [apply X, Hx; now left | auto | apply X; auto].
    + exists e', T', (y :: ys). split; [exact E'|]. repeat split; auto.
      * intros z Hz. apply X', X, Hz.
      * intros z Hz. apply X', X, Hz.
      * destruct H as [<-|H]; auto. intros D. apply (F y0); auto. apply X; auto.
      * destruct H as [<-|H]; [apply X'; auto|]. apply F; auto.
      * constructor; auto. intros Hy. apply (F y Hy). apply is_var_declared, V.
      * simpl. congruence.
      * intros z Hz. apply FV in Hz as [Hz|Hz]; [|right; now right]. simpl in Hz. destruct Hz as [->|[Hz _]]; [right; now left | now left].
      * intros I s. rewrite EV. simpl. rewrite renv_other; auto. intros Hy. apply N. apply is_var_declared, Hx. now right.
Qed.

Lemma spec_quant span op xs T a a' T1 F0 :
  (forall x, In x (map qname xs) -> is_var T x) -> (forall x, In x (ids a) -> is_var T x) ->
  linear (quant_dir op) (EQuant op xs a) -> wt (EQuant op xs a) = true -> spec (quant_dir op) T a a' T1 F0 ->
  exists e' T' F, elim_quant span T1 (shadows xs) a' = Ok (e', T') /\ spec (quant_dir op) T (EQuant op xs a) e' T' F.
Proof.
  intros Hx Ha HL Hw Sa. assert (PQ : pullq (quant_dir op) op = true) by (destruct op; reflexivity). simpl in HL. destruct (HL PQ) as [L D].
  assert (SH : forall x, In x (shadows xs) -> In x (map qname xs)).
  { intros x H. unfold shadows in H. apply in_flat_map in H as [v [H1 H2]]. destruct v as [z|z]; simpl in H2; [|contradiction].
    destruct H2 as [<-|[]]. apply in_map_iff. exists (QShadow z). auto. }
  assert (SPLIT : forall x, In x (map qname xs) -> In x (shadows xs) \/ In x (fresh_names xs)).
  { intros x H. apply in_map_iff in H as [v [H1 H2]]. destruct v as [z|z]; simpl in H1; subst z.
    - left. unfold shadows. apply in_flat_map. exists (QShadow x). split; auto. now left.
    - right. unfold fresh_names. apply in_flat_map. exists (QFresh x). split; auto. now left. }
  destruct Sa as [A1 A2 A3 A4 A5 A6 A7].
  destruct (elim_quant_spec span (shadows xs) T1 a') as (e' & T' & ys & E & X & W & Ty & Id & F & ND & MT & FV & EV); auto.
  { intros x Hs. apply A1. auto. }
  assert (DJ : forall x, In x F0 -> ~ In x (map qname xs)).
  { intros x H1 H2. destruct (A6 x H1) as [[N _]|HF]; [apply N, is_var_declared; auto | apply (D x HF H2)]. }
  assert (VF : forall x, In x F0 -> is_var T1 x).
  { intros x H1. destruct (A6 x H1) as [[_ V]|HF]; auto. apply A1, Ha; eapply fresh_ids; eauto. }
  assert (YF : forall x, In x ys -> ~ In x (map qname xs) /\ ~ In x F0 /\ ~ fv x a').
  { intros x H. destruct (F x H) as [N _]. split; [|split]; intros H1; apply N, is_var_declared; [apply A1, Hx, H1 | apply VF, H1 | apply A4, fv_ids, H1]. }
  exists e', T', (ys ++ fresh_names xs ++ F0). split; [exact E|]. split; auto.
  - eapply extends_trans; eauto.
  - cbn [ty_of]; congruence.
  - intros x H. apply FV in H as [H|H]; [apply A5 in H as [H|H]|]; simpl; rewrite !in_app_iff; tauto.
  - intros x H. simpl. rewrite PQ. rewrite !in_app_iff in *. destruct H as [H|[H|H]]; auto.
    + destruct (F x H) as [N V]. left. split; auto. intros D'. apply N, A1, D'.
    + destruct (A6 x H) as [[N V]|HF]; auto. left. split; auto. apply X, V.
  - intros I s HI Hs.
    pose proof (ext_ext (quant_dir op) (fun s' => havocked (map qname xs) s s') (fun s' => reach I F0 a' s') (fun s' => lv (eval I a s')) _
      (fun s' H => A7 I s' HI (havocked_ok _ _ _ Hs H)) (lv_quant I op xs a s HI Hs Hw)) as HX.
    eapply ext_eq; [|exact HX]. intros r. split.
    + intros (s1 & Z1 & (s2 & Z2 & <-)). assert (K1 : env_ok s1) by (eapply havocked_ok; eauto).
      assert (K2 : env_ok s2) by (eapply havocked_ok; eauto). destruct Z1 as [Z1 Z1'], Z2 as [Z2 Z2'].
      destruct (renv_onto (shadows xs) ys (splice (fresh_names xs ++ F0) s s2) s2 ND MT K2) as (s' & [Y1 Y2] & FA).
      exists s'. split; [split|].
      * intros x Hn. rewrite !in_app_iff in Hn. rewrite Y1 by tauto. unfold splice. destruct (in_dec ident_dec x (fresh_names xs ++ F0)) as [i|n]; auto.
        rewrite in_app_iff in i. tauto.
      * intros x Hn. rewrite in_app_iff in Hn. destruct (in_dec ident_dec x ys) as [i|n]; auto. rewrite Y1 by auto.
        unfold splice. destruct (in_dec ident_dec x (fresh_names xs ++ F0)); [apply K2 | apply Hs].
      * rewrite EV. f_equal. apply eval_ext. intros x Hfv.
        destruct (in_dec ident_dec x (shadows xs)) as [i|n]; [apply renv_in; auto|]. rewrite renv_other by auto.
        assert (Hy : ~ In x ys) by (intros Hy; apply (YF x Hy); auto). rewrite Y1 by auto.
        unfold splice. destruct (in_dec ident_dec x (fresh_names xs ++ F0)) as [i'|n']; auto. rewrite in_app_iff in n'.
        rewrite Z2 by tauto. rewrite Z1; auto. intros Hq. apply SPLIT in Hq. tauto.
    + intros (s' & [Y1 Y2] & <-). assert (K' : env_ok s') by (eapply havocked_ok; [exact Hs | split; eauto]).
      pose (t := renv (shadows xs) ys s'). assert (Kt : env_ok t) by (apply renv_ty; auto).
      exists (splice (map qname xs) s t). split; [apply splice_havocked; intros; apply Kt|].
      exists (splice F0 (splice (map qname xs) s t) t). split; [apply splice_havocked; intros; apply Kt|].
      rewrite EV. f_equal. apply eval_ext. intros x Hfv. unfold splice. destruct (in_dec ident_dec x F0) as [i|n]; auto.
      destruct (in_dec ident_dec x (map qname xs)) as [i|n']; auto. fold t. unfold t.
      rewrite renv_other by auto. symmetry. apply Y1. rewrite !in_app_iff. intros [H|[H|H]]; auto.
      * apply (YF x H); auto.
      * apply n'. now apply fresh_names_in.
Qed.

(** * The whole pass *)
Local Arguments lattice : simpl never.
Local Arguments is_finite : simpl never.
Lemma qelim_id q d T e : lattice (ty_of e) = false -> qelim q d T e = Ok (e, T).
Proof. intros H. destruct d; destruct e; cbn [qelim qelim_inf qelim_sup ty_of] in *; rewrite H; reflexivity. Qed.

Lemma qelim_spec q e : forall d T, wt e = true -> linear d e -> (forall x, In x (ids e) -> is_var T x) ->
  exists e' T' F, qelim q d T e = Ok (e', T') /\ spec d T e e' T' F.
Proof.
  induction e using expr_rect'; intros d T Hw HL Hi;
    match goal with |- exists _ _ _, qelim _ _ _ ?e = _ /\ _ =>
      assert (ID : spec d T e e T []) by (apply spec_id; auto);
      destruct (lattice (ty_of e)) eqn:Hl; [|exists e, T, []; split; [now apply qelim_id | exact ID]] end;
    cbn [ty_of] in Hl.
  - (* var *) exists (EVar x), T, []. split; auto. destruct d; cbn [qelim qelim_inf qelim_sup ty_of]; rewrite Hl; reflexivity.
  - (* call *) exists (ECall t f args), T, []. split; auto. destruct d; cbn [qelim qelim_inf qelim_sup ty_of]; rewrite Hl; reflexivity.
  - (* ite *)
    assert (Hc : forall x, In x (ids e1) -> is_var T x) by (intros x H; apply Hi; simpl; rewrite !in_app_iff; auto).
    assert (Ha : forall x, In x (ids e2) -> is_var T x) by (intros x H; apply Hi; simpl; rewrite !in_app_iff; auto).
    assert (Hb : forall x, In x (ids e3) -> is_var T x) by (intros x H; apply Hi; simpl; rewrite !in_app_iff; auto).
    pose proof Hw as Hw0. cbn [wt] in Hw. split_andb. pose proof HL as (L1 & L2 & _).
    destruct (IHe2 d T) as (a' & T1 & Fa & Ea & Sa); auto.
    destruct (IHe3 d T1) as (b' & T2 & Fb & Eb & Sb); auto; [intros x Hx; apply (sp_ext _ _ _ _ _ _ Sa); auto|].
    exists (EIte t e1 a' b'), T2, (Fa ++ Fb). split; [|eapply spec_ite; eauto].
    destruct d; cbn [qelim qelim_inf qelim_sup ty_of] in *; rewrite Hl; cbn [negb]; rewrite Ea; cbn [rbind]; rewrite Eb; reflexivity.
  - (* bin *)
    assert (Ha : forall x, In x (ids e1) -> is_var T x) by (intros x H; apply Hi; simpl; rewrite !in_app_iff; auto).
    assert (Hb : forall x, In x (ids e2) -> is_var T x) by (intros x H; apply Hi; simpl; rewrite !in_app_iff; auto).
    pose proof Hw as Hw0. cbn [wt] in Hw. split_andb.
    assert (BOTH : forall da db, pull2 d op = Some (da, db) -> gop_ok op = true -> cont2 d da db (gop op) ->
      (qelim q d T (EBin t op e1 e2) = let? (a', T1) := qelim q da T e1 in let? (b', T2) := qelim q db T1 e2 in Ok (EBin t op a' b', T2)) ->
      exists e' T' F, qelim q d T (EBin t op e1 e2) = Ok (e', T') /\ spec d T (EBin t op e1 e2) e' T' F).
    { intros da db HP Ho Hc EQ. pose proof HL as HL'. simpl in HL'. rewrite HP in HL'. destruct HL' as (L1 & L2 & _). destruct (IHe1 da T) as (a' & T1 & Fa & Ea & Sa); auto.
      destruct (IHe2 db T1) as (b' & T2 & Fb & Eb & Sb); auto; [intros x Hx; apply (sp_ext _ _ _ _ _ _ Sa); auto|].
      exists (EBin t op a' b'), T2, (Fa ++ Fb). split; [|eapply spec_op; eauto]. rewrite EQ, Ea. cbn [rbind]. rewrite Eb. reflexivity. }
    assert (SAME : (qelim q d T (EBin t op e1 e2) = Ok (EBin t op e1 e2, T)) ->
      exists e' T' F, qelim q d T (EBin t op e1 e2) = Ok (e', T') /\ spec d T (EBin t op e1 e2) e' T' F).
    { intros EQ. do 3 eexists. split; eauto. }
    destruct op.
    all: try (apply SAME; destruct d; cbn [qelim qelim_inf qelim_sup ty_of]; rewrite Hl; reflexivity).
    + (* add *) destruct d; [apply (BOTH Down Down) | apply (BOTH Up Up)]; auto using cont_add_inf, cont_add_sup; cbn [qelim qelim_inf qelim_sup ty_of]; rewrite Hl; reflexivity.
    + (* mul *)
      pose proof HL as HL'. simpl in HL'. destruct HL' as (L1 & L2 & _).
      destruct (is_finite e1) eqn:F1.
      { destruct (IHe2 d T) as (b' & T2 & Fb & Eb & Sb); auto. exists (EBin t OMul e1 b'), T2, Fb. split; [|eapply spec_mul_r; eauto].
        destruct d; cbn [qelim qelim_inf qelim_sup ty_of] in *; rewrite Hl, F1; cbn [negb]; rewrite Eb; reflexivity. }
      destruct (is_finite e2) eqn:F2.
      { destruct (IHe1 d T) as (a' & T1 & Fa & Ea & Sa); auto. exists (EBin t OMul a' e2), T1, Fa. split; [|eapply spec_mul_l; eauto].
        destruct d; cbn [qelim qelim_inf qelim_sup ty_of] in *; rewrite Hl, F1, F2; cbn [negb]; rewrite Ea; reflexivity. }
      apply SAME. destruct d; cbn [qelim qelim_inf qelim_sup ty_of] in *; rewrite Hl, F1, F2; reflexivity.
    + (* and *) apply (BOTH d d); auto; [apply cont_min | destruct d; cbn [qelim qelim_inf qelim_sup ty_of]; rewrite Hl; reflexivity].
    + (* or *) apply (BOTH d d); auto; [apply cont_max | destruct d; cbn [qelim qelim_inf qelim_sup ty_of]; rewrite Hl; reflexivity].
    + (* inf *) apply (BOTH d d); auto; [apply cont_min | destruct d; cbn [qelim qelim_inf qelim_sup ty_of]; rewrite Hl; reflexivity].
    + (* sup *) apply (BOTH d d); auto; [apply cont_max | destruct d; cbn [qelim qelim_inf qelim_sup ty_of]; rewrite Hl; reflexivity].
    + (* impl *) destruct d; [apply (BOTH Up Down); auto using cont_impl; cbn [qelim qelim_inf qelim_sup ty_of]; rewrite Hl; reflexivity | apply SAME; cbn [qelim qelim_inf qelim_sup ty_of]; rewrite Hl; reflexivity].
    + (* coimpl *) destruct d; [apply SAME; cbn [qelim qelim_inf qelim_sup ty_of]; rewrite Hl; reflexivity | apply (BOTH Down Up); auto using cont_coimpl; cbn [qelim qelim_inf qelim_sup ty_of]; rewrite Hl; reflexivity].
    + (* compare *) destruct d; [apply (BOTH Up Down); auto using cont_comp; cbn [qelim qelim_inf qelim_sup ty_of]; rewrite Hl; reflexivity | apply SAME; cbn [qelim qelim_inf qelim_sup ty_of]; rewrite Hl; reflexivity].
    + (* cocompare *) destruct d; [apply SAME; cbn [qelim qelim_inf qelim_sup ty_of]; rewrite Hl; reflexivity | apply (BOTH Down Up); auto using cont_cocomp; cbn [qelim qelim_inf qelim_sup ty_of]; rewrite Hl; reflexivity].
  - (* un *)
    pose proof Hw as Hw0. cbn [wt] in Hw. split_andb. simpl in HL.
    assert (SAME : (qelim q d T (EUn t op e) = Ok (EUn t op e, T)) ->
      exists e' T' F, qelim q d T (EUn t op e) = Ok (e', T') /\ spec d T (EUn t op e) e' T' F).
    { intros EQ. do 3 eexists. split; eauto. }
    destruct op.
    all: try (apply SAME; destruct d; cbn [qelim qelim_inf qelim_sup ty_of]; rewrite Hl; reflexivity).
    + destruct d; [|apply SAME; cbn [qelim qelim_inf qelim_sup ty_of]; rewrite Hl; reflexivity].
      destruct (IHe Up T) as (a' & T1 & Fa & Ea & Sa); auto. exists (EUn t ONot a'), T1, Fa. split; [|apply spec_not; auto].
      assert (EQ : qelim q Down T (EUn t ONot e) = let? (a', T1) := qelim q Up T e in Ok (EUn t ONot a', T1))
        by (cbn [qelim qelim_inf qelim_sup ty_of]; rewrite Hl; reflexivity). rewrite EQ, Ea. reflexivity.
    + destruct d; [apply SAME; cbn [qelim qelim_inf qelim_sup ty_of]; rewrite Hl; reflexivity|].
      destruct (IHe Down T) as (a' & T1 & Fa & Ea & Sa); auto. exists (EUn t ONon a'), T1, Fa. split; [|apply spec_non; auto].
      assert (EQ : qelim q Up T (EUn t ONon e) = let? (a', T1) := qelim q Down T e in Ok (EUn t ONon a', T1))
        by (cbn [qelim qelim_inf qelim_sup ty_of]; rewrite Hl; reflexivity). rewrite EQ, Ea. reflexivity.
    + destruct (IHe d T) as (a' & T1 & Fa & Ea & Sa); auto. exists (EUn t OParens a'), T1, Fa. split; [|apply spec_parens; auto].
      destruct d; cbn [qelim qelim_inf qelim_sup ty_of] in *; rewrite Hl; cbn [negb]; rewrite Ea; reflexivity.
  - (* cast *)
    pose proof Hw as Hw0. cbn [wt] in Hw. split_andb. exists (ECast t e), T, []. split; auto.
    assert (Hn : lattice (ty_of e) = false) by (destruct t, (ty_of e); simpl in *; try discriminate; auto).
    pose proof (qelim_id q d T e Hn) as EQ. destruct d; cbn [qelim qelim_inf qelim_sup ty_of] in *; rewrite Hl; cbn [negb]; rewrite EQ; reflexivity.
  - (* quant *)
    pose proof Hw as Hw0. cbn [wt] in Hw. split_andb.
    assert (Hq : forall x, In x (map qname xs) -> is_var T x) by (intros x Hx; apply Hi; simpl; rewrite !in_app_iff; auto).
    assert (Ha : forall x, In x (ids e) -> is_var T x) by (intros x Hx; apply Hi; simpl; rewrite !in_app_iff; auto).
    simpl in Hl.
    destruct (direction_dec d (quant_dir op)) as [->|n].
    + assert (PQ : pullq (quant_dir op) op = true) by (destruct op; reflexivity). pose proof HL as HL'. simpl in HL'. destruct (HL' PQ) as [L1 L2].
      destruct (IHe (quant_dir op) T) as (a' & T1 & Fa & Ea & Sa); auto.
      destruct (spec_quant (q (EQuant op xs e)) op xs T e a' T1 Fa Hq Ha HL Hw0 Sa) as (e' & T' & F & E & S).
      exists e', T', F. split; auto. destruct op; cbn [qelim qelim_inf qelim_sup ty_of quant_dir] in *; rewrite Hl; cbn [negb]; rewrite Ea; cbn [rbind]; exact E.
    + exists (EQuant op xs e), T, []. split; auto. destruct d, op; cbn [qelim qelim_inf qelim_sup ty_of quant_dir] in *; rewrite Hl; try reflexivity; congruence.
  - (* subst *) destruct HL.
  - (* lit *) exists (ELit t l), T, []. split; auto. destruct d; cbn [qelim qelim_inf qelim_sup ty_of]; rewrite Hl; reflexivity.
Qed.

(** * Validity *)
Lemma verified_lv I d e s : interp_ok I -> wt e = true -> lattice (ty_of e) = true -> env_ok s ->
  verified_value d (eval I e s) <-> lv (eval I e s) = match d with Down => etop | Up => ebot end.
Proof.
  intros HI Hw Hl Hs. assert (V := eval_ty I HI e Hw s Hs). pose proof ebot_neq_etop as NE. unfold verified_value.
  destruct (ty_of e); try discriminate; inv_ty V; rewrite V; simpl.
  - destruct d, b; simpl; split; intros H; auto; try (destruct H; discriminate); try (exfalso; congruence).
  - destruct d; split; intros H; subst; auto; destruct H as [H|H]; congruence.
Qed.

Lemma spec_verified d T e e' T' F I : spec d T e e' T' F -> interp_ok I -> wt e = true -> lattice (ty_of e) = true ->
  verified I d e <-> verified I d e'.
Proof.
  intros [A1 A2 A3 A4 A5 A6 A7] HI Hw Hl. unfold verified. split; intros H s Hs.
  - apply verified_lv; auto; [congruence|]. specialize (H s Hs). apply verified_lv in H; auto.
    pose proof (A7 I s HI Hs) as X. apply ext_iff in X as [X _]. rewrite H in X.
    assert (R : reach I F e' s (lv (eval I e' s))) by (exists s; split; auto; apply havocked_refl; auto). apply X in R.
    destruct d; simpl in R; [apply top_le in R | apply le_ebot in R]; auto.
  - apply verified_lv; auto. pose proof (A7 I s HI Hs) as X. apply ext_iff in X as [_ X].
    assert (R : dle d (match d with Down => etop | Up => ebot end) (lv (eval I e s))).
    { apply X. intros y (s' & Z & <-). assert (K : env_ok s') by (eapply havocked_ok; eauto). specialize (H s' K).
      apply verified_lv in H; auto; [|congruence]. rewrite H. apply dle_refl. }
    destruct d; simpl in R; [apply top_le in R | apply le_ebot in R]; auto.
Qed.

Theorem qelim_verified q d T e : wt e = true -> lattice (ty_of e) = true -> linear d e -> (forall x, In x (all_ids e) -> is_var T x) ->
  exists e' T', qelim q d T e = Ok (e', T') /\ wt e' = true /\ ty_of e' = ty_of e /\
    forall I, interp_ok I -> (verified I d e <-> verified I d e').
Proof.
  intros Hw Hl HL Hi. destruct (qelim_spec q e d T Hw HL Hi) as (e' & T' & F & E & S). exists e', T'.
  split; auto. split; [apply S|]. split; [apply S|]. intros I HI. eapply spec_verified; eauto.
Qed.

Lemma lv_le I a b s : interp_ok I -> env_ok s -> wt a = true -> wt b = true -> ty_of a = ty_of b -> lattice (ty_of b) = true ->
  ele (lv (eval I a s)) (lv (eval I b s)) -> lat_le (eval I a s) (eval I b s).
Proof.
  intros HI Hs Ha Hb Ht Hl. assert (V1 := eval_ty I HI a Ha s Hs). assert (V2 := eval_ty I HI b Hb s Hs). rewrite Ht in V1.
  destruct (ty_of b); try discriminate; inv_ty V1; inv_ty V2; rewrite V1, V2; simpl; auto. apply etruth_dle_inf.
Qed.

Theorem qelim_pointwise q d T e : wt e = true -> lattice (ty_of e) = true -> linear d e -> (forall x, In x (all_ids e) -> is_var T x) ->
  exists e' T', qelim q d T e = Ok (e', T') /\ forall I s, interp_ok I -> env_ok s ->
    match d with Down => lat_le (eval I e s) (eval I e' s) | Up => lat_le (eval I e' s) (eval I e s) end.
Proof.
  intros Hw Hl HL Hi. destruct (qelim_spec q e d T Hw HL Hi) as (e' & T' & F & E & S). exists e', T'.
  split; auto. intros I s HI Hs. destruct S as [A1 A2 A3 A4 A5 A6 A7]. pose proof (A7 I s HI Hs) as X. apply ext_iff in X as [X _].
  assert (R : reach I F e' s (lv (eval I e' s))) by (exists s; split; auto; apply havocked_refl; auto). apply X in R.
  destruct d; simpl in R; apply lv_le; auto; congruence.
Qed.

(** with the substitution pass that follows (quant_proof.rs 44-52) and the Boolean question *)
Theorem qelim_question q qs d T e : wt e = true -> lattice (ty_of e) = true -> linear d e -> (forall x, In x (all_ids e) -> is_var T x) ->
  exists e1 T1 e2 T2 vc, qelim q d T e = Ok (e1, T1) /\ apply_subst qs T1 e1 = Ok (e2, T2) /\ into_bool_vc d e2 = Ok vc /\
    wt vc = true /\ no_subst vc /\ ty_of vc = TBool /\
    forall I, interp_ok I -> (verified I d e <-> forall s, env_ok s -> eval I vc s = VBool true).
Proof.
  intros Hw Hl HL Hi. destruct (qelim_spec q e d T Hw HL Hi) as (e1 & T1 & F & E & S).
  destruct (apply_subst_correct qs T1 e1 (sp_wt _ _ _ _ _ _ S) (sp_ids _ _ _ _ _ _ S)) as (e2 & T2 & E2 & N & W & Ty & EV).
  assert (Ht : ty_of e2 = ty_of e) by (rewrite Ty; apply S).
  pose (top := ELit (ty_of e2) (match ty_of e2 with TBool => LBool true | _ => LInf end)).
  assert (Hl2 : lattice (ty_of e2) = true) by congruence.
  assert (HT : b_top (ty_of e2) = Ok top) by (unfold top; destruct (ty_of e2); try discriminate; reflexivity).
  exists e1, T1, e2, T2, (EBin TBool OEq top (match d with Down => e2 | Up => EUn (ty_of e2) ONot e2 end)).
  split; auto. split; auto. split; [unfold into_bool_vc; rewrite HT; reflexivity|].
  split; [unfold top; destruct d; simpl; rewrite W; destruct (ty_of e2) eqn:K; try discriminate; simpl; rewrite ?K; reflexivity|].
  split; [destruct d; simpl; auto|]. split; [reflexivity|].
  intros I HI. rewrite (spec_verified d T e e1 T1 F I S HI Hw Hl). unfold verified.
  assert (Q : forall s, env_ok s -> verified_value d (eval I e1 s) <->
    eval I (EBin TBool OEq top (match d with Down => e2 | Up => EUn (ty_of e2) ONot e2 end)) s = VBool true).
  { intros s Hs. rewrite <- EV. assert (V := eval_ty I HI e2 W s Hs). unfold top. pose proof ebot_neq_etop as NE.
    destruct (ty_of e2) eqn:K; try discriminate; inv_ty V; destruct d; simpl; rewrite V; simpl; unfold veq; simpl.
    - rewrite bool_dec_eq. destruct b; simpl; split; intros H; auto; destruct H as [H|H]; discriminate || inversion H.
    - rewrite bool_dec_eq. destruct b; simpl; split; intros H; auto; destruct H as [H|H]; discriminate || inversion H.
    - rewrite eq_top_dec. split.
      + intros [H|H]; [discriminate|]. inversion H; subst. now rewrite eleb_refl.
      + intros H. inversion H as [H']. apply eleb_iff in H'. apply top_le in H'. subst. auto.
    - rewrite eq_top_dec, e_not_top. split.
      + intros [H|H]; [discriminate|]. inversion H; subst. now rewrite eleb_refl.
      + intros H. inversion H as [H']. apply eleb_iff in H'. apply le_ebot in H'. subst. auto. }
  split; intros H s Hs; apply Q; auto.
Qed.

(** * A quantifier that occurs twice *)
Definition dup_x : ident := mkid "x" 0 TBool.
Definition half : expr := ELit TEUReal (LFrac (1 # 2)).
Definition dup_q (b : expr) : expr := EQuant QInf [QFresh dup_x] (EUn TEUReal OIverson b).
Definition dup_vc : expr :=
  EBin TEUReal OImpl half
    (EBin TEUReal OAdd (EBin TEUReal OMul half (dup_q (EVar dup_x))) (EBin TEUReal OMul half (dup_q (EUn TBool ONot (EVar dup_x))))).
Definition dup_tcx : tyctx := mktcx [(dup_x, true)] [].
Definition dup_out : expr :=
  EBin TEUReal OImpl half
    (EBin TEUReal OAdd (EBin TEUReal OMul half (EUn TEUReal OIverson (EVar dup_x)))
       (EBin TEUReal OMul half (EUn TEUReal OIverson (EUn TBool ONot (EVar dup_x))))).

Lemma dup_inf I s b : interp_ok I -> env_ok s -> wt b = true -> ty_of b = TBool -> (exists s', havocked [dup_x] s s' /\ eval I b s' = VBool false) ->
  eval I (dup_q b) s = VEur ebot.
Proof.
  intros HI Hs Hw Ht (s' & Z & E). unfold dup_q. simpl. f_equal. apply le_ebot. apply einf_lb. exists s'. split; auto. rewrite E. reflexivity.
Qed.
Lemma half_val : exists h, fin (Q2R (1 # 2)) = h /\ nval (nnr_of (Q2R (1#2))) = (1/2)%R.
Proof. eexists. split; [reflexivity|]. rewrite nval_of; unfold Q2R; simpl; lra. Qed.

Theorem qelim_duplicate_refuted : wt dup_vc = true /\ lattice (ty_of dup_vc) = true /\ (forall x, In x (all_ids dup_vc) -> is_var dup_tcx x) /\
  (forall q, qelim q Down dup_tcx dup_vc = Ok (dup_out, dup_tcx)) /\
  (forall I, interp_ok I -> ~ verified I Down dup_vc) /\ (forall I, interp_ok I -> verified I Down dup_out).
Proof.
  split; [reflexivity|]. split; [reflexivity|]. split; [|split; [reflexivity|split]].
  - intros x Hx. simpl in Hx. repeat (destruct Hx as [<-|Hx]; [reflexivity|]). destruct Hx.
  - intros I HI V. pose (s := fun x : ident => match ity x with TBool => VBool true | TInt => VInt 0 | TUInt => VUInt 0
      | TReal => VReal 0 | TUReal => VUReal (nnr_of 0) | TEUReal => VEur ebot end).
    assert (Hs : env_ok s) by (intros x; unfold s; destruct (ity x); reflexivity).
    specialize (V s Hs). unfold dup_vc in V.
    assert (Q1 : eval I (dup_q (EVar dup_x)) s = VEur ebot).
    { apply dup_inf; auto. exists (upd s dup_x (VBool false)). split; [|reflexivity]. split.
      - intros y Hy. apply upd_other. simpl in Hy. tauto.
      - intros y [<-|[]]. reflexivity. }
    assert (Q2 : eval I (dup_q (EUn TBool ONot (EVar dup_x))) s = VEur ebot).
    { apply dup_inf; auto. exists s. split; [apply havocked_refl; auto | reflexivity]. }
    cbn [eval] in V. fold dup_q in V. change (eval I (EQuant QInf [QFresh dup_x] (EUn TEUReal OIverson (EVar dup_x))) s)
      with (eval I (dup_q (EVar dup_x)) s) in V.
    assert (V' : verified_value Down (eval_bin I TEUReal OImpl (eval I half s) (eval_bin I TEUReal OAdd
      (eval_bin I TEUReal OMul (eval I half s) (eval I (dup_q (EVar dup_x)) s))
      (eval_bin I TEUReal OMul (eval I half s) (eval I (dup_q (EUn TBool ONot (EVar dup_x))) s))))) by exact V.
    rewrite Q1, Q2 in V'. simpl in V'. destruct V' as [V'|V']; [discriminate|]. inversion V' as [W]. clear -W.
    unfold emul, ebot, fin in W. simpl in W.
    match type of W with (if ?c then _ else ?r) = _ => destruct c eqn:L end; [|discriminate W].
    apply eleb_iff in L. simpl in L. rewrite !nval_ebot_proof, !Rmult_0_r, !nval_ebot_proof, Rplus_0_r, nval_ebot_proof in L.
    rewrite nval_of in L; unfold Q2R in *; simpl in *; lra.
  - intros I HI s Hs. right. unfold dup_out. pose proof (Hs dup_x) as Hx. unfold has_ty in Hx. simpl in Hx.
    assert (Hb : exists b, s dup_x = VBool b) by (destruct (s dup_x); inversion Hx; eauto). destruct Hb as [b Hb].
    cbn [eval half]. rewrite Hb. simpl.
    match goal with |- VEur (if eleb ?a ?c then _ else _) = _ => assert (L : eleb a c = true); [apply eleb_iff | rewrite L; reflexivity] end.
    unfold eone, ebot. destruct b; simpl; unfold emul, fin; simpl; rewrite ?nval_ebot_proof, ?Rmult_0_r, ?nval_ebot_proof, ?Rplus_0_r, ?Rplus_0_l;
      repeat (rewrite nval_of; unfold Q2R; simpl; try lra).
Qed.
