(** Order theory and arithmetic of [0,oo]. *)
From Coq Require Import Reals Lra Lia ClassicalEpsilon Classical Bool Setoid.
From Verif.Spec Require Import Eur.
Local Open Scope R_scope.

Lemma nnr_eq (x y : nnr) : nval x = nval y -> x = y.
Proof.
  destruct x as [x hx], y as [y hy]; unfold nval; simpl; intros ->.
  f_equal. apply proof_irrelevance.
Qed.

Lemma nval_nonneg (x : nnr) : 0 <= nval x.
Proof. destruct x; assumption. Qed.

Lemma nval_of (r : R) : 0 <= r -> nval (nnr_of r) = r.
Proof. intros H. unfold nval, nnr_of; simpl. now apply Rmax_right. Qed.

Lemma nval_of_max (r : R) : nval (nnr_of r) = Rmax 0 r.
Proof. reflexivity. Qed.

Lemma Fin_fin (x : nnr) : Fin x = fin (nval x).
Proof. unfold fin. f_equal. apply nnr_eq. now rewrite nval_of by apply nval_nonneg. Qed.

Lemma eleb_iff a b : eleb a b = true <-> ele a b.
Proof.
  destruct a as [x|], b as [y|]; simpl; try easy.
  destruct (Rle_dec (nval x) (nval y)); split; easy.
Qed.

Lemma eleb_false a b : eleb a b = false <-> ~ ele a b.
Proof. rewrite <- eleb_iff. destruct (eleb a b); split; congruence. Qed.

Lemma ele_dec a b : {ele a b} + {~ ele a b}.
Proof. destruct (eleb a b) eqn:E; [left; now apply eleb_iff | right; now apply eleb_false]. Qed.

Lemma ele_refl a : ele a a.
Proof. destruct a; simpl; auto; lra. Qed.

Lemma ele_trans a b c : ele a b -> ele b c -> ele a c.
Proof. destruct a, b, c; simpl; try easy; lra. Qed.

Lemma ele_antisym a b : ele a b -> ele b a -> a = b.
Proof. destruct a, b; simpl; try easy. intros. f_equal. apply nnr_eq. lra. Qed.

Lemma ele_total a b : ele a b \/ ele b a.
Proof. destruct a, b; simpl; auto. lra. Qed.

Lemma not_ele a b : ~ ele a b -> ele b a.
Proof. intros H. destruct (ele_total a b); tauto. Qed.

Lemma nval_ebot_proof : nval (nnr_of 0) = 0.
Proof. apply nval_of; lra. Qed.

Lemma ebot_le a : ele ebot a.
Proof. destruct a as [x|]; simpl; auto. rewrite nval_ebot_proof. apply nval_nonneg. Qed.

Lemma ele_top a : ele a etop.
Proof. destruct a; exact I. Qed.

Lemma le_ebot a : ele a ebot -> a = ebot.
Proof. intros; apply ele_antisym; auto using ebot_le. Qed.

Lemma top_le a : ele etop a -> a = etop.
Proof. intros; apply ele_antisym; auto using ele_top. Qed.

Lemma ebot_neq_etop : ebot <> etop.
Proof. discriminate. Qed.

Lemma fin_inj r s : 0 <= r -> 0 <= s -> fin r = fin s -> r = s.
Proof.
  intros Hr Hs E. apply (f_equal (fun e => match e with Fin x => nval x | Inf => 0 end)) in E.
  unfold fin in E. now rewrite !nval_of in E.
Qed.

Lemma ele_fin r s : 0 <= r -> 0 <= s -> ele (fin r) (fin s) <-> r <= s.
Proof. intros. unfold fin; simpl. now rewrite !nval_of. Qed.

Lemma eone_neq_ebot : eone <> ebot.
Proof. intros H. apply fin_inj in H; lra. Qed.

(** Case analysis on eur, exposing plain reals. *)
Lemma eur_cases (a : eur) : (exists r, 0 <= r /\ a = fin r) \/ a = Inf.
Proof.
  destruct a as [x|]; [left|now right].
  exists (nval x); split; [apply nval_nonneg | apply Fin_fin].
Qed.

Lemma eadd_fin r s : 0 <= r -> 0 <= s -> eadd (fin r) (fin s) = fin (r + s).
Proof. intros. unfold fin at 1 2; simpl. now rewrite !nval_of. Qed.
Lemma emul_fin r s : 0 <= r -> 0 <= s -> emul (fin r) (fin s) = fin (r * s).
Proof. intros. unfold fin at 1 2; simpl. now rewrite !nval_of. Qed.
Lemma emonus_fin r s : 0 <= r -> 0 <= s -> emonus (fin r) (fin s) = fin (r - s).
Proof. intros. unfold fin at 1 2; simpl. now rewrite !nval_of. Qed.
Lemma fin_neg r : r <= 0 -> fin r = ebot.
Proof. intros. unfold ebot, fin. f_equal. apply nnr_eq. rewrite !nval_of_max. rewrite !Rmax_left; lra. Qed.
Lemma ele_fin_Inf r : ele (fin r) Inf.
Proof. exact I. Qed.
Lemma not_ele_Inf_fin r : ~ ele Inf (fin r).
Proof. simpl; tauto. Qed.
Lemma eadd_Inf_l a : eadd Inf a = Inf.
Proof. destruct a; reflexivity. Qed.
Lemma eadd_Inf_r a : eadd a Inf = Inf.
Proof. destruct a; reflexivity. Qed.
Lemma emul_Inf_r r : 0 < r -> emul (fin r) Inf = Inf.
Proof. intros. unfold fin; simpl. destruct (Req_EM_T _ _) as [e|]; auto. unfold nval, nnr_of in e; simpl in e. rewrite Rmax_right in e; lra. Qed.
Lemma emul_Inf_l r : 0 < r -> emul Inf (fin r) = Inf.
Proof. intros. unfold fin; simpl. destruct (Req_EM_T _ _) as [e|]; auto. unfold nval, nnr_of in e; simpl in e. rewrite Rmax_right in e; lra. Qed.
Lemma emul_0_l a : emul ebot a = ebot.
Proof.
  destruct a as [x|]; unfold ebot, fin; simpl.
  - rewrite nval_of by lra. now rewrite Rmult_0_l.
  - destruct (Req_EM_T _ _) as [|n]; auto. exfalso; apply n. apply nval_of; lra.
Qed.
Lemma emul_0_r a : emul a ebot = ebot.
Proof.
  destruct a as [x|]; unfold ebot, fin; simpl.
  - rewrite nval_of by lra. now rewrite Rmult_0_r.
  - destruct (Req_EM_T _ _) as [|n]; auto. exfalso; apply n. apply nval_of; lra.
Qed.
Lemma emonus_Inf_r a : emonus a Inf = ebot.
Proof. destruct a; reflexivity. Qed.

(** ** Commutative semiring facts *)
Ltac ecs a := let r := fresh "r" in let h := fresh "h" in
  destruct (eur_cases a) as [(r & h & ->) | ->].

Lemma eadd_comm a b : eadd a b = eadd b a.
Proof. destruct a, b; simpl; auto. f_equal; lra. Qed.
Lemma eadd_assoc a b c : eadd a (eadd b c) = eadd (eadd a b) c.
Proof.
  ecs a; ecs b; ecs c; rewrite ?eadd_Inf_l, ?eadd_Inf_r, ?eadd_Inf_l, ?eadd_Inf_r; auto;
  repeat (rewrite eadd_fin by lra); rewrite ?eadd_Inf_r, ?eadd_Inf_l; auto.
  f_equal; lra.
Qed.
Lemma eadd_0_l a : eadd ebot a = a.
Proof. ecs a; auto. unfold ebot; rewrite eadd_fin by lra. f_equal; lra. Qed.
Lemma eadd_0_r a : eadd a ebot = a.
Proof. rewrite eadd_comm; apply eadd_0_l. Qed.
Lemma emul_comm a b : emul a b = emul b a.
Proof. destruct a, b; simpl; auto. f_equal; lra. Qed.
Lemma emul_1_l a : emul eone a = a.
Proof.
  ecs a; unfold eone; [rewrite emul_fin by lra; f_equal; lra | apply emul_Inf_r; lra].
Qed.
Lemma emul_1_r a : emul a eone = a.
Proof. rewrite emul_comm; apply emul_1_l. Qed.

Lemma eadd_mono a b c d : ele a b -> ele c d -> ele (eadd a c) (eadd b d).
Proof.
  ecs a; ecs b; ecs c; ecs d; rewrite ?eadd_Inf_l, ?eadd_Inf_r; try (simpl; tauto).
  intros H1 H2. rewrite ele_fin in H1, H2 by lra. rewrite !eadd_fin by lra.
  apply ele_fin; lra.
Qed.

Lemma emul_mono a b c d : ele a b -> ele c d -> ele (emul a c) (emul b d).
Proof.
  intros H1 H2.
  destruct (eur_cases a) as [(ra & ha & ->) | ->];
  destruct (eur_cases b) as [(rb & hb & ->) | ->];
  destruct (eur_cases c) as [(rc & hc & ->) | ->];
  destruct (eur_cases d) as [(rd & hd & ->) | ->];
  try (now apply not_ele_Inf_fin in H1); try (now apply not_ele_Inf_fin in H2).
  all: try (rewrite ele_fin in H1 by lra). all: try (rewrite ele_fin in H2 by lra).
  - rewrite !emul_fin by lra. apply ele_fin; try nra.
  - destruct (Req_dec rb 0) as [->|].
    + replace ra with 0 by lra. change (fin 0) with ebot. rewrite !emul_0_l. apply ele_refl.
    + rewrite emul_Inf_r by lra. exact I || apply ele_top.
  - destruct (Req_dec rb 0) as [->|].
    + replace ra with 0 by lra. change (fin 0) with ebot. rewrite !emul_0_l. apply ele_refl.
    + rewrite (emul_Inf_r rb) by lra. apply ele_top.
  - destruct (Req_dec rd 0) as [->|].
    + replace rc with 0 by lra. change (fin 0) with ebot. rewrite !emul_0_r. apply ele_refl.
    + rewrite (emul_Inf_l rd) by lra. apply ele_top.
  - apply ele_top.
  - apply ele_top.
  - destruct (Req_dec rd 0) as [->|].
    + replace rc with 0 by lra. change (fin 0) with ebot. rewrite !emul_0_r. apply ele_refl.
    + rewrite (emul_Inf_l rd) by lra. apply ele_top.
  - apply ele_top.
  - apply ele_top.
Qed.

(** ** min and max *)
Lemma emin_l a b : ele (emin a b) a.
Proof. unfold emin. destruct (eleb a b) eqn:E; [apply ele_refl|]. apply not_ele. now apply eleb_false. Qed.
Lemma emin_r a b : ele (emin a b) b.
Proof. unfold emin. destruct (eleb a b) eqn:E; [now apply eleb_iff | apply ele_refl]. Qed.
Lemma emin_glb c a b : ele c a -> ele c b -> ele c (emin a b).
Proof. unfold emin. destruct (eleb a b); auto. Qed.
Lemma emax_l a b : ele a (emax a b).
Proof. unfold emax. destruct (eleb a b) eqn:E; [now apply eleb_iff | apply ele_refl]. Qed.
Lemma emax_r a b : ele b (emax a b).
Proof. unfold emax. destruct (eleb a b) eqn:E; [apply ele_refl|]. apply not_ele. now apply eleb_false. Qed.
Lemma emax_lub c a b : ele a c -> ele b c -> ele (emax a b) c.
Proof. unfold emax. destruct (eleb a b); auto. Qed.
Lemma emin_case (P : eur -> Prop) a b : P a -> P b -> P (emin a b).
Proof. unfold emin; destruct (eleb a b); auto. Qed.
Lemma emax_case (P : eur -> Prop) a b : P a -> P b -> P (emax a b).
Proof. unfold emax; destruct (eleb a b); auto. Qed.
Lemma emin_le_iff a b c : ele (emin a b) c <-> ele a c \/ ele b c.
Proof.
  split.
  - unfold emin; destruct (eleb a b); auto.
  - intros [H|H]; eapply ele_trans; try exact H; [apply emin_l|apply emin_r].
Qed.
Lemma le_emin_iff a b c : ele c (emin a b) <-> ele c a /\ ele c b.
Proof.
  split; [|intros []; now apply emin_glb].
  intros H; split; eapply ele_trans; try exact H; [apply emin_l|apply emin_r].
Qed.
Lemma le_emax_iff a b c : ele c (emax a b) <-> ele c a \/ ele c b.
Proof.
  split.
  - unfold emax; destruct (eleb a b); auto.
  - intros [H|H]; eapply ele_trans; try exact H; [apply emax_l|apply emax_r].
Qed.
Lemma emax_le_iff a b c : ele (emax a b) c <-> ele a c /\ ele b c.
Proof.
  split; [|intros []; now apply emax_lub].
  intros H; split; eapply ele_trans; try exact H; [apply emax_l|apply emax_r].
Qed.
Lemma emin_mono a b c d : ele a b -> ele c d -> ele (emin a c) (emin b d).
Proof. intros H1 H2. apply emin_glb; [eapply ele_trans; [apply emin_l|exact H1]|eapply ele_trans; [apply emin_r|exact H2]]. Qed.
Lemma emax_mono a b c d : ele a b -> ele c d -> ele (emax a c) (emax b d).
Proof. intros H1 H2. apply emax_lub; [eapply ele_trans; [exact H1|apply emax_l]|eapply ele_trans; [exact H2|apply emax_r]]. Qed.

(** ** Complete lattice *)
Lemma is_sup_exists (P : eur -> Prop) : exists s, is_sup P s.
Proof.
  destruct (classic (P Inf)) as [HI|HI].
  { exists Inf; split; [intros; apply ele_top|]. intros u H; now apply H. }
  destruct (classic (exists x, P x)) as [[x0 Hx0]|Hempty].
  2:{ exists ebot; split; [|intros; apply ebot_le]. intros x Hx; exfalso; eauto. }
  set (E := fun r : R => exists x, P (Fin x) /\ nval x = r).
  destruct (classic (bound E)) as [HB|HB].
  - destruct (completeness E HB) as [m [Hub Hlub]].
    { destruct x0 as [x|]; [|tauto]. exists (nval x), x; auto. }
    assert (Hm : 0 <= m).
    { destruct x0 as [x|]; [|tauto]. apply Rle_trans with (nval x); [apply nval_nonneg|].
      apply Hub. exists x; auto. }
    exists (fin m); split.
    + intros [x|] Hx; [|tauto]. unfold fin; simpl. rewrite nval_of by auto. apply Hub. exists x; auto.
    + intros [u|] H; [|apply ele_top]. unfold fin; simpl. rewrite nval_of by auto.
      apply Hlub. intros r (x & Hx & <-). apply (H _ Hx).
  - exists Inf; split; [intros; apply ele_top|].
    intros [u|] H; [|exact I]. exfalso. apply HB. exists (nval u).
    intros r (x & Hx & <-). apply (H _ Hx).
Qed.

Lemma is_inf_exists (P : eur -> Prop) : exists s, is_inf P s.
Proof.
  destruct (is_sup_exists (fun l => forall x, P x -> ele l x)) as [s [H1 H2]].
  exists s; split.
  - intros x Hx. apply H2. intros l Hl; auto.
  - intros u Hu. apply H1; auto.
Qed.

Lemma esup_spec P : is_sup P (esup P).
Proof. exact (epsilon_spec (inhabits Inf) (is_sup P) (is_sup_exists P)). Qed.
Lemma einf_spec P : is_inf P (einf P).
Proof. exact (epsilon_spec (inhabits Inf) (is_inf P) (is_inf_exists P)). Qed.

Lemma is_sup_unique P s t : is_sup P s -> is_sup P t -> s = t.
Proof. intros [A B] [C D]. apply ele_antisym; auto. Qed.
Lemma is_inf_unique P s t : is_inf P s -> is_inf P t -> s = t.
Proof. intros [A B] [C D]. apply ele_antisym; auto. Qed.
Lemma esup_eq P s : is_sup P s -> esup P = s.
Proof. intros; eapply is_sup_unique; eauto using esup_spec. Qed.
Lemma einf_eq P s : is_inf P s -> einf P = s.
Proof. intros; eapply is_inf_unique; eauto using einf_spec. Qed.
Lemma esup_ub (P : eur -> Prop) x : P x -> ele x (esup P).
Proof. apply esup_spec. Qed.
Lemma esup_lub (P : eur -> Prop) u : (forall x, P x -> ele x u) -> ele (esup P) u.
Proof. apply esup_spec. Qed.
Lemma einf_lb (P : eur -> Prop) x : P x -> ele (einf P) x.
Proof. apply einf_spec. Qed.
Lemma einf_glb (P : eur -> Prop) u : (forall x, P x -> ele u x) -> ele u (einf P).
Proof. apply einf_spec. Qed.
Lemma esup_ext (P Q : eur -> Prop) : (forall x, P x <-> Q x) -> esup P = esup Q.
Proof. intros H. apply esup_eq. destruct (esup_spec Q) as [A B]. split.
  - intros x Hx. apply A, H, Hx. - intros u Hu. apply B. intros x Hx. apply Hu, H, Hx. Qed.
Lemma einf_ext (P Q : eur -> Prop) : (forall x, P x <-> Q x) -> einf P = einf Q.
Proof. intros H. apply einf_eq. destruct (einf_spec Q) as [A B]. split.
  - intros x Hx. apply A, H, Hx. - intros u Hu. apply B. intros x Hx. apply Hu, H, Hx. Qed.
