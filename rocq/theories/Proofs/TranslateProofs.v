(** The translation of expressions to SMT terms is exact. *)
From Coq Require Import Bool List String ZArith NArith Reals Lra Lia ClassicalEpsilon.
From Verif.Model Require Orders.
From Verif.Model Require Import EurEncodings Syntax AstUtil ScopeMap Translate.
From Verif.Spec Require Import Eur EncSpec Sem Exprs Translated.
From Verif.Proofs Require Import EurLemmas SemLemmas EncProofs EncProps ScopeProofs SubstProofs TranslateTerms TranslateStates.
Import ListNotations.
Local Open Scope list_scope.
Local Open Scope nat_scope.

Lemma agree_mid B C k M1 M2 M0 M3 : agree k M1 M2 -> agree_off B M1 M0 -> agree_off (B ++ C) M2 M3 -> (forall s n, In (s, n) C -> k <= n) ->
  (forall q, In q B -> bval M3 q = bval M0 q) -> agree k M0 M3.
Proof.
  intros (H1&H2&H3&H4&H5&H6&H7) (G1&G2&G3&G4&G5&G6&G7) (K1&K2&K3&K4&K5&K6&K7) HC HB.
  assert (N : forall s n, n < k -> ~ In (s, n) B -> ~ In (s, n) (B ++ C)).
  { intros s n Hn Hb Hi. apply in_app_or in Hi. destruct Hi as [Hi|Hi]; auto. apply HC in Hi. lia. }
  refine (conj _ (conj _ (conj _ (conj _ (conj _ (conj _ _)))))); try congruence; intros n Hn.
  - destruct (in_dec bound_dec (SB, n) B) as [i|i]; [apply HB in i; now injection i|]. rewrite K1, H1, G1; auto.
  - destruct (in_dec bound_dec (SI, n) B) as [i|i]; [apply HB in i; now injection i|]. rewrite K2, H2, G2; auto.
  - destruct (in_dec bound_dec (SR, n) B) as [i|i]; [apply HB in i; now injection i|]. rewrite K3, H3, G3; auto.
  - rewrite K4, H4, G4; auto.
Qed.

Section Proofs.
Context (isvar : ident -> bool) (fsig : string -> option (list ty * ty)) (ecall : string -> (string -> list dyn -> dyn) -> list dyn -> dyn) (I : interp) (HI : interp_ok I).
Notation fits := (fits fsig ecall I).
Notation doneh := (doneh fsig ecall I).
Notation done := (done fsig ecall I).

(** * Quantifiers *)
Section Quant.
Context (xs : list qvar) (a : expr) (y : symb) (P : Prop) (st1 st2 st3 : tst) (bs : scope) (new : list (term bool)).
Context (Iv1 : inv st1) (Iv2 : inv st2) (Ent : entered (names xs) st1 bs st2).
Context (old : list (term bool)) (HB : forall c, In c old -> below (nxt st1) c) (HO : forall c, In c old -> forall M M', agree_off (qb st1) M M' -> c M' = c M).
Context (D : doneh old (fun x => fv x a) P (fun M s => enc M y (eval I a s)) st2 new st3).
Definition outer (x : ident) : Prop := fv x a /\ ~ In x (names xs).
Context (V1 : forall x, outer x -> exists v, vis st1 x = Some v).

Definition st4 : tst := mktst (add_outermost new (limits st1)) (locals st1) (qstack st1) (nxt st3).

Lemma leave_ok : leave st3 = Ok st4.
Proof.
  destruct Ent as [E1 [l0 E2] E3 E4 _ _ _ _]. pose proof (d_step _ _ _ _ _ _ _ _ _ D) as S. destruct S as [S1 S2 S3 (l & l' & ms & S4 & S5) _].
  unfold leave. rewrite S2, E3. unfold tr_pop. cbn [limits locals]. rewrite S3, E1, add_outermost_cons by apply (inv_lim _ Iv1).
  destruct (add_outermost new (limits st1)) as [|k ks] eqn:Ek; [destruct (add_outermost_ne new (limits st1) (inv_lim _ Iv1) Ek)|].
  rewrite S5. rewrite E2 in S4. injection S4 as _ <-. destruct (inv_loc _ Iv1) as (m & ms' & Em). rewrite Em. cbn [sm_unchecked_pop rbind].
  unfold st4. rewrite Ek, Em. reflexivity.
Qed.
Lemma nxt_12 : nxt st1 <= nxt st2. Proof. apply Ent. Qed.
Lemma nxt_23 : nxt st2 <= nxt st3. Proof. apply (s_nxt _ _ _ (d_step _ _ _ _ _ _ _ _ _ D)). Qed.
Lemma vis4 x : vis st4 x = vis st1 x. Proof. reflexivity. Qed.
Lemma inv4 : inv st4.
Proof.
  pose proof nxt_12. pose proof nxt_23. destruct Iv1 as [L1 L2 L3 L4 L5 L6 L7]. split; unfold st4; cbn [locals limits nxt]; auto; fold st4.
  - now apply add_outermost_ne.
  - intros x z sc E. destruct (L3 x z sc E) as (n & Ln & En & C). exists n. split; [lia|]. split; auto.
  - intros s n Hn. apply L5 in Hn. lia.
  - intros c Hc. eapply below_le; [|apply L6; exact Hc]. lia.
Qed.
Lemma step4 : step st1 new st4.
Proof.
  pose proof nxt_12. pose proof nxt_23. destruct (inv_loc _ Iv1) as (m & ms & Em). split; unfold st4; cbn [locals limits nxt qstack]; auto.
  - lia.
  - eauto.
Qed.
Lemma qb2 : qb st2 = sbounds bs ++ qb st1. Proof. unfold qb. now rewrite (e_q _ _ _ _ Ent). Qed.
Lemma qc2 : qc st2 = scons bs ++ qc st1. Proof. unfold qc. now rewrite (e_q _ _ _ _ Ent). Qed.
Lemma bs_ids s n : In (s, n) (sbounds bs) -> nxt st1 <= n.
Proof.
  intros H. apply (e_bnds _ _ _ _ Ent) in H. unfold bnds in H. apply in_flat_map in H. destruct H as (x & Hx & H).
  destruct (e_bound _ _ _ _ Ent x Hx) as (k & Lk & Ek). rewrite Ek in H. destruct (fresh_sym (ity x) k) as [z sc] eqn:Ef.
  assert (sc = snd (fresh_sym (ity x) k)) as -> by now rewrite Ef. apply fresh_bounds in H. now subst.
Qed.
Lemma bs_ids2 s n : In (s, n) (sbounds bs) -> n < nxt st2.
Proof. intros H. apply (inv_qb _ Iv2 s). rewrite qb2. apply in_or_app. auto. Qed.
Lemma bs_agree M M' : agree_off (sbounds bs) M M' -> agree (nxt st1) M M'.
Proof. apply agree_off_above, bs_ids. Qed.
Lemma h_off c : In c old -> forall M M', agree_off (sbounds bs ++ qb st1) M M' -> c M' = c M.
Proof.
  intros Hc M M' A. set (M0 := over (qb st1) M M'). rewrite <- (HO c Hc M M0) by apply over_agree_off. apply (HB c Hc).
  apply bs_agree. destruct A as (A1&A2&A3&A4&A5&A6&A7). unfold M0, over. refine (conj _ (conj _ (conj _ (conj _ (conj _ (conj _ _)))))); simpl; auto;
    intros k Hk; destruct (in_dec bound_dec _ _) as [i|i]; auto; [apply A1 | apply A2 | apply A3]; intros Hi; apply in_app_or in Hi; tauto.
Qed.
Lemma new_off c : In c (old ++ new) -> forall M M', agree_off (sbounds bs ++ qb st1) M M' -> c M' = c M.
Proof.
  intros Hc M M' G. apply in_app_or in Hc. destruct Hc as [Hc|Hc]; [now apply h_off|].
  apply (d_off _ _ _ _ _ _ _ _ _ D c Hc). now rewrite qb2.
Qed.
Lemma hnew_below c : In c (old ++ new) -> below (nxt st3) c.
Proof.
  intros Hc. apply in_app_or in Hc. destruct Hc as [Hc|Hc]; [|apply (d_below _ _ _ _ _ _ _ _ _ D c Hc)].
  eapply below_le; [|apply HB; exact Hc]. pose proof nxt_12. pose proof nxt_23. lia.
Qed.
Lemma in_bounds x z sc : In x (names xs) -> vis st2 x = Some (z, sc) -> incl (sbounds sc) (sbounds bs) /\ incl (scons sc) (scons bs).
Proof.
  intros Hx V. split; intros b Hb.
  - apply (e_bnds _ _ _ _ Ent). unfold bnds. apply in_flat_map. exists x. split; auto. now rewrite V.
  - apply (e_cons _ _ _ _ Ent). unfold cons_. apply in_flat_map. exists x. split; auto. now rewrite V.
Qed.

Lemma quant0 M s M' s' : P -> fits M -> alltrue (old ++ new) M -> alltrue (qc st1) M -> encs outer st1 M s ->
  agree_off (sbounds bs) M M' -> alltrue (scons bs) M' -> (forall x, ~ In x (names xs) -> s' x = s x) ->
  encs (fun x => In x (names xs)) st2 M' s' -> enc M' y (eval I a s').
Proof.
  intros p Hf Hn Hq He A C Hs Hi. apply (d_corr _ _ _ _ _ _ _ _ _ D); auto.
  - eapply fits_off; eauto.
  - intros c Hc. rewrite (new_off c Hc M M'); auto. eapply agree_off_incl; [|exact A]. apply incl_appl, incl_refl.
  - rewrite qc2. apply alltrue_app. split; auto. eapply alltrue_below; [|apply bs_agree; exact A|exact Hq].
    intros c Hc. now apply (inv_qc _ Iv1).
  - intros x Hx. pose proof (s_vis _ _ _ (d_step _ _ _ _ _ _ _ _ _ D)) as Sv.
    destruct (in_dec ident_dec x (names xs)) as [i|i].
    + destruct (Hi x i) as (z & sc & E & C'). exists z, sc. split; auto.
    + destruct (He x (conj Hx i)) as (z & sc & E & C'). exists z, sc. split.
      * apply Sv. now rewrite (e_other _ _ _ _ Ent).
      * rewrite Hs by auto. destruct (inv_vis _ Iv1 _ _ _ E) as (n & Ln & En & _).
        assert (z = fst (fresh_sym (ity x) n)) as -> by now rewrite <- En.
        eapply enc_agree; [apply fresh_below; exact Ln | apply bs_agree; exact A | exact C'].
Qed.
Lemma quant1 M s M' : P -> fits M -> alltrue (old ++ new) M -> alltrue (qc st1) M -> encs outer st1 M s ->
  agree_off (sbounds bs) M M' -> alltrue (scons bs) M' -> exists s', havocked (names xs) s s' /\ enc M' y (eval I a s').
Proof.
  intros p Hf Hn Hq He A C.
  destruct (decode_env (fun x => In x (names xs)) st2 M' Iv2) as (s0 & T0 & E0).
  { intros x Hx. destruct (e_bound _ _ _ _ Ent x Hx) as (k & _ & Ek). eauto. }
  { intros x z sc Hx V c Hc. apply C. eapply in_bounds; eauto. }
  exists (splice (names xs) s s0). split; [now apply splice_havocked|].
  eapply quant0; eauto.
  - intros x Hx. unfold splice. destruct (in_dec _ _ _); tauto.
  - intros x Hx. unfold splice. destruct (in_dec _ _ _); [apply E0; auto | tauto].
Qed.
Lemma quant2 M s s' : P -> fits M -> alltrue (old ++ new) M -> alltrue (qc st1) M -> encs outer st1 M s ->
  havocked (names xs) s s' -> exists M', agree_off (sbounds bs) M M' /\ alltrue (scons bs) M' /\ enc M' y (eval I a s').
Proof.
  intros p Hf Hn Hq He [H1 H2].
  assert (Hv : forall x, In x (names xs) -> exists v, vis st2 x = Some v).
  { intros x Hx. destruct (e_bound _ _ _ _ Ent x Hx) as (k & _ & Ek). eauto. }
  destruct (assign isvar st2 Iv2 (names xs) Hv s' M H2) as (M' & A & E).
  assert (A' : agree_off (sbounds bs) M M').
  { eapply agree_off_incl; [|exact A]. intros b Hb. now apply (e_bnds _ _ _ _ Ent). }
  assert (C : alltrue (scons bs) M').
  { intros c Hc. apply (e_cons _ _ _ _ Ent) in Hc. unfold cons_ in Hc. apply in_flat_map in Hc. destruct Hc as (x & Hx & Hc).
    destruct (vis st2 x) as [[z sc]|] eqn:V; [|destruct Hc]. apply (E x z sc); auto. }
  exists M'. split; auto. split; auto. eapply quant0; eauto.
  intros x Hx. destruct (Hv x Hx) as [[z sc] V]. exists z, sc. split; auto. eapply E; eauto.
Qed.
Lemma gok_inner M : gok outer st4 M -> gok (fun x => fv x a) st3 M.
Proof.
  intros G x z sc Hx V. pose proof (d_step _ _ _ _ _ _ _ _ _ D) as S. unfold inside. rewrite (step_qb _ _ _ S), (step_qc _ _ _ S), qb2, qc2.
  destruct (in_dec ident_dec x (names xs)) as [i|i].
  - destruct (e_bound _ _ _ _ Ent x i) as (k & _ & Ek). destruct (fresh_sym (ity x) k) as [z' sc'] eqn:Ef.
    rewrite (s_vis _ _ _ S _ _ Ek) in V. injection V as -> ->. destruct (in_bounds _ _ _ i Ek) as [B1 B2].
    left. split; apply incl_appl; auto.
  - destruct (V1 x (conj Hx i)) as [[z' sc'] E]. pose proof E as E2. rewrite <- (e_other _ _ _ _ Ent) in E2 by auto.
    rewrite (s_vis _ _ _ S _ _ E2) in V. injection V as -> ->.
    destruct (G x z sc (conj Hx i) E) as [[B1 B2]|]; auto. left. split; apply incl_appr; auto.
Qed.
Lemma bs_below c : In c (scons bs) -> below (nxt st3) c.
Proof. intros H. eapply below_le; [apply nxt_23|]. apply (inv_qc _ Iv2). rewrite qc2. apply in_or_app. auto. Qed.
Lemma new_off1 c : In c (old ++ new) -> forall M M', agree_off (qb st1) M M' -> c M' = c M.
Proof. intros Hc M M' G. apply (new_off c Hc). eapply agree_off_incl; [|exact G]. apply incl_appr, incl_refl. Qed.

(** ** Boolean quantifiers *)
Lemma quant_bool b op : y = YBool b -> ty_of a = TBool -> (forall k, nxt st3 <= k -> below k b) ->
  doneh old outer P (fun M s => enc M (YBool (match op with QForall | QInf => scope_forall bs b | QExists | QSup => scope_exists bs b end))
                                (eval I (EQuant op xs a) s)) st1 new st4.
Proof.
  intros Ey Ta Bb. split.
  - apply step4.
  - apply inv4.
  - exact V1.
  - intros c Hc. apply (d_below _ _ _ _ _ _ _ _ _ D c Hc).
  - intros c Hc. apply new_off1, in_or_app. auto.
  - intros p M s Hf Hn Hq He.
    assert (He1 : encs outer st1 M s) by exact He. clear He.
    pose proof (fun M' => quant1 M s M' p Hf Hn Hq He1) as Q1. pose proof (fun s' => quant2 M s s' p Hf Hn Hq He1) as Q2. rewrite Ey in Q1, Q2.
    assert (All : scope_forall bs b M = dec (forall v, (exists s', havocked (names xs) s s' /\ eval I a s' = v) -> v = VBool true)).
    { apply eq_true_iff_eq. rewrite scope_forall_iff, dec_iff. split.
      - intros H v (s' & Hs & <-). destruct (Q2 s' Hs) as (M' & A & C & E). specialize (H M' A C).
        destruct (eval I a s'); simpl in E; try contradiction. congruence.
      - intros H M' A C. destruct (Q1 M' A C) as (s' & Hs & E). rewrite (H (eval I a s')) in E by eauto. exact E. }
    assert (Exi : scope_exists bs b M = dec (exists s', havocked (names xs) s s' /\ eval I a s' = VBool true)).
    { apply eq_true_iff_eq. rewrite scope_exists_iff, dec_iff. split.
      - intros (M' & A & C & H). destruct (Q1 M' A C) as (s' & Hs & E). exists s'. split; auto.
        destruct (eval I a s'); simpl in E; try contradiction. congruence.
      - intros (s' & Hs & Ev). destruct (Q2 s' Hs) as (M' & A & C & E). exists M'. rewrite Ev in E. auto. }
    cbn [eval]. rewrite Ta. destruct op; simpl; assumption.
  - intros p M Hf Hh G. destruct (d_exh _ _ _ _ _ _ _ _ _ D p M Hf Hh (gok_inner M G)) as (M' & S & T). exists M'. split; auto.
    destruct S as (H1&H2&H3&H4&H5&H6&H7). refine (conj H1 (conj H2 (conj H3 (conj H4 (conj H5 (conj H6 _)))))).
    intros n Hn. apply H7. pose proof nxt_12. cbn in Hn. lia.
Qed.

(** ** Extrema *)
Section Extremum.
Context (L : Orders.smt_lattice epair) (le : eur -> eur -> Prop) (X : (eur -> Prop) -> eur).
Context (RL : represents L pair_ok pair_val le) (Lanti : forall u v, le u v -> le v u -> u = v).
Context (Xlb : forall (Q : eur -> Prop) r, Q r -> le (X Q) r) (Xglb : forall (Q : eur -> Prop) u, (forall r, Q r -> le u r) -> le u (X Q)).
Context (b : term epair) (Ey : y = YEur b) (Bb : below (nxt st3) b).

Let n := nxt st3.
Let args := skolem_arg_scope st1.
Definition ext : term epair := fun M => sk M n (map (bval M) (sbounds args)).
Definition cand : term epair := fun M => mkpair (cb M (S n)) (cr M (S n)).
Definition leb (u v : term epair) : term bool := fun M => Orders.cmp L (u M) (v M) Orders.OLe.
Definition cs := snd (fresh_sym TEUReal (S n)).
Definition c1 := scope_forall args (fun M => pair_invariant (ext M)).
Definition c2 := scope_forall args (scope_forall bs (leb ext b)).
Definition c3 := scope_forall (append_scope args cs) (fun M => implb (scope_forall bs (leb cand b) M) (leb cand ext M)).
Definition new5 := new ++ [c1; c2; c3].
Definition st5 : tst := mktst (add_outermost new5 (limits st1)) (locals st1) (qstack st1) (S (S n)).
Lemma infimum_eq : infimum L b bs args st4 = (ext, st5).
Proof.
  unfold infimum, add_global. cbn [nxt st4 limits locals qstack fst snd]. unfold st5, new5. f_equal. f_equal.
  rewrite !add_outermost_app. reflexivity.
Qed.
Lemma args_bounds : forall x, In x (sbounds args) <-> In x (qb st1).
Proof. intros x. unfold args, skolem_arg_scope. rewrite extend_scope_bounds. simpl. unfold qb. rewrite !in_flat_map. split; intros (s & H1 & H2); exists s; split; auto; [now apply in_rev | now rewrite <- in_rev]. Qed.
Lemma args_cons : forall x, In x (scons args) <-> In x (qc st1).
Proof. intros x. unfold args, skolem_arg_scope. rewrite extend_scope_cons. simpl. unfold qc. rewrite !in_flat_map. split; intros (s & H1 & H2); exists s; split; auto; [now apply in_rev | now rewrite <- in_rev]. Qed.
Lemma args_alltrue M : alltrue (scons args) M <-> alltrue (qc st1) M.
Proof. unfold alltrue. split; intros H c Hc; apply H, args_cons, Hc. Qed.
Lemma n_ge : nxt st1 <= n. Proof. unfold n. pose proof nxt_12. pose proof nxt_23. lia. Qed.
Lemma args_ids s k : In (s, k) (sbounds args) -> k < nxt st1.
Proof. intros H. apply args_bounds in H. now apply (inv_qb _ Iv1) in H. Qed.
Lemma args_below c k : nxt st1 <= k -> In c (scons args) -> below k c.
Proof. intros Hk H. apply args_cons in H. eapply below_le; [exact Hk|]. now apply (inv_qc _ Iv1). Qed.
Lemma ext_below : below (S n) ext.
Proof.
  intros M M' G. unfold ext. assert (E : map (bval M') (sbounds args) = map (bval M) (sbounds args)).
  { apply map_ext_in. intros [s k] Hk. apply args_ids in Hk. apply (bval_agree _ _ _ _ _ G). pose proof n_ge. lia. }
  rewrite E. destruct G as (_&_&_&G&_). rewrite G by lia. reflexivity.
Qed.
Lemma ext_bs M M' : agree_off (sbounds bs) M M' -> ext M' = ext M.
Proof.
  intros G. unfold ext. assert (E : map (bval M') (sbounds args) = map (bval M) (sbounds args)).
  { apply map_ext_in. intros [s k] Hk. apply (bval_off _ _ _ _ G). intros Hb. apply bs_ids in Hb. apply args_ids in Hk. lia. }
  rewrite E. destruct G as (_&_&_&G&_). now rewrite G.
Qed.
Lemma leb_below u v k : below k u -> below k v -> below k (leb u v).
Proof. intros H1 H2 M M' G. unfold leb. now rewrite (H1 _ _ G), (H2 _ _ G). Qed.
Lemma c_below c : In c [c1; c2; c3] -> below (S (S n)) c.
Proof.
  pose proof n_ge as Ng.
  assert (Be : below (S (S n)) ext) by (eapply below_le; [|apply ext_below]; lia).
  assert (Bbb : below (S (S n)) b) by (eapply below_le; [|exact Bb]; unfold n; lia).
  assert (Bc : below (S (S n)) cand) by (intros M M' (G1&_&G3&_); unfold cand; rewrite G1, G3 by lia; reflexivity).
  assert (Bs : forall c, In c (scons bs) -> below (S (S n)) c) by (intros c' H; eapply below_le; [|apply bs_below; exact H]; unfold n; lia).
  assert (Ba : forall c, In c (scons args) -> below (S (S n)) c) by (intros c' H; apply args_below; auto; lia).
  intros [<-|[<-|[<-|[]]]].
  - apply scope_forall_below; auto. intros M M' G. now rewrite (Be _ _ G).
  - apply scope_forall_below; auto. apply scope_forall_below; auto. now apply leb_below.
  - apply scope_forall_below.
    + intros c Hc. cbn [append_scope scons] in Hc. apply in_app_or in Hc. destruct Hc as [Hc|Hc]; auto.
      unfold cs in Hc. eapply fresh_below in Hc; [exact Hc|]. lia.
    + intros M M' G. rewrite (scope_forall_below bs (leb cand b) (S (S n)) Bs (leb_below _ _ _ Bc Bbb) _ _ G).
      rewrite (leb_below cand ext (S (S n)) Bc Be _ _ G). reflexivity.
Qed.
Lemma c_off c : In c [c1; c2; c3] -> forall M M', agree_off (qb st1) M M' -> c M' = c M.
Proof.
  assert (Ia : incl (qb st1) (sbounds args)) by (intros x Hx; now apply args_bounds).
  intros [<-|[<-|[<-|[]]]] M M' G.
  - eapply scope_forall_off; eauto.
  - eapply scope_forall_off; eauto.
  - eapply scope_forall_off; [|exact G]. cbn [append_scope sbounds]. apply incl_appl, Ia.
Qed.

Definition reach (s : env) (r : eur) : Prop := exists s', havocked (names xs) s s' /\ eval I a s' = VEur r.

Lemma ext_corr M s : P -> fits M -> alltrue (old ++ new5) M -> alltrue (qc st1) M -> encs outer st1 M s ->
  pair_ok (ext M) /\ pair_val (ext M) = X (reach s).
Proof.
  intros p Hf Hn5 Hq He. unfold new5 in Hn5. rewrite app_assoc in Hn5. apply alltrue_app in Hn5. destruct Hn5 as [Hn Hc].
  assert (H1 : c1 M = true) by (apply Hc; simpl; auto).
  assert (H2 : c2 M = true) by (apply Hc; simpl; auto).
  assert (H3 : c3 M = true) by (apply Hc; simpl; auto). clear Hc.
  unfold c1 in H1. rewrite scope_forall_iff in H1. specialize (H1 M (agree_off_refl _ _) (proj2 (args_alltrue M) Hq)).
  pose proof (pair_invariant_ok _ H1) as Ok1. split; auto.
  unfold c2 in H2. rewrite scope_forall_iff in H2. specialize (H2 M (agree_off_refl _ _) (proj2 (args_alltrue M) Hq)). rewrite scope_forall_iff in H2.
  apply Lanti.
  - apply Xglb. intros r (s' & Hs & Er). destruct (quant2 M s s' p Hf Hn Hq He Hs) as (M' & A & C & E).
    rewrite Er, Ey in E. destruct E as [Ob Eb]. specialize (H2 M' A C). unfold leb in H2. rewrite (ext_bs _ _ A) in H2.
    apply (rep_le _ _ _ _ RL) in H2; auto. now rewrite Eb in H2.
  - set (u := X (reach s)). set (M1 := set_const M (S n) (VEur u)).
    pose proof (set_const_spec M (S n) (VEur u) TEUReal eq_refl) as (S1 & S2 & S3). fold M1 in S1, S2, S3. fold cs in S1, S3.
    assert (G1 : agree (S n) M M1) by (eapply agree_off_above; [|exact S1]; intros s0 k Hk; apply fresh_bounds in Hk; lia).
    unfold c3 in H3. rewrite scope_forall_iff in H3. specialize (H3 M1).
    assert (Hq1 : alltrue (qc st1) M1). { eapply alltrue_below; [intros c Hc; apply (inv_qc _ Iv1 c Hc) | | exact Hq]. eapply agree_le; [|exact G1]. pose proof n_ge; lia. }
    lapply H3; [clear H3; intros H3 | eapply agree_off_incl; [|exact S1]; cbn [append_scope sbounds]; apply incl_appr, incl_refl].
    lapply H3; [clear H3; intros H3 | cbn [append_scope scons]; apply alltrue_app; split; [now apply args_alltrue | exact S3]].
    destruct S2 as [Oc Ec]. change (pair_val (cand M1) = u) in Ec. change (pair_ok (cand M1)) in Oc.
    assert (F1 : scope_forall bs (leb cand b) M1 = true).
    { rewrite scope_forall_iff. intros M2 A C.
      assert (Hn1 : alltrue (old ++ new) M1) by (eapply alltrue_below; [exact hnew_below | eapply agree_le; [|exact G1]; unfold n; lia | exact Hn]).
      assert (He1 : encs outer st1 M1 s).
      { intros x Hx. destruct (He x Hx) as (z & sc & E & C'). exists z, sc. split; auto.
        destruct (inv_vis _ Iv1 _ _ _ E) as (k & Lk & Ek & _). assert (z = fst (fresh_sym (ity x) k)) as -> by now rewrite <- Ek.
        eapply enc_agree; [apply fresh_below; exact Lk | eapply agree_le; [|exact G1]; pose proof n_ge; lia | exact C']. }
      destruct (quant1 M1 s M2 p (fits_agree _ _ _ _ _ _ G1 Hf) Hn1 Hq1 He1 A C) as (s' & Hs & E). rewrite Ey in E.
      destruct (eval I a s') as [| | | | |r|] eqn:Er; simpl in E; try contradiction. destruct E as [Ob Eb].
      assert (Ecand : cand M2 = cand M1).
      { unfold cand. destruct A as (A1&_&A3&_). rewrite A1, A3; auto; intros Hb; apply bs_ids2 in Hb; pose proof nxt_23; unfold n in Hb; lia. }
      unfold leb. apply (rep_le _ _ _ _ RL); rewrite ?Ecand; auto. rewrite Ec, Eb. apply Xlb. exists s'. auto. }
    rewrite F1 in H3. simpl in H3. unfold leb in H3.
    assert (Ee : ext M1 = ext M).
    { unfold ext. assert (Em : map (bval M1) (sbounds args) = map (bval M) (sbounds args)).
      { apply map_ext_in. intros [s0 k] Hk. apply args_ids in Hk. apply (bval_agree _ _ _ _ _ G1). pose proof n_ge. lia. }
      rewrite Em. destruct S1 as (_&_&_&E4&_). now rewrite E4. }
    rewrite Ee in H3. apply (rep_le _ _ _ _ RL) in H3; auto. now rewrite Ec in H3.
Qed.

(** Setting the Skolem function. *)
Definition set_sk (M : strct) (f : list dyn -> epair) : strct :=
  mkstr (cb M) (ci M) (cr M) (fun k => if Nat.eqb k n then f else sk M k) (ufn M) (sdiv0 M) (smod0 M).
Definition with_sk (M : strct) (f : nat -> list dyn -> epair) : strct := mkstr (cb M) (ci M) (cr M) f (ufn M) (sdiv0 M) (smod0 M).
Lemma set_sk_agree M f : agree n M (set_sk M f).
Proof.
  refine (conj _ (conj _ (conj _ (conj _ (conj _ (conj _ _)))))); auto. intros k Hk. simpl. destruct (Nat.eqb_spec k n); auto. lia.
Qed.
Lemma ext_exists M : P -> fits M -> alltrue old M -> gok outer st4 M -> exists M', skdiff (nxt st1) (S (S n)) M M' /\ alltrue new5 M'.
Proof.
  intros p Hf Hh G. destruct (d_exh _ _ _ _ _ _ _ _ _ D p M Hf Hh (gok_inner M G)) as (M1 & S1 & T1).
  pose proof n_ge as Ng. pose proof nxt_12 as N12. pose proof nxt_23 as N23.
  set (vals := fun ds r => exists M', agree_off (sbounds args ++ sbounds bs) M1 M' /\ map (bval M') (sbounds args) = ds /\
                             alltrue (scons args) M' /\ alltrue (scons bs) M' /\ pair_val (b M') = r).
  set (f := fun ds => proj1_sig (canonical_choice (X (vals ds)))).
  assert (Hfs : forall ds, pair_invariant (f ds) = true /\ pair_val (f ds) = X (vals ds)) by (intros ds; unfold f; now destruct (canonical_choice _)).
  set (M2 := set_sk M1 f). pose proof (set_sk_agree M1 f) as G12. fold M2 in G12.
  assert (Hf1 : fits M1). { eapply fits_agree; [|exact Hf]. eapply skdiff_agree; exact S1. }
  assert (S2 : skdiff (nxt st1) (S (S n)) M M2).
  { destruct S1 as (H1&H2&H3&H4&H5&H6&H7). refine (conj _ (conj _ (conj _ (conj _ (conj _ (conj _ _)))))); auto.
    intros k Hk. simpl. destruct (Nat.eqb_spec k n); [unfold n in *; lia|]. apply H7. unfold n in *. lia. }
  assert (Hf2 : fits M2) by (eapply fits_agree; [exact G12 | exact Hf1]).
  assert (Th : alltrue (old ++ new) M2).
  { eapply alltrue_below; [exact hnew_below | exact G12 |]. apply alltrue_app. split; auto.
    eapply alltrue_below; [|apply (skdiff_agree _ _ _ _ S1)|exact Hh]. intros c Hc. eapply below_le; [|apply HB; exact Hc]. auto. }
  assert (T2 : alltrue new M2) by (now apply alltrue_app in Th).
  assert (Go2 : gok outer st1 M2).
  { apply (gok_sk outer st1 _ _ M M2 Iv1 S2). exact G. }
  (* the body is well formed wherever the constraints hold *)
  assert (Ob : forall M', agree_off (sbounds args ++ sbounds bs) M2 M' -> alltrue (scons args) M' -> alltrue (scons bs) M' -> pair_ok (b M')).
  { intros M' A Ca Cb.
    set (M0 := over (sbounds args) M2 M').
    assert (A0 : agree_off (sbounds args) M2 M0) by apply over_agree_off.
    assert (A0' : agree_off (sbounds bs) M0 M').
    { pose proof A as (A1&A2&A3&A4&A5&A6&A7). unfold M0, over. refine (conj _ (conj _ (conj _ (conj _ (conj _ (conj _ _)))))); simpl; auto;
      intros k Hk; destruct (in_dec bound_dec _ _) as [i|i]; auto; [apply A1 | apply A2 | apply A3]; intros Hi; apply in_app_or in Hi; tauto. }
    assert (Ca0 : alltrue (scons args) M0).
    { eapply alltrue_below; [| apply agree_sym, bs_agree, A0' | exact Ca]. intros c Hc. now apply args_below. }
    destruct (decode_env outer st1 M0 Iv1 V1) as (s & _ & Es).
    { intros x z sc Hx V. destruct (inv_vis _ Iv1 _ _ _ V) as (k & Lk & Ek & C).
      assert (Esc : sc = snd (fresh_sym (ity x) k)) by now rewrite <- Ek.
      destruct C as [[B1 B2]|C].
      - intros c Hc. apply Ca0. apply args_cons. auto.
      - destruct (Go2 x z sc Hx V) as [[B1 B2]|T]; [intros c Hc; apply Ca0, args_cons; auto|].
        subst sc. eapply fresh_cons_off; [exact A0 | | exact T]. intros q Hb Ha. apply (C q Hb). now apply args_bounds. }
    assert (T0 : alltrue (old ++ new) M0).
    { intros c Hc. rewrite (new_off1 c Hc M2 M0); auto. eapply agree_off_incl; [|exact A0]. intros q. apply args_bounds. }
    destruct (quant1 M0 s M' p (fits_off _ _ _ _ _ _ A0 Hf2) T0 (proj1 (args_alltrue M0) Ca0) Es A0' Cb) as (s' & _ & E).
    rewrite Ey in E. destruct (eval I a s'); simpl in E; try contradiction. apply E. }
  (* from structures over M2 to structures over M1 and back *)
  assert (back : forall B M', agree_off B M2 M' -> agree_off B M1 (with_sk M' (sk M1)) /\ agree n (with_sk M' (sk M1)) M').
  { intros B M' (A1&A2&A3&A4&A5&A6&A7). split.
    - refine (conj _ (conj _ (conj _ (conj _ (conj _ (conj _ _)))))); simpl; auto.
    - refine (conj _ (conj _ (conj _ (conj _ (conj _ (conj _ _)))))); simpl; auto. intros k Hk. rewrite A4. simpl.
      destruct (Nat.eqb_spec k n); auto. lia. }
  assert (extM : forall M', sk M' = sk M2 -> ext M' = f (map (bval M') (sbounds args))).
  { intros M' E. unfold ext. rewrite E. simpl. now rewrite Nat.eqb_refl. }
  exists M2. split; auto. unfold new5. apply alltrue_app. split; auto. intros c [<-|[<-|[<-|[]]]].
  - unfold c1. rewrite scope_forall_iff. intros M' A C. rewrite extM by apply A. apply Hfs.
  - unfold c2. rewrite scope_forall_iff. intros M' A C. rewrite scope_forall_iff. intros M'' A' C'.
    assert (A2 : agree_off (sbounds args ++ sbounds bs) M2 M'').
    { eapply agree_off_trans; [eapply agree_off_incl; [|exact A]; apply incl_appl, incl_refl | eapply agree_off_incl; [|exact A']; apply incl_appr, incl_refl]. }
    assert (C2 : alltrue (scons args) M'').
    { eapply alltrue_below; [|apply bs_agree; exact A'|exact C]. intros c Hc. now apply args_below. }
    unfold leb. rewrite extM by apply A2. destruct (Hfs (map (bval M'') (sbounds args))) as [F1 F2].
    apply (rep_le _ _ _ _ RL); auto using pair_invariant_ok. rewrite F2. apply Xlb. unfold vals.
    destruct (back _ _ A2) as [B1 B2]. exists (with_sk M'' (sk M1)). split; auto. split; [reflexivity|].
    split; [|split].
    + eapply alltrue_below; [|apply agree_sym; exact B2|exact C2]. intros c Hc. apply args_below; auto.
    + eapply alltrue_below; [|apply agree_sym; exact B2|exact C']. intros c Hc. now apply bs_below.
    + now rewrite (Bb _ _ B2).
  - unfold c3. rewrite scope_forall_iff. cbn [append_scope sbounds scons]. intros M' A C. apply alltrue_app in C. destruct C as [Ca Cc].
    destruct (scope_forall bs (leb cand b) M') eqn:EF; simpl; auto. rewrite scope_forall_iff in EF.
    specialize (Cc _ (or_introl eq_refl)). cbn in Cc. change (pair_invariant (cand M') = true) in Cc.
    unfold leb. rewrite extM by apply A. destruct (Hfs (map (bval M') (sbounds args))) as [F1 F2].
    apply (rep_le _ _ _ _ RL); auto using pair_invariant_ok. rewrite F2. apply Xglb. intros r (M0 & A0 & D0 & Ca0 & Cb0 & <-).
    (* take the quantified variables of M0 into M' *)
    set (M3 := over (sbounds bs) M' M0).
    assert (A3 : agree_off (sbounds bs) M' M3) by apply over_agree_off.
    assert (Q : agree_off ((sbounds args ++ sbounds bs) ++ sbounds cs) M2 M3).
    { eapply agree_off_trans; [eapply agree_off_incl; [|exact A] | eapply agree_off_incl; [|exact A3]];
        intros q Hq; rewrite ?in_app_iff in *; tauto. }
    assert (A03 : agree n M0 M3).
    { apply (agree_mid (sbounds args ++ sbounds bs) (sbounds cs) n M1 M2); auto.
      - intros s0 k Hk. unfold cs in Hk. apply fresh_bounds in Hk. lia.
      - intros q Hq.
        destruct (in_dec bound_dec q (sbounds bs)) as [i|i]; [unfold M3; now rewrite over_bval|].
        apply in_app_or in Hq. destruct Hq as [Hq|Hq]; [|contradiction]. rewrite (bval_off _ _ _ _ A3 i).
        clear - D0 Hq. induction (sbounds args) as [|w ws IH]; [destruct Hq|]. simpl in D0. injection D0 as D1 D2. destruct Hq as [<-|Hq]; auto. }
    assert (C3 : alltrue (scons bs) M3) by (eapply alltrue_below; [|exact A03|exact Cb0]; intros c Hc; now apply bs_below).
    specialize (EF M3 A3 C3). unfold leb in EF. rewrite (Bb _ _ A03) in EF.
    assert (Ec : cand M3 = cand M').
    { unfold cand. destruct A3 as (E1&_&E3&_). rewrite E1, E3; auto; intros Hb; apply bs_ids2 in Hb; pose proof nxt_23; unfold n in Hb; lia. }
    rewrite Ec in EF.
    assert (B0 : agree n M0 (with_sk M0 (sk M2))).
    { refine (conj _ (conj _ (conj _ (conj _ (conj _ (conj _ _)))))); auto. intros k Hk. destruct A0 as (_&_&_&E&_). rewrite E. destruct G12 as (_&_&_&E'&_). simpl in *. now apply E'. }
    assert (O0 : pair_ok (b M0)).
    { rewrite <- (Bb _ _ B0). apply Ob.
      - destruct A0 as (E1&E2&E3&E4&E5&E6&E7). refine (conj _ (conj _ (conj _ (conj _ (conj _ (conj _ _)))))); auto.
      - eapply alltrue_below; [|exact B0|exact Ca0]. intros c Hc. now apply args_below.
      - eapply alltrue_below; [|exact B0|exact Cb0]. intros c Hc. now apply bs_below. }
    apply (rep_le _ _ _ _ RL) in EF; auto using pair_invariant_ok.
Qed.

Lemma inv5 : inv st5.
Proof.
  pose proof n_ge. destruct Iv1 as [L1 L2 L3 L4 L5 L6 L7]. split; unfold st5; cbn [locals limits nxt]; auto; fold st5.
  - now apply add_outermost_ne.
  - intros x z sc E. destruct (L3 x z sc E) as (k & Lk & Ek & C). exists k. split; [lia|]. split; auto.
  - intros s k Hk. apply L5 in Hk. lia.
  - intros c Hc. eapply below_le; [|apply L6; exact Hc]. lia.
Qed.
Lemma ext_done : doneh old outer P (fun M s => enc M (YEur ext) (VEur (X (reach s)))) st1 new5 st5.
Proof.
  pose proof n_ge. split.
  - destruct (inv_loc _ Iv1) as (m & ms & Em). split; unfold st5; cbn [locals limits nxt qstack]; auto; eauto.
  - apply inv5.
  - exact V1.
  - intros c Hc. apply in_app_or in Hc. destruct Hc as [Hc|Hc]; [|now apply c_below].
    eapply below_le; [|apply (d_below _ _ _ _ _ _ _ _ _ D c Hc)]. cbn [st5 nxt]. unfold n. lia.
  - intros c Hc. apply in_app_or in Hc. destruct Hc as [Hc|Hc]; [apply new_off1, in_or_app; auto | now apply c_off].
  - intros p M s Hf Hn Hq He. simpl. apply ext_corr; auto.
  - intros p M Hf Hh G. apply ext_exists; auto.
Qed.
End Extremum.
End Quant.

(** * The induction *)
Definition good (e : expr) : Prop := forall st, inv st -> exists y st' new,
  tr isvar fsig ecall e st = Ok (y, st') /\ symb_ty y = ty_of e /\ ybelow (nxt st') y /\ (some eur_quant e = false -> new = []) /\
  done (fun x => fv x e) (some eur_sub e = false) (fun M s => enc M y (eval I e s)) st new st'.

Lemma done_nxt F P Y st new st' : done F P Y st new st' -> nxt st <= nxt st'.
Proof. intros D. apply (s_nxt _ _ _ (d_step _ _ _ _ _ _ _ _ _ D)). Qed.

Lemma some_no_subst e : some (untranslatable isvar fsig) e = false -> no_subst e.
Proof.
  induction e using expr_rect'; intros H'; cbn [some] in H'; apply orb_false_iff in H'; destruct H' as [U N].
  - exact Logic.I.
  - apply no_subst_call. rewrite Forall_forall in *. intros a Ha. apply H; auto.
    destruct (some _ a) eqn:E; auto. rewrite <- N. symmetry. apply existsb_exists. eauto.
  - rewrite !orb_false_iff in N. simpl. tauto.
  - rewrite !orb_false_iff in N. simpl. tauto.
  - simpl. auto.
  - simpl. auto.
  - simpl. auto.
  - discriminate U.
  - exact Logic.I.
Qed.
Lemma fv_isvar e x : some (untranslatable isvar fsig) e = false -> fv x e -> isvar x = true.
Proof.
  induction e using expr_rect'; intros H' F; cbn [some] in H'; apply orb_false_iff in H'; destruct H' as [U N].
  - simpl in *. subst. now apply negb_false_iff.
  - apply fv_call in F. apply Exists_exists in F. destruct F as (a & Ha & Fa). rewrite Forall_forall in H. apply (H a Ha); auto.
    destruct (some _ a) eqn:E; auto. rewrite <- N. symmetry. apply existsb_exists. eauto.
  - rewrite !orb_false_iff in N. simpl in F. intuition.
  - rewrite !orb_false_iff in N. simpl in F. intuition.
  - auto.
  - auto.
  - simpl in F. intuition.
  - discriminate U.
  - destruct F.
Qed.

Lemma sub_ok t (a : expr) st : ty_of a = t ->
  (if ty_eqb (ty_of a) t then tr isvar fsig ecall a st else Panic "assertion failed: expr is not of the type") = tr isvar fsig ecall a st.
Proof. intros ->. now replace (ty_eqb t t) with true by (symmetry; now apply ty_eqb_eq). Qed.

Lemma bin_operand_ok t op a b : bin_ok t op (ty_of a) (ty_of b) = true -> ty_of a = bin_operand t op a /\ ty_of b = bin_operand t op b.
Proof. destruct t, op; simpl; intros H; try discriminate; try (split; reflexivity); apply andb_prop in H; destruct H as [H1 H2]; apply ty_eqb_eq in H1, H2; auto. Qed.
Lemma un_operand_ok t op a : un_ok t op (ty_of a) = true -> ty_of a = un_operand t op.
Proof. destruct t, op; simpl; intros H; try discriminate; now apply ty_eqb_eq in H. Qed.

Lemma good_call args : Forall good args -> forall st, inv st -> exists ys st' new,
  (fix go l st := match l with
                 | [] => Ok ([], st)
                 | a :: l => let? r := tr isvar fsig ecall a st in let? rs := go l (snd r) in Ok (fst r :: fst rs, snd rs)
                 end) args st = Ok (ys, st') /\ map symb_ty ys = map ty_of args /\ Forall (ybelow (nxt st')) ys /\ (existsb (some eur_quant) args = false -> new = []) /\
  done (fun x => Exists (fv x) args) (existsb (some eur_sub) args = false) (fun M s => Forall2 (enc M) ys (map (fun a => eval I a s) args)) st new st'.
Proof.
  induction 1 as [|a l Ha _ IH]; intros st Iv.
  - exists [], st, []. split; auto. split; auto. split; auto. split; auto.
    eapply done_weaken; [apply (done_refl isvar fsig ecall I True); auto | | auto | constructor].
    intros x; split; [tauto | intros H; inversion H].
  - destruct (Ha st Iv) as (y & st1 & n1 & E1 & T1 & B1 & Q1 & D1).
    destruct (IH st1 (d_inv _ _ _ _ _ _ _ _ _ D1)) as (ys & st2 & n2 & E2 & T2 & B2 & Q2 & D2).
    exists (y :: ys), st2, (n1 ++ n2). rewrite E1. cbn [rbind fst snd]. rewrite E2. cbn [rbind fst snd]. split; auto.
    split; [simpl; congruence|]. split; [constructor; auto; eapply ybelow_le; [apply (done_nxt _ _ _ _ _ _ D2)|]; auto|].
    split; [cbn [existsb]; rewrite orb_false_iff; intros [K1 K2]; now rewrite Q1, Q2|].
    eapply done_weaken; [eapply (done_seq _ _ _ _ _ _ _ _ _ _ _ _ _ _ D1 D2) | | |].
    + intros x. rewrite Exists_cons. tauto.
    + simpl. rewrite orb_false_iff. auto.
    + simpl. intros _ M s _ [H1 H2]. constructor; auto.
Qed.

Lemma tys_eqb_eq a : forall b, tys_eqb a b = true -> a = b.
Proof. induction a as [|x a IH]; intros [|z b]; simpl; intros H; try discriminate; auto. apply andb_prop in H. destruct H as [H1 H2]. apply ty_eqb_eq in H1. f_equal; auto. Qed.

Lemma good_quant op xs a : good a -> wt (EQuant op xs a) = true -> some (untranslatable isvar fsig) (EQuant op xs a) = false -> good (EQuant op xs a).
Proof.
  intros Ga W U st Iv. cbn [some] in U. apply orb_false_iff in U. destruct U as [U N]. cbn [untranslatable] in U.
  apply negb_false_iff in U. rewrite forallb_forall in U. cbn [wt] in W. apply andb_prop in W. destruct W as [W Q].
  destruct (free_variables_spec a (some_no_subst _ N)) as (vs & Evs & Hvs).
  set (fs := filter (fun x => negb (mem x (map qname xs))) vs).
  assert (Hfs : forall x, In x fs <-> fv x a /\ ~ In x (names xs)).
  { intros x. unfold fs. rewrite filter_In, Hvs, negb_true_iff. unfold names. rewrite <- mem_iff. destruct (mem x (map qname xs)); intuition congruence. }
  destruct (get_locals_done isvar fsig ecall I fs st Iv) as (st1 & E1 & _ & D1).
  { intros x Hx. apply Hfs in Hx. apply (fv_isvar a x N). tauto. }
  assert (Iv1 := d_inv _ _ _ _ _ _ _ _ _ D1).
  destruct (enter_ok isvar xs st1 Iv1 U) as (bs & st2 & E2 & Iv2 & Ent).
  destruct (Ga st2 Iv2) as (y & st3 & new & E3 & T3 & B3 & Q3 & D3).
  assert (V1 : forall x, outer xs a x -> exists v, vis st1 x = Some v).
  { intros x Hx. apply (d_vis _ _ _ _ _ _ _ _ _ D1). apply Hfs. exact Hx. }
  assert (E0 : init_quantifier_free_vars isvar a xs st = Ok st1) by (unfold init_quantifier_free_vars; rewrite Evs; exact E1).
  pose proof (leave_ok _ _ _ _ _ _ _ _ _ Iv1 Ent [] D3) as E4.
  assert (HB : forall c : term bool, In c [] -> below (nxt st1) c) by (intros c []).
  assert (HO : forall c : term bool, In c [] -> forall M M', agree_off (qb st1) M M' -> c M' = c M) by (intros c []).
  assert (F : forall x, In x fs \/ outer xs a x <-> fv x (EQuant op xs a)).
  { intros x. rewrite Hfs. unfold outer. simpl. unfold names. tauto. }
  cbn [tr ty_of].
  destruct (ty_of a) eqn:Ta; try (destruct op; discriminate Q).
  - destruct y as [b| | | | |]; try discriminate T3.
    rewrite E0. cbn [rbind]. rewrite E2. cbn [rbind fst snd]. rewrite E3. cbn [rbind fst snd]. rewrite E4. cbn [rbind].
    eexists _, _, _. split; [reflexivity|]. split; [rewrite ?Ta; reflexivity|]. split.
    + cbn [st4 nxt ybelow]. assert (Bs : forall c, In c (scons bs) -> below (nxt st3) c) by (intros c Hc; eapply (bs_below _ _ _ _ _ _ _ _ _ Iv2 Ent [] D3); eauto).
      destruct op; simpl; first [apply scope_forall_below | apply scope_exists_below]; auto.
    + split; [cbn [some]; rewrite orb_false_iff; intros [_ K]; now rewrite Q3|]. pose proof (quant_bool xs a (YBool b) _ st1 st2 st3 bs new Iv1 Iv2 Ent [] HB HO D3 V1 b op eq_refl Ta) as D4.
      lapply D4; [clear D4; intros D4 | intros k Hk; eapply below_le; eauto].
      eapply done_weaken; [eapply (done_seq _ _ _ _ _ _ _ _ _ _ _ _ _ _ D1 D4) | exact F | |].
      * cbn [some eur_sub orb]. auto.
      * intros _ M s _ [_ H]. exact H.
  - destruct y as [| | | | |b]; try discriminate T3.
    rewrite E0. cbn [rbind]. rewrite E2. cbn [rbind fst snd]. rewrite E3. cbn [rbind fst snd]. rewrite E4. cbn [rbind].
    destruct op; try discriminate Q.
    + rewrite (infimum_eq st1 st3 bs new pair_lattice b). cbn [fst snd].
      eexists _, _, _. split; [reflexivity|]. split; [reflexivity|]. split.
      * cbn [st5 nxt ybelow]. eapply below_le; [|eapply ext_below; eauto]. lia.
      * split; [cbn [some eur_quant]; rewrite Ta; discriminate|]. pose proof (ext_done xs a (YEur b) _ st1 st2 st3 bs new Iv1 Iv2 Ent [] HB HO D3 V1 pair_lattice ele einf pair_represents ele_antisym einf_lb einf_glb b eq_refl B3) as D4.
        eapply done_weaken; [eapply (done_seq _ _ _ _ _ _ _ _ _ _ _ _ _ _ D1 D4) | exact F | |].
        -- cbn [some eur_sub orb]. auto.
        -- intros _ M s _ [_ H]. cbn [eval]. rewrite Ta. exact H.
    + rewrite (infimum_eq st1 st3 bs new (Orders.opp pair_lattice) b). cbn [fst snd].
      eexists _, _, _. split; [reflexivity|]. split; [reflexivity|]. split.
      * cbn [st5 nxt ybelow]. eapply below_le; [|eapply ext_below; eauto]. lia.
      * split; [cbn [some eur_quant]; rewrite Ta; discriminate|]. pose proof (ext_done xs a (YEur b) _ st1 st2 st3 bs new Iv1 Iv2 Ent [] HB HO D3 V1 (Orders.opp pair_lattice) (fun u v => ele v u) esup
          (opp_represents _ _ _ _ pair_represents) (fun u v H1 H2 => ele_antisym u v H2 H1) esup_ub esup_lub b eq_refl B3) as D4.
        eapply done_weaken; [eapply (done_seq _ _ _ _ _ _ _ _ _ _ _ _ _ _ D1 D4) | exact F | |].
        -- cbn [some eur_sub orb]. auto.
        -- intros _ M s _ [_ H]. cbn [eval]. rewrite Ta. exact H.
Qed.

Lemma all_good e : wt e = true -> some (untranslatable isvar fsig) e = false -> good e.
Proof.
  induction e using expr_rect'; intros W U.
  - intros st Iv. cbn [some untranslatable] in U. apply orb_false_iff in U. destruct U as [U _]. apply negb_false_iff in U.
    destruct (get_local_done isvar fsig ecall I x st Iv U) as (v & st' & E & V & _ & D).
    exists (fst v), st', []. cbn [tr]. rewrite E. cbn [rbind fst snd]. split; auto.
    destruct v as [y sc]. destruct (inv_vis _ (d_inv _ _ _ _ _ _ _ _ _ D) _ _ _ V) as (n & Ln & En & _).
    assert (y = fst (fresh_sym (ity x) n)) as Ey by now rewrite <- En. cbn [fst]. split; [subst y; apply fresh_ty|].
    split; [subst y; now apply fresh_below|]. split; auto.
    eapply done_weaken; [exact D | | auto | auto]. intros z. simpl. split; congruence.
  - cbn [some untranslatable] in U. apply orb_false_iff in U. destruct U as [U N]. cbn [wt] in W. rewrite forallb_forall in W.
    destruct (fsig f) as [[ts r]|] eqn:Ef; [|discriminate U]. apply negb_false_iff, andb_prop in U. destruct U as [U1 U2].
    apply ty_eqb_eq in U1. subst r. apply tys_eqb_eq in U2.
    assert (G : Forall good args).
    { rewrite Forall_forall in *. intros a Ha. apply H; auto. destruct (some _ a) eqn:E; auto. rewrite <- N. symmetry. apply existsb_exists. eauto. }
    intros st Iv. destruct (good_call args G st Iv) as (ys & st' & new & E & T & B & Q & D).
    destruct (call_term_good fsig ecall I t f ys ts Ef ltac:(congruence)) as (z & Ez & Tz & Bz & Cz).
    exists z, st', new. cbn [tr]. rewrite E. cbn [rbind fst snd]. rewrite Ez. cbn [rbind]. split; auto. split; auto. split; auto. split; [cbn [some eur_quant orb]; auto|].
    eapply done_weaken; [exact D | | |].
    + intros x. now rewrite fv_call.
    + cbn [some eur_sub orb]. auto.
    + intros _ M s Hf H2. cbn [eval]. apply Cz; auto.
  - cbn [some untranslatable] in U. apply orb_false_iff in U. destruct U as [_ N]. rewrite !orb_false_iff in N. destruct N as [[N1 N2] N3].
    cbn [wt] in W. repeat (apply andb_prop in W; destruct W as [W ?]).
    repeat match goal with h : ty_eqb _ _ = true |- _ => apply ty_eqb_eq in h end.
    assert (G1 : good e1) by auto. assert (G2 : good e2) by auto. assert (G3 : good e3) by auto.
    intros st Iv. destruct (G1 st Iv) as (y1 & st1 & n1 & E1 & T1 & B1 & Q1 & D1).
    destruct (G2 st1 (d_inv _ _ _ _ _ _ _ _ _ D1)) as (y2 & st2 & n2 & E2 & T2 & B2 & Q2 & D2).
    destruct (G3 st2 (d_inv _ _ _ _ _ _ _ _ _ D2)) as (y3 & st3 & n3 & E3 & T3 & B3 & Q3 & D3).
    destruct (ite_term_good t y1 y2 y3 ltac:(congruence) ltac:(congruence) ltac:(congruence)) as (z & Ez & Tz & Bz & Cz).
    exists z, st3, (n1 ++ n2 ++ n3). cbn [tr]. rewrite sub_ok by auto. rewrite E1. cbn [rbind fst snd].
    rewrite sub_ok by auto. rewrite E2. cbn [rbind fst snd]. rewrite sub_ok by auto. rewrite E3. cbn [rbind fst snd]. rewrite Ez. cbn [rbind].
    split; auto. split; auto. pose proof (done_nxt _ _ _ _ _ _ D2). pose proof (done_nxt _ _ _ _ _ _ D3).
    split; [apply Bz; [eapply ybelow_le; [|exact B1]; lia | eapply ybelow_le; [|exact B2]; lia | exact B3]|].
    split; [cbn [some eur_quant orb]; rewrite !orb_false_iff; intros [[K1 K2] K3]; now rewrite Q1, Q2, Q3|].
    eapply done_weaken; [eapply (done_seq _ _ _ _ _ _ _ _ _ _ _ _ _ _ D1 (done_seq _ _ _ _ _ _ _ _ _ _ _ _ _ _ D2 D3)) | | |].
    + simpl. tauto.
    + cbn [some eur_sub orb]. rewrite !orb_false_iff. tauto.
    + intros _ M s _ (H1' & H2' & H3'). cbn [eval]. pose proof (enc_ty _ _ _ H1') as Hty. rewrite T1 in Hty.
      match goal with h : ty_of e1 = TBool |- _ => rewrite h in Hty end.
      destruct (eval I e1 s) as [b| | | | | |]; try discriminate Hty. specialize (Cz M b _ _ H1' H2' H3'). destruct b; exact Cz.
  - cbn [some] in U. apply orb_false_iff in U. destruct U as [U N]. rewrite !orb_false_iff in N. destruct N as [N1 N2].
    cbn [wt] in W. repeat (apply andb_prop in W; destruct W as [W ?]).
    match goal with h : bin_ok _ _ _ _ = true |- _ => rename h into Hb end.
    assert (G1 : good e1) by auto. assert (G2 : good e2) by auto. destruct (bin_operand_ok _ _ _ _ Hb) as [O1 O2].
    intros st Iv. destruct (G1 st Iv) as (y1 & st1 & n1 & E1 & T1 & B1 & Q1 & D1).
    destruct (G2 st1 (d_inv _ _ _ _ _ _ _ _ _ D1)) as (y2 & st2 & n2 & E2 & T2 & B2 & Q2 & D2).
    destruct (bin_term_good fsig ecall I t op y1 y2) as (z & Ez & Tz & Bz & Cz).
    { now rewrite T1, T2. }
    { intros (-> & Ho & Tb). rewrite T1 in Tb. cbn [untranslatable bool_cmp] in U. rewrite Tb in U. destruct Ho as [->|[->|[->| ->]]]; discriminate U. }
    exists z, st2, (n1 ++ n2). cbn [tr]. rewrite sub_ok by auto. rewrite E1. cbn [rbind fst snd].
    rewrite sub_ok by auto. rewrite E2. cbn [rbind fst snd]. rewrite Ez. cbn [rbind].
    split; auto. split; auto. pose proof (done_nxt _ _ _ _ _ _ D2).
    split; [apply Bz; [eapply ybelow_le; [|exact B1]; lia | exact B2]|].
    split; [cbn [some eur_quant orb]; rewrite !orb_false_iff; intros [K1 K2]; now rewrite Q1, Q2|].
    eapply done_weaken; [eapply (done_seq _ _ _ _ _ _ _ _ _ _ _ _ _ _ D1 D2) | | |].
    + simpl. tauto.
    + cbn [some]. rewrite !orb_false_iff. tauto.
    + intros Hs M s Hf (H1' & H2'). cbn [eval]. apply Cz; auto. intros [-> ->]. cbn [some eur_sub orb] in Hs. discriminate Hs.
  - cbn [some] in U. apply orb_false_iff in U. destruct U as [U N]. cbn [wt] in W. apply andb_prop in W. destruct W as [W Hu].
    intros st Iv. destruct (IHe W N st Iv) as (y1 & st1 & n1 & E1 & T1 & B1 & Q1 & D1).
    destruct (un_term_good t op y1) as (z & Ez & Tz & Bz & Cz). { now rewrite T1. }
    exists z, st1, n1. cbn [tr]. rewrite sub_ok by now apply un_operand_ok. rewrite E1. cbn [rbind fst snd]. rewrite Ez. cbn [rbind].
    split; auto. split; auto. split; auto. split; [cbn [some eur_quant orb]; auto|]. eapply done_weaken; [exact D1 | reflexivity | auto | cbn [eval]; auto].
  - cbn [some] in U. apply orb_false_iff in U. destruct U as [U N]. cbn [wt] in W. apply andb_prop in W. destruct W as [W Hu].
    intros st Iv. destruct (IHe W N st Iv) as (y1 & st1 & n1 & E1 & T1 & B1 & Q1 & D1).
    destruct (cast_term_good t y1) as (z & Ez & Tz & Bz & Cz). { now rewrite T1. }
    exists z, st1, n1. cbn [tr]. rewrite E1. cbn [rbind fst snd]. rewrite Ez. cbn [rbind].
    split; auto. split; auto. split; auto. split; [cbn [some eur_quant orb]; auto|]. eapply done_weaken; [exact D1 | reflexivity | auto | cbn [eval]; auto].
  - apply good_quant; auto. apply IHe.
    + cbn [wt] in W. now apply andb_prop in W.
    + cbn [some] in U. now apply orb_false_iff in U.
  - cbn [some untranslatable orb] in U. discriminate U.
  - intros st Iv. destruct (lit_term_good t l W) as (z & Ez & Tz & Bz & Cz).
    exists z, st, []. cbn [tr]. rewrite Ez. cbn [rbind]. split; auto. split; auto. split; auto. split; auto.
    eapply done_weaken; [apply (done_refl isvar fsig ecall I True); auto | simpl; tauto | auto | cbn [eval]; auto].
Qed.
End Proofs.
