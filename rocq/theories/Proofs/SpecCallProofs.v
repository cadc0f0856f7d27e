(** Replacing procedure calls by their specifications. *)
From Coq Require Import Bool List String FunctionalExtensionality Classical ClassicalEpsilon Lia.
From Verif.Model Require Import Syntax TyCtx AstUtil Procs.
From Verif.Spec Require Import Eur Sem Wp Calls.
From Verif.Proofs Require Import EurLemmas SemLemmas SimLemmas WpLemmas VcGenProofs MonoProofs SubstProofs CallProofs.
Import ListNotations.
Local Open Scope list_scope.
Local Arguments eleb : simpl never.

(** ** Simultaneous updates *)
Lemma nodup_left {A} (l m : list A) : NoDup (l ++ m) -> NoDup l.
Proof.
  induction l as [|a l IH]; cbn; intros H; [constructor|]. inversion H; subst. constructor; auto.
  intros C. match goal with K : ~ In a _ |- _ => apply K end. apply in_or_app. auto.
Qed.
Lemma Forall2_len {A B} (R : A -> B -> Prop) l m : Forall2 R l m -> List.length l = List.length m.
Proof. induction 1; cbn; auto. Qed.
Lemma upds_out xs : forall vs s x, ~ In x xs -> upds s xs vs x = s x.
Proof.
  induction xs as [|y xs IH]; intros [|v vs] s x H; cbn [upds]; auto.
  rewrite IH by (intros C; apply H; now right). apply upd_other. intros ->. apply H. now left.
Qed.
Lemma upds_in xs : forall vs s x v, NoDup xs -> In (x, v) (combine xs vs) -> upds s xs vs x = v.
Proof.
  induction xs as [|y xs IH]; intros [|w vs] s x v N H; cbn [combine In upds] in *; try contradiction.
  inversion N; subst. destruct H as [E|H]; [|now apply IH].
  injection E as -> ->. rewrite upds_out by auto. apply upd_same.
Qed.
Lemma upds_ok xs : forall vs s, env_ok s -> typed xs vs -> env_ok (upds s xs vs).
Proof.
  induction xs as [|y xs IH]; intros vs s Hs H; inversion H; subst; cbn [upds]; auto. apply IH; auto. now apply upd_ok.
Qed.
Lemma upds_in_ext xs : forall vs s s' x, List.length xs = List.length vs -> In x xs -> upds s xs vs x = upds s' xs vs x.
Proof.
  induction xs as [|y xs IH]; intros [|w vs] s s' x L H; cbn [List.length upds] in *; try discriminate; [contradiction|].
  destruct (in_dec ident_dec x xs) as [i|n]; [apply IH; [lia|auto]|].
  destruct H as [->|H]; [|contradiction]. rewrite !upds_out by auto. now rewrite !upd_same.
Qed.
Lemma upds_map xs : forall vs s, NoDup xs -> List.length xs = List.length vs -> map (upds s xs vs) xs = vs.
Proof.
  induction xs as [|y xs IH]; intros [|w vs] s N L; cbn [List.length upds map] in *; try discriminate; auto.
  inversion N; subst. f_equal; [|apply IH; auto; lia]. rewrite upds_out by auto. apply upd_same.
Qed.
Lemma upds_self s xs y : upds s xs (map s xs) y = s y.
Proof.
  assert (G : forall xs s0, (forall y, s0 y = s y) -> upds s0 xs (map s xs) y = s y).
  { clear. induction xs as [|x xs IH]; intros s0 H; cbn [upds map]; auto. apply IH. intros z. unfold upd.
    destruct (ident_eqb_spec x z); subst; auto. }
  now apply G.
Qed.
Lemma typed_length xs vs : typed xs vs -> List.length xs = List.length vs.
Proof. apply Forall2_len. Qed.
Lemma typed_map xs s : env_ok s -> typed xs (map s xs).
Proof. intros H. induction xs; constructor; auto. Qed.

(** ** Sequential substitution *)
Definition sub_env (I : interp) (ps : list (ident * expr)) (s : env) : env :=
  fold_right (fun p s => upd s (fst p) (eval I (snd p) s)) s ps.
Lemma subst_all_env I ps : forall e s, eval I (subst_all e ps) s = eval I e (sub_env I ps s).
Proof. induction ps as [|[x a] ps IH]; intros e s; [reflexivity|]. unfold subst_all in *. cbn [fold_left fst snd]. rewrite IH. reflexivity. Qed.
Lemma sub_env_out I ps s y : ~ In y (map fst ps) -> sub_env I ps s y = s y.
Proof.
  induction ps as [|[x a] ps IH]; cbn [map In fst]; intros H; [reflexivity|]. unfold sub_env. cbn [fold_right fst snd].
  rewrite upd_other by (intros ->; apply H; now left). apply IH. tauto.
Qed.
Lemma sub_env_in I e ps s : NoDup (map fst ps) -> seq_ok e ps -> forall x a, In (x, a) ps -> fv x e -> sub_env I ps s x = eval I a s.
Proof.
  induction ps as [|[x0 a0] ps IH]; cbn [map fst seq_ok]; intros N SQ x a Hin Hx; [contradiction|].
  destruct SQ as [H1 H2]. inversion N as [|? ? N1 N2]; subst. unfold sub_env. cbn [fold_right fst snd]. fold (sub_env I ps s). destruct Hin as [E|Hin].
  - injection E as -> ->. rewrite upd_same. apply eval_ext. intros y Hy. apply sub_env_out. intros C. apply in_map_iff in C.
    destruct C as ([y' b] & <- & C). exact (H1 Hx _ _ C Hy).
  - rewrite upd_other; [now apply IH|]. intros ->. apply N1. apply in_map_iff. exists (x, a). auto.
Qed.

(** ** Variables collected from the postconditions *)
Lemma collect_no_subst e : forall acc vs, collect e acc = Ok vs -> no_subst e.
Proof.
  induction e using expr_rect'; intros acc vs E; cbn [collect] in E; try discriminate; try exact Logic.I.
  - rewrite collect_all_eq in E. apply (proj2 (no_subst_call _ _ _)). revert acc vs E.
    match goal with H : Forall _ _ |- _ => induction H as [|a l Ha Hl IH] end; intros acc vs E; [constructor|].
    cbn [collect_all] in E. apply rbind_ok in E as [a1 [E1 E]]. constructor; eauto.
  - apply rbind_ok in E as [a1 [E1 E]]. apply rbind_ok in E as [a2 [E2 E]]. cbn. repeat split; eauto.
  - apply rbind_ok in E as [a1 [E1 E]]. cbn. repeat split; eauto.
  - cbn. repeat split; eauto.
  - cbn. eauto.
  - apply rbind_ok in E as [a1 [E1 E]]. cbn. eauto.
Qed.
Lemma collect_all_spec es : forall acc vs, collect_all es acc = Ok vs ->
  (forall x, In x acc -> In x vs) /\ forall e x, In e es -> fv x e -> In x vs.
Proof.
  induction es as [|a es IH]; intros acc vs E; cbn [collect_all] in E.
  - injection E as <-. split; auto. intros e x [].
  - apply rbind_ok in E as [a1 [E1 E]]. destruct (IH _ _ E) as [H1 H2].
    destruct (collect_spec a acc (collect_no_subst _ _ _ E1)) as (w & E1' & S). rewrite E1 in E1'. injection E1' as <-.
    split; [intros x Hx; apply H1, S; auto|]. intros e x [<-|He] Hx; [apply H1, S; auto | eauto].
Qed.

Lemma ident_to_expr_ok T x e : ident_to_expr T x = Ok e -> e = EVar x.
Proof. unfold ident_to_expr. destruct (get T x) as [[]|]; congruence. Qed.
Lemma idents_to_exprs_ok T xs : forall es, idents_to_exprs T xs = Ok es -> es = map EVar xs.
Proof.
  induction xs as [|x xs IH]; intros es E; cbn [idents_to_exprs map] in *; [congruence|].
  apply rbind_ok in E as [e [E1 E]]. apply rbind_ok in E as [es' [E2 E]]. injection E as <-.
  f_equal; [eapply ident_to_expr_ok; eauto | auto].
Qed.

(** ** Chains of compares *)
Lemma wp_compares I isd k d l X s : l <> [] -> 
  let v := wp_block I isd k (map (fun e => wrap_with_success_message (SCompare d e)) l) X s in
  v = dbot d \/ (v = dtop d /\ below d (all_of d (map (fun e => ev I e s) l)) (X s)).
Proof.
  induction l as [|e l IH]; intros Hl; [congruence|]. intros v. subst v. cbn [map]. rewrite all_of_cons.
  set (C := wp_block I isd k (map (fun e => wrap_with_success_message (SCompare d e)) l) X s) in *.
  assert (E : wp_block I isd k (wrap_with_success_message (SCompare d e) :: map (fun e => wrap_with_success_message (SCompare d e)) l) X s
    = validate_sem d (assume_sem d (ev I e s) C)) by reflexivity.
  rewrite E, compare_validate.
  assert (K : (below d (ev I e s) C -> below d (meet d (ev I e s) (all_of d (map (fun e => ev I e s) l))) (X s))).
  { destruct l as [|e2 l].
    - intros L. eapply below_trans; [apply meet_l | exact L].
    - destruct (IH ltac:(discriminate)) as [->|[_ B]]; intros L.
      + eapply below_trans; [apply meet_l|]. eapply below_trans; [exact L | apply below_bot].
      + eapply below_trans; [apply meet_r | exact B]. }
  destruct d; cbn [below dbot dtop] in *; match goal with |- context [eleb ?a ?c] => destruct (eleb a c) eqn:L end; auto;
    apply eleb_iff in L; auto.
Qed.

Section Sound.
Variables (I : interp) (isd isf : string -> bool) (k : fixkind) (procs : string -> option proc) (variant : nat -> nat).
Variables (Tm Kept : ident -> Prop) (v0 : env) (Den : string -> option behaviour) (d : direction).
Hypothesis HI : interp_ok I.
Hypothesis Hvar : forall m n, variant m = variant n -> m = n.
Hypothesis HTm : forall x, Tm (temp variant x).
Hypothesis HDen : forall f p, procs f = Some p -> exists D, Den f = Some D /\ behaves_well p D /\ (pdir p = d -> satisfies I p D).
Hypothesis HNone : forall f, procs f = None -> Den f = None.

Lemma temp_inj x y : temp variant x = temp variant y -> x = y.
Proof.
  unfold temp. intros E. injection E as E1 E2 E3. destruct x as [a b c], y as [a' b' c']. cbn in *.
  apply Hvar in E2. congruence.
Qed.

(** Agreement of the states of the encoded program and of the program. *)
Definition agree (s' s : env) : Prop := env_ok s /\ env_ok s' /\ (forall y, ~ Tm y -> s' y = s y) /\ (forall y, Kept y -> s y = v0 y).
Definition under (X' X : exp) : Prop := forall s s', agree s' s -> below d (X' s') (X s).

Lemma stable_spec vars ins : forall args T q T', stable_inputs variant T vars ins args = Ok (q, T') ->
  Forall2 (fun x a => wt a = true /\ ty_of a = ity x) ins args -> Forall (not_dist isd) args -> Forall (avoids Tm) args -> NoDup ins ->
  map fst (snd q) = ins /\ (forall x a, In (x, a) (snd q) -> In x vars -> a = EVar (temp variant x)) /\
  forall s, env_ok s -> exists s', env_ok s' /\ (forall Y, wp_block I isd k (fst q) Y s = Y s') /\
    (forall y, (forall x, In x ins -> y <> temp variant x) -> s' y = s y) /\
    forall x a, In (x, a) (combine ins args) -> In x vars -> s' (temp variant x) = eval I a s.
Proof.
  induction ins as [|x ins IH]; intros [|a args] T q T' E F P A N; inversion F; subst; cbn [stable_inputs] in E.
  - injection E as <- <-. cbn. split; auto. split; [intros ? ? []|]. intros s Hs. exists s. repeat split; auto. intros ? ? [].
  - inversion P as [|? ? P1 P2]; inversion A as [|? ? A1 A2]; inversion N as [|? ? N1 N2]; subst. destruct (mem x vars) eqn:M.
    + apply rbind_ok in E as [[p T1] [E1 E]]. apply rbind_ok in E as [[q' T2] [E2 E]]. injection E as <- <-. cbn [fst snd].
      destruct (IH _ _ _ _ E2 H4 P2 A2 N2) as (Q1 & Q2 & Q3).
      assert (HP : snd p = EVar (temp variant x) /\ forall Y s, wp I isd k (fst p) Y s = Y (upd s (temp variant x) (eval I a s))).
      { assert (Asg : forall Y s, assign_sem I isd [temp variant x] a Y s = Y (upd s (temp variant x) (eval I a s))).
        { intros Y s. destruct a; try reflexivity. cbn [assign_sem]. cbn in P1. now rewrite P1. }
        unfold assign_to_temp in E1. destruct (get T (temp variant x)).
        - apply rbind_ok in E1 as [e [E3 E1]]. injection E1 as <- <-. cbn [fst snd]. split; [eapply ident_to_expr_ok; eauto|]. exact Asg.
        - apply rbind_ok in E1 as [T3 [E4 E1]]. apply rbind_ok in E1 as [e [E3 E1]]. injection E1 as <- <-. cbn [fst snd].
          split; [eapply ident_to_expr_ok; eauto|]. exact Asg. }
      destruct HP as [HP1 HP2]. split; [cbn [map fst]; now rewrite Q1|]. split.
      { intros y b [Eq|Hin] Hy; [injection Eq as <- <-; auto | eauto]. }
      intros s Hs. destruct H2 as [W Ty].
      assert (Hs1 : env_ok (upd s (temp variant x) (eval I a s))).
      { apply upd_ok; auto. cbn [temp ity]. rewrite <- Ty. now apply eval_ty. }
      destruct (Q3 _ Hs1) as (s' & S1 & S2 & S3 & S4). exists s'. split; auto. split; [|split].
      * intros Y. cbn [wp_block fold_right]. rewrite HP2. apply S2.
      * intros y Hy. rewrite S3 by (intros z Hz; apply Hy; now right). apply upd_other. intros C. apply (Hy x); [now left | auto].
      * intros y b [Eq|Hin] Hy.
        -- injection Eq as <- <-. rewrite S3; [apply upd_same|]. intros z Hz C. apply temp_inj in C. now subst.
        -- rewrite (S4 _ _ Hin Hy). apply eval_ext. intros z Hz. apply upd_other. intros <-.
           rewrite Forall_forall in A2. exact (A2 _ (in_combine_r _ _ _ _ Hin) _ Hz (HTm x)).
    + apply rbind_ok in E as [[q' T2] [E2 E]]. injection E as <- <-. cbn [fst snd].
      destruct (IH _ _ _ _ E2 H4 P2 A2 N2) as (Q1 & Q2 & Q3). split; [cbn [map fst]; now rewrite Q1|]. split.
      { intros y b [Eq|Hin] Hy; [|eauto]. injection Eq as <- <-. apply mem_iff in Hy. congruence. }
      intros s Hs. destruct (Q3 s Hs) as (s' & S1 & S2 & S3 & S4). exists s'. split; auto. split; auto. split.
      * intros y Hy. apply S3. intros z Hz. apply Hy. now right.
      * intros y b [Eq|Hin] Hy; [|eauto]. injection Eq as <- <-. apply mem_iff in Hy. congruence.
Qed.

Lemma seq_ok_app e ps qs : (forall x a, In (x, a) ps -> fv x e -> forall y, fv y a -> ~ In y (map fst (ps ++ qs))) -> seq_ok e qs -> seq_ok e (ps ++ qs).
Proof.
  induction ps as [|[x a] ps IH]; intros H Hq; cbn [app seq_ok]; auto. split.
  - intros Hx y b Hin Hy. apply (H x a (or_introl eq_refl) Hx y Hy). cbn [app map]. right. apply in_map_iff. exists (y, b). auto.
  - apply IH; auto. intros x' a' Hin Hx y Hy C. apply (H x' a' (or_intror Hin) Hx y Hy). cbn [app map]. now right.
Qed.
Lemma map_fst_combine {A B} (l : list A) : forall (m : list B), List.length l = List.length m -> map fst (combine l m) = l.
Proof. induction l; intros [|b m] L; cbn in *; try discriminate; auto. f_equal. apply IHl. lia. Qed.
Lemma in_combine_map {A B C} (f : B -> C) (l : list A) : forall (m : list B) x c, In (x, c) (combine l (map f m)) -> exists b, In (x, b) (combine l m) /\ c = f b.
Proof. induction l as [|a l IH]; intros [|b m] x c; cbn; try tauto. intros [E|H]; [injection E as <- <-; eauto|]. destruct (IH _ _ _ H) as (b' & H1 & H2). eauto. Qed.
Lemma in_combine_ex {A B} (l : list A) : forall (m : list B) x, List.length l = List.length m -> In x l -> exists b, In (x, b) (combine l m).
Proof. induction l as [|a l IH]; intros [|b m] x L; cbn in *; try discriminate; try tauto. intros [<-|H]; [eauto|]. destruct (IH m x ltac:(lia) H) as (b' & H1). eauto. Qed.
Lemma in_combine_same {A B} (f : A -> B) l x y : In (x, y) (combine l (map f l)) -> y = f x.
Proof. induction l as [|a l IH]; cbn; [tauto|]. intros [E|H]; [congruence | auto]. Qed.

Lemma call_sound T xs t f args p b T' X' X : procs f = Some p -> pdir p = d -> decl_ok Tm p -> call_ok isd Tm Kept p xs args ->
  encode_assign procs variant T xs (ECall t f args) = Ok (Some (b, T')) -> under X' X ->
  under (wp_block I isd k b X') (call_sem I isd Den xs (ECall t f args) X).
Proof.
  intros Hp Hd DO CO E HX s s' (Hs & Hs' & Hag & Hk). destruct DO as [D1 D2 D3 D4]. destruct CO as [C1 C2 C3 C4 C5 C6 C7 C8 C9].
  cbn [encode_assign] in E. rewrite Hp in E. apply rbind_ok in E as [vars [E1 E]]. apply rbind_ok in E as [[q T1] [E2 E]].
  apply rbind_ok in E as [les [E3 E]]. injection E as <- <-. apply idents_to_exprs_ok in E3. subst les. rewrite Hd in *.
  destruct (HDen f p Hp) as (D & HD & HDm & HDs). specialize (HDs Hd).
  unfold call_sem. rewrite HD. set (vs := map (fun a => eval I a s) args).
  assert (Lin : List.length (pins p) = List.length args) by (eapply Forall2_len; eauto).
  assert (Lout : List.length xs = List.length (pouts p)) by (eapply Forall2_len; eauto).
  assert (Ni : NoDup (pins p)) by (eapply nodup_left; eauto).
  assert (Tv : typed (pins p) vs).
  { unfold vs, typed. clear - C1 HI Hs. induction C1 as [|x a l l' [W Ty] _ IH]; constructor; auto. rewrite <- Ty. now apply eval_ty. }
  assert (Lvs : List.length (pins p) = List.length vs) by (unfold vs; now rewrite map_length).
  assert (Eargs : forall s2, (forall y, ~ Tm y -> s2 y = s y) -> forall a, In a args -> eval I a s2 = eval I a s).
  { intros s2 H2 a Ha. apply eval_ext. intros y Hy. apply H2. rewrite Forall_forall in C3. exact (C3 _ Ha _ Hy). }
  rewrite wp_block_app. rewrite (wp_asserts I isd k d (fun e => subst_all e (combine (pins p) args)) wrap_with_error_message); [|reflexivity].
  assert (Epre : map (fun e => ev I (subst_all e (combine (pins p) args)) s') (requires p) = map (fun e => ev I e (upds s (pins p) vs)) (requires p)).
  { apply map_ext_in. intros e He. unfold ev. rewrite subst_all_env. erewrite eval_ext; [reflexivity|]. intros y Hy.
    destruct (D3 e He) as [_ F]. destruct (in_combine_ex (pins p) args y Lin (F y Hy)) as (a & Ha).
    rewrite (sub_env_in I e _ s') with (a := a); auto; [|rewrite map_fst_combine; auto].
    rewrite (Eargs s' Hag) by (eapply in_combine_r; eauto). symmetry. apply upds_in; auto. unfold vs.
    clear - Ha. revert Ha. generalize (pins p). induction args as [|a0 l IH]; intros [|x0 l0]; cbn; try tauto. intros [Eq|H]; [left; congruence | auto]. }
  rewrite Epre. fold (spec_exp I d (requires p) (upds s (pins p) vs)).
  rewrite wp_block_app.
  destruct (stable_spec vars (pins p) args T q T1 E2 C1 C2 C3 Ni) as (Q1 & Q2 & Q3).
  destruct (Q3 s' Hs') as (s2 & S1 & S2 & S3 & S4). rewrite S2.
  assert (Hag2 : forall y, ~ Tm y -> s2 y = s y).
  { intros y Hy. rewrite S3; auto. intros x _ ->. apply Hy, HTm. }
  set (ps := snd q ++ combine (pouts p) (map EVar xs)).
  change (map (fun e => wrap_with_success_message (SCompare d (subst_all e ps))) (ensures p)) with
    (map (fun e => (fun e => wrap_with_success_message (SCompare d e)) (subst_all e ps)) (ensures p)).
  rewrite <- (map_map (fun e => subst_all e ps) (fun e => wrap_with_success_message (SCompare d e))).
  set (cs := map (fun e => subst_all e ps) (ensures p)).
  assert (Ncs : cs <> []) by (unfold cs; destruct (ensures p); [congruence | discriminate]).
  change (wp_block I isd k (SHavoc d xs :: map (fun e => wrap_with_success_message (SCompare d e)) cs) X' s2) with
    (havoc_sem d xs (wp_block I isd k (map (fun e => wrap_with_success_message (SCompare d e)) cs) X') s2).
  set (V := wp_block I isd k (map (fun e => wrap_with_success_message (SCompare d e)) cs) X').
  assert (Mps : map fst ps = pins p ++ pouts p).
  { unfold ps. rewrite map_app, Q1. f_equal. apply map_fst_combine. now rewrite map_length. }
  destruct (classic (exists s3, havocked xs s2 s3 /\ V s3 = dbot d)) as [(s3 & H3 & B3)|NB].
  - eapply below_trans; [apply meet_r|]. apply below_trans with (b := V s3); [|rewrite B3; apply below_bot].
    unfold havoc_sem. clear - H3. destruct d; cbn [below]; [apply einf_lb | apply esup_ub]; eauto.
  - eapply below_trans; [apply meet_l|]. pose proof (HDs vs s Tv Hs) as SP. rewrite Hd in SP. eapply below_trans; [exact SP|].
    assert (KK : forall o, typed (pouts p) o -> below d (spec_exp I d (ensures p) (upds (upds s (pins p) vs) (pouts p) o)) (X (upds s xs o))).
    { intros o To. set (s3 := upds s2 xs o).
      assert (Lo : List.length (pouts p) = List.length o) by (now apply typed_length).
      assert (Txo : typed xs o).
      { clear - C4 To. unfold typed in *. revert o To. induction C4 as [|x y l l' E _ IH]; intros o To; inversion To; subst; constructor; auto. congruence. }
      assert (H3 : havocked xs s2 s3).
      { split; [intros x Hx; now apply upds_out|]. intros x Hx. apply upds_ok; auto. }
      destruct (wp_compares I isd k d cs X' s3 Ncs) as [B|[_ B]].
      { exfalso. apply NB. exists s3. split; auto. }
      assert (HX3 : below d (X' s3) (X (upds s xs o))).
      { apply HX. repeat split; try (apply upds_ok; auto).
        - intros y Hy. destruct (in_dec ident_dec y xs); unfold s3.
          + apply upds_in_ext; auto. congruence.
          + rewrite !upds_out by auto. auto.
        - intros y Hy. rewrite upds_out; auto. intros C. destruct (C5 y C). contradiction. }
      eapply below_trans; [|exact HX3]. eapply below_trans; [|exact B].
      assert (Epost : map (fun e => ev I e s3) cs = map (fun e => ev I e (upds (upds s (pins p) vs) (pouts p) o)) (ensures p)).
      { unfold cs. rewrite map_map. apply map_ext_in. intros e He. unfold ev. rewrite subst_all_env. erewrite eval_ext; [reflexivity|].
        intros y Hy. destruct (D4 e He) as [_ F]. pose proof (F y Hy) as Fy.
        assert (Hv : In y vars) by (eapply (proj2 (collect_all_spec _ _ _ E1)); eauto).
        assert (SQ : seq_ok e ps).
        { apply seq_ok_app; auto. intros x a Hin Hx z Hz C. fold ps in C. rewrite Mps in C.
          assert (Hvx : In x vars) by (eapply (proj2 (collect_all_spec _ _ _ E1)); eauto).
          rewrite (Q2 _ _ Hin Hvx) in Hz. cbn in Hz. subst z. exact (D2 _ C (HTm _)). }
        assert (Nps : NoDup (map fst ps)) by (now rewrite Mps).
        apply in_app_or in Fy. destruct Fy as [Fi|Fo].
        - assert (No : ~ In y (pouts p)).
          { intros C. clear - D1 Fi C. revert D1 Fi. generalize (pins p). induction l as [|z l IH]; cbn; [tauto|]. intros N [->|H]; inversion N; subst; auto.
            apply H1. apply in_or_app. now right. }
          assert (exists a, In (y, a) (snd q)) as (a' & Ha').
          { assert (In y (map fst (snd q))) as C by (now rewrite Q1). apply in_map_iff in C. destruct C as ([y' a'] & <- & C). eauto. }
          rewrite (sub_env_in I e ps s3 Nps SQ y a'); auto; [|apply in_or_app; now left].
          rewrite (Q2 _ _ Ha' Hv). cbn [eval]. unfold s3. rewrite upds_out by (intros C; destruct (C5 _ C) as [C' _]; exact (C' (HTm y))).
          destruct (in_combine_ex (pins p) args y Lin Fi) as (a & Ha). rewrite (S4 _ _ Ha Hv). rewrite (Eargs s' Hag) by (eapply in_combine_r; eauto).
          rewrite upds_out by auto. symmetry. apply upds_in; auto. unfold vs.
          clear - Ha. revert Ha. generalize (pins p). induction args as [|a0 l IH]; intros [|x0 l0]; cbn; try tauto. intros [Eq|H]; [left; congruence | auto].
        - destruct (in_combine_ex (pouts p) (map EVar xs) y) as (a & Ha); auto; [now rewrite map_length|].
          rewrite (sub_env_in I e ps s3 Nps SQ y a); auto; [|apply in_or_app; now right].
          destruct (in_combine_map _ _ _ _ _ Ha) as (x & Hx & ->). cbn [eval].
          assert (exists w, In (x, w) (combine xs o) /\ In (y, w) (combine (pouts p) o)) as (w & W1 & W2).
          { clear - Hx Lo Lout. revert xs o Hx Lo Lout. generalize (pouts p). induction l as [|y0 l IH]; intros [|x0 xs] [|o0 o]; cbn; try tauto; try discriminate.
            intros [Eq|H] L1 L2; [injection Eq as <- <-; eauto|]. destruct (IH xs o H ltac:(lia) ltac:(lia)) as (w & ? & ?). eauto. }
          unfold s3. rewrite (upds_in xs o s2 x w); auto. symmetry. apply upds_in; auto. clear - D1. induction (pins p); auto. inversion D1; auto. }
      unfold spec_exp. rewrite <- Epost. apply below_refl. }
    clear - HDm Tv KK. destruct d; cbn [below] in *; apply HDm; auto.
Qed.

(** ** Other statements *)
(** Carrying a state over to the other side. *)
Definition carry (w s1 : env) : env := fun y => if dec (Tm y) then w y else s1 y.
Lemma carry_tm w s1 y : Tm y -> carry w s1 y = w y.
Proof. intros H. unfold carry. now rewrite dec_true. Qed.
Lemma carry_other w s1 y : ~ Tm y -> carry w s1 y = s1 y.
Proof. intros H. unfold carry. now rewrite (proj2 (dec_false _) H). Qed.
Lemma carry_ok w s1 : env_ok w -> env_ok s1 -> env_ok (carry w s1).
Proof. intros H1 H2 y. unfold carry. destruct (dec (Tm y)); auto. Qed.
Definition keep (s1 : env) : env := fun y => if dec (Kept y) then v0 y else s1 y.
Lemma keep_id s1 : (forall y, Kept y -> s1 y = v0 y) -> keep s1 = s1.
Proof.
  intros H. apply functional_extensionality. intros y. unfold keep. destruct (dec (Kept y)) eqn:E; auto. symmetry. apply H. now apply dec_iff.
Qed.
Lemma keep_kept s1 y : Kept y -> keep s1 y = v0 y.
Proof. intros H. unfold keep. now rewrite dec_true. Qed.
Lemma keep_ok s s1 : env_ok s -> (forall y, Kept y -> s y = v0 y) -> env_ok s1 -> env_ok (keep s1).
Proof. intros Hs H H1 y. unfold keep. destruct (dec (Kept y)) eqn:E; [|apply H1]. apply (proj1 (dec_iff _)) in E. rewrite <- H by auto. apply Hs. Qed.

Lemma below_exp X Y : (match d with Down => exp_le X Y | Up => exp_le Y X end) <-> forall s, env_ok s -> below d (X s) (Y s).
Proof. destruct d; reflexivity. Qed.
Lemma mono_below F X Y : (forall X Y, exp_le X Y -> exp_le (F X) (F Y)) -> (forall s, env_ok s -> below d (X s) (Y s)) ->
  forall s, env_ok s -> below d (F X s) (F Y s).
Proof. intros HF H. apply below_exp. apply below_exp in H. clear - HF H. destruct d; auto. Qed.

(** An assignment only looks at the post in updated states. *)
Lemma assign_local x e X Y s s' : avoids Tm e -> (forall y, ~ Tm y -> s' y = s y) -> (forall v, X (upd s' x v) = Y (upd s x v)) ->
  assign_sem I isd [x] e X s' = assign_sem I isd [x] e Y s.
Proof.
  intros A H HX. assert (E : eval I e s' = eval I e s) by (apply eval_ext; intros y Hy; apply H, A, Hy).
  destruct e as [y|t f args|t c a b|t op a b|t op a|t a|op xs a|y b a|t l]; cbn [assign_sem]; try (rewrite E; apply HX).
  destruct (isd f); [|rewrite E; apply HX].
  assert (Em : map (fun a => eval I a s') args = map (fun a => eval I a s) args).
  { apply map_ext_in. intros a Ha. apply eval_ext. intros y Hy. apply H, A. apply fv_call. apply Exists_exists. eauto. }
  rewrite Em. destruct (dist_sem f _); auto. f_equal. apply functional_extensionality. auto.
Qed.
Lemma assign_sound x e X' X : assign_ok isd isf x e -> avoids Tm e -> writable Tm Kept x -> under X' X ->
  under (assign_sem I isd [x] e X') (assign_sem I isd [x] e X).
Proof.
  intros Ok A [W1 W2] HX s s' (Hs & Hs' & Hag & Hk).
  assert (E1 : assign_sem I isd [x] e X' s' = assign_sem I isd [x] e (fun s1 => X' (carry s' (keep s1))) s).
  { apply assign_local; auto. intros v. f_equal. apply functional_extensionality. intros y. rewrite keep_id.
    - destruct (classic (Tm y)) as [t|n]; [rewrite carry_tm by auto; apply upd_other; intros ->; contradiction|].
      rewrite carry_other by auto. unfold upd. destruct (ident_eqb x y); [reflexivity | now apply Hag].
    - intros z Hz. rewrite upd_other by (intros ->; contradiction). now apply Hk. }
  assert (E2 : assign_sem I isd [x] e X s = assign_sem I isd [x] e (fun s1 => X (keep s1)) s).
  { apply assign_local; auto. intros v. f_equal. symmetry. apply keep_id. intros z Hz. rewrite upd_other by (intros ->; contradiction). now apply Hk. }
  rewrite E1, E2. apply (mono_below (assign_sem I isd [x] e)); auto; [intros; eapply assign_mono; eauto|].
  intros s1 H1. assert (K1 : env_ok (keep s1)) by exact (keep_ok s s1 Hs Hk H1). apply HX. repeat split; auto.
  - apply carry_ok; auto.
  - intros y Hy. now apply carry_other.
  - intros y Hy. now apply keep_kept.
Qed.

Lemma havoc_sound d0 xs X' X : (forall x, In x xs -> writable Tm Kept x) -> under X' X -> under (havoc_sem d0 xs X') (havoc_sem d0 xs X).
Proof.
  intros W HX s s' (Hs & Hs' & Hag & Hk).
  assert (F1 : forall s1, havocked xs s s1 -> exists s1', havocked xs s' s1' /\ below d (X' s1') (X s1)).
  { intros s1 H. pose proof (havocked_ok _ _ _ Hs H) as O1. destruct H as [H1 H2]. exists (carry s' s1). split; [split|].
    - intros x Hx. destruct (classic (Tm x)) as [t|n]; [now apply carry_tm|]. rewrite carry_other by auto. rewrite H1, Hag; auto.
    - intros x Hx. destruct (W x Hx). rewrite carry_other by auto. auto.
    - apply HX. repeat split; auto; [apply carry_ok; auto | intros; now apply carry_other|].
      intros y Hy. rewrite H1; auto. intros C. destruct (W y C). contradiction. }
  assert (F2 : forall s1', havocked xs s' s1' -> exists s1, havocked xs s s1 /\ below d (X' s1') (X s1)).
  { intros s1 H. pose proof (havocked_ok _ _ _ Hs' H) as O1. destruct H as [H1 H2]. exists (carry s s1).
    assert (G1 : forall x, ~ In x xs -> carry s s1 x = s x).
    { intros x Hx. destruct (classic (Tm x)) as [t|n]; [now apply carry_tm|]. rewrite carry_other by auto. rewrite H1, Hag; auto. }
    split; [split; auto|].
    - intros x Hx. destruct (W x Hx). rewrite carry_other by auto. auto.
    - apply HX. repeat split; auto; [apply carry_ok; auto | intros; now rewrite carry_other|].
      intros y Hy. rewrite G1; auto. intros C. destruct (W y C). contradiction. }
  clear - F1 F2. unfold havoc_sem. destruct d, d0; cbn [below] in *.
  - apply einf_glb. intros r (s1 & H & ->). destruct (F1 s1 H) as (s2 & H2 & B). eapply ele_trans; [apply einf_lb; eauto | exact B].
  - apply esup_lub. intros r (s1 & H & ->). destruct (F2 s1 H) as (s2 & H2 & B). eapply ele_trans; [exact B | apply esup_ub; eauto].
  - apply einf_glb. intros r (s1 & H & ->). destruct (F2 s1 H) as (s2 & H2 & B). eapply ele_trans; [apply einf_lb; eauto | exact B].
  - apply esup_lub. intros r (s1 & H & ->). destruct (F1 s1 H) as (s2 & H2 & B). eapply ele_trans; [exact B | apply esup_ub; eauto].
Qed.

Lemma ev_agree e s s' : agree s' s -> avoids Tm e -> ev I e s' = ev I e s.
Proof. intros (_ & _ & H & _) A. unfold ev. erewrite eval_ext; [reflexivity|]. intros y Hy. apply H, A, Hy. Qed.
Lemma holds_agree e s s' : agree s' s -> avoids Tm e -> holds I e s' = holds I e s.
Proof. intros (_ & _ & H & _) A. unfold holds. erewrite eval_ext; [reflexivity|]. intros y Hy. apply H, A, Hy. Qed.

Lemma sc_block_eq b : forall T,
  (fix block (b : list stmt) (T : tyctx) {struct b} : res (list stmt * tyctx) :=
    match b with
    | [] => Ok ([], T)
    | s :: b' => let? (s', T1) := sc_stmt procs variant d s T in let? (b'', T2) := block b' T1 in Ok (s' :: b'', T2)
    end) b T = sc_block procs variant d b T.
Proof. induction b as [|s b IH]; intros T; cbn [sc_block]; [reflexivity|]. destruct (sc_stmt procs variant d s T) as [[s1 T1]|w|w]; cbn [rbind]; auto. now rewrite IH. Qed.

Definition sound_stmt (s : stmt) : Prop := forall T s' T', sc_stmt procs variant d s T = Ok (s', T') ->
  every (stmt_ok isd isf procs Tm Kept) s -> every (init_dir procs d) s ->
  forall X' X, under X' X -> under (wp I isd k s' X') (wpc I isd Den k s X).
Lemma sound_block b : Forall sound_stmt b -> forall T b' T', sc_block procs variant d b T = Ok (b', T') ->
  All (every (stmt_ok isd isf procs Tm Kept)) b -> All (every (init_dir procs d)) b ->
  forall X' X, under X' X -> under (wp_block I isd k b' X') (wpc_block I isd Den k b X).
Proof.
  induction 1 as [|s b Hs Hb IH]; intros T b' T' E W1 W2 X' X HX; cbn [sc_block] in E.
  - injection E as <- <-. exact HX.
  - apply rbind_ok in E as [[s1 T1] [E1 E]]. apply rbind_ok in E as [[b1 T2] [E2 E]]. injection E as <- <-.
    destruct W1 as [W1 W1'], W2 as [W2 W2']. cbn [wp_block wpc_block fold_right]. eapply Hs; eauto.
Qed.

Lemma plain_sound xs e X' X :
  match e with ECall _ f _ => procs f = None | _ => True end ->
  assignc_ok isd isf procs Tm Kept xs e -> under X' X ->
  under (assign_sem I isd xs e X') (call_sem I isd Den xs e X).
Proof.
  intros N A HX. assert (A' : match xs with [x] => assign_ok isd isf x e /\ avoids Tm e /\ writable Tm Kept x | _ => False end).
  { destruct e; auto. unfold assignc_ok in A. now rewrite N in A. }
  destruct xs as [|x [|]]; try contradiction. destruct A' as (A1 & A2 & A3).
  assert (E : call_sem I isd Den [x] e X = assign_sem I isd [x] e X).
  { destruct e; try reflexivity. unfold call_sem. now rewrite (HNone _ N). }
  rewrite E. now apply assign_sound.
Qed.
Lemma encode_none T xs e : encode_assign procs variant T xs e = Ok None -> match e with ECall _ f _ => procs f = None | _ => True end.
Proof.
  destruct e; auto. cbn [encode_assign]. destruct (procs f) as [p|]; auto. intros E. exfalso.
  apply rbind_ok in E as [vars [_ E]]. apply rbind_ok in E as [[q T1] [_ E]]. apply rbind_ok in E as [les [_ E]]. discriminate.
Qed.
Lemma encode_some T xs e b T' : encode_assign procs variant T xs e = Ok (Some (b, T')) -> exists t f args p, e = ECall t f args /\ procs f = Some p.
Proof. destruct e; cbn [encode_assign]; try discriminate. destruct (procs f) as [p|] eqn:E; try discriminate. intros _. eauto 8. Qed.

Local Ltac two_blocks E W1 W2 HX U1 U2 :=
  let E1 := fresh in let E2 := fresh in let a' := fresh "a'" in let b' := fresh "b'" in
  apply rbind_ok in E as [[a' ?T] [E1 E]]; rewrite sc_block_eq in E; apply rbind_ok in E as [[b' ?T] [E2 E]]; injection E as <- <-;
  destruct W1 as [W1 ?W1'], W2 as [W2 ?W2'];
  match goal with Ha : Forall _ ?a, E : sc_block _ _ _ ?a _ = Ok (a', _), Hb : Forall _ ?b, F : sc_block _ _ _ ?b _ = Ok (b', _) |- _ =>
    pose proof (fun P Q => sound_block a Ha _ _ _ E P Q _ _ HX) as U1; pose proof (fun P Q => sound_block b Hb _ _ _ F P Q _ _ HX) as U2 end;
  specialize (U1 ltac:(assumption) ltac:(assumption)); specialize (U2 ltac:(assumption) ltac:(assumption)).

Theorem sc_sound s : sound_stmt s.
Proof.
  induction s using stmt_rect'; intros T s' T' E W1 W2 X' X HX; cbn [sc_stmt] in E; try rewrite !sc_block_eq in E.
  - (* Seq *) apply rbind_ok in E as [[b1 T1] [E1 E]]. injection E as <- <-. destruct W1 as [_ W1], W2 as [_ W2].
    eapply (sound_block b); eauto.
  - (* Var *) destruct i as [e|].
    + destruct W1 as [W1 _], W2 as [W2 _]. cbn [stmt_ok init_dir] in *. apply rbind_ok in E as [[[b T1]|] [E1 E]].
      * injection E as <- <-. destruct (encode_some _ _ _ _ _ E1) as (t & f & args & p & -> & Hp). rewrite Hp in W2.
        cbn [assignc_ok] in W1. rewrite Hp in W1. destruct W1 as [D C]. exact (call_sound _ _ _ _ _ _ _ _ _ _ Hp W2 D C E1 HX).
      * apply rbind_ok in E as [u [_ E]]. injection E as <- <-. apply plain_sound; auto. eapply encode_none; eauto.
    + injection E as <- <-. exact HX.
  - (* Assign *) destruct W1 as [W1 _]. cbn [stmt_ok] in W1. apply rbind_ok in E as [u [E0 E]]. apply rbind_ok in E as [[[b T1]|] [E1 E]].
    + injection E as <- <-. destruct (encode_some _ _ _ _ _ E1) as (t & f & args & p & -> & Hp). cbn [sc_expr] in E0. rewrite Hp in E0.
      assert (Hd : pdir p = d) by (clear - E0; destruct d, (pdir p); auto; discriminate).
      cbn [assignc_ok] in W1. rewrite Hp in W1. destruct W1 as [D C]. exact (call_sound _ _ _ _ _ _ _ _ _ _ Hp Hd D C E1 HX).
    + apply rbind_ok in E as [u' [_ E]]. injection E as <- <-. apply plain_sound; auto. eapply encode_none; eauto.
  - (* Havoc *) injection E as <- <-. destruct W1 as [W1 _]. now apply havoc_sound.
  - (* Assert *) apply rbind_ok in E as [u [_ E]]. injection E as <- <-. destruct W1 as [[_ A] _]. intros s s' G. pose proof (HX s s' G) as B.
    match goal with |- below _ (wp _ _ _ (SAssert ?dd ?e) _ _) _ => destruct dd; cbn [wp wpc]; rewrite (ev_agree e s s' G A) end.
    + apply (below_mono1 d (emin _)); auto. intros; apply emin_mono; auto using ele_refl.
    + apply (below_mono1 d (emax _)); auto. intros; apply emax_mono; auto using ele_refl.
  - (* Assume *) apply rbind_ok in E as [u [_ E]]. injection E as <- <-. destruct W1 as [[_ A] _]. intros s s' G. pose proof (HX s s' G) as B.
    cbn [wp wpc]. rewrite (ev_agree _ s s' G A). apply (below_mono1 d (assume_sem _ _)); auto. intros; now apply assume_mono.
  - (* Compare *) apply rbind_ok in E as [u [_ E]]. injection E as <- <-. destruct W1 as [[_ A] _]. intros s s' G. pose proof (HX s s' G) as B.
    cbn [wp wpc]. rewrite (ev_agree _ s s' G A). apply (below_mono1 d (fun x => validate_sem _ (assume_sem _ _ x))); auto. intros; now apply validate_mono, assume_mono.
  - (* Negate *) destruct W1 as [[] _].
  - (* Validate *) injection E as <- <-. intros s s' G. cbn [wp wpc]. apply (below_mono1 d (validate_sem _)); auto. intros; now apply validate_mono.
  - (* Tick *) apply rbind_ok in E as [u [_ E]]. injection E as <- <-. destruct W1 as [[_ A] _]. intros s s' G. pose proof (HX s s' G) as B.
    cbn [wp wpc]. rewrite (ev_agree _ s s' G A). apply (below_mono1 d (fun x => eadd x _)); auto. intros; apply eadd_mono; auto using ele_refl.
  - (* Weigh *) apply rbind_ok in E as [u [_ E]]. injection E as <- <-. destruct W1 as [[_ A] _]. intros s s' G. pose proof (HX s s' G) as B.
    cbn [wp wpc]. rewrite (ev_agree _ s s' G A). apply (below_mono1 d (fun x => emul x _)); auto. intros; apply emul_mono; auto using ele_refl.
  - (* Demonic *) destruct W1 as [_ W1], W2 as [_ W2]. two_blocks E W1 W2 HX U1 U2.
    intros s s' G. apply (below_mono2 d emin); [intros; now apply emin_mono | apply (U1 s s' G) | apply (U2 s s' G)].
  - (* Angelic *) destruct W1 as [_ W1], W2 as [_ W2]. two_blocks E W1 W2 HX U1 U2.
    intros s s' G. apply (below_mono2 d emax); [intros; now apply emax_mono | apply (U1 s s' G) | apply (U2 s s' G)].
  - (* Additive *) destruct W1 as [_ W1], W2 as [_ W2]. two_blocks E W1 W2 HX U1 U2.
    intros s s' G. apply (below_mono2 d eadd); [intros; now apply eadd_mono | apply (U1 s s' G) | apply (U2 s s' G)].
  - (* If *) apply rbind_ok in E as [u [_ E]]. destruct W1 as [[_ A] W1], W2 as [_ W2].
    two_blocks E W1 W2 HX U1 U2.
    intros s s' G. cbn [wp wpc]. rewrite (holds_agree _ s s' G A). destruct (holds I _ s); [apply (U1 s s' G) | apply (U2 s s' G)].
  - (* While *) destruct W1 as [[] _].
  - (* Ann *) apply rbind_ok in E as [u [_ E]]. apply rbind_ok in E as [[s1 T1] [E1 E]]. injection E as <- <-.
    destruct W1 as [_ W1], W2 as [_ W2]. exact (IHs _ _ _ E1 W1 W2 _ _ HX).
  - (* Label *) injection E as <- <-. exact HX.
Qed.
Theorem sc_block_sound b T b' T' : sc_block procs variant d b T = Ok (b', T') ->
  All (every (stmt_ok isd isf procs Tm Kept)) b -> All (every (init_dir procs d)) b ->
  forall X' X, under X' X -> under (wp_block I isd k b' X') (wpc_block I isd Den k b X).
Proof. apply sound_block. apply Forall_forall. intros s _. apply sc_sound. Qed.
End Sound.
