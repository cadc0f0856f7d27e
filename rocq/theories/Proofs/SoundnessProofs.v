(** What the soundness checker's approximations say about the encoded program. *)
From Coq Require Import Bool List String Arith NArith Lia Classical FunctionalExtensionality.
From Verif.Model Require Import Syntax Builder TyCtx AstUtil ProofRules Procs LoopProcs Encode.
From Verif.Spec Require Import Eur Sem Wp Frame Loops Annotated Calls.
From Verif.Proofs Require Import EurLemmas SemLemmas WpLemmas SimLemmas MonoProofs FrameProofs LoopProofs UnrollProofs LoopVc EncodeProofs TidyProofs.
Import ListNotations.
Local Open Scope nat_scope.
Local Open Scope list_scope.

Definition leaf (s : stmt) : Prop :=
  match s with SSeq _ | SDemonic _ _ | SAngelic _ _ | SAdditive _ _ | SIf _ _ _ | SWhile _ _ | SAnn _ _ _ => False | _ => True end.

(** The part of the visitor that handles rules without generated procedures, as a relation. *)
Section Enc.
Variable d : direction.
Inductive Enc : stmt -> stmt -> Prop :=
| E_leaf s : leaf s -> Enc s s
| E_seq b b' : EncB b b' -> Enc (SSeq b) (SSeq b')
| E_dem a a' b b' : EncB a a' -> EncB b b' -> Enc (SDemonic a b) (SDemonic a' b')
| E_ang a a' b b' : EncB a a' -> EncB b b' -> Enc (SAngelic a b) (SAngelic a' b')
| E_add a a' b b' : EncB a a' -> EncB b b' -> Enc (SAdditive a b) (SAdditive a' b')
| E_if c a a' b b' : EncB a a' -> EncB b b' -> Enc (SIf c a b) (SIf c a' b')
| E_ann n args s s' : enc_of n = None -> not_while s -> Enc s s' -> Enc (SAnn n args s) (SAnn n args s')
| E_ind n args c b b' e k inv : enc_of n = Some e -> (e = Invariant \/ e = KInduction) -> 1 <= k -> In inv args -> is_exp inv ->
    EncB b b' -> Enc (SAnn n args (SWhile c b)) (SSeq (transform_k_induction c b' d k inv))
| E_unr n args c b b' k k' t : enc_of n = Some Unroll -> args = [k'; t] -> 1 <= k -> is_exp t ->
    EncB b b' -> Enc (SAnn n args (SWhile c b)) (SSeq (encode_unroll c b' k (hey_const t d)))
with EncB : list stmt -> list stmt -> Prop :=
| E_nil : EncB [] []
| E_cons s s' b b' : Enc s s' -> EncB b b' -> EncB (s :: b) (s' :: b').
Scheme Enc_mut := Minimality for Enc Sort Prop
  with EncB_mut := Minimality for EncB Sort Prop.
Combined Scheme Enc_ind2 from Enc_mut, EncB_mut.
End Enc.

Section Visited.
  Variables (variant : nat -> nat) (cspan dspan : list expr -> nat).
  Notation vis := (visit variant cspan dspan).

  Lemma visit_enc n : forall base d nest s v s' v', vis n (Some (base, d)) nest s v = Ok (s', v') -> every rule_typed s ->
    (annotated s -> Enc d s s') /\ (forall c b, s = SWhile c b -> All annotated b -> exists b', s' = SWhile c b' /\ EncB d b b').
  Proof.
    induction n as [|n IH]; intros base d nest s v s' v' E R; [discriminate|].
    assert (HB : forall nest b v b' v', visit_block_with (vis n (Some (base, d)) nest) b v = Ok (b', v') -> All (every rule_typed) b -> All annotated b -> EncB d b b').
    { intros nest0. induction b as [|s0 b IHb]; intros v0 b' v0' E0 R0 A0; cbn [visit_block_with] in E0.
      - inversion E0; constructor.
      - apply rbind_ok in E0. destruct E0 as ([s1 v1] & E1 & E0). apply rbind_ok in E0. destruct E0 as ([b1 v2] & E2 & E0). inversion E0; subst; clear E0.
        cbn [All] in R0, A0. constructor; [|eapply IHb; eauto; tauto]. apply IH in E1; [|tauto]. apply E1. tauto. }
    destruct s; cbn [visit] in E;
      try (destruct (v_term v); [discriminate|]; inversion E; subst; split; [intros _; constructor; exact Logic.I | discriminate]);
      try (destruct (v_term v); [discriminate|]; cbn [every annotated] in R |- *; destruct R as (_ & R1 & R2);
           apply rbind_ok in E; destruct E as ([c1 v1] & E1 & E); apply rbind_ok in E; destruct E as ([c2 v2] & E2 & E); inversion E; subst; clear E;
           split; [intros [A1 A2]; constructor; eapply HB; eauto | discriminate]).
    - destruct (v_term v); [discriminate|]. cbn [every annotated] in R |- *. apply rbind_ok in E. destruct E as ([c1 v1] & E1 & E). inversion E; subst.
      split; [intros A; constructor; eapply HB; eauto; tauto | discriminate].
    - destruct (v_term v); [discriminate|]. cbn [every] in R. apply rbind_ok in E. destruct E as ([c1 v1] & E1 & E). inversion E; subst.
      split; [intros []|]. intros c0 b0 [= <- <-] A. eexists. split; [reflexivity|]. eapply HB; eauto. tauto.
    - split; [|discriminate]. intros A. change (vis (S n) (Some (base, d)) nest (SAnn name args s) v = Ok (s', v')) in E.
      cbn [every] in R. destruct R as [R1 R2]. destruct (enc_of name) as [e|] eqn:En.
      + apply (visit_rule variant cspan dspan n _ nest name args e) in E; auto.
        destruct E as (base0 & d0 & c & b & v1 & g & T2 & Ec & E1 & Et & E2 & -> & _). inversion Ec; subst base0 d0; clear Ec.
        apply IH in E1; auto. destruct E1 as [E1 E1'].
        assert (W : exists b0, s = SWhile c b0 /\ EncB d b0 b).
        { cbn [annotated] in A. destruct s; try (specialize (E1 A); inversion E1; fail).
          destruct A as [_ A]. destruct (E1' _ _ eq_refl A) as (b' & Eb & HE). inversion Eb; subst. eauto. }
        destruct W as (b0 & -> & HE). cbn [rule_typed] in R1.
        destruct R1 as [(-> & inv & -> & Hi)|[(-> & k & inv & -> & Hi)|[(-> & ty & k & t & -> & Hk & Ht)|Hn]]].
        * inversion En; subst. inversion E2; subst. cbn [fst]. eapply (E_ind d "invariant" [inv] c b0 b Invariant 1 inv); eauto; try reflexivity. now left.
        * inversion En; subst. cbn [transform no_procs] in E2. apply rbind_ok in E2. destruct E2 as (b1 & E2 & E3). inversion E3; subst. cbn [fst].
          unfold k_induction_transform in E2. apply rbind_ok in E2. destruct E2 as (m & Em & E2). destruct (N.eqb_spec m 0); [discriminate|].
          inversion E2; subst. eapply E_ind; eauto; try reflexivity; [lia | now right; left].
        * inversion En; subst. cbn [transform no_procs] in E2. apply rbind_ok in E2. destruct E2 as (b1 & E2 & E3). inversion E3; subst. cbn [fst].
          unfold unroll_transform in E2. apply rbind_ok in E2. destruct E2 as (m & Em & E2). inversion E2; subst.
          assert (m = k) as ->. { unfold ProofRules.lit_u128 in Em. destruct (N.ltb _ _); now inversion Em. }
          eapply E_unr; eauto; try reflexivity. lia.
        * apply enc_of_rule in Hn. congruence.
      + cbn [visit] in E. apply rbind_ok in E. destruct E as ([s1 v1] & E1 & E). rewrite En in E. inversion E; subst.
        assert (not_while s /\ annotated s) as [N A'].
        { cbn [annotated] in A. destruct s; try (split; [exact Logic.I | exact A]). destruct A as [A _]. apply enc_of_rule in En. congruence. }
        constructor; auto. apply IH in E1; auto. now apply E1.
  Qed.
  Lemma visit_block_enc n base d nest : forall b v b' v', visit_block variant cspan dspan n (Some (base, d)) nest b v = Ok (b', v') ->
    All (every rule_typed) b -> All annotated b -> EncB d b b'.
  Proof.
    unfold visit_block. induction b as [|s0 b IHb]; intros v0 b' v0' E0 R0 A0; cbn [visit_block_with] in E0.
    - inversion E0; constructor.
    - apply rbind_ok in E0. destruct E0 as ([s1 v1] & E1 & E0). apply rbind_ok in E0. destruct E0 as ([b1 v2] & E2 & E0). inversion E0; subst; clear E0.
      cbn [All] in R0, A0. constructor; [|eapply IHb; eauto; tauto]. apply visit_enc in E1; [|tauto]. apply E1. tauto.
  Qed.
End Visited.

Section Shape.
  Variable d : direction.
  Variables isd isf : string -> bool.
  Lemma hey_wts e : is_exp e -> All (wts isd isf) (hey_const e d).
  Proof. intros He. cbn [hey_const All wts]. repeat split; auto; try apply He; apply extreme_exp. Qed.
  Lemma iter_wts c b next : is_guard c -> All (wts isd isf) b -> All (wts isd isf) next -> wts isd isf (encode_iter c b next).
  Proof. intros Hc Hb Hn. cbn [encode_iter wts All]. rewrite All_app. auto. Qed.
  Lemma extend_wts c b k inv dd next : is_guard c -> All (wts isd isf) b -> is_exp inv -> All (wts isd isf) next ->
    All (wts isd isf) (encode_extend c b k inv dd next).
  Proof. intros Hc Hb Hi Hn. induction k; auto. cbn [encode_extend All]. split; [exact Hi|]. split; [|exact Logic.I]. now apply iter_wts. Qed.
  Lemma k_ind_wts c b k inv : is_guard c -> All (wts isd isf) b -> is_exp inv -> All (wts isd isf) (transform_k_induction c b d k inv).
  Proof.
    intros Hc Hb Hi. unfold transform_k_induction. rewrite All_app. split.
    - cbn [encode_loop_spec All wts wrap_error wrap_success]. auto.
    - cbn [All]. split; [|exact Logic.I]. apply iter_wts; auto. apply extend_wts; auto.
      destruct (Nat.eqb k 1); [|now apply hey_wts]. cbn [park_terminator All wts wrap_error wrap_success]. repeat split; auto; try apply Hi; apply extreme_exp.
  Qed.
  Lemma unroll_wts c b k t : is_guard c -> All (wts isd isf) b -> is_exp t -> All (wts isd isf) (encode_unroll c b k (hey_const t d)).
  Proof.
    intros Hc Hb Ht. induction k; [now apply hey_wts|]. cbn [encode_unroll All]. split; [|exact Logic.I]. now apply iter_wts.
  Qed.
  Lemma Enc_wts : (forall s s', Enc d s s' -> wts isd isf s -> wts isd isf s') /\ (forall b b', EncB d b b' -> All (wts isd isf) b -> All (wts isd isf) b').
  Proof.
    apply (Enc_ind2 d); cbn [wts All]; intros; try tauto.
    - apply k_ind_wts; tauto.
    - apply unroll_wts; tauto.
  Qed.

End Shape.

Section Same.
  Variable d : direction.
  Section Closed.
    Variable P : stmt -> Prop.
    Hypothesis HP : closed P.
    Hypothesis HS : forall b, P (SSeq b).
    Hypothesis HD : forall a b, P (SAdditive a b).
    Hypothesis HA : forall n args s, enc_of n = None -> P (SAnn n args s) -> forall s', P (SAnn n args s').
    Lemma iter_every c b next : All (every P) b -> All (every P) next -> every P (encode_iter c b next).
    Proof. destruct HP as (_ & _ & _ & _ & _ & _ & HI & _). intros Hb Hn. cbn [encode_iter every All]. rewrite All_app. auto. Qed.
    Lemma Enc_every : (forall s s', Enc d s s' -> every P s -> every P s') /\ (forall b b', EncB d b b' -> All (every P) b -> All (every P) b').
    Proof.
      pose proof HP as (H1 & H2 & H3 & H4 & H5 & H6 & H7 & H8 & H9 & H10 & H11).
      assert (Hey : forall e, All (every P) (hey_const e d)) by (intros e; cbn [hey_const All every]; auto 7).
      apply (Enc_ind2 d); cbn [every All]; try tauto; try (intros; split; [now auto | tauto]).
      - intros n args s s' En Nw He IH [Hs Hr]. split; [eapply HA; eauto | auto].
      - intros n args c b b' e k inv En Ee Hk Hin Hi He IH [_ [_ Hr]]. specialize (IH Hr).
        split; auto. unfold transform_k_induction. rewrite All_app. split; [cbn [encode_loop_spec All every wrap_error wrap_success]; auto 10|].
        cbn [All]. split; [|exact Logic.I]. apply iter_every; auto.
        assert (Ht : All (every P) (if Nat.eqb k 1 then park_terminator inv d else hey_const inv d)).
        { destruct (Nat.eqb k 1); auto. cbn [park_terminator All every wrap_error wrap_success]. auto 10. }
        generalize (k - 1). intros m. induction m; auto. cbn [encode_extend All every]. split; auto. split; auto. now apply iter_every.
      - intros n args c b b' k k' t En Ea Hk Ht He IH [_ [_ Hr]]. specialize (IH Hr).
        split; auto. clear Hk. induction k; [exact (Hey t)|]. cbn [encode_unroll All]. split; [|exact Logic.I]. now apply iter_every.
    Qed.
  End Closed.
  Lemma Enc_negate : (forall s s', Enc d s s' -> every not_negate s -> every not_negate s') /\
    (forall b b', EncB d b b' -> All (every not_negate) b -> All (every not_negate) b').
  Proof. apply Enc_every; repeat split. Qed.

  (** Without rules nothing changes. *)
  Lemma Enc_id : (forall s s', Enc d s s' -> every not_rule s -> s' = s) /\ (forall b b', EncB d b b' -> All (every not_rule) b -> b' = b).
  Proof.
    apply (Enc_ind2 d); cbn [every All not_rule]; auto; try (intros; f_equal; tauto).
    - intros n args c b b' e k inv En Ee Hk Hin Hi He IH [Hn _]. apply enc_of_rule in Hn. congruence.
    - intros n args c b b' k k' t En Ea Hk Ht He IH [Hn _]. apply enc_of_rule in Hn. congruence.
  Qed.

  (** What is written and assigned stays the same. *)
  Lemma any_app P a b : any P (a ++ b) <-> any P a \/ any P b.
  Proof. induction a as [|s a IH]; cbn [app any]; [tauto|]. fold (any P). rewrite IH. tauto. Qed.
  Lemma writes_any x b : writes_block x b <-> any (writes x) b.
  Proof. induction b; cbn [writes_block any]; [tauto|]. fold (any (writes x)). rewrite IHb. tauto. Qed.
  Lemma assigns_any x b : (fix block b := match b with [] => False | s :: b' => assigns x s \/ block b' end) b = any (assigns x) b.
  Proof. reflexivity. Qed.

  Lemma iter_assigns x c b next : assigns x (encode_iter c b next) <-> any (assigns x) b \/ any (assigns x) next.
  Proof. cbn [encode_iter assigns]. rewrite assigns_any, any_app. tauto. Qed.
  Lemma iter_writes x c b next : writes x (encode_iter c b next) <-> any (writes x) b \/ any (writes x) next.
  Proof. cbn [encode_iter writes]. rewrite writes_block_eq, writes_any, any_app. tauto. Qed.
  Lemma extend_assigns x c b k inv dd next : any (assigns x) (encode_extend c b k inv dd next) -> any (assigns x) b \/ any (assigns x) next.
  Proof.
    induction k as [|k IH]; [tauto|]. cbn [encode_extend]. intros [[]|[H|[]]]. apply iter_assigns in H. destruct H; auto.
  Qed.
  Lemma extend_writes x c b k inv dd next : any (writes x) (encode_extend c b k inv dd next) -> any (writes x) b \/ any (writes x) next.
  Proof.
    induction k as [|k IH]; [tauto|]. cbn [encode_extend]. intros [[]|[H|[]]]. apply iter_writes in H. destruct H; auto.
  Qed.
  Lemma unroll_assigns x c b k t : any (assigns x) (encode_unroll c b (S k) (hey_const t d)) <-> any (assigns x) b.
  Proof.
    induction k as [|k IH].
    - cbn [encode_unroll any]. rewrite iter_assigns. cbn [hey_const any assigns]. tauto.
    - change (encode_unroll c b (S (S k)) (hey_const t d)) with [encode_iter c b (encode_unroll c b (S k) (hey_const t d))].
      cbn [any]. rewrite iter_assigns, IH. tauto.
  Qed.
  Lemma unroll_writes x c b k t : any (writes x) (encode_unroll c b (S k) (hey_const t d)) <-> any (writes x) b.
  Proof.
    induction k as [|k IH].
    - cbn [encode_unroll any]. rewrite iter_writes. cbn [hey_const any writes]. tauto.
    - change (encode_unroll c b (S (S k)) (hey_const t d)) with [encode_iter c b (encode_unroll c b (S k) (hey_const t d))].
      cbn [any]. rewrite iter_writes, IH. tauto.
  Qed.
  Lemma term_writes x k inv : ~ any (writes x) (if Nat.eqb k 1 then park_terminator inv d else hey_const inv d) /\
    ~ any (assigns x) (if Nat.eqb k 1 then park_terminator inv d else hey_const inv d).
  Proof. destruct (Nat.eqb k 1); cbn; tauto. Qed.
  Lemma k_ind_assigns x c b k inv : any (assigns x) (transform_k_induction c b d k inv) <-> any (assigns x) b.
  Proof.
    unfold transform_k_induction. rewrite any_app. cbn [encode_loop_spec any assigns wrap_error wrap_success]. rewrite iter_assigns.
    pose proof (extend_assigns x c b (k - 1) inv (toggle_dir d) (if Nat.eqb k 1 then park_terminator inv d else hey_const inv d)).
    pose proof (term_writes x k inv). tauto.
  Qed.
  Lemma k_ind_writes x c b k inv : any (writes x) (transform_k_induction c b d k inv) <-> any (writes x) b \/ any (assigns x) b.
  Proof.
    unfold transform_k_induction. rewrite any_app. cbn [encode_loop_spec any writes wrap_error wrap_success]. rewrite iter_writes.
    pose proof (extend_writes x c b (k - 1) inv (toggle_dir d) (if Nat.eqb k 1 then park_terminator inv d else hey_const inv d)).
    pose proof (term_writes x k inv). rewrite (proj1 (mvc_spec (SWhile c b) x mvc0)). cbn [assigns mmod mvc0 In]. rewrite assigns_any. tauto.
  Qed.
  Lemma assigns_writes x st : assigns x st -> writes x st.
  Proof.
    assert (HB : forall b, Forall (fun st => assigns x st -> writes x st) b -> any (assigns x) b -> any (writes x) b).
    { induction 1; cbn [any]; auto. intros [?|?]; auto. }
    induction st using stmt_rect'; cbn [assigns writes]; rewrite ?assigns_any, ?writes_block_eq, ?writes_any; auto; try tauto; intros [?|?]; auto.
  Qed.
  Lemma assigns_writes_block x b : any (assigns x) b -> any (writes x) b.
  Proof. induction b; cbn [any]; auto. intros [?|?]; auto using assigns_writes. Qed.
  Lemma Enc_assigns x : (forall s s', Enc d s s' -> (assigns x s' <-> assigns x s)) /\ (forall b b', EncB d b b' -> (any (assigns x) b' <-> any (assigns x) b)).
  Proof.
    apply (Enc_ind2 d); intros; cbn [assigns any]; rewrite ?assigns_any; try tauto.
    - now rewrite k_ind_assigns.
    - destruct k; [lia|]. now rewrite unroll_assigns.
  Qed.
  Lemma Enc_writes x : (forall s s', Enc d s s' -> (writes x s' <-> writes x s)) /\ (forall b b', EncB d b b' -> (any (writes x) b' <-> any (writes x) b)).
  Proof.
    pose proof (proj2 (Enc_assigns x)) as HA.
    apply (Enc_ind2 d); intros; cbn [writes any]; rewrite ?writes_block_eq, ?writes_any; try tauto.
    - rewrite k_ind_writes. specialize (HA _ _ H4). pose proof (assigns_writes_block x b). tauto.
    - destruct k; [lia|]. now rewrite unroll_writes.
  Qed.
  Lemma unhavocked_local c b b' x : EncB d b b' -> unhavocked c b' x -> local b x.
  Proof.
    intros HE [H1 H2]. unfold local. rewrite writes_any in *. pose proof (proj2 (Enc_writes x) _ _ HE). pose proof (proj2 (Enc_assigns x) _ _ HE).
    unfold havoc_vars in H2. rewrite (proj1 (mvc_spec (SWhile c b') x mvc0)) in H2. cbn [assigns] in H2. rewrite assigns_any in H2. tauto.
  Qed.

  (** Scoping *)
  Lemma extreme_unread V : unread V (extreme_lit d).
  Proof. intros x Hx. destruct d; cbn in Hx; tauto. Qed.
  Lemma iter_scoped V c b next : unread V c -> scoped_block V b -> scoped_block V next -> scoped V (encode_iter c b next).
  Proof. intros Hc Hb Hn. cbn [encode_iter scoped]. rewrite !scoped_block_eq. repeat split; auto. now apply scoped_block_app. Qed.
  Lemma scoped_cons V s b : match s with SVar _ _ => False | _ => True end -> scoped V s -> scoped_block V b -> scoped_block V (s :: b).
  Proof. intros Hs H1 H2. cbn [scoped_block]. split; auto. eapply scoped_block_sub; [|exact H2]. destruct s; cbn; tauto. Qed.
  Lemma hey_scoped V e : unread V e -> scoped_block V (hey_const e d).
  Proof. intros He. apply scoped_cons; [exact Logic.I | exact He|]. apply scoped_cons; [exact Logic.I | apply extreme_unread | exact Logic.I]. Qed.
  Lemma extend_scoped V c b k inv dd next : unread V c -> scoped_block V b -> unread V inv -> scoped_block V next ->
    scoped_block V (encode_extend c b k inv dd next).
  Proof.
    intros Hc Hb Hi Hn. induction k; auto. cbn [encode_extend]. apply scoped_cons; [exact Logic.I | exact Hi|].
    apply scoped_cons; [exact Logic.I | now apply iter_scoped | exact Logic.I].
  Qed.
  Lemma k_ind_scoped V c b k inv : unread V c -> scoped_block V b -> unread V inv -> scoped_block V (transform_k_induction c b d k inv).
  Proof.
    intros Hc Hb Hi. unfold transform_k_induction. apply scoped_block_app.
    - unfold encode_loop_spec, wrap_error, wrap_success. repeat (apply scoped_cons; [exact Logic.I | cbn [scoped]; auto |]). exact Logic.I.
    - apply scoped_cons; [exact Logic.I | | exact Logic.I]. apply iter_scoped; auto. apply extend_scoped; auto.
      destruct (Nat.eqb k 1); [|now apply hey_scoped]. unfold park_terminator, wrap_error, wrap_success.
      repeat (apply scoped_cons; [exact Logic.I | cbn [scoped]; auto using extreme_unread |]). exact Logic.I.
  Qed.
  Lemma unroll_scoped V c b k t : unread V c -> scoped_block V b -> unread V t -> scoped_block V (encode_unroll c b k (hey_const t d)).
  Proof.
    intros Hc Hb Ht. induction k; [now apply hey_scoped|]. cbn [encode_unroll]. apply scoped_cons; [exact Logic.I | now apply iter_scoped | exact Logic.I].
  Qed.
  Lemma Enc_shrink V s s' : Enc d s s' -> shrink V s' = shrink V s.
  Proof. destruct 1; try reflexivity. Qed.
  Lemma Enc_scoped : (forall s s', Enc d s s' -> forall V, tidy V s -> scoped V s') /\ (forall b b', EncB d b b' -> forall V, tidy_block V b -> scoped_block V b').
  Proof.
    apply (Enc_ind2 d).
    - intros s Hs V H. destruct s; cbn [leaf] in Hs; try (destruct Hs; fail); exact H.
    - intros b b' He IH V H. cbn [tidy scoped] in *. rewrite tidy_block_eq in H. rewrite scoped_block_eq. auto.
    - intros a a' b b' Ha IHa Hb IHb V H. cbn [tidy scoped] in *. destruct H as [H1 H2]. rewrite tidy_block_eq in H1, H2. split; rewrite scoped_block_eq; auto.
    - intros a a' b b' Ha IHa Hb IHb V H. cbn [tidy scoped] in *. destruct H as [H1 H2]. rewrite tidy_block_eq in H1, H2. split; rewrite scoped_block_eq; auto.
    - intros a a' b b' Ha IHa Hb IHb V H. cbn [tidy scoped] in *. destruct H as [H1 H2]. rewrite tidy_block_eq in H1, H2. split; rewrite scoped_block_eq; auto.
    - intros c a a' b b' Ha IHa Hb IHb V H. cbn [tidy scoped] in *. destruct H as (H0 & H1 & H2). rewrite tidy_block_eq in H1, H2. repeat split; auto; rewrite scoped_block_eq; auto.
    - intros n args s s' En Nw He IH V H. cbn [tidy scoped] in *. apply IH, H.
    - intros n args c b b' e k inv En Ee Hk Hin Hi He IH V H. cbn [tidy scoped] in *. rewrite tidy_block_eq in H. rewrite scoped_block_eq.
      destruct H as (Ha & Hc & Hb). assert (Hr : is_rule n = true).
      { destruct (is_rule n) eqn:R; auto. apply enc_of_rule in R. congruence. }
      specialize (Ha Hr). rewrite Forall_forall in Ha. apply k_ind_scoped; auto.
    - intros n args c b b' k k' t En Ea Hk Ht He IH V H. cbn [tidy scoped] in *. rewrite tidy_block_eq in H. rewrite scoped_block_eq.
      destruct H as (Ha & Hc & Hb). assert (Hr : is_rule n = true).
      { destruct (is_rule n) eqn:R; auto. apply enc_of_rule in R. congruence. }
      specialize (Ha Hr). rewrite Forall_forall in Ha. apply unroll_scoped; auto. apply Ha. subst; cbn; auto.
    - intros V _. exact Logic.I.
    - intros s s' b b' Hs IHs Hb IHb V [H1 H2]. split; auto. apply IHb. pose proof (Enc_shrink V s s' Hs) as E. unfold shrink in E. now rewrite E.
  Qed.
End Same.

Lemma wpr_mono I isd isf K : interp_ok I -> forall st, wts isd isf st -> every not_negate st -> mono (wpr I isd K st).
Proof.
  intros HI.
  assert (HB : forall b, Forall (fun st => wts isd isf st -> every not_negate st -> mono (wpr I isd K st)) b ->
    All (wts isd isf) b -> All (every not_negate) b -> mono (wpr_block I isd K b)).
  { induction 1 as [|s b Hs Hb IH]; intros W N X Y H; [exact H|]. destruct W as [W1 W2], N as [N1 N2]. unfold wpr_block. cbn [fold_right].
    apply Hs; auto. apply IH; auto. }
  assert (HL : forall b c k, mono (wpr_block I isd K b) -> mono (fun X => loop_sem k (fun Y s => if holds I c s then wpr_block I isd K b Y s else X s))).
  { intros b c k Hb X Y H. unfold loop_sem. destruct k.
    - intros s Hs. apply einf_glb. intros r (Z & HZ & ->). apply einf_lb. exists Z. split; auto. intros t Ht. specialize (HZ t Ht). cbn in *.
      destruct (holds I c t); auto. eapply ele_trans; [apply H|]; auto.
    - intros s Hs. apply esup_lub. intros r (Z & HZ & ->). apply esup_ub. exists Z. split; auto. intros t Ht. specialize (HZ t Ht). cbn in *.
      destruct (holds I c t); auto. eapply ele_trans; [|apply H]; auto. }
  assert (H : forall st, (wts isd isf st -> every not_negate st -> mono (wpr I isd K st)) /\
    (forall c b, st = SWhile c b -> All (wts isd isf) b -> All (every not_negate) b -> mono (wpr_block I isd K b))); [|intros st; apply H].
  assert (HF : forall b, Forall (fun st => (wts isd isf st -> every not_negate st -> mono (wpr I isd K st)) /\
    (forall c b, st = SWhile c b -> All (wts isd isf) b -> All (every not_negate) b -> mono (wpr_block I isd K b))) b ->
    All (wts isd isf) b -> All (every not_negate) b -> mono (wpr_block I isd K b)).
  { intros b Hb. apply HB. eapply Forall_impl; [|exact Hb]. cbn. tauto. }
  clear HB. induction st using stmt_rect'; (split; [intros W N; try (cbn [wpr]; now apply (wp_mono I isd isf)) | try discriminate]).
  - apply HF; auto. apply N.
  - cbn [wts every] in *. intros X Y HX s Hs. cbn [wpr]. apply emin_mono; [apply (HF a) | apply (HF b)]; tauto.
  - cbn [wts every] in *. intros X Y HX s Hs. cbn [wpr]. apply emax_mono; [apply (HF a) | apply (HF b)]; tauto.
  - cbn [wts every] in *. intros X Y HX s Hs. cbn [wpr]. apply eadd_mono; [apply (HF a) | apply (HF b)]; tauto.
  - cbn [wts every] in *. intros X Y HX s Hs. cbn [wpr]. destruct (holds I c s); [apply (HF a) | apply (HF b)]; tauto.
  - intros c0 b0 [= <- <-]. auto.
  - cbn [wts every] in W, N. destruct N as [_ N]. destruct IHst as [I1 I2]. destruct st; try exact (I1 W N).
    cbn [wpr]. cbn [wts every] in W, N. apply HL. eapply I2; eauto; tauto.
Qed.

Lemma dfix_greatest d F Y : dexp_le d Y (F Y) -> dexp_le d Y (dfix d F).
Proof. destruct d; [exact (gfp_greatest F Y) | exact (lfp_least F Y)]. Qed.
Lemma dfix_post d F : mono F -> dexp_le d (dfix d F) (F (dfix d F)).
Proof. intros HF. destruct d; [exact (gfp_postfix F HF) | exact (lfp_prefix F HF)]. Qed.
Lemma dfix_blind d V F : mono F -> (forall Y, blind V Y -> blind V (F Y)) -> blind V (dfix d F).
Proof. destruct d; [apply gfp_blind | apply lfp_blind]. Qed.

Lemma dfix_sem d F : dfix d F = loop_sem (match d with Down => Greatest | Up => Least end) F.
Proof. destruct d; reflexivity. Qed.
Lemma sfix_sem (d : direction) F : match d with Down => lfp F | Up => gfp F end = loop_sem (match d with Down => Least | Up => Greatest end) F.
Proof. destruct d; reflexivity. Qed.

(** * The checker *)
Definition flag (cd : direction) (a : approx) : bool := match cd with Down => a_under a | Up => a_over a end.
Lemma flag_and cd a b : flag cd (a_and a b) = flag cd a && flag cd b.
Proof. destruct cd; reflexivity. Qed.
Lemma flag_infimum cd l : flag cd (infimum l) = true <-> Forall (fun a => flag cd a = true) l.
Proof.
  unfold infimum. assert (H : forall l a, flag cd (fold_left a_and l a) = true <-> flag cd a = true /\ Forall (fun a => flag cd a = true) l).
  { induction l0 as [|b l0 IH]; intros a; cbn [fold_left]; [split; [auto | tauto]|].
    rewrite IH, flag_and, andb_true_iff, Forall_cons_iff. tauto. }
  rewrite H. destruct cd; cbn; tauto.
Qed.

Definition assumed (cal : option calculus) (d : direction) (name : string) (args : list expr) : fixkind := fk (assumed_kind cal d name args).

Section Check.
  Variables (I : interp) (isd isf : string -> bool) (k : fixkind) (cal : option calculus) (d cd : direction).
  Hypothesis HI : interp_ok I.
  Let K := assumed cal d.
  Notation flags := (Forall (fun a => flag cd a = true)).

  Lemma flags_app a b : flags (a ++ b) <-> flags a /\ flags b.
  Proof. apply Forall_app. Qed.
  Lemma flags_block b : flags (flat_map (track d cal) b) <-> All (fun s => flags (track d cal s)) b.
  Proof. induction b; cbn [flat_map All]; [split; auto|]. rewrite flags_app, IHb. tauto. Qed.
  Lemma flags_negate s : flags (track d cal s) -> every plain_additive s -> every not_negate s.
  Proof.
    assert (HB : forall b, Forall (fun s => flags (track d cal s) -> every plain_additive s -> every not_negate s) b ->
      flags (flat_map (track d cal) b) -> All (every plain_additive) b -> All (every not_negate) b).
    { intros b Hb. rewrite flags_block. induction Hb; cbn [All]; tauto. }
    induction s using stmt_rect'; cbn [track every not_negate plain_additive]; auto.
    - intros F [_ P]. auto.
    - intros F _. inversion F; subst. destruct cd; discriminate.
    - rewrite flags_app. intros [F1 F2] [_ [P1 P2]]. auto.
    - rewrite flags_app. intros [F1 F2] [_ [P1 P2]]. auto.
    - tauto.
    - rewrite flags_app. intros [F1 F2] [_ [P1 P2]]. auto.
    - intros F [_ P]. auto.
    - intros F [_ P]. split; auto. apply IHs; auto. destruct (enc_of n); auto. apply flags_app in F. tauto.
  Qed.

  (** The encoded program relates to the original one as claimed. *)
  Definition claim (s s' : stmt) : Prop := wts isd isf s -> every plain_additive s -> every (reliable cd d K) s -> flags (track d cal s) ->
    forall U X, fits U s -> blind U X -> dexp_le cd (wp I isd k s' X) (wpr I isd K s X).
  Definition claim_block (b b' : list stmt) : Prop := All (wts isd isf) b -> All (every plain_additive) b -> All (every (reliable cd d K)) b ->
    flags (flat_map (track d cal) b) -> forall U X, fits_block U b -> blind U X -> dexp_le cd (wp_block I isd k b' X) (wpr_block I isd K b X).

  Lemma block_negate b : flags (flat_map (track d cal) b) -> All (every plain_additive) b -> All (every not_negate) b.
  Proof. intros F P. apply (flags_negate (SSeq b)); cbn [track every plain_additive]; auto. Qed.

  Lemma wpr_plain s : every not_rule s -> annotated s -> forall X, wpr I isd K s X = wp I isd k s X.
  Proof.
    assert (HB : forall b, Forall (fun s => every not_rule s -> annotated s -> forall X, wpr I isd K s X = wp I isd k s X) b ->
      All (every not_rule) b -> All annotated b -> forall X, fold_right (wpr I isd K) X b = fold_right (wp I isd k) X b).
    { induction 1; cbn [All fold_right]; auto. intros [? ?] [? ?] X. rewrite IHForall by auto. auto. }
    induction s using stmt_rect'; cbn [every annotated not_rule]; intros R A X; cbn [wpr]; auto;
      try (cbn [wp]; match goal with |- context [match ?x with _ => _ end] => destruct x; reflexivity end).
    - apply HB; tauto.
    - cbn [wp]. now rewrite !HB by tauto.
    - cbn [wp]. now rewrite !HB by tauto.
    - cbn [wp]. now rewrite !HB by tauto.
    - cbn [wp]. now rewrite !HB by tauto.
    - destruct A.
    - destruct s; try (cbn [wp]; apply IHs; tauto). destruct A as [A _]. destruct R as [R _]. congruence.
  Qed.

  Lemma Enc_ann s s' : Enc d s s' -> annotated s.
  Proof.
    revert s s'. apply (Enc_mut d (fun s _ => annotated s) (fun b _ => All annotated b)); cbn [annotated All]; auto.
    - intros s Hs. destruct s; cbn in *; tauto.
    - intros n args s s' En Nw _ A. destruct s; auto. destruct Nw.
    - intros n args c b b' e k0 inv En _ _ _ _ _ A. split; auto. destruct (is_rule n) eqn:R; auto. apply enc_of_rule in R. congruence.
    - intros n args c b b' k0 k' t En _ _ _ _ A. split; auto. destruct (is_rule n) eqn:R; auto. apply enc_of_rule in R. congruence.
  Qed.

  (** Facts about the encoded loop body, from the hypotheses of the claim. *)
  Section LoopCase.
    Variables (c : expr) (b b' : list stmt) (X : exp).
    Hypothesis HE : EncB d b b'.
    Hypothesis Wb : All (wts isd isf) b.
    Hypothesis Nb : All (every not_negate) b.
    Hypothesis Uc : unread (local b) c.
    Hypothesis Tb : tidy_block (local b) b.
    Hypothesis BX : blind (local b) X.
    Hypothesis IH : forall Y, blind (local b) Y -> dexp_le cd (wp_block I isd k b' Y) (wpr_block I isd K b Y).
    Let F' := Phi I isd k c b' X.
    Let F : exp -> exp := fun Y s => if holds I c s then wpr_block I isd K b Y s else X s.
    Let Wb' : All (wts isd isf) b' := proj2 (Enc_wts d isd isf) _ _ HE Wb.
    Let Nb' : All (every not_negate) b' := proj2 (Enc_negate d) _ _ HE Nb.
    Let Sb' : scoped_block (local b) b' := proj2 (Enc_scoped d) _ _ HE _ Tb.

    Lemma F'_mono : mono F'.
    Proof. now apply (Phi_mono I isd isf). Qed.
    Lemma F_mono : mono F.
    Proof.
      intros Y Z H s Hs. unfold F. destruct (holds I c s); [|apply ele_refl].
      assert (M : mono (wpr I isd K (SSeq b))); [|exact (M Y Z H s Hs)].
      apply (wpr_mono I isd isf); auto; cbn [wts every not_negate]; auto.
    Qed.
    Lemma F'_blind Y : blind (local b) Y -> blind (local b) (F' Y).
    Proof. apply (Phi_blind I isd isf k c b' X HI Wb' Nb' (local b)); auto. Qed.
    Lemma F'_le_F Y : blind (local b) Y -> dexp_le cd (F' Y) (F Y).
    Proof. intros HY s Hs. unfold F', F, Phi. destruct (holds I c s); [apply IH; auto | apply dle_refl]. Qed.

    Lemma ind_case inv n : 1 <= n -> unread (local b) inv -> cd = d ->
      dexp_le cd (wp_block I isd k (transform_k_induction c b' d n inv) X) (dfix d F).
    Proof.
      intros Hn Hi Hd. assert (V : forall x, unhavocked c b' x -> local b x) by (intros x; now apply (unhavocked_local d)).
      assert (B : blind (local b) (dfix d F')) by (apply dfix_blind; auto using F'_mono, F'_blind).
      intros s Hs. rewrite Hd. eapply dle_trans.
      - apply (k_induction_sound I isd isf k c b' X HI Wb' Nb' d inv n Hn); auto.
        + eapply unread_sub; eauto.
        + eapply scoped_block_sub; eauto.
        + eapply unread_sub; eauto.
        + eapply blind_mono; eauto.
      - apply dfix_greatest; auto. intros t Ht. eapply dle_trans; [apply (dfix_post d F' F'_mono); auto|]. rewrite <- Hd at 1. now apply F'_le_F.
    Qed.
    Lemma unr_case t n : unread (local b) t ->
      match cd with Down => denotes t ebot | Up => denotes t etop end ->
      dexp_le cd (wp_block I isd k (encode_unroll c b' n (hey_const t d)) X) (match cd with Down => lfp F | Up => gfp F end).
    Proof.
      intros Ht Hd.
      assert (B : forall m, blind (local b) (iterate m F' (ev I t))).
      { induction m; cbn [iterate]; [now apply unread_blind | now apply F'_blind]. }
      assert (L : dexp_le cd (iterate n F' (ev I t)) (match cd with Down => lfp F | Up => gfp F end)).
      { induction n as [|m IHm]; cbn [iterate].
        - intros s Hs. destruct cd; cbn [dle]; rewrite Hd by auto; [apply ebot_le | apply ele_top].
        - intros s Hs. eapply dle_trans; [apply F'_le_F; auto|]. eapply dle_trans; [apply (mono_d cd F _ _ F_mono IHm); auto|].
          destruct cd; cbn [dle]; [apply lfp_prefix | apply gfp_postfix]; auto using F_mono. }
      intros s Hs. rewrite (wp_unroll I isd isf k c b' X HI Wb' Nb' n t d s Hs). apply L; auto.
    Qed.
  End LoopCase.

  Theorem Enc_claim : (forall s s', Enc d s s' -> claim s s') /\ (forall b b', EncB d b b' -> claim_block b b').
  Proof.
    assert (Two : forall (op : eur -> eur -> eur) a a' b b', (forall x x' y y', dle cd x x' -> dle cd y y' -> dle cd (op x y) (op x' y')) ->
      claim_block a a' -> claim_block b b' -> All (wts isd isf) a /\ All (wts isd isf) b ->
      All (every plain_additive) a /\ All (every plain_additive) b -> All (every (reliable cd d K)) a /\ All (every (reliable cd d K)) b ->
      flags (flat_map (track d cal) a ++ flat_map (track d cal) b) -> forall U X, fits_block U a /\ fits_block U b -> blind U X ->
      dexp_le cd (fun s => op (wp_block I isd k a' X s) (wp_block I isd k b' X s)) (fun s => op (wpr_block I isd K a X s) (wpr_block I isd K b X s))).
    { intros op a a' b b' Hop Ha Hb [W1 W2] [P1 P2] [R1 R2] F U X [F1 F2] HX s Hs. apply flags_app in F. destruct F. apply Hop; [eapply Ha | eapply Hb]; eauto. }
    apply (Enc_ind2 d); unfold claim.
    - intros s Hs W P R F U X Hf HX t Ht. rewrite (wpr_plain s); [apply dle_refl | |]; destruct s; cbn in *; tauto.
    - intros b b' He IH W P R F U X Hf HX. cbn [fits] in Hf. rewrite fits_block_eq in Hf. eapply IH; eauto; cbn [every] in *; tauto.
    - intros a a' b b' Ha IHa Hb IHb W P R F U X Hf HX. cbn [fits] in Hf. rewrite !fits_block_eq in Hf. destruct Hf as [Hf1 Hf2]. rewrite fits_block_eq in Hf2.
      cbn [wts every] in *. apply (Two emin a a' b b') with U; auto; try tauto.
      intros x x' y y' H1 H2. destruct cd; apply emin_mono; auto.
    - intros a a' b b' Ha IHa Hb IHb W P R F U X Hf HX. cbn [fits] in Hf. rewrite !fits_block_eq in Hf. destruct Hf as [Hf1 Hf2]. rewrite fits_block_eq in Hf2.
      cbn [wts every] in *. apply (Two emax a a' b b') with U; auto; try tauto.
      intros x x' y y' H1 H2. destruct cd; apply emax_mono; auto.
    - intros a a' b b' Ha IHa Hb IHb W P R F U X Hf HX. cbn [every plain_additive] in P. destruct P as ((P1 & P2 & P3 & P4) & _).
      rewrite (proj2 (Enc_id d) _ _ Ha P1), (proj2 (Enc_id d) _ _ Hb P3). intros t Ht. rewrite (wpr_plain (SAdditive a b)).
      + apply dle_refl.
      + cbn [every not_rule]; auto.
      + apply (Enc_ann (SAdditive a b) (SAdditive a' b')). now constructor.
    - intros c a a' b b' Ha IHa Hb IHb W P R F U X Hf HX. cbn [fits] in Hf. rewrite !fits_block_eq in Hf. destruct Hf as [Hf1 Hf2]. rewrite fits_block_eq in Hf2.
      cbn [wts every track] in *. apply flags_app in F. destruct F as [F1 F2]. intros s Hs. cbn [wp wpr].
      destruct (holds I c s); [eapply IHa | eapply IHb]; eauto; tauto.
    - intros n args s s' En Nw He IH W P R F U X Hf HX. cbn [wts every track] in *. rewrite En in F.
      assert (E : wpr I isd K (SAnn n args s) X = wpr I isd K s X) by (destruct s; auto; destruct Nw).
      assert (Ef : fits U s) by (destruct s; auto; destruct Nw). rewrite E. cbn [wp]. eapply IH; eauto; tauto.
    - intros n args c b b' e m inv En Ee Hm Hin Hi He IH W P R F U X Hf HX. apply (proj1 (fits_loop _ _ _ _ _)) in Hf. destruct Hf as (Hl & Uc & Ua & Tb & Fb).
      cbn [wts every track] in *. rewrite En in F. apply flags_app in F. destruct F as [F1 F2]. inversion F2 as [|? ? Fa _]; subst.
      destruct R as [R [_ R']], P as [_ [_ P]]. 
      assert (BX : blind (local b) X) by (eapply blind_mono; eauto).
      assert (Nb : All (every not_negate) b) by (apply block_negate; auto).
      assert (Hd : cd = d /\ K n args = match d with Down => Greatest | Up => Least end).
      { assert (Hu : String.eqb n "unroll" = false). { apply String.eqb_neq. intros ->. destruct Ee; subst; discriminate En. }
        cbn [reliable] in R. rewrite Hu in R. unfold K, assumed, assumed_kind in *. rewrite En in *. destruct (infer_kind e cal d args); cbn [fk] in *;
          destruct Ee; subst e; cbn [get_approximation] in Fa; unfold induction_approx in Fa; rewrite flag_and, andb_true_iff in Fa; destruct Fa as [Fa _];
          destruct cd; try discriminate Fa; (split; [symmetry; exact (R eq_refl) | now rewrite (R eq_refl)]). }
      destruct Hd as [Hcd HK]. assert (Hi' : unread (local b) inv) by (rewrite Forall_forall in Ua; auto).
      intros s Hs. eapply dle_trans; [apply (ind_case c b b' X He) with (inv := inv); auto; try tauto|].
      + intros Y HY. eapply IH; eauto; tauto.
      + cbn [wpr]. fold (wpr_block I isd K). rewrite HK, dfix_sem. apply dle_refl.
    - intros n args c b b' m k' t En Ea Hm Ht He IH W P R F U X Hf HX. apply (proj1 (fits_loop _ _ _ _ _)) in Hf. destruct Hf as (Hl & Uc & Ua & Tb & Fb).
      cbn [wts every track] in *. rewrite En in F. apply flags_app in F. destruct F as [F1 F2]. inversion F2 as [|? ? Fa _]; subst.
      destruct R as [R [_ R']], P as [_ [_ P]]. 
      assert (BX : blind (local b) X) by (eapply blind_mono; eauto).
      assert (Nb : All (every not_negate) b) by (apply block_negate; auto).
      assert (n = "unroll"%string) as ->.
      { revert En. unfold enc_of. repeat match goal with |- context [String.eqb n ?s] => destruct (String.eqb_spec n s); [subst; try discriminate; auto|] end. discriminate. }
      cbn [reliable String.eqb Ascii.eqb Bool.eqb] in R.
      assert (Hd : match cd with Down => denotes t ebot | Up => denotes t etop end /\ K "unroll" [k'; t] = match cd with Down => Least | Up => Greatest end).
      { unfold K, assumed, assumed_kind in *. rewrite En in *. destruct (infer_kind Unroll cal d [k'; t]); cbn [fk] in *;
          cbn [get_approximation] in Fa; unfold unroll_approx in Fa; rewrite flag_and, andb_true_iff in Fa; destruct Fa as [Fa _];
          destruct cd; try discriminate Fa; split; auto. }
      destruct Hd as [Hd HK]. assert (Ht' : unread (local b) t) by (rewrite Forall_forall in Ua; apply Ua; cbn; auto).
      intros s Hs. eapply dle_trans; [apply (unr_case c b b' X He) with (t := t); auto; try tauto|].
      + intros Y HY. eapply IH; eauto; tauto.
      + cbn [wpr]. fold (wpr_block I isd K). rewrite HK, sfix_sem. apply dle_refl.
    - intros _ _ _ _ U X _ _ s Hs. apply dle_refl.
    - intros s s' b b' Hs IHs Hb IHb [W1 W2] [P1 P2] [R1 R2] F U X [Hf1 Hf2] HX t Ht. cbn [flat_map] in F. apply flags_app in F. destruct F as [F1 F2].
      unfold wp_block, wpr_block. cbn [fold_right]. eapply dle_trans.
      + eapply IHs; eauto. apply (scoped_block_blind I isd isf k b' HI).
        * now apply (proj2 (Enc_wts d isd isf) b).
        * apply (proj2 (Enc_negate d) b); auto. now apply block_negate.
        * apply (proj2 (Enc_scoped d) b); auto. apply tidy_block_union. tauto.
        * eapply blind_mono; [|exact HX]. cbn. tauto.
      + apply (mono_d cd (wpr I isd K s)); auto.
        * apply (wpr_mono I isd isf); auto. now apply flags_negate.
        * intros t' Ht'. eapply IHb; eauto.
  Qed.
End Check.

(** * Procedures *)
Lemma spec_blind I d l : blind (fun x => Forall (unread (eq x)) l) (spec_exp I d l).
Proof.
  intros s s' Hs Hs' E. unfold spec_exp. f_equal. apply map_ext_in. intros e He.
  unfold ev. rewrite (eval_ext I e s s'); auto. intros x Hx. apply E. intros F. rewrite Forall_forall in F. exact (F e He x Hx eq_refl).
Qed.

Lemma wpr_wp I isd K k : (forall a args, is_rule a = true -> K a args = k) -> forall s, annotated s -> forall X, wpr I isd K s X = wp I isd k s X.
Proof.
  intros HK.
  assert (H : forall s, (annotated s -> forall X, wpr I isd K s X = wp I isd k s X) /\
    (forall c b, s = SWhile c b -> All annotated b -> forall X, fold_right (wpr I isd K) X b = fold_right (wp I isd k) X b)); [|intros s; apply H].
  assert (HB : forall b, Forall (fun s => (annotated s -> forall X, wpr I isd K s X = wp I isd k s X) /\
    (forall c b, s = SWhile c b -> All annotated b -> forall X, fold_right (wpr I isd K) X b = fold_right (wp I isd k) X b)) b ->
    All annotated b -> forall X, fold_right (wpr I isd K) X b = fold_right (wp I isd k) X b).
  { induction 1 as [|s b [Hs _] _ IH]; cbn [All fold_right]; auto. intros [? ?] X. rewrite IH by auto. auto. }
  induction s using stmt_rect'; (split; [cbn [annotated]; intros A X; cbn [wpr]; auto;
      try (cbn [wp]; match goal with |- context [match ?x with _ => _ end] => destruct x; reflexivity end) | try discriminate]).
  - apply HB; tauto.
  - cbn [wp]. now rewrite !HB by tauto.
  - cbn [wp]. now rewrite !HB by tauto.
  - cbn [wp]. now rewrite !HB by tauto.
  - cbn [wp]. now rewrite !HB by tauto.
  - destruct A.
  - intros c0 b0 [= <- <-]. auto.
  - destruct IHs as [I1 I2]. destruct s; try (cbn [wp]; now apply I1).
    destruct A as [A1 A2]. rewrite HK by auto. cbn [wp]. unfold loop_sem.
    assert (E : (fun (Y : exp) s => if holds I c s then fold_right (wpr I isd K) Y b s else X s) = (fun Y s => if holds I c s then fold_right (wp I isd k) Y b s else X s)).
    { extensionality Y. extensionality s. now rewrite (I2 _ _ eq_refl A2). }
    now rewrite E.
Qed.

Section Procs.
  Variables (variant : nat -> nat) (cspan dspan : list expr -> nat).
  Variables (I : interp) (isd isf : string -> bool) (k : fixkind).
  Hypothesis HI : interp_ok I.
  Variables (cal : option calculus) (p : proc) (b b' : list stmt) (n : nat) (T : tyctx) (v' : vst).
  Hypothesis HP : pbody p = Some b.
  Hypothesis HE : encode_proc variant cspan dspan n T p = Ok (Some b', v').
  Let U : ident -> Prop := fun x => Forall (unread (eq x)) (ensures p).

  Lemma encoded_rel : All (every rule_typed) b -> All annotated b -> EncB (pdir p) b b'.
  Proof.
    intros R A. unfold encode_proc in HE. rewrite HP in HE. apply rbind_ok in HE. destruct HE as ([b1 v1] & E & E2). inversion E2; subst.
    eapply visit_block_enc; eauto.
  Qed.
  Lemma encoded_le cd : checkable isd isf cd (pdir p) (assumed cal (pdir p)) U b ->
    flag cd (infimum (track_block (pdir p) cal b)) = true ->
    dexp_le cd (wp_block I isd k b' (spec_exp I (pdir p) (ensures p))) (wpr_block I isd (assumed cal (pdir p)) b (spec_exp I (pdir p) (ensures p))).
  Proof.
    intros (A & W & R & P & L & F) Hf. pose proof (encoded_rel R A) as HB. rewrite flag_infimum in Hf.
    exact (proj2 (Enc_claim I isd isf k cal (pdir p) cd HI) b b' HB W P L Hf U _ F (spec_blind I (pdir p) (ensures p))).
  Qed.

  Theorem proofs_sound : checkable isd isf (pdir p) (pdir p) (assumed cal (pdir p)) U b ->
    sound_proofs (pdir p) (track_block (pdir p) cal b) = true ->
    meets I p (wp_block I isd k b') -> meets I p (wpr_block I isd (assumed cal (pdir p)) b).
  Proof.
    intros HC HS HM s Hs. assert (Hf : flag (pdir p) (infimum (track_block (pdir p) cal b)) = true) by (unfold sound_proofs in HS; destruct (pdir p); exact HS).
    pose proof (encoded_le (pdir p) HC Hf s Hs) as H1. specialize (HM s Hs). unfold dle, below in *. destruct (pdir p); eapply ele_trans; eauto.
  Qed.
  Theorem refutations_sound : checkable isd isf (toggle_dir (pdir p)) (pdir p) (assumed cal (pdir p)) U b ->
    sound_refutations (pdir p) (track_block (pdir p) cal b) = true ->
    meets I p (wpr_block I isd (assumed cal (pdir p)) b) -> meets I p (wp_block I isd k b').
  Proof.
    intros HC HS HM s Hs. assert (Hf : flag (toggle_dir (pdir p)) (infimum (track_block (pdir p) cal b)) = true) by (unfold sound_refutations in HS; destruct (pdir p); exact HS).
    pose proof (encoded_le (toggle_dir (pdir p)) HC Hf s Hs) as H1. specialize (HM s Hs). unfold dle, below, toggle_dir in *. destruct (pdir p); eapply ele_trans; eauto.
  Qed.

  (** With a calculus annotation the reference semantics is the usual one. *)
  Definition calculus_fix (c : calculus) : fixkind := match c with Wlp => Greatest | _ => Least end.
  Lemma assumed_calculus c d a args : is_rule a = true -> assumed (Some c) d a args = calculus_fix c.
  Proof.
    intros Hr. unfold assumed, assumed_kind. destruct (enc_of a) eqn:E; [|apply enc_of_rule in E; congruence].
    cbn [infer_kind]. destruct c; reflexivity.
  Qed.
  Lemma wpr_calculus c d X : All annotated b -> wpr_block I isd (assumed (Some c) d) b X = wp_block I isd (calculus_fix c) b X.
  Proof.
    intros A. exact (wpr_wp I isd (assumed (Some c) d) (calculus_fix c) (fun a args => assumed_calculus c d a args) (SSeq b) A X).
  Qed.
End Procs.

Lemma reliable_ext cd d K K' : (forall a args, is_rule a = true -> K a args = K' a args) -> forall s, annotated s ->
  every (reliable cd d K) s -> every (reliable cd d K') s.
Proof.
  intros HK.
  assert (H : forall s, (annotated s -> every (reliable cd d K) s -> every (reliable cd d K') s) /\
    (forall c b, s = SWhile c b -> All annotated b -> All (every (reliable cd d K)) b -> All (every (reliable cd d K')) b)); [|intros s; apply H].
  assert (HB : forall b, Forall (fun s => (annotated s -> every (reliable cd d K) s -> every (reliable cd d K') s) /\
    (forall c b, s = SWhile c b -> All annotated b -> All (every (reliable cd d K)) b -> All (every (reliable cd d K')) b)) b ->
    All annotated b -> All (every (reliable cd d K)) b -> All (every (reliable cd d K')) b).
  { induction 1 as [|s b [Hs _] _ IH]; cbn [All]; tauto. }
  induction s using stmt_rect'; (split; [cbn [annotated every reliable]; intros A R; try tauto | try discriminate]).
  - split; [exact Logic.I|]. apply HB; tauto.
  - split; [exact Logic.I|]. split; apply HB; tauto.
  - split; [exact Logic.I|]. split; apply HB; tauto.
  - split; [exact Logic.I|]. split; apply HB; tauto.
  - split; [exact Logic.I|]. split; apply HB; tauto.
  - intros c0 b0 [= <- <-]. auto.
  - destruct IHs as [I1 I2]. destruct s; try (split; [exact Logic.I | apply I1; tauto]).
    destruct A as [A1 A2]. rewrite (HK _ _ A1) in R. split; [apply R|]. cbn [every reliable] in *. split; [exact Logic.I|]. eapply I2; eauto. apply R.
Qed.
Lemma checkable_calculus isd isf cd d c U b : checkable isd isf cd d (fun _ _ => calculus_fix c) U b -> checkable isd isf cd d (assumed (Some c) d) U b.
Proof.
  intros (A & W & R & P & L & F). split; [|split; [|split; [|split; [|split]]]]; auto.
  assert (H : every (reliable cd d (assumed (Some c) d)) (SSeq b)); [|apply H].
  apply (reliable_ext cd d (fun _ _ => calculus_fix c)); cbn [annotated every reliable]; auto.
  intros a args Hr. symmetry. now apply assumed_calculus.
Qed.

Theorem calculus_proofs_sound variant cspan dspan I isd isf k c p b b' n T v' : interp_ok I -> pbody p = Some b ->
  encode_proc variant cspan dspan n T p = Ok (Some b', v') ->
  checkable isd isf (pdir p) (pdir p) (fun _ _ => calculus_fix c) (fun x => Forall (unread (eq x)) (ensures p)) b ->
  sound_proofs (pdir p) (track_block (pdir p) (Some c) b) = true ->
  meets I p (wp_block I isd k b') -> meets I p (wp_block I isd (calculus_fix c) b).
Proof.
  intros HI HP HE HC HS HM s Hs. rewrite <- (wpr_calculus I isd b c (pdir p)) by apply HC.
  eapply proofs_sound; eauto using checkable_calculus.
Qed.
Theorem calculus_refutations_sound variant cspan dspan I isd isf k c p b b' n T v' : interp_ok I -> pbody p = Some b ->
  encode_proc variant cspan dspan n T p = Ok (Some b', v') ->
  checkable isd isf (toggle_dir (pdir p)) (pdir p) (fun _ _ => calculus_fix c) (fun x => Forall (unread (eq x)) (ensures p)) b ->
  sound_refutations (pdir p) (track_block (pdir p) (Some c) b) = true ->
  meets I p (wp_block I isd (calculus_fix c) b) -> meets I p (wp_block I isd k b').
Proof.
  intros HI HP HE HC HS HM. eapply refutations_sound; eauto using checkable_calculus.
  intros s Hs. rewrite (wpr_calculus I isd b c (pdir p)) by apply HC. auto.
Qed.

