(** The visitor that replaces annotated loops. *)
From Coq Require Import Bool List String Arith Lia.
From Verif.Model Require Import Syntax Builder TyCtx AstUtil ProofRules Procs LoopProcs Encode.
From Verif.Spec Require Import Eur Sem Wp Annotated.
From Verif.Proofs Require Import SimLemmas LoopVc.
Import ListNotations.
Local Open Scope list_scope.

Lemma enc_of_rule a : (enc_of a = None <-> is_rule a = false).
Proof.
  unfold enc_of, is_rule, proof_rules. cbn [existsb].
  repeat match goal with |- context [String.eqb a ?s] => destruct (String.eqb a s); cbn [orb]; [split; discriminate|] end. tauto.
Qed.
Lemma enc_of_ost a : enc_of a = Some Ost <-> a = "ost"%string.
Proof.
  unfold enc_of. split.
  - repeat match goal with |- context [String.eqb a ?s] => destruct (String.eqb_spec a s); [subst; try discriminate; auto|] end. discriminate.
  - intros ->. reflexivity.
Qed.

(** Properties of statements that hold of everything the proof rules add. *)
Definition closed (P : stmt -> Prop) : Prop :=
  (forall d e, P (SAssert d e)) /\ (forall d e, P (SAssume d e)) /\ (forall d xs, P (SHavoc d xs)) /\ (forall d, P (SValidate d)) /\
  (forall xs e, P (SAssign xs e)) /\ (forall e, P (STick e)) /\ (forall c a b, P (SIf c a b)) /\ (forall a b, P (SDemonic a b)) /\
  (forall a b, P (SAngelic a b)) /\ (forall s, P (SAnn "error_msg" [] s)) /\ (forall s, P (SAnn "success_msg" [] s)).
Lemma closed_not_while : closed not_while.
Proof. repeat split. Qed.
Lemma closed_not_rule : closed not_rule.
Proof. repeat split. Qed.

Definition body_ok (P : stmt -> Prop) (p : proc) : Prop := match pbody p with Some b => All (every P) b | None => True end.

Section Transforms.
  Variable P : stmt -> Prop.
  Hypothesis HP : closed P.
  Let p_assert := proj1 HP.
  Let p_assume := proj1 (proj2 HP).
  Let p_havoc := proj1 (proj2 (proj2 HP)).
  Let p_validate := proj1 (proj2 (proj2 (proj2 HP))).
  Let p_assign := proj1 (proj2 (proj2 (proj2 (proj2 HP)))).
  Let p_tick := proj1 (proj2 (proj2 (proj2 (proj2 (proj2 HP))))).
  Let p_if := proj1 (proj2 (proj2 (proj2 (proj2 (proj2 (proj2 HP)))))).
  Let p_dem := proj1 (proj2 (proj2 (proj2 (proj2 (proj2 (proj2 (proj2 HP))))))).
  Let p_ang := proj1 (proj2 (proj2 (proj2 (proj2 (proj2 (proj2 (proj2 (proj2 HP)))))))).
  Let p_err := proj1 (proj2 (proj2 (proj2 (proj2 (proj2 (proj2 (proj2 (proj2 (proj2 HP))))))))).
  Let p_suc := proj2 (proj2 (proj2 (proj2 (proj2 (proj2 (proj2 (proj2 (proj2 (proj2 HP))))))))).

  Lemma ev_iter c b next : All (every P) b -> All (every P) next -> every P (encode_iter c b next).
  Proof. intros Hb Hn. cbn. rewrite All_app. repeat split; auto. Qed.
  Lemma ev_hey e d : All (every P) (hey_const e d).
  Proof. cbn. repeat split; auto. Qed.
  Lemma ev_park e d : All (every P) (park_terminator e d).
  Proof. cbn. repeat split; auto. Qed.
  Lemma ev_extend c b k inv d next : All (every P) b -> All (every P) next -> All (every P) (encode_extend c b k inv d next).
  Proof. intros Hb Hn. induction k; cbn [encode_extend]; auto. cbn [All]. split; [split; [apply p_assert | exact Logic.I]|]. split; [|exact Logic.I]. now apply ev_iter. Qed.
  Lemma ev_kind c b d k inv : All (every P) b -> All (every P) (transform_k_induction c b d k inv).
  Proof.
    intros Hb. unfold transform_k_induction. rewrite All_app. split.
    - cbn. repeat split; auto.
    - cbn [All]. split; [|exact Logic.I]. apply ev_iter; auto. apply ev_extend; auto. destruct (Nat.eqb k 1); [apply ev_park | apply ev_hey].
  Qed.
  Lemma ev_unroll c b k next : All (every P) b -> All (every P) next -> All (every P) (encode_unroll c b k next).
  Proof. intros Hb Hn. induction k; cbn [encode_unroll]; auto. cbn [All]. split; [|exact Logic.I]. now apply ev_iter. Qed.

  Definition gen_ok (g : list stmt * list proc) : Prop := All (every P) (fst g) /\ Forall (body_ok P) (snd g).

  Lemma ev_assigns xs es b : multiple_assign xs es = Ok b -> All (every P) b.
  Proof.
    unfold multiple_assign. destruct (Nat.eqb _ _); [|discriminate]. intros E; inversion E; clear E.
    generalize (combine xs es). induction l; cbn; auto.
  Qed.
  Lemma gen_proc v ds T base name d ins outs specs b p T' : generate_proc v ds T base name d ins outs specs b = Ok (p, T') ->
    All (every P) b -> body_ok P p.
  Proof.
    unfold generate_proc. intros E H. apply rbind_ok in E. destruct E as ([y T1] & _ & E). apply rbind_ok in E. destruct E as (T2 & _ & E).
    inversion E; subst. exact H.
  Qed.

  Ltac steps E := repeat (cbn beta iota zeta in E; apply rbind_ok in E; destruct E as ([] & ? & E) + (apply rbind_ok in E; destruct E as (? & ? & E))).

  Lemma past_ok v ds T base args c b g T' : past_transform v ds T base args c b = Ok (g, T') -> All (every P) b -> gen_ok g.
  Proof.
    intros E Hb. unfold past_transform in E. destruct args as [|inv [|eps [|k [|? ?]]]]; try discriminate E.
    apply rbind_ok in E. destruct E as (q1 & _ & E). apply rbind_ok in E. destruct E as (q2 & _ & E).
    destruct (QArith_base.Qle_bool q2 q1); [discriminate|].
    apply rbind_ok in E. destruct E as (iv & _ & E). apply rbind_ok in E. destruct E as ([inits T1] & _ & E).
    apply rbind_ok in E. destruct E as (ies & _ & E). apply rbind_ok in E. destruct E as (ia & Eia & E).
    apply rbind_ok in E. destruct E as ([ii T2] & _ & E).
    destruct (past_conditions _ _ _ _) as [c1 c2].
    apply rbind_ok in E. destruct E as (v1 & _ & E). apply rbind_ok in E. destruct E as (i1 & _ & E).
    apply rbind_ok in E. destruct E as ([p1 T3] & E1 & E). apply rbind_ok in E. destruct E as (v2 & _ & E). apply rbind_ok in E. destruct E as (i2 & _ & E).
    apply rbind_ok in E. destruct E as ([p2 T4] & E2 & E). apply rbind_ok in E. destruct E as (i3 & _ & E). apply rbind_ok in E. destruct E as (o3 & _ & E).
    apply rbind_ok in E. destruct E as ([p3 T5] & E3 & E). inversion E; subst; clear E.
    split; [exact Logic.I|]. cbn [snd].
    repeat constructor; [eapply gen_proc; [exact E1|] | eapply gen_proc; [exact E2|] | eapply gen_proc; [exact E3|]]; cbn [All every]; auto.
    rewrite All_app. split; [eapply ev_assigns; eauto|]. cbn [All]. split; [|exact Logic.I]. apply ev_iter; auto. apply ev_hey.
  Qed.
  Lemma ast_ok v cs ds T base args c b g T' : ast_transform v cs ds T base args c b = Ok (g, T') -> All (every P) b -> gen_ok g.
  Proof.
    intros E Hb. unfold ast_transform in E. destruct args as [|inv [|var [|[fvar| | | | | | | | ] [|prob [|decr [|? ?]]]]]]; try discriminate E.
    cbn zeta in E.
    apply rbind_ok in E. destruct E as ([inits T1] & _ & E). apply rbind_ok in E. destruct E as (ies & _ & E). apply rbind_ok in E. destruct E as (ia & Eia & E).
    apply rbind_ok in E. destruct E as ([iv T2] & _ & E). apply rbind_ok in E. destruct E as ([a T3] & _ & E). apply rbind_ok in E. destruct E as (ea & _ & E).
    apply rbind_ok in E. destruct E as ([b0 T4] & _ & E). apply rbind_ok in E. destruct E as (eb & _ & E). apply rbind_ok in E. destruct E as (ab & _ & E).
    apply rbind_ok in E. destruct E as ([p1 T5] & E1 & E). apply rbind_ok in E. destruct E as (ab' & _ & E).
    apply rbind_ok in E. destruct E as ([p2 T6] & E2 & E). apply rbind_ok in E. destruct E as (i3 & _ & E). apply rbind_ok in E. destruct E as (o3 & _ & E).
    apply rbind_ok in E. destruct E as ([r3 T7] & _ & E). apply rbind_ok in E. destruct E as ([p3 T8] & E3 & E).
    apply rbind_ok in E. destruct E as (i4 & _ & E). apply rbind_ok in E. destruct E as ([p4 T9] & E4 & E).
    apply rbind_ok in E. destruct E as (i5 & _ & E). apply rbind_ok in E. destruct E as (o5 & _ & E). apply rbind_ok in E. destruct E as ([r5 T10] & _ & E).
    apply rbind_ok in E. destruct E as ([p5 T11] & E5 & E).
    apply rbind_ok in E. destruct E as (i6 & _ & E). apply rbind_ok in E. destruct E as (o6 & _ & E). apply rbind_ok in E. destruct E as ([r6 T12] & _ & E).
    apply rbind_ok in E. destruct E as ([p6 T13] & E6 & E). inversion E; subst; clear E.
    split; [exact Logic.I|]. cbn [snd]. pose proof (ev_assigns _ _ _ Eia) as Hia.
    repeat constructor; [eapply gen_proc; [exact E1|] | eapply gen_proc; [exact E2|] | eapply gen_proc; [exact E3|] | eapply gen_proc; [exact E4|] | eapply gen_proc; [exact E5|] | eapply gen_proc; [exact E6|]]; cbn [All every]; auto.
    - rewrite All_app. split; auto. cbn [All]. split; [|exact Logic.I]. apply ev_iter; auto. exact Logic.I.
    - rewrite All_app. split; auto. cbn [All]. split; [cbn; auto|]. split; [|exact Logic.I]. apply ev_iter; auto. exact Logic.I.
    - rewrite All_app. auto.
  Qed.
  Lemma ost_ok v ds T base args c b g T' : ost_transform v ds T base args c b = Ok (g, T') -> All (every P) b -> gen_ok g.
  Proof.
    intros E Hb. unfold ost_transform in E. destruct args as [|inv [|pinv [|cc [|post [|? ?]]]]]; try discriminate E.
    apply rbind_ok in E. destruct E as (iv & _ & E). apply rbind_ok in E. destruct E as (pv & _ & E). cbn zeta in E.
    apply rbind_ok in E. destruct E as ([inits T1] & _ & E). apply rbind_ok in E. destruct E as (ies & _ & E). apply rbind_ok in E. destruct E as (ia & Eia & E).
    apply rbind_ok in E. destruct E as ([ii T2] & _ & E). apply rbind_ok in E. destruct E as ([ip T3] & _ & E). apply rbind_ok in E. destruct E as (hv & _ & E).
    apply rbind_ok in E. destruct E as (i1 & _ & E). apply rbind_ok in E. destruct E as ([p1 T4] & E1 & E).
    apply rbind_ok in E. destruct E as (iI & _ & E). apply rbind_ok in E. destruct E as (oM & _ & E).
    apply rbind_ok in E. destruct E as ([p2 T5] & E2 & E). apply rbind_ok in E. destruct E as ([p3 T6] & E3 & E).
    apply rbind_ok in E. destruct E as (i4 & _ & E). apply rbind_ok in E. destruct E as ([p4 T7] & E4 & E).
    apply rbind_ok in E. destruct E as ([p5 T8] & E5 & E). apply rbind_ok in E. destruct E as ([p6 T9] & E6 & E).
    apply rbind_ok in E. destruct E as (es & _ & E). inversion E; subst; clear E.
    pose proof (ev_assigns _ _ _ Eia) as Hia.
    split; [cbn; auto|]. cbn [snd].
    repeat constructor; [eapply gen_proc; [exact E1|] | eapply gen_proc; [exact E2|] | eapply gen_proc; [exact E3|] | eapply gen_proc; [exact E4|] | eapply gen_proc; [exact E5|] | eapply gen_proc; [exact E6|]]; cbn [All every]; auto.
    - rewrite All_app. split; auto. cbn [All]. split; [|exact Logic.I]. apply ev_iter; auto. cbn [All]. split; [cbn; auto | apply ev_hey].
    - rewrite All_app. auto.
    - rewrite All_app. split; auto. cbn [All]. split; [cbn; auto|]. split; [cbn; auto|]. split; [|exact Logic.I]. apply ev_iter; auto. apply ev_hey.
    - rewrite All_app. split; auto. cbn [All]. split; [|exact Logic.I]. apply ev_iter; auto. apply ev_hey.
  Qed.

  Lemma transform_ok v cs ds e T base d args c b g T' : transform v cs ds e T base d args c b = Ok (g, T') -> All (every P) b -> gen_ok g.
  Proof.
    intros E Hb. destruct e; cbn [transform] in E;
      try (unfold no_procs in E; apply rbind_ok in E; destruct E as (b' & E1 & E); inversion E; subst; clear E; split; [cbn [fst] | constructor]; [idtac]).
    - destruct args as [|inv [|]]; try discriminate E1. inversion E1; subst. now apply ev_kind.
    - destruct args as [|k [|inv [|]]]; try discriminate E1. cbn [k_induction_transform] in E1. apply rbind_ok in E1. destruct E1 as (n & _ & E1).
      destruct (BinNat.N.eqb n BinNums.N0); inversion E1; subst. now apply ev_kind.
    - destruct args as [|k [|t [|]]]; try discriminate E1. cbn [unroll_transform] in E1. apply rbind_ok in E1. destruct E1 as (n & _ & E1).
      inversion E1; subst. apply ev_unroll; auto. apply ev_hey.
    - destruct args as [|[n| | | | | | | |] [|inv [|]]]; try discriminate E1. cbn [omega_transform] in E1. inversion E1; subst. clear E1.
      assert (N1 : every P (encode_iter c b (hey_const inv d))) by (apply ev_iter; auto; apply ev_hey).
      assert (N2 : every P (encode_iter c b (hey_const (b_cast TEUReal (b_uint BinNums.N0)) d))) by (apply ev_iter; auto; apply ev_hey).
      destruct d; cbn [All every] in *; repeat split; auto; try apply N1; try apply N2.
    - eapply ost_ok; eauto.
    - eapply past_ok; eauto.
    - eapply ast_ok; eauto.
  Qed.
End Transforms.

Lemma not_while_annotated s : every not_while s -> annotated s.
Proof.
  assert (HB : forall b, Forall (fun s => every not_while s -> annotated s) b -> All (every not_while) b -> All annotated b).
  { induction 1; cbn [All]; auto. intros [? ?]; auto. }
  induction s using stmt_rect'; cbn [every annotated not_while]; intros Hs; auto; try tauto.
  - destruct Hs; auto.
  - destruct Hs as (_ & ? & ?); auto.
  - destruct Hs as (_ & ? & ?); auto.
  - destruct Hs as (_ & ? & ?); auto.
  - destruct Hs as (_ & ? & ?); auto.
  - destruct Hs as [_ Hs]. pose proof (IHs Hs) as K. destruct s; auto; destruct K.
Qed.
Lemma blocks_annotated b : All (every not_while) b -> All annotated b.
Proof. induction b; cbn [All]; auto. intros [? ?]; split; auto using not_while_annotated. Qed.

Lemma block_spec (f : stmt -> vst -> res (stmt * vst)) (Pre : stmt -> Prop) (Q : stmt -> stmt -> Prop) (St : vst -> vst -> Prop) :
  (forall v, St v v) -> (forall a b c, St a b -> St b c -> St a c) ->
  (forall s v s' v', Pre s -> f s v = Ok (s', v') -> Q s s' /\ St v v') ->
  forall b v b' v', All Pre b -> visit_block_with f b v = Ok (b', v') -> Forall2 Q b b' /\ St v v'.
Proof.
  intros R Tr H. induction b as [|s b IH]; intros v b' v' HP E; cbn [visit_block_with] in E.
  - inversion E; subst. split; auto.
  - apply rbind_ok in E. destruct E as ([s1 v1] & E1 & E). apply rbind_ok in E. destruct E as ([b1 v2] & E2 & E). inversion E; subst; clear E.
    destruct HP as [HP1 HP2]. destruct (H _ _ _ _ HP1 E1) as [A1 A2]. destruct (IH _ _ _ HP2 E2) as [B1 B2]. split; eauto.
Qed.
Lemma Forall2_All (P : stmt -> Prop) (a b : list stmt) : Forall2 (fun _ s' => P s') a b -> All P b.
Proof. induction 1; cbn; auto. Qed.
Lemma All_True b : All (fun _ : stmt => True) b.
Proof. induction b; cbn; auto. Qed.

Section Visitor.
  Variables (variant : nat -> nat) (cspan dspan : list expr -> nat).
  Notation vis := (visit variant cspan dspan).

  (** procedures are only added *)
  Definition adds (P : proc -> Prop) (v v' : vst) : Prop := exists ps, v_new v' = v_new v ++ ps /\ Forall P ps.
  Lemma adds_refl P v : adds P v v.
  Proof. exists []. rewrite app_nil_r. auto. Qed.
  Lemma adds_trans P a b c : adds P a b -> adds P b c -> adds P a c.
  Proof. intros (p1 & E1 & H1) (p2 & E2 & H2). exists (p1 ++ p2). rewrite E2, E1, app_assoc. split; auto. now apply Forall_app. Qed.
  Lemma adds_eq P v v' : v_new v = v_new v' -> adds P v v'.
  Proof. intros E. exists []. rewrite app_nil_r. auto. Qed.

  Lemma procs_spec (f : context -> list stmt -> vst -> res (list stmt * vst)) (P Q : stmt -> Prop) :
    (forall ctx b v b' v', All (every P) b -> f ctx b v = Ok (b', v') -> All (every Q) b' /\ adds (body_ok Q) v v') ->
    forall ps v ps' v', Forall (body_ok P) ps -> visit_procs_with f ps v = Ok (ps', v') -> Forall (body_ok Q) ps' /\ adds (body_ok Q) v v'.
  Proof.
    intros H. induction ps as [|p ps IH]; intros v ps' v' HP E; cbn [visit_procs_with] in E.
    - inversion E; subst. split; auto using adds_refl.
    - apply rbind_ok in E. destruct E as ([b1 v1] & E1 & E). apply rbind_ok in E. destruct E as ([ps1 v2] & E2 & E). inversion E; subst; clear E.
      inversion HP; subst. unfold body_ok in H2.
      destruct (IH _ _ _ H3 E2) as [B1 B2].
      assert (A : match b1 with Some b => All (every Q) b | None => True end /\ adds (body_ok Q) v v1).
      { destruct (pbody p); [|inversion E1; subst; auto using adds_refl].
        apply rbind_ok in E1. destruct E1 as ([b2 v3] & E3 & E1). inversion E1; subst. now apply H in E3. }
      destruct A as [A1 A2]. split; [constructor; auto|]. eapply adds_trans; eauto.
  Qed.

  (** No proof rule is left over. *)
  Lemma visit_not_rule n : forall ctx nest s v s' v', vis n ctx nest s v = Ok (s', v') -> every not_rule s' /\ adds (body_ok not_rule) v v'.
  Proof.
    induction n as [|n IH]; intros ctx nest s v s' v' E; [discriminate|].
    assert (HB : forall ctx nest b v b' v', visit_block_with (vis n ctx nest) b v = Ok (b', v') ->
                 All (every not_rule) b' /\ adds (body_ok not_rule) v v').
    { intros ctx0 nest0 b v0 b' v0' E0.
      destruct (block_spec (vis n ctx0 nest0) (fun _ => True) (fun _ s' => every not_rule s') (adds (body_ok not_rule))) with (5 := E0) as [A B];
        auto using adds_refl, All_True; [intros; eapply adds_trans; eauto | intros; eapply IH; eauto|]. split; auto. eapply Forall2_All; eauto. }
    destruct s; cbn [visit] in E;
      try (destruct (v_term v); [discriminate|]; inversion E; subst; split; [split; exact Logic.I | apply adds_refl]);
      try (destruct (v_term v); [discriminate|];
           apply rbind_ok in E; destruct E as ([c1 v1] & E1 & E); apply rbind_ok in E; destruct E as ([c2 v2] & E2 & E); inversion E; subst; clear E;
           apply HB in E1; apply HB in E2; destruct E1, E2; cbn [every]; repeat split; auto; eapply adds_trans; eauto);
      try (destruct (v_term v); [discriminate|];
           apply rbind_ok in E; destruct E as ([c1 v1] & E1 & E); inversion E; subst; clear E;
           apply HB in E1; destruct E1; cbn [every]; repeat split; auto).
    apply rbind_ok in E. destruct E as ([s1 v1] & E1 & E). apply IH in E1. destruct E1 as [A1 A2].
    destruct (enc_of name) eqn:En.
    - destruct ctx as [[base d]|]; [|discriminate]. destruct s1; try discriminate.
      destruct (is_terminator e && Nat.ltb 0 nest); [discriminate|].
      apply rbind_ok in E. destruct E as ([g T2] & E2 & E). apply rbind_ok in E. destruct E as ([b3 v3] & E3 & E).
      apply rbind_ok in E. destruct E as ([ps v4] & E4 & E). inversion E; subst; clear E.
      cbn [every] in A1. destruct A1 as [_ A1].
      destruct (transform_ok not_rule closed_not_rule _ _ _ _ _ _ _ _ _ _ _ _ E2 A1) as [G1 G2].
      apply HB in E3. destruct E3 as [B1 B2].
      apply (procs_spec _ not_rule not_rule) in E4; auto; [|intros; eapply HB; eauto]. destruct E4 as [C1 C2].
      split; [split; [exact Logic.I | exact B1]|].
      apply adds_trans with v1; auto. apply adds_trans with v3; [destruct B2 as (p2 & F1 & F2); exists p2; auto|].
      apply adds_trans with v4; auto. exists ps. auto.
    - inversion E; subst. split; auto. split; auto. now apply enc_of_rule.
  Qed.

  (** No loop is left over. *)
  Lemma visit_no_while n : forall ctx nest s v s' v', vis n ctx nest s v = Ok (s', v') ->
    (annotated s -> every not_while s' /\ adds (body_ok not_while) v v') /\
    (forall c b, s = SWhile c b -> All annotated b -> exists b', s' = SWhile c b' /\ All (every not_while) b' /\ adds (body_ok not_while) v v').
  Proof.
    induction n as [|n IH]; intros ctx nest s v s' v' E; [discriminate|].
    assert (HB : forall ctx nest b v b' v', All annotated b -> visit_block_with (vis n ctx nest) b v = Ok (b', v') ->
                 All (every not_while) b' /\ adds (body_ok not_while) v v').
    { intros ctx0 nest0 b v0 b' v0' Ha E0.
      destruct (block_spec (vis n ctx0 nest0) annotated (fun _ s' => every not_while s') (adds (body_ok not_while))) with (5 := E0) as [A B];
        auto using adds_refl; [intros; eapply adds_trans; eauto | intros ? ? ? ? Hs Es; apply IH in Es; now apply Es |]. split; auto. eapply Forall2_All; eauto. }
    destruct s; cbn [visit] in E;
      try (destruct (v_term v); [discriminate|]; inversion E; subst; split; [intros _; split; [split; exact Logic.I | apply adds_refl] | discriminate]);
      try (destruct (v_term v); [discriminate|]; split; [|discriminate]; intros [Ha Hb];
           apply rbind_ok in E; destruct E as ([c1 v1] & E1 & E); apply rbind_ok in E; destruct E as ([c2 v2] & E2 & E); inversion E; subst; clear E;
           apply HB in E1; auto; apply HB in E2; auto; destruct E1, E2; cbn [every]; repeat split; auto; eapply adds_trans; eauto).
    - destruct (v_term v); [discriminate|]. split; [|discriminate]. intros Ha.
      apply rbind_ok in E; destruct E as ([c1 v1] & E1 & E); inversion E; subst; clear E.
      apply HB in E1; auto. destruct E1; cbn [every]; repeat split; auto.
    - destruct (v_term v); [discriminate|]. split; [intros []|]. intros c0 b0 Es Ha. inversion Es; subst.
      apply rbind_ok in E; destruct E as ([c1 v1] & E1 & E); inversion E; subst; clear E.
      apply HB in E1; auto. destruct E1. eauto.
    - split; [|discriminate]. intros Ha.
      apply rbind_ok in E. destruct E as ([s1 v1] & E1 & E). apply IH in E1.
      destruct (enc_of name) eqn:En.
      + destruct ctx as [[base d]|]; [|discriminate]. destruct s1; try discriminate.
        destruct (is_terminator e && Nat.ltb 0 nest); [discriminate|].
        apply rbind_ok in E. destruct E as ([g T2] & E2 & E). apply rbind_ok in E. destruct E as ([b3 v3] & E3 & E).
        apply rbind_ok in E. destruct E as ([ps v4] & E4 & E). inversion E; subst; clear E.
        assert (A : All (every not_while) b /\ adds (body_ok not_while) v v1).
        { cbn [annotated] in Ha. destruct s; try (destruct E1 as [E1 _]; specialize (E1 Ha); destruct E1 as [[[] _] _]).
          destruct E1 as [_ E1]. destruct Ha as [_ Ha]. destruct (E1 _ _ eq_refl Ha) as (b' & F1 & F2 & F3). inversion F1; subst. auto. }
        destruct A as [A1 A2].
        destruct (transform_ok not_while closed_not_while _ _ _ _ _ _ _ _ _ _ _ _ E2 A1) as [G1 G2].
        apply HB in E3; [|now apply blocks_annotated]. destruct E3 as [B1 B2].
        apply (procs_spec _ not_while not_while) in E4; auto; [|intros; eapply HB; eauto using blocks_annotated]. destruct E4 as [C1 C2].
        split; [split; [exact Logic.I | exact B1]|].
        apply adds_trans with v1; auto. apply adds_trans with v3; [destruct B2 as (p2 & F1 & F2); exists p2; auto|].
        apply adds_trans with v4; auto. exists ps. auto.
      + inversion E; subst. apply enc_of_rule in En.
        assert (Hs : annotated s) by (cbn [annotated] in Ha; destruct s; auto; destruct Ha as [Hr _]; congruence).
        destruct E1 as [E1 _]. destruct (E1 Hs) as [F1 F2]. cbn [every]. repeat split; auto.
  Qed.

  (** What carries no proof rule is left alone. *)
  Lemma block_id f : (forall s v s' v', every not_rule s -> f s v = Ok (s', v') -> s' = s /\ v' = v) ->
    forall b v b' v', All (every not_rule) b -> visit_block_with f b v = Ok (b', v') -> b' = b /\ v' = v.
  Proof.
    intros H. induction b as [|s b IH]; intros v b' v' Hb E; cbn [visit_block_with] in E; [now inversion E|].
    destruct Hb as [H1 H2]. apply rbind_ok in E. destruct E as ([s1 v1] & E1 & E). apply rbind_ok in E. destruct E as ([b1 v2] & E2 & E). inversion E; subst; clear E.
    apply H in E1; auto. destruct E1; subst. apply IH in E2; auto. destruct E2; subst. auto.
  Qed.
  Lemma visit_id n : forall ctx nest s v s' v', every not_rule s -> vis n ctx nest s v = Ok (s', v') -> s' = s /\ v' = v.
  Proof.
    induction n as [|n IH]; intros ctx nest s v s' v' Hs E; [discriminate|].
    pose proof (fun ctx nest => block_id _ (IH ctx nest)) as HB.
    destruct s; cbn [visit] in E; cbn [every] in Hs;
      try (destruct (v_term v); [discriminate|]; inversion E; now subst);
      try (destruct (v_term v); [discriminate|]; destruct Hs as (_ & H1 & H2);
           apply rbind_ok in E; destruct E as ([c1 v1] & E1 & E); apply rbind_ok in E; destruct E as ([c2 v2] & E2 & E); inversion E; subst; clear E;
           apply HB in E1; auto; destruct E1; subst; apply HB in E2; auto; destruct E2; now subst);
      try (destruct (v_term v); [discriminate|]; destruct Hs as [_ H1];
           apply rbind_ok in E; destruct E as ([c1 v1] & E1 & E); inversion E; subst; clear E; apply HB in E1; auto; destruct E1; now subst).
    destruct Hs as [H1 H2]. apply rbind_ok in E. destruct E as ([s1 v1] & E1 & E). apply IH in E1; auto. destruct E1; subst.
    apply enc_of_rule in H1. rewrite H1 in E. now inversion E.
  Qed.
  Lemma visit_block_id n ctx nest b v b' v' : All (every not_rule) b -> visit_block_with (vis n ctx nest) b v = Ok (b', v') -> b' = b /\ v' = v.
  Proof. apply block_id. intros. eapply visit_id; eauto. Qed.
  Lemma visit_procs_id n nest ps : forall v ps' v', Forall (body_ok not_rule) ps ->
    visit_procs_with (fun ctx => visit_block_with (vis n ctx nest)) ps v = Ok (ps', v') -> ps' = ps /\ v' = v.
  Proof.
    induction ps as [|p ps IH]; intros v ps' v' HP E; cbn [visit_procs_with] in E; [now inversion E|].
    inversion HP; subst. apply rbind_ok in E. destruct E as ([b1 v1] & E1 & E). apply rbind_ok in E. destruct E as ([ps1 v2] & E2 & E). inversion E; subst; clear E.
    assert (A : b1 = pbody p /\ v1 = v).
    { unfold body_ok in H1. destruct (pbody p); [|now inversion E1]. apply rbind_ok in E1. destruct E1 as ([b2 v3] & E3 & E1). inversion E1; subst.
      apply visit_block_id in E3; auto. destruct E3; now subst. }
    destruct A; subst. apply IH in E2; auto. destruct E2; subst. split; auto. destruct p; reflexivity.
  Qed.

  (** What visiting an annotated loop amounts to. *)
  Lemma visit_rule n ctx nest name args e s v s' v' : enc_of name = Some e -> vis (S n) ctx nest (SAnn name args s) v = Ok (s', v') ->
    exists base d c b v1 g T2, ctx = Some (base, d) /\ vis n ctx (S nest) s v = Ok (SWhile c b, v1) /\ is_terminator e && Nat.ltb 0 nest = false /\
      transform variant cspan dspan e (v_tcx v1) base d args c b = Ok (g, T2) /\ s' = SSeq (fst g) /\
      v' = mkvst (v_term v1 || is_terminator e) (v_new v1 ++ snd g) T2.
  Proof.
    intros En E. cbn [visit] in E. apply rbind_ok in E. destruct E as ([s1 v1] & E1 & E). rewrite En in E.
    destruct ctx as [[base d]|]; [|discriminate]. destruct s1; try discriminate.
    destruct (is_terminator e && Nat.ltb 0 nest) eqn:Et; [discriminate|].
    apply rbind_ok in E. destruct E as ([g T2] & E2 & E). apply rbind_ok in E. destruct E as ([b3 v3] & E3 & E).
    apply rbind_ok in E. destruct E as ([ps v4] & E4 & E). inversion E; subst; clear E.
    pose proof (proj1 (visit_not_rule _ _ _ _ _ _ _ E1)) as A1. cbn [every] in A1. destruct A1 as [_ A1].
    destruct (transform_ok not_rule closed_not_rule _ _ _ _ _ _ _ _ _ _ _ _ E2 A1) as [G1 G2].
    apply visit_block_id in E3; auto. destruct E3; subst. apply visit_procs_id in E4; auto. destruct E4; subst.
    cbn [v_term v_new v_tcx]. repeat eexists; eauto.
  Qed.

  (** Terminators *)
  Lemma visit_stop n : forall ctx nest s v r, v_term v = true -> vis n ctx nest s v <> Ok r.
  Proof.
    induction n as [|n IH]; intros ctx nest s v r Hv E; [discriminate|].
    destruct s; cbn [visit] in E; try (rewrite Hv in E; discriminate).
    apply rbind_ok in E. destruct E as ([s1 v1] & E1 & _). now apply IH in E1.
  Qed.
  Lemma block_ost f : (forall s v s' v', f s v = Ok (s', v') -> every not_ost s /\ v_term v' = v_term v) ->
    forall b v b' v', visit_block_with f b v = Ok (b', v') -> All (every not_ost) b /\ v_term v' = v_term v.
  Proof.
    intros H. induction b as [|s b IH]; intros v b' v' E; cbn [visit_block_with] in E; [inversion E; subst; split; auto; exact Logic.I|].
    apply rbind_ok in E. destruct E as ([s1 v1] & E1 & E). apply rbind_ok in E. destruct E as ([b1 v2] & E2 & E). inversion E; subst; clear E.
    apply H in E1. apply IH in E2. destruct E1, E2. cbn [All]. split; [split; auto | congruence].
  Qed.
  Lemma visit_ost n : forall ctx nest s v s' v', 0 < nest -> vis n ctx nest s v = Ok (s', v') -> every not_ost s /\ v_term v' = v_term v.
  Proof.
    induction n as [|n IH]; intros ctx nest s v s' v' Hn E; [discriminate|].
    pose proof (fun ctx nest Hn => block_ost _ (fun s v s' v' => IH ctx nest s v s' v' Hn)) as HB.
    destruct s; try (cbn [visit] in E; destruct (v_term v) eqn:Ev; [discriminate|]; inversion E; subst; split; [split; exact Logic.I | auto]; fail);
      try (cbn [visit] in E; destruct (v_term v) eqn:Ev; [discriminate|];
           apply rbind_ok in E; destruct E as ([c1 v1] & E1 & E); apply rbind_ok in E; destruct E as ([c2 v2] & E2 & E); inversion E; subst; clear E;
           apply HB in E1; auto; apply HB in E2; auto; destruct E1, E2; cbn [every]; repeat split; auto; congruence);
      try (cbn [visit] in E; destruct (v_term v) eqn:Ev; [discriminate|];
           apply rbind_ok in E; destruct E as ([c1 v1] & E1 & E); inversion E; subst; clear E; apply HB in E1; auto; destruct E1; cbn [every]; repeat split; auto; congruence).
    destruct (enc_of name) as [e|] eqn:En.
    - apply (visit_rule _ _ _ _ _ e) in E; auto. destruct E as (base & d & c & b & v1 & g & T2 & -> & E1 & Et & _ & -> & ->).
      apply Nat.ltb_lt in Hn. rewrite Hn, andb_true_r in Et. apply IH in E1; [|lia]. destruct E1 as [A1 A2]. cbn [v_term]. rewrite Et, orb_false_r.
      split; auto. split; auto. cbn [not_ost]. intros ->. cbn in En. inversion En; subst. discriminate Et.
    - cbn [visit] in E. apply rbind_ok in E. destruct E as ([s1 v1] & E1 & E). rewrite En in E. inversion E; subst. apply IH in E1; [|lia]. destruct E1 as [A1 A2].
      split; auto. split; auto. cbn [not_ost]. intros ->. discriminate En.
  Qed.

  (** An [@ost] loop is the last statement of the procedure. *)
  Lemma visit_block_ost n ctx b : forall v b' v', All annotated b -> v_term v = false -> visit_block variant cspan dspan n ctx 0 b v = Ok (b', v') ->
    (All (every not_ost) b /\ v_term v' = false) \/
    exists b1 args c body, b = b1 ++ [SAnn "ost" args (SWhile c body)] /\ All (every not_ost) b1 /\ All (every not_ost) body.
  Proof.
    unfold visit_block. induction b as [|s b IH]; intros v b' v' Ha Hv E; cbn [visit_block_with] in E.
    - inversion E; subst. left. split; auto; exact Logic.I.
    - apply rbind_ok in E. destruct E as ([s1 v1] & E1 & E). apply rbind_ok in E. destruct E as ([c2 v2] & E2 & E). inversion E; subst; clear E.
      destruct Ha as [Ha1 Ha2].
      assert (A : (every not_ost s /\ v_term v1 = false) \/
                  exists args c body, s = SAnn "ost" args (SWhile c body) /\ All (every not_ost) body /\ v_term v1 = true).
      { destruct n as [|n]; [discriminate E1|].
        destruct s; try (left; cbn [visit] in E1; rewrite Hv in E1; inversion E1; subst; split; [split; exact Logic.I | auto]; fail);
          try (left; cbn [visit] in E1; rewrite Hv in E1;
             apply rbind_ok in E1; destruct E1 as ([d1 w1] & F1 & E1); apply rbind_ok in E1; destruct E1 as ([d2 w2] & F2 & E1); inversion E1; subst; clear E1;
             apply (block_ost _ (fun s v s' v' => visit_ost n ctx 1 s v s' v' (le_n 1))) in F1;
             apply (block_ost _ (fun s v s' v' => visit_ost n ctx 1 s v s' v' (le_n 1))) in F2; destruct F1, F2; cbn [every]; repeat split; auto; congruence).
        - left; cbn [visit] in E1; rewrite Hv in E1.
          apply rbind_ok in E1; destruct E1 as ([d1 w1] & F1 & E1); inversion E1; subst; clear E1.
          apply (block_ost _ (fun s v s' v' => visit_ost n ctx 1 s v s' v' (le_n 1))) in F1. destruct F1; cbn [every]; repeat split; auto; congruence.
        - destruct Ha1.
        - destruct (enc_of name) as [e|] eqn:En.
          + apply (visit_rule _ _ _ _ _ e) in E1; auto. destruct E1 as (base & d & c & bd & w & g & T2 & -> & E1 & Et & _ & -> & ->).
            cbn [v_term].
            assert (W : exists body, s = SWhile c body).
            { cbn [annotated] in Ha1. destruct s; try (apply visit_no_while in E1; destruct E1 as [E1 _]; specialize (E1 Ha1); destruct E1 as [[[] _] _]).
              destruct n; [discriminate E1|]. cbn [visit] in E1. destruct (v_term v); [discriminate|]. apply rbind_ok in E1. destruct E1 as ([z1 z2] & _ & E1). inversion E1; subst. eauto. }
            destruct W as [body ->].
            apply visit_ost in E1; [|lia]. destruct E1 as [[_ B1] B2]. rewrite B2, Hv. destruct (is_terminator e) eqn:Ht.
            * right. destruct e; try discriminate Ht. apply enc_of_ost in En. subst. repeat eexists; auto.
            * left. split; auto. split; [|split; [exact Logic.I | exact B1]]. cbn [not_ost]. intros ->. cbn in En. inversion En; subst. discriminate Ht.
          + left. cbn [visit] in E1. apply rbind_ok in E1. destruct E1 as ([z1 z2] & F1 & E1). rewrite En in E1. inversion E1; subst.
            apply visit_ost in F1; [|lia]. destruct F1 as [B1 B2]. split; [split; auto | congruence]. cbn [not_ost]. intros ->. discriminate En. }
      destruct A as [[A1 A2]|(args & c & body & -> & A1 & A2)].
      + destruct (IH _ _ _ Ha2 A2 E2) as [[B1 B2]|(b1 & args & c & body & -> & B1 & B2)].
        * left. cbn [All]. auto.
        * right. exists (s :: b1), args, c, body. cbn [All app]. auto.
      + right. destruct b as [|s2 b].
        * exists [], args, c, body. repeat split; auto.
        * cbn [visit_block_with] in E2. apply rbind_ok in E2. destruct E2 as ([z1 z2] & F1 & _). exfalso. eapply visit_stop; eauto.
  Qed.

  (** Termination *)
  Definition PF {A} : res A := Panic "visitor fuel".
  Lemma rbind_np {A B} (m : res A) (f : A -> res B) : m <> PF -> (forall a, m = Ok a -> f a <> PF) -> rbind m f <> PF.
  Proof. intros Hm Hf. destruct m; cbn; auto; try discriminate. intros E. apply Hm. inversion E. reflexivity. Qed.
  Lemma rbind_ext {A B} (m m' : res A) (f f' : A -> res B) : (m <> PF -> m' = m) -> (forall a, f a <> PF -> f' a = f a) -> rbind m f <> PF -> rbind m' f' = rbind m f.
  Proof.
    intros Hm Hf H. assert (M : m <> PF) by (intros ->; apply H; reflexivity). rewrite (Hm M). destruct m; auto. apply Hf. exact H.
  Qed.

  Definition extends {A B} (g f : A -> vst -> res B) : Prop := forall s v, f s v <> PF -> g s v = f s v.
  Lemma block_ext f g : extends g f -> extends (visit_block_with g) (visit_block_with f).
  Proof.
    intros H. intros b. induction b as [|s b IH]; intros v Hv; auto. cbn [visit_block_with] in *.
    apply rbind_ext; auto. intros [s1 v1] H1. apply rbind_ext; auto.
  Qed.
  Lemma procs_ext (f g : context -> list stmt -> vst -> res (list stmt * vst)) : (forall ctx, extends (g ctx) (f ctx)) -> extends (visit_procs_with g) (visit_procs_with f).
  Proof.
    intros H. intros ps. induction ps as [|p ps IH]; intros v Hv; auto. cbn [visit_procs_with] in *.
    apply rbind_ext; auto.
    - destruct (pbody p); auto. intros K. apply rbind_ext; auto. intros. apply H; auto.
    - intros [b1 v1] H1. apply rbind_ext; auto.
  Qed.
  Lemma visit_more n : forall ctx nest, extends (vis (S n) ctx nest) (vis n ctx nest).
  Proof.
    induction n as [|n IH]; intros ctx nest s v H; [now elim H|].
    remember (S n) as m. rewrite Heqm in H. rewrite Heqm at 2. cbn [visit] in *.
    assert (HB : forall ctx nest b v, visit_block_with (vis n ctx nest) b v <> PF ->
                  visit_block_with (vis m ctx nest) b v = visit_block_with (vis n ctx nest) b v).
    { intros. subst m. apply block_ext; auto. }
    destruct s; auto;
      try (destruct (v_term v); auto; apply rbind_ext; auto; intros [z1 z2] K; auto; apply rbind_ext; auto; fail).
    apply rbind_ext; [intros K; subst m; apply IH; auto | | exact H]. intros [s1 v1] K.
    destruct (enc_of name); auto. destruct ctx as [[base d]|]; auto. destruct s1; auto. destruct (is_terminator e && Nat.ltb 0 nest); auto.
    apply rbind_ext; auto. intros [g T2] K2. apply rbind_ext; auto. intros [b3 v3] K3. apply rbind_ext; auto.
    intros K4. apply procs_ext; auto. intros ctx b0 v0 K5. apply HB; auto.
  Qed.
  Lemma visit_le n m ctx nest s v : n <= m -> vis n ctx nest s v <> PF -> vis m ctx nest s v = vis n ctx nest s v.
  Proof.
    intros L H. induction L; auto. rewrite <- IHL. apply visit_more. now rewrite IHL.
  Qed.
  Lemma visit_block_le n m ctx nest b v : n <= m -> visit_block_with (vis n ctx nest) b v <> PF -> visit_block_with (vis m ctx nest) b v = visit_block_with (vis n ctx nest) b v.
  Proof. intros L. apply block_ext. intros s w. now apply visit_le. Qed.

  Fixpoint height (s : stmt) : nat :=
    let block b := fold_right (fun s n => Nat.max (height s) n) 0 b in
    match s with
    | SSeq b | SWhile _ b => S (block b)
    | SDemonic a b | SAngelic a b | SAdditive a b | SIf _ a b => S (Nat.max (block a) (block b))
    | SAnn _ _ s => S (height s)
    | _ => 0
    end.
  Definition heights (b : list stmt) : nat := fold_right (fun s n => Nat.max (height s) n) 0 b.

  Lemma block_np f b v : (forall s v, In s b -> f s v <> PF) -> visit_block_with f b v <> PF.
  Proof.
    revert v. induction b as [|s b IH]; intros v H; cbn [visit_block_with]; [discriminate|].
    apply rbind_np; [apply H; now left|]. intros [s1 v1] _. apply rbind_np; [apply IH; intros; apply H; now right|]. intros [b1 v2] _. discriminate.
  Qed.
  Lemma heights_in s b : In s b -> height s <= heights b.
  Proof. induction b as [|a b IH]; cbn; [tauto|]. fold (heights b). intros [->|H]; [lia|]. apply IH in H. lia. Qed.
  Lemma visit_plain_np n : forall ctx nest s v, every not_rule s -> height s < n -> vis n ctx nest s v <> PF.
  Proof.
    induction n as [|n IH]; intros ctx nest s v Hs Hn; [lia|].
    assert (HB : forall ctx nest b v, All (every not_rule) b -> heights b < n -> visit_block_with (vis n ctx nest) b v <> PF).
    { intros ctx0 nest0 b v0 Hb Hh. apply block_np. intros s0 v1 Hin. apply IH.
      - clear - Hb Hin. induction b; cbn in *; [tauto|]. destruct Hin as [->|]; [apply Hb | apply IHb; tauto].
      - apply heights_in in Hin. lia. }
    destruct s; cbn [visit]; cbn [every] in Hs; cbn [height] in Hn; try (destruct (v_term v); discriminate);
      try (destruct (v_term v); [discriminate|]; destruct Hs as (_ & H1 & H2); fold (heights b1) (heights b2) in Hn;
           apply rbind_np; [apply HB; auto; lia|]; intros [z1 z2] _; apply rbind_np; [apply HB; auto; lia|]; intros [z3 z4] _; discriminate);
      try (destruct (v_term v); [discriminate|]; destruct Hs as [_ H1]; fold (heights b) in Hn;
           apply rbind_np; [apply HB; auto; lia|]; intros [z1 z2] _; discriminate).
    destruct Hs as [H1 H2]. apply enc_of_rule in H1. apply rbind_np; [apply IH; auto; lia|]. intros [z1 z2] _. rewrite H1. discriminate.
  Qed.

  Lemma collect_np e : forall acc, collect e acc <> PF.
  Proof.
    induction e using expr_rect'; intros acc; cbn [collect]; try discriminate; auto.
    - revert acc. induction H as [|a l Ha Hl IH]; intros acc; [discriminate|]. apply rbind_np; auto.
    - apply rbind_np; auto. intros. apply rbind_np; auto.
    - apply rbind_np; auto.
    - apply rbind_np; auto. discriminate.
  Qed.
  Lemma fresh_np n : forall T x sp, fresh_loop n T x sp <> PF.
  Proof. induction n; intros; cbn [fresh_loop]; [discriminate|]. destruct (bump _ _). destruct (contains_key _ _); [apply IHn | discriminate]. Qed.
  Lemma declare_np T x b : declare T x b <> PF.
  Proof. unfold declare. destruct (contains_key T x); discriminate. Qed.
  Lemma gen_np v ds T base name d ins outs specs b : generate_proc v ds T base name d ins outs specs b <> PF.
  Proof.
    unfold generate_proc. apply rbind_np; [apply fresh_np|]. intros [y T1] _. apply rbind_np; [apply declare_np|]. discriminate.
  Qed.
  Lemma params_np T xs : params_from_idents T xs <> PF.
  Proof. induction xs; cbn; [discriminate|]. destruct (get T a); [|discriminate]. apply rbind_np; auto. discriminate. Qed.
  Lemma inits_np v xs : forall T, get_init_idents v T xs <> PF.
  Proof.
    induction xs; intros T; cbn [get_init_idents]; [discriminate|]. destruct (get T a) as [[]|]; try discriminate.
    apply rbind_np; [destruct (get T (init_ident v a)); [discriminate | apply declare_np]|]. intros T1 _. apply rbind_np; auto. intros [ys T2] _. discriminate.
  Qed.
  Lemma iexpr_np T x : ident_expr T x <> PF.
  Proof. unfold ident_expr. destruct (get T x) as [[]|]; discriminate. Qed.
  Lemma iexprs_np T xs : ident_exprs T xs <> PF.
  Proof. induction xs; cbn [ident_exprs]; [discriminate|]. apply rbind_np; [apply iexpr_np|]. intros. apply rbind_np; auto. discriminate. Qed.
  Lemma massign_np xs es : multiple_assign xs es <> PF.
  Proof. unfold multiple_assign. destruct (Nat.eqb _ _); discriminate. Qed.
  Lemma toinit_np v T e xs : to_init_expr v T e xs <> PF.
  Proof. unfold to_init_expr. apply rbind_np; [apply inits_np|]. intros [ys T1] _. apply rbind_np; [apply iexprs_np|]. discriminate. Qed.
  Lemma litr_np e : lit_rational e <> PF.
  Proof. induction e using expr_rect'; cbn; try discriminate; auto. destruct l; discriminate. Qed.
  Lemma newid_np cs T n t : new_ident_with_name cs T n t <> PF.
  Proof. unfold new_ident_with_name. destruct (get T _); [discriminate|]. apply rbind_np; [apply declare_np|]. discriminate. Qed.
  Lemma lit_np e : lit_u128 e <> PF.
  Proof. destruct e; cbn; try discriminate. destruct l; try discriminate. destruct (BinNat.N.ltb _ _); discriminate. Qed.

  Ltac np := repeat (cbn zeta; first
    [ discriminate | apply collect_np | apply gen_np | apply params_np | apply inits_np | apply iexprs_np | apply iexpr_np | apply massign_np
    | apply toinit_np | apply litr_np | apply newid_np | apply lit_np | (apply rbind_np; [|intros [? ?] _]) | (apply rbind_np; [|intros ? _]) ]).
  Lemma transform_np e T base d args c b : transform variant cspan dspan e T base d args c b <> PF.
  Proof.
    destruct e; cbn [transform]; try (unfold no_procs; apply rbind_np; [|discriminate]).
    - destruct args as [|? [|? ?]]; discriminate.
    - destruct args as [|? [|? [|? ?]]]; try discriminate. cbn [k_induction_transform]. apply rbind_np; [apply lit_np|]. intros n _. destruct (BinNat.N.eqb n BinNums.N0); discriminate.
    - destruct args as [|? [|? [|? ?]]]; try discriminate. cbn [unroll_transform]. np.
    - destruct args as [|[n| | | | | | | |] [|inv [|]]]; discriminate.
    - unfold ost_transform. destruct args as [|inv [|pinv [|cc [|post [|? ?]]]]]; try discriminate. np.
    - unfold past_transform. destruct args as [|inv [|eps [|k [|? ?]]]]; try discriminate.
      apply rbind_np; [np|]. intros q1 _. apply rbind_np; [np|]. intros q2 _. destruct (QArith_base.Qle_bool q2 q1); [discriminate|].
      destruct (past_conditions _ _ _ _) as [c1 c2]. np.
    - unfold ast_transform. destruct args as [|inv [|var [|[fvar| | | | | | | | ] [|prob [|decr [|? ?]]]]]]; try discriminate. np.
  Qed.

  Definition ends (s : stmt) : Prop := forall ctx nest v, exists n, vis n ctx nest s v <> PF.
  Lemma ends_block b : Forall ends b -> forall ctx nest v, exists n, visit_block_with (vis n ctx nest) b v <> PF.
  Proof.
    intros H ctx nest. induction H as [|s b Hs Hb IH]; intros v; [exists 0; discriminate|].
    destruct (Hs ctx nest v) as [n Hn]. destruct (vis n ctx nest s v) as [[s1 v1]| |] eqn:E.
    - destruct (IH v1) as [m Hm]. exists (n + m). cbn [visit_block_with]. rewrite (visit_le n (n + m)), E by (lia || (rewrite E; discriminate)). cbn [rbind].
      apply rbind_np; [rewrite (visit_block_le m (n + m)) by (auto; lia); auto|]. intros [? ?] _. discriminate.
    - exists n. cbn [visit_block_with]. rewrite E. discriminate.
    - exists n. cbn [visit_block_with]. rewrite E. cbn [rbind]. intros K. apply Hn. inversion K. reflexivity.
  Qed.
  Lemma procs_np f ps : forall v, (forall p b ctx v, In p ps -> pbody p = Some b -> f ctx b v <> PF) -> visit_procs_with f ps v <> PF.
  Proof.
    induction ps as [|p ps IH]; intros v H; cbn [visit_procs_with]; [discriminate|].
    apply rbind_np.
    - destruct (pbody p) eqn:E; [|discriminate]. apply rbind_np; [apply (H p); auto; now left|]. intros [? ?] _. discriminate.
    - intros [b1 v1] _. apply rbind_np; [apply IH; intros; eapply H; eauto; now right|]. intros [? ?] _. discriminate.
  Qed.

  Lemma visit_ends s : ends s.
  Proof.
    induction s using stmt_rect'; intros ctx nest v;
      try (exists 1; cbn [visit]; destruct (v_term v); discriminate);
      try (rename H into Ha, H0 into Hb; destruct (ends_block _ Ha ctx (S nest) v) as [n Hn];
           destruct (visit_block_with (vis n ctx (S nest)) a v) as [[a1 v1]|e|e] eqn:Ea;
           [ destruct (ends_block _ Hb ctx (S nest) v1) as [m Hm]; exists (S (n + m)); cbn [visit]; destruct (v_term v); [discriminate|];
             rewrite (visit_block_le n (n + m)), Ea by (lia || (rewrite Ea; discriminate)); cbn [rbind];
             apply rbind_np; [rewrite (visit_block_le m (n + m)) by (auto; lia); auto|]; intros [? ?] _; discriminate
           | exists (S n); cbn [visit]; rewrite Ea; destruct (v_term v); discriminate
           | exists (S n); cbn [visit]; rewrite Ea; destruct (v_term v); [discriminate|]; cbn [rbind]; intros K; apply Hn; inversion K; reflexivity ]; fail);
      try (rename H into Ha).
    - destruct (ends_block _ Ha ctx (S nest) v) as [n Hn]. exists (S n). cbn [visit]. destruct (v_term v); [discriminate|]. apply rbind_np; auto. intros [? ?] _. discriminate.
    - destruct (ends_block _ Ha ctx nest v) as [n Hn]. exists (S n). cbn [visit]. destruct (v_term v); [discriminate|]. apply rbind_np; auto. intros [? ?] _. discriminate.
    - rename n into name. destruct (IHs ctx (S nest) v) as [n Hn]. destruct (vis n ctx (S nest) s v) as [[s1 v1]|e|e] eqn:Es.
      + assert (D : exists hb hp, forall m, n <= m -> hb < m -> hp < m -> vis (S m) ctx nest (SAnn name args s) v <> PF).
        { assert (EM : forall m, n <= m -> vis m ctx (S nest) s v = Ok (s1, v1)).
          { intros m L. rewrite (visit_le n m), Es; auto. rewrite Es. discriminate. }
          destruct (enc_of name) as [e|] eqn:En; [|exists 0, 0; intros m L _ _; cbn [visit]; rewrite EM by auto; cbn [rbind]; rewrite En; discriminate].
          destruct ctx as [[base d]|]; [|exists 0, 0; intros m L _ _; cbn [visit]; rewrite EM by auto; cbn [rbind]; rewrite En; discriminate].
          destruct s1; try (exists 0, 0; intros m L _ _; cbn [visit]; rewrite EM by auto; cbn [rbind]; rewrite En; discriminate).
          destruct (is_terminator e && Nat.ltb 0 nest) eqn:Et;
            [exists 0, 0; intros m L _ _; cbn [visit]; rewrite EM by auto; cbn [rbind]; rewrite En, Et; discriminate|].
          destruct (transform variant cspan dspan e (v_tcx v1) base d args c b) as [[g T2]|er|er] eqn:Eg.
          - pose proof (proj1 (visit_not_rule _ _ _ _ _ _ _ Es)) as A1. cbn [every] in A1. destruct A1 as [_ A1].
            destruct (transform_ok not_rule closed_not_rule _ _ _ _ _ _ _ _ _ _ _ _ Eg A1) as [G1 G2].
            exists (heights (fst g)), (fold_right (fun p n => Nat.max (match pbody p with Some b => heights b | None => 0 end) n) 0 (snd g)).
            intros m L L1 L2. cbn [visit]. rewrite EM by auto. cbn [rbind]. rewrite En, Et, Eg. cbn [rbind].
            assert (HB : forall ctx b v, All (every not_rule) b -> heights b < m -> visit_block_with (vis m ctx nest) b v <> PF).
            { intros ctx0 b0 v0 Hb Hh. apply block_np. intros s0 v2 Hin. apply visit_plain_np.
              - clear - Hb Hin. induction b0; cbn in *; [tauto|]. destruct Hin as [->|]; [apply Hb | apply IHb0; tauto].
              - apply heights_in in Hin. lia. }
            apply rbind_np; [apply HB; auto|]. intros [b3 v3] _. apply rbind_np; [|intros [? ?] _; discriminate].
            apply procs_np. intros p b0 ctx v0 Hin Hp. rewrite Forall_forall in G2. apply G2 in Hin as Hok. unfold body_ok in Hok. rewrite Hp in Hok.
            apply HB; auto. clear - Hin Hp L2. induction (snd g) as [|q l IH]; cbn in *; [tauto|]. destruct Hin as [->|Hin]; [rewrite Hp in L2; lia | apply IH; auto; lia].
          - exists 0, 0. intros m L _ _. cbn [visit]. rewrite EM by auto. cbn [rbind]. rewrite En, Et, Eg. discriminate.
          - exists 0, 0. intros m L _ _. cbn [visit]. rewrite EM by auto. cbn [rbind]. rewrite En, Et, Eg. cbn [rbind].
            intros K. inversion K. subst. apply (transform_np e (v_tcx v1) base d args c b). exact Eg. }
        destruct D as (hb & hp & D). exists (S (n + S hb + S hp)). apply D; lia.
      + exists (S n). cbn [visit]. rewrite Es. discriminate.
      + exists (S n). cbn [visit]. rewrite Es. cbn [rbind]. intros K. apply Hn. inversion K. reflexivity.
  Qed.
  (** With enough fuel the visitor has one answer, and it is not that the fuel ran out. *)
  Lemma visit_block_ends b ctx nest v : exists N r, r <> Panic "visitor fuel" /\ forall n, N <= n -> visit_block variant cspan dspan n ctx nest b v = r.
  Proof.
    destruct (ends_block b (proj2 (Forall_forall ends b) (fun s _ => visit_ends s)) ctx nest v) as [N HN].
    exists N, (visit_block_with (vis N ctx nest) b v). split; auto. intros n L. now apply visit_block_le.
  Qed.
End Visitor.
