(** Consequences of EncodeProofs for whole procedures, and an example. *)
From Coq Require Import Bool List String Arith NArith QArith.
From Verif.Model Require Import Syntax Builder TyCtx ProofRules Procs LoopProcs Encode VcGen.
From Verif.Spec Require Import Eur Sem Wp Annotated.
From Verif.Proofs Require Import SimLemmas VcGenProofs EncodeProofs.
Import ListNotations.
Local Open Scope nat_scope.
Local Open Scope list_scope.

Section Encode.
  Variables (variant : nat -> nat) (cspan dspan : list expr -> nat).
  Lemma encode_inv n T p b' v : encode_proc variant cspan dspan n T p = Ok (Some b', v) ->
    exists b, pbody p = Some b /\ visit_block variant cspan dspan n (Some (pname p, pdir p)) 0 b (mkvst false [] T) = Ok (b', v).
  Proof.
    unfold encode_proc. destruct (pbody p) as [b|]; [|discriminate]. intros E. apply rbind_ok in E. destruct E as ([b1 v1] & E1 & E).
    inversion E; subst. eauto.
  Qed.
  Lemma adds_nil P T v : adds P (mkvst false [] T) v -> Forall P (v_new v).
  Proof. intros (ps & E & H). cbn [v_new app] in E. now rewrite E. Qed.

  Lemma encode_no_rule n T p b' v : encode_proc variant cspan dspan n T p = Ok (Some b', v) ->
    All (every not_rule) b' /\ Forall (fun q => match pbody q with Some b => All (every not_rule) b | None => True end) (v_new v).
  Proof.
    intros E. apply encode_inv in E. destruct E as (b & _ & E).
    destruct (block_spec (visit variant cspan dspan n (Some (pname p, pdir p)) 0) (fun _ => True) (fun _ s' => every not_rule s') (adds (body_ok not_rule))) with (5 := E) as [A B];
      auto using adds_refl, All_True; [intros; eapply adds_trans; eauto | intros; eapply visit_not_rule; eauto|].
    split; [eapply Forall2_All; eauto | apply adds_nil in B; exact B].
  Qed.
  Lemma encode_no_loop n T p b b' v : pbody p = Some b -> All annotated b -> encode_proc variant cspan dspan n T p = Ok (Some b', v) ->
    All (every not_while) b' /\ Forall (fun q => match pbody q with Some b => All (every not_while) b | None => True end) (v_new v).
  Proof.
    intros Hp Ha E. apply encode_inv in E. destruct E as (b0 & Hp0 & E). rewrite Hp in Hp0. inversion Hp0; subst b0.
    destruct (block_spec (visit variant cspan dspan n (Some (pname p, pdir p)) 0) annotated (fun _ s' => every not_while s') (adds (body_ok not_while))) with (5 := E) as [A B];
      auto using adds_refl; [intros; eapply adds_trans; eauto | intros s w s' w' Hs Es; exact (proj1 (visit_no_while _ _ _ _ _ _ _ _ _ _ Es) Hs)|].
    split; [eapply Forall2_All; eauto | apply adds_nil in B; exact B].
  Qed.
  Lemma encode_unchanged n T p b b' v : pbody p = Some b -> All (every not_rule) b ->
    encode_proc variant cspan dspan n T p = Ok (Some b', v) -> b' = b /\ v_new v = [] /\ v_tcx v = T.
  Proof.
    intros Hp Ha E. apply encode_inv in E. destruct E as (b0 & Hp0 & E). rewrite Hp in Hp0. inversion Hp0; subst b0.
    apply visit_block_id in E; auto. destruct E; subst. auto.
  Qed.
  Lemma bare_loop_kept n ctx nest c b v s' v' : visit variant cspan dspan n ctx nest (SWhile c b) v = Ok (s', v') ->
    exists b', s' = SWhile c b'.
  Proof.
    destruct n; [discriminate|]. cbn [visit]. destruct (v_term v); [discriminate|]. intros E. apply rbind_ok in E.
    destruct E as ([b1 v1] & _ & E). inversion E. eauto.
  Qed.
  Lemma inside_out n ctx nest name args c b v s' v' :
    is_rule name = true -> visit variant cspan dspan n ctx nest (SAnn name args (SWhile c b)) v = Ok (s', v') ->
    exists m e base d b1 v1 g T2, ctx = Some (base, d) /\ enc_of name = Some e /\
      visit_block variant cspan dspan m ctx (S nest) b v = Ok (b1, v1) /\
      transform variant cspan dspan e (v_tcx v1) base d args c b1 = Ok (g, T2) /\ s' = SSeq (fst g) /\
      v_new v' = v_new v1 ++ snd g /\ v_tcx v' = T2.
  Proof.
    intros Hr E. destruct (enc_of name) as [e|] eqn:En; [|apply enc_of_rule in En; congruence].
    destruct n; [discriminate|]. pose proof (visit_rule _ _ _ _ _ _ _ _ _ _ _ _ _ En E) as (base & d & c1 & b1 & v1 & g & T2 & H1 & H2 & _ & H3 & H4 & H5).
    destruct n as [|m]; [discriminate|]. cbn [visit] in H2. destruct (v_term v); [discriminate|]. apply rbind_ok in H2.
    destruct H2 as ([b2 v2] & H2 & H6). inversion H6; subst. exists m, e, base, d, b1, v1, g, T2. repeat split; auto.
  Qed.
  Lemma encode_ost n T p b b' v : pbody p = Some b -> All annotated b ->
    encode_proc variant cspan dspan n T p = Ok (Some b', v) -> All (every not_ost) b \/
    exists b1 args c body, b = b1 ++ [SAnn "ost" args (SWhile c body)] /\ All (every not_ost) b1 /\ All (every not_ost) body.
  Proof.
    intros Hp Ha E. apply encode_inv in E. destruct E as (b0 & Hp0 & E). rewrite Hp in Hp0. inversion Hp0; subst b0.
    apply visit_block_ost in E; auto. destruct E as [[H _]|H]; auto.
  Qed.
End Encode.

(** What verification condition generation accepts has no loops and no proof rules. *)
Lemma vcgen_accepts C s : (forall a, is_rule a = true -> C a <> Some DSlicingAnn) ->
  forall post e, vcgen C s post = Ok e -> every not_while s /\ every not_rule s.
Proof.
  intros HC. induction s using stmt_rect'; intros post e' E.
  all: try (repeat split; exact Logic.I).
  all: try match goal with H : Forall _ ?b |- _ =>
    assert (HB : forall p r, vcgen_block C b p = Ok r -> All (every not_while) b /\ All (every not_rule) b) by
      (clear - H; induction H as [|s0 b0 Hs Hb IH]; intros p r E; [split; exact Logic.I|]; cbn [vcgen_block] in E; apply rbind_ok in E;
       destruct E as (q & E1 & E2); apply Hs in E2; apply IH in E1; cbn [All]; tauto); clear H end.
  all: try match goal with H : Forall _ ?b |- _ =>
    assert (HB2 : forall p r, vcgen_block C b p = Ok r -> All (every not_while) b /\ All (every not_rule) b) by
      (clear - H; induction H as [|s0 b0 Hs Hb IH]; intros p r E; [split; exact Logic.I|]; cbn [vcgen_block] in E; apply rbind_ok in E;
       destruct E as (q & E1 & E2); apply Hs in E2; apply IH in E1; cbn [All]; tauto); clear H end.
  all: cbn [every not_while not_rule]; cbn [vcgen] in E.
  - rewrite vcgen_block_eq in E. apply HB in E. tauto.
  - rewrite !vcgen_block_eq in E. apply rbind_ok in E. destruct E as (r1 & E1 & E). apply rbind_ok in E.
    destruct E as (r2 & E2 & E). first [apply HB in E1; apply HB2 in E2 | apply HB in E2; apply HB2 in E1]. tauto.
  - rewrite !vcgen_block_eq in E. apply rbind_ok in E. destruct E as (r1 & E1 & E). apply rbind_ok in E.
    destruct E as (r2 & E2 & E). first [apply HB in E1; apply HB2 in E2 | apply HB in E2; apply HB2 in E1]. tauto.
  - rewrite !vcgen_block_eq in E. apply rbind_ok in E. destruct E as (r1 & E1 & E). apply rbind_ok in E.
    destruct E as (r2 & E2 & E). first [apply HB in E1; apply HB2 in E2 | apply HB in E2; apply HB2 in E1]. tauto.
  - rewrite !vcgen_block_eq in E. apply rbind_ok in E. destruct E as (r1 & E1 & E). apply rbind_ok in E.
    destruct E as (r2 & E2 & E). first [apply HB in E1; apply HB2 in E2 | apply HB in E2; apply HB2 in E1]. tauto.
  - discriminate.
  - cbn [vcgen] in E. match type of E with context [C ?x] => rename x into a end. destruct (C a) as [d|] eqn:EC; [|discriminate]. destruct d; try discriminate. apply IHs in E. split; [tauto|]. split; [|tauto].
    destruct (is_rule a) eqn:Er; auto. now apply HC in Er.
Qed.
Lemma vcgen_block_accepts C b : (forall a, is_rule a = true -> C a <> Some DSlicingAnn) ->
  forall post e, vcgen_block C b post = Ok e -> All (every not_while) b /\ All (every not_rule) b.
Proof. intros HC post e E. assert (E2 : vcgen C (SSeq b) post = Ok e) by (cbn [vcgen]; now rewrite vcgen_block_eq).
  destruct (vcgen_accepts C (SSeq b) HC post e E2) as [[_ ?] [_ ?]]. auto. Qed.

(** A procedure with nested rules, one of which generates procedures. *)
Definition ex_n : ident := mkid "n" 1 TUInt.
Definition ex_go : ident := mkid "go" 2 TBool.
Definition enc_body : list stmt :=
  [SAnn "past" [ECast TEUReal (EVar ex_n); ELit TUReal (LFrac (1 # 2)); ELit TUReal (LFrac (1 # 1))]
     (SWhile (EVar ex_go)
        [SAnn "invariant" [ECast TEUReal (EVar ex_n)] (SWhile (EVar ex_go) [SAssign [ex_go] (ELit TBool (LBool false))]);
         SAssign [ex_n] (EBin TUInt OSub (EVar ex_n) (b_uint 1))])].
Definition enc_proc (b : list stmt) : proc := mkproc Down "f" [ex_n; ex_go] [] [] (Some b).
Definition enc_tcx : tyctx := mktcx [(ex_n, true); (ex_go, true)] [].
Lemma enc_example : All annotated enc_body /\
  exists b' v, encode_proc (fun n => n + 10) (fun _ => 5) (fun _ => 6) 9 enc_tcx (enc_proc enc_body) = Ok (Some b', v) /\ List.length (v_new v) = 3.
Proof. split; [repeat split|]. do 2 eexists. split; [vm_compute; reflexivity | reflexivity]. Qed.
