(** What the soundness checker says about procedures that end in a loop annotated with [@ost]. *)
From Coq Require Import Bool List String NArith QArith Reals Lra Lia FunctionalExtensionality.
From Verif.Model Require Import Syntax Builder TyCtx AstUtil Lits Dist ProofRules Procs LoopProcs Encode.
From Verif.Spec Require Import Eur Sem Wp Frame Loops Annotated Calls CallFree Termination.
From Verif.Proofs Require Import EurLemmas SemLemmas WpLemmas MonoProofs FrameProofs LoopProofs LoopVc SimLemmas TidyProofs SpecCallProofs EncodeProofs EncodeExamples SoundnessProofs OstProofs OstReplace Additive Scaling DistProofs SimplifyRefuted TermProcs TermExamples CallRefuted OstProc.
Import ListNotations.
Local Open Scope nat_scope.
Local Open Scope list_scope.

(** Replacing loops adds no calls. *)
Section Free.
  Variables (procs : string -> option proc) (d : direction).
  Notation P := (calls_none procs).
  Lemma iter_free c b next : All (every P) b -> All (every P) next -> every P (encode_iter c b next).
  Proof. intros Hb Hn. cbn [encode_iter every All calls_none]. rewrite All_app. auto. Qed.
  Lemma Enc_free : (forall s s', Enc d s s' -> every P s -> every P s') /\ (forall b b', EncB d b b' -> All (every P) b -> All (every P) b').
  Proof.
    assert (Hey : forall e, All (every P) (hey_const e d)) by (intros e; cbn [hey_const All every calls_none]; auto 7).
    apply (Enc_ind2 d); cbn [every All calls_none]; try tauto; try (intros; split; [now auto | tauto]).
    - intros n args c b b' e k inv En Ee Hk Hin Hi He IH [_ [_ Hr]]. specialize (IH Hr).
      split; auto. unfold transform_k_induction. rewrite All_app. split; [cbn [encode_loop_spec All every wrap_error wrap_success calls_none]; auto 10|].
      cbn [All]. split; [|exact Logic.I]. apply iter_free; auto.
      assert (Ht : All (every P) (if Nat.eqb k 1 then park_terminator inv d else hey_const inv d)).
      { destruct (Nat.eqb k 1); auto. cbn [park_terminator All every wrap_error wrap_success calls_none]. auto 10. }
      generalize (k - 1). intros m. induction m; auto. cbn [encode_extend All every calls_none]. split; auto. split; auto. now apply iter_free.
    - intros n args c b b' k k' t En Ea Hk Ht He IH [_ [_ Hr]]. specialize (IH Hr).
      split; auto. clear Hk. induction k; [exact (Hey t)|]. cbn [encode_unroll All]. split; [|exact Logic.I]. now apply iter_free.
  Qed.
End Free.

(** Loops without a proof rule denote least fixpoints. *)
Lemma wpr_unruled I isd cal d s : every not_rule s -> forall X, wpr I isd (assumed cal d) s X = wp I isd Least s X.
Proof.
  assert (H : forall s, (every not_rule s -> forall X, wpr I isd (assumed cal d) s X = wp I isd Least s X) /\
    (forall c b, s = SWhile c b -> All (every not_rule) b -> forall X, fold_right (wpr I isd (assumed cal d)) X b = fold_right (wp I isd Least) X b)); [|apply H].
  assert (HB : forall b, Forall (fun s => (every not_rule s -> forall X, wpr I isd (assumed cal d) s X = wp I isd Least s X) /\
    (forall c b, s = SWhile c b -> All (every not_rule) b -> forall X, fold_right (wpr I isd (assumed cal d)) X b = fold_right (wp I isd Least) X b)) b ->
    All (every not_rule) b -> forall X, fold_right (wpr I isd (assumed cal d)) X b = fold_right (wp I isd Least) X b).
  { induction 1 as [|s0 b [Hs _] _ IH]; cbn [All fold_right]; auto. intros [? ?] X. rewrite IH by auto. auto. }
  clear s. induction s using stmt_rect'; (split; [cbn [every not_rule]; intros R X; try reflexivity; cbn [wpr wp] | try discriminate]).
  - apply HB; tauto.
  - now rewrite !HB by tauto.
  - now rewrite !HB by tauto.
  - now rewrite !HB by tauto.
  - now rewrite !HB by tauto.
  - intros c0 b0 [= <- <-]. auto.
  - destruct R as [R1 R2]. destruct IHs as [I1 I2]. destruct s; try (apply I1; exact R2).
    assert (K : assumed cal d n args = Least). { unfold assumed, assumed_kind. apply enc_of_rule in R1. now rewrite R1. }
    rewrite K. cbn [wp loop_sem]. cbn [every] in R2.
    assert (E : (fun (Y : exp) s => if holds I c s then fold_right (wpr I isd (assumed cal d)) Y b s else X s) = (fun Y s => if holds I c s then fold_right (wp I isd Least) Y b s else X s)).
    { extensionality Y. extensionality t. now rewrite (I2 _ _ eq_refl (proj2 R2)). }
    now rewrite E.
Qed.
Lemma wpr_unruled_block I isd cal d b X : All (every not_rule) b -> wpr_block I isd (assumed cal d) b X = wp_block I isd Least b X.
Proof. intros H. apply (wpr_unruled I isd cal d (SSeq b)). cbn [every not_rule]. auto. Qed.

Theorem ost_proofs_sound variant cspan dspan : (forall a b, variant a = variant b -> a = b) ->
  forall I isd isf cal p before c body inv past_inv cc post, let loop := SAnn "ost" [inv; past_inv; cc; post] (SWhile c body) in
  interp_ok I -> pbody p = Some (before ++ [loop]) ->
  checkable isd isf (pdir p) (pdir p) (assumed cal (pdir p)) (fun x => Forall (unread (eq x)) (ensures p) /\ scoped (eq x) (SWhile c body)) before ->
  proper_loop I isd isf c body -> All (every not_rule) body -> clear_of_inits variant c body [inv; past_inv; post] ->
  is_exp inv -> is_exp past_inv -> is_exp post -> is_ureal cc -> (forall x, ~ fv x cc) ->
  (forall e, In e (post :: ensures p) -> unread (fun x => any (declares x) body) e) ->
  forall n T b' v, encode_proc variant cspan dspan n T p = Ok (Some b', v) -> verified I isd Least (v_new v) ->
  sound_proofs (pdir p) (track_block (pdir p) cal (before ++ [loop])) = true ->
  forall procs variant' k T1 b'' T2, (forall q, In q (v_new v) -> procs (pname q) = Some q) -> All (every (calls_none procs)) before ->
  sc_block procs variant' (pdir p) b' T1 = Ok (b'', T2) ->
  meets I p (wp_block I isd k b'') -> meets I p (wpr_block I isd (assumed cal (pdir p)) (before ++ [loop])).
Proof.
  intros Vi I isd isf cal p before c body inv past_inv cc post loop HI Hp (A & W & R & Pa & L & F) [G Wl Pl Tl] Rl C Wi Wp Wo [Wc1 Wc2] Fc Uv n T b' v E Vf HS procs variant' k T1 b'' T2 Tab Nc Esc M.
  apply encode_inv in E as (b0 & Hp0 & E). rewrite Hp in Hp0. injection Hp0 as <-.
  change (visit_block_with (visit variant cspan dspan n (Some (pname p, pdir p)) 0)) with (visit_block variant cspan dspan n (Some (pname p, pdir p)) 0) in E.
  apply visit_block_app in E as (a' & l' & v1 & E1 & E2 & ->).
  pose proof (visit_block_enc variant cspan dspan n _ _ 0 before _ a' v1 E1 R A) as HB.
  unfold visit_block in E2. cbn [visit_block_with] in E2. apply rbind_ok in E2 as [[s1 v2] [E2 E3]]. injection E3 as <- <-.
  destruct n as [|n]; [discriminate|]. unfold loop in E2.
  apply (visit_rule variant cspan dspan n _ 0 "ost" _ Ost) in E2; [|reflexivity].
  destruct E2 as (base & d & c1 & b1 & v3 & g & T3 & Ec & E2 & _ & E3 & -> & ->). injection Ec as <- <-.
  apply visit_id in E2 as [E2 ->]; [|cbn [every]; split; [exact Logic.I | exact Rl]]. injection E2 as -> ->. cbn [v_tcx v_term v_new transform] in *.
  destruct g as [blk ps]. cbn [fst snd] in *.
  apply sc_block_app in Esc as (a1 & l1 & T4 & Ea & El & ->).
  apply sc_block_id in Ea; [subst a1 | apply Forall_forall; intros s _; exact (sc_id procs variant' (pdir p) s) | exact (proj2 (Enc_free procs (pdir p)) _ _ HB Nc)].
  cbn [sc_block sc_stmt] in El. rewrite sc_block_eq in El. apply rbind_ok in El as [[s2 T5] [El Ex]]. injection Ex as <- <-.
  apply rbind_ok in El as [[blk' T6] [El Ex]]. injection Ex as <- <-.
  assert (Vps : verified I isd Least ps) by (intros q bq Hq; apply Vf, in_app_iff; auto).
  assert (Tps : forall q, In q ps -> procs (pname q) = Some q) by (intros q Hq; apply Tab, in_app_iff; auto).
  destruct (ost_replaces variant (dspan [inv; past_inv; cc; post]) Vi I isd isf c body inv past_inv cc post HI Wl Pl Tl G Wi Wp Wo (conj Wc1 (conj Wc2 Fc)) C
    (v_tcx v1) (pname p) blk ps T3 E3 Vps ltac:(apply Uv; cbn; auto) procs variant' k (pdir p) T4 blk' T6 Tps El) as [D Rep].
  rewrite D in *. set (X := spec_exp I Down (ensures p)) in *.
  (* the flags *)
  assert (Hf : Forall (fun a => flag Down a = true) (track_block Down cal (before ++ [loop]))) by (apply flag_infimum; exact HS).
  unfold track_block in Hf. rewrite flat_map_app in Hf. apply Forall_app in Hf as [Hf1 Hf2].
  cbn [flat_map track loop] in Hf2. rewrite app_nil_r in Hf2. change (enc_of "ost") with (Some Ost) in Hf2. cbn iota in Hf2. apply Forall_app in Hf2 as [_ Hf2].
  assert (K : assumed cal Down "ost" [inv; past_inv; cc; post] = Least).
  { apply Forall_inv in Hf2. unfold assumed, assumed_kind. change (enc_of "ost") with (Some Ost). cbn iota.
    destruct cal as [[]|]; cbn in Hf2 |- *; auto; discriminate. }
  assert (Na : All (every not_negate) a').
  { apply (proj2 (Enc_negate Down) before); auto. eapply block_negate; eauto. }
  set (Y := wp I isd Least (SWhile c body) X).
  assert (BY : blind (fun x => Forall (unread (eq x)) (ensures p) /\ scoped (eq x) (SWhile c body)) Y).
  { apply (scoped_block_blind I isd isf Least [SWhile c body] HI).
    - cbn [All wts]. auto.
    - cbn [All every not_negate]. repeat split; auto. apply scalable_block_no_negate. now apply linear_block_scalable.
    - cbn [scoped_block]. split; [|exact Logic.I]. apply scoped_union. intros x [_ Hx]. exact Hx.
    - eapply blind_mono; [|apply spec_blind]. cbn. tauto. }
  intros s Hs. specialize (M s Hs). rewrite D in *. cbn [below] in *. eapply ele_trans; [exact M|]. fold X.
  rewrite wp_block_app. unfold wpr_block. rewrite fold_right_app. fold (wpr_block I isd (assumed cal Down)).
  apply ele_trans with (wp_block I isd k a' Y s).
  - apply (wp_block_mono I isd isf k a' HI); auto; [exact (proj2 (Enc_wts Down isd isf) _ _ HB W)|].
    apply (Rep X). apply blind_spec. intros e He. apply Uv. cbn; auto.
  - cbn [fold_right]. replace (wpr I isd (assumed cal Down) loop X) with Y.
    + exact (proj2 (Enc_claim I isd isf k cal Down Down HI) before a' HB W Pa L Hf1 _ Y F BY s Hs).
    + unfold Y, loop. cbn [wpr wp]. rewrite K. cbn [loop_sem]. f_equal. extensionality Z. extensionality t.
      destruct (holds I c t); auto. symmetry. exact (f_equal (fun f => f t) (wpr_unruled_block I isd cal Down body Z Rl)).
Qed.

(** ** Example: an unrolled loop before the coin is tossed *)
Definition settle := [SAnn "unroll" [b_uint 2; elit 0] (SWhile (EVar vb) [SAssign [vb] (ELit TBool (LBool false))]); SAssign [vb] tt_lit].
Definition toss_loop := SAnn "ost" ost_args (SWhile (EVar vb) coin).
Definition settler : proc := mkproc Down "main" [] [vb] [Requires (elit 1); Ensures (elit 1)] (Some (settle ++ [toss_loop])).
Definition settler_enc := Eval vm_compute in encode_proc S dummy dummy 9 T0 settler.
Definition settler_tcx := Eval vm_compute in match settler_enc with Ok (_, v) => v_tcx v | _ => T0 end.
Definition settler_body := Eval vm_compute in match settler_enc with Ok (Some b, _) => b | _ => [] end.
Definition settler_procs := Eval vm_compute in match settler_enc with Ok (_, v) => v_new v | _ => [] end.
Definition settler_sc := Eval vm_compute in sc_block (table ost_procs) shift Down settler_body settler_tcx.
Definition settler_out := Eval vm_compute in match settler_sc with Ok (b, _) => b | _ => [] end.
Definition settler_after := Eval vm_compute in match settler_sc with Ok (_, T) => T | _ => T0 end.

Lemma settler_value I k r s : (1 <= r)%R -> wp_block I is_dist k settler_out (fun _ => fin r) s = fin 1.
Proof.
  intros Hr. change settler_out with (firstn 1 settler_out ++ tosser_out). rewrite wp_block_app.
  assert (E : wp_block I is_dist k tosser_out (fun _ => fin r) = fun _ => fin 1) by (extensionality t; now apply tosser_value).
  rewrite E. unfold wp_block, settler_out. cbn [firstn fold_right wp].
  match goal with |- (if ?c then _ else _) = _ => destruct c end; [|reflexivity].
  cbn [assign_sem]. reflexivity.
Qed.
Lemma nothing_local x : ~ local [SAssign [vb] (ELit TBool (LBool false))] x.
Proof. intros [H1 H2]. cbn in H1, H2. tauto. Qed.
Lemma settler_checkable isf : checkable is_dist isf Down Down (assumed (Some Encode.Wp) Down)
  (fun x => Forall (unread (eq x)) (ensures settler) /\ scoped (eq x) (SWhile (EVar vb) coin)) settle.
Proof.
  repeat split; try exact Logic.I.
  1: { right. right. left. split; auto. exists TUInt, 2%N, (elit 0). repeat split. discriminate. }
  1: { cbn [reliable String.eqb Ascii.eqb Bool.eqb]. intros _ I s. unfold ev. cbn. f_equal. now rewrite q0. }
  all: try (exfalso; eapply nothing_local; eassumption).
  all: try (constructor; [intros y _ Hy; exact (nothing_local _ Hy) |]); try (constructor; [intros y _ Hy; exact (nothing_local _ Hy) |]); try constructor.
  - intros y _ Hy. exact (nothing_local _ Hy).
  - cbn [tidy]. intros y Hy. cbn in Hy. tauto.
Qed.
Example settler_facts : exists v, pbody settler = Some (settle ++ [toss_loop]) /\
  encode_proc S dummy dummy 9 T0 settler = Ok (Some settler_body, v) /\ v_new v = ost_procs /\
  sound_proofs Down (track_block Down (Some Encode.Wp) (settle ++ [toss_loop])) = true /\
  sc_block (table ost_procs) shift Down settler_body (v_tcx v) = Ok (settler_out, settler_after) /\ All (every (calls_none (table ost_procs))) settle /\
  forall I isf, interp_ok I -> proper_loop I is_dist isf (EVar vb) coin /\ clear_of_inits S (EVar vb) coin (firstn 2 ost_args ++ skipn 3 ost_args) /\
    verified I is_dist Least (v_new v) /\ meets I settler (wp_block I is_dist Least settler_out).
Proof.
  eexists. split; [reflexivity|]. split; [reflexivity|]. split; [reflexivity|]. split; [reflexivity|]. split; [reflexivity|].
  split; [repeat split|].
  intros I isf HI. split; [apply coin_proper; auto|]. split; [apply coin_clear; cbn; intuition (subst; cbn in *; tauto)|]. split; [exact (coin_ost I Least)|].
  eapply meets_intro; [reflexivity..|]. intros s Hs. cbn [below].
  assert (E : ev I (elit 1) = fun _ => fin 1) by (extensionality t; apply ev_elit1).
  rewrite E, settler_value by lra. apply ele_refl.
Qed.
