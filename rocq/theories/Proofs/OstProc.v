(** Procedures that end in a loop annotated with [@ost]. *)
From Coq Require Import Bool List String NArith QArith Reals Lra Lia.
From Verif.Model Require Import Syntax Builder TyCtx AstUtil Lits Dist ProofRules Procs LoopProcs Encode.
From Verif.Spec Require Import Eur Sem Wp Frame Loops Annotated Calls CallFree Termination.
From Verif.Proofs Require Import EurLemmas SemLemmas WpLemmas MonoProofs FrameProofs LoopProofs SimLemmas SpecCallProofs EncodeProofs EncodeExamples OstProofs OstReplace DistProofs SimplifyRefuted Scaling Additive TermProcs TermExamples CallRefuted.
Import ListNotations.
Local Open Scope list_scope.

(** ** Statements without calls are left alone *)
Section Calls.
  Variables (procs : string -> option proc) (variant : nat -> nat) (d : direction).
  Lemma encode_assign_none T xs e : (match e with ECall _ f _ => procs f = None | _ => True end) -> encode_assign procs variant T xs e = Ok None.
  Proof. unfold encode_assign. destruct e; auto. intros ->. reflexivity. Qed.
  Lemma sc_block_id b : Forall (fun s => every (calls_none procs) s -> forall T s' T', sc_stmt procs variant d s T = Ok (s', T') -> s' = s) b ->
    All (every (calls_none procs)) b -> forall T b' T', sc_block procs variant d b T = Ok (b', T') -> b' = b.
  Proof.
    induction 1 as [|s b H F IH]; intros A T b' T' E; cbn [sc_block] in E; [now injection E|]. destruct A as [A1 A2].
    apply rbind_ok in E as [[s1 T1] [E1 E]]. apply rbind_ok in E as [[b1 T2] [E2 E]]. injection E as <- <-. f_equal; eauto.
  Qed.
  Lemma sc_id s : every (calls_none procs) s -> forall T s' T', sc_stmt procs variant d s T = Ok (s', T') -> s' = s.
  Proof.
    induction s using stmt_rect'; intros A T s' T' E; cbn [every calls_none] in A; destruct A as [A0 A];
      cbn [sc_stmt] in E; rewrite ?sc_block_eq in E; try rewrite sc_block_eq in E.
    all: repeat match goal with Hf : Forall _ ?b |- _ => pose proof (sc_block_id b Hf); clear Hf end.
    all: repeat match goal with
      | H : rbind _ _ = Ok _ |- _ => let x := fresh "r" in apply rbind_ok in H as [x [? H]]; try destruct x; cbn [rbind] in H
      | H : _ /\ _ |- _ => destruct H
      | H : Ok _ = Ok _ |- _ => injection H as <- <-
      end; auto.
    all: try (match goal with i : option expr |- _ => destruct i as [e|]; [|now injection E as <- <-] end).
    all: try (rewrite encode_assign_none in E by auto; cbn [rbind] in E;
              repeat match goal with H : rbind _ _ = Ok _ |- _ => let x := fresh "r" in apply rbind_ok in H as [x [? H]] end; now injection E as <- <-).
    all: try (f_equal; eauto).
    { rewrite encode_assign_none in H0 by auto. discriminate. }
    all: rewrite sc_block_eq in *; eauto.
  Qed.
  Lemma sc_block_app a b T r T' : sc_block procs variant d (a ++ b) T = Ok (r, T') ->
    exists a' b' T1, sc_block procs variant d a T = Ok (a', T1) /\ sc_block procs variant d b T1 = Ok (b', T') /\ r = a' ++ b'.
  Proof.
    revert T r. induction a as [|s a IH]; intros T r E; cbn [app sc_block] in E |- *; [exists [], r, T; auto|].
    apply rbind_ok in E as [[s1 T1] [E1 E]]. apply rbind_ok in E as [[b1 T2] [E2 E]]. injection E as <- <-.
    apply IH in E2 as (a' & b' & T3 & H1 & H2 & ->). exists (s1 :: a'), b', T3. rewrite E1. cbn [rbind]. rewrite H1. auto.
  Qed.
End Calls.

(** ** Without loops the kind of fixpoint does not matter *)
Lemma kind_block I isd k k' b : Forall (fun st => every not_while st -> forall X, wp I isd k st X = wp I isd k' st X) b ->
  All (every not_while) b -> forall X, wp_block I isd k b X = wp_block I isd k' b X.
Proof.
  induction 1 as [|st b H F IH]; intros A X; [reflexivity|]. destruct A as [A1 A2]. unfold wp_block in *. cbn [fold_right]. rewrite IH by auto. auto.
Qed.
Lemma kind_stmt I isd k k' st : every not_while st -> forall X, wp I isd k st X = wp I isd k' st X.
Proof.
  induction st using stmt_rect'; intros A X; cbn [every not_while] in A; destruct A as [A0 A]; try contradiction; auto.
  all: repeat match goal with Hf : Forall _ ?b |- _ => pose proof (kind_block I isd k k' b Hf); clear Hf end.
  all: repeat match goal with H : _ /\ _ |- _ => destruct H end.
  all: repeat match goal with H : All ?P ?b -> _, A : All ?P ?b |- _ => specialize (H A); unfold wp_block in H end.
  all: cbn [wp]; repeat match goal with H : forall _, fold_right _ _ _ = _ |- _ => rewrite H; clear H end; auto.
Qed.
Lemma kind_any I isd k k' b X : All (every not_while) b -> wp_block I isd k b X = wp_block I isd k' b X.
Proof. intros A. apply (kind_stmt I isd k k' (SSeq b)). cbn [every not_while]. auto. Qed.

Lemma blind_spec I d es (V : ident -> Prop) : (forall e, In e es -> unread V e) -> blind V (spec_exp I d es).
Proof.
  intros H s s' _ _ Ag. unfold spec_exp. f_equal. apply map_ext_in. intros e He. unfold ev. rewrite (eval_ext I e s s'); [reflexivity|].
  intros x Hx. apply Ag. exact (H e He x Hx).
Qed.

Lemma visit_block_app variant cspan dspan n ctx nest a b v r v' : visit_block variant cspan dspan n ctx nest (a ++ b) v = Ok (r, v') ->
  exists a' b' v1, visit_block variant cspan dspan n ctx nest a v = Ok (a', v1) /\ visit_block variant cspan dspan n ctx nest b v1 = Ok (b', v') /\ r = a' ++ b'.
Proof.
  unfold visit_block. revert v r. induction a as [|s a IH]; intros v r E; cbn [app visit_block_with] in E |- *; [exists [], r, v; auto|].
  apply rbind_ok in E as [[s1 v1] [E1 E]]. apply rbind_ok in E as [[b1 v2] [E2 E]]. injection E as <- <-.
  apply IH in E2 as (a' & b' & v3 & H1 & H2 & ->). exists (s1 :: a'), b', v3. rewrite E1. cbn [rbind]. rewrite H1. auto.
Qed.

Theorem ost_procedure variant cspan dspan : (forall a b, variant a = variant b -> a = b) ->
  forall I isd isf p before c body inv past_inv cc post,
  interp_ok I -> pbody p = Some (before ++ [SAnn "ost" [inv; past_inv; cc; post] (SWhile c body)]) ->
  All (wts isd isf) before -> All (every not_negate) before -> All (every not_while) before -> All (every not_rule) before ->
  proper_loop I isd isf c body -> All (every not_rule) body -> clear_of_inits variant c body [inv; past_inv; post] ->
  is_exp inv -> is_exp past_inv -> is_exp post -> is_ureal cc -> (forall x, ~ fv x cc) ->
  (forall e, In e (post :: ensures p) -> unread (fun x => any (declares x) body) e) ->
  forall n T b' v, encode_proc variant cspan dspan n T p = Ok (Some b', v) -> verified I isd Least (v_new v) ->
  forall procs variant' k T1 b'' T2, (forall q, In q (v_new v) -> procs (pname q) = Some q) -> All (every (calls_none procs)) before ->
  sc_block procs variant' (pdir p) b' T1 = Ok (b'', T2) ->
  meets I p (wp_block I isd k b'') -> meets I p (wp_block I isd Least (before ++ [SAnn "ost" [inv; past_inv; cc; post] (SWhile c body)])).
Proof.
  intros Vi I isd isf p before c body inv past_inv cc post HI Hp Wb Nb Lb Rb [G Wl Pl Tl] Rl C Wi Wp Wo [Wc1 Wc2] Fc Uv n T b' v E Vf procs variant' k T1 b'' T2 Tab Nc Esc M.
  apply encode_inv in E as (b0 & Hp0 & E). rewrite Hp in Hp0. injection Hp0 as <-.
  change (visit_block_with (visit variant cspan dspan n (Some (pname p, pdir p)) 0)) with (visit_block variant cspan dspan n (Some (pname p, pdir p)) 0) in E.
  apply visit_block_app in E as (a' & l' & v1 & E1 & E2 & ->).
  unfold visit_block in E1. apply visit_block_id in E1 as [-> ->]; auto.
  unfold visit_block in E2. cbn [visit_block_with] in E2. apply rbind_ok in E2 as [[s1 v2] [E2 E3]]. injection E3 as <- <-.
  destruct n as [|n]; [discriminate|].
  apply (visit_rule variant cspan dspan n _ 0 "ost" _ Ost) in E2; [|reflexivity].
  destruct E2 as (base & d & c1 & b1 & v3 & g & T3 & Ec & E2 & _ & E3 & -> & ->). injection Ec as <- <-.
  apply visit_id in E2 as [E2 ->]; [|cbn [every]; split; [exact Logic.I | exact Rl]]. injection E2 as -> ->. cbn [v_tcx v_term v_new app transform] in *.
  destruct g as [blk ps]. cbn [fst snd] in *.
  apply sc_block_app in Esc as (a1 & l1 & T4 & Ea & El & ->).
  apply sc_block_id in Ea; [subst a1 | apply Forall_forall; intros s _; exact (sc_id procs variant' (pdir p) s) | exact Nc].
  cbn [sc_block sc_stmt] in El. rewrite sc_block_eq in El. apply rbind_ok in El as [[s2 T5] [El Ex]]. injection Ex as <- <-.
  apply rbind_ok in El as [[blk' T6] [El Ex]]. injection Ex as <- <-.
  destruct (ost_replaces variant (dspan [inv; past_inv; cc; post]) Vi I isd isf c body inv past_inv cc post HI Wl Pl Tl G Wi Wp Wo (conj Wc1 (conj Wc2 Fc)) C
    T (pname p) blk ps T3 E3 Vf ltac:(apply Uv; cbn; auto) procs variant' k (pdir p) T4 blk' T6 Tab El) as [D Rep].
  intros s Hs. specialize (M s Hs). rewrite D in *. cbn [below] in *. eapply ele_trans; [exact M|].
  rewrite !wp_block_app. rewrite (kind_any I isd k Least before) by auto.
  apply (wp_block_mono I isd isf Least before HI Wb Nb); auto. apply (Rep (spec_exp I Down (ensures p))).
  apply blind_spec. intros e He. apply Uv. cbn; auto.
Qed.

(** ** Examples: a coin is tossed until it shows tails *)
Definition tosses := [SAssign [vb] tt_lit; SAnn "ost" ost_args (SWhile (EVar vb) coin)].
Definition tosser (q : Q) : proc := mkproc Down "main" [] [vb] [Requires (elit q); Ensures (elit q)] (Some tosses).
Definition dummy (_ : list expr) : nat := 2.
Definition tosser_enc := Eval vm_compute in encode_proc S dummy dummy 9 T0 (tosser 1).
Definition tosser_tcx := Eval vm_compute in match tosser_enc with Ok (_, v) => v_tcx v | _ => T0 end.
Definition tosser_body := Eval vm_compute in match tosser_enc with Ok (Some b, _) => b | _ => [] end.
Definition tosser_new := Eval vm_compute in match tosser_enc with Ok (_, v) => v_new v | _ => [] end.
Definition tosser_sc := Eval vm_compute in sc_block (table ost_procs) shift Down tosser_body tosser_tcx.
Definition tosser_out := Eval vm_compute in match tosser_sc with Ok (b, _) => b | _ => [] end.
Definition tosser_after := Eval vm_compute in match tosser_sc with Ok (_, T) => T | _ => T0 end.

Lemma tosser_encoded q : exists v, encode_proc S dummy dummy 9 T0 (tosser q) = Ok (Some tosser_body, v) /\ v_new v = ost_procs /\ v_tcx v = tosser_tcx.
Proof. eexists. split; [reflexivity|]. split; reflexivity. Qed.
Lemma tosser_replaced : sc_block (table ost_procs) shift Down tosser_body tosser_tcx = Ok (tosser_out, tosser_after).
Proof. reflexivity. Qed.
Lemma tosser_table q : In q ost_procs -> table ost_procs (pname q) = Some q.
Proof. cbn [In ost_procs]. intros H; repeat (destruct H as [<-|H]; [reflexivity|]); destruct H. Qed.

Lemma tosser_value I k r s : (1 <= r)%R -> wp_block I is_dist k tosser_out (fun _ => fin r) s = fin 1.
Proof.
  intros Hr. unfold wp_block, tosser_out. cbn [fold_right wp].
  match goal with |- assign_sem I is_dist _ _ (fun s0 => emin (ev I ?a s0) (havoc_sem Down ?xs ?K s0)) s = _ =>
    set (A := a); set (F := K); change (emin (ev I A (upd s vb (VBool true))) (havoc_sem Down xs F (upd s vb (VBool true))) = fin 1) end.
  assert (EA : forall t, ev I A t = fin 1) by (intros t; unfold ev, A; cbn; now rewrite q1).
  rewrite EA. apply ele_antisym; [apply emin_l|]. apply emin_glb; [apply ele_refl|].
  apply einf_glb. intros x (t & _ & ->). unfold F. cbn [assume_sem].
  match goal with |- context [ev I ?a t] => replace (ev I a t) with (fin 1) by (unfold ev; cbn; now rewrite q1) end.
  replace (eleb (fin 1) (fin r)) with true by (symmetry; apply eleb_iff, ele_fin; lra). cbn [validate_sem].
  replace (eleb etop etop) with true by (symmetry; apply eleb_iff, ele_refl). apply ele_top.
Qed.
Lemma tosser_meets I k : meets I (tosser 1) (wp_block I is_dist k tosser_out).
Proof.
  eapply meets_intro; [reflexivity..|]. intros s Hs. cbn [below].
  assert (E : ev I (elit 1) = fun _ => fin 1) by (apply FunctionalExtensionality.functional_extensionality; intros t; apply ev_elit1).
  rewrite E, tosser_value by lra. apply ele_refl.
Qed.
Lemma elit2 I : ev I (elit 2) = fun _ => fin 2.
Proof. apply FunctionalExtensionality.functional_extensionality; intros t. unfold ev. cbn. now rewrite q2. Qed.
Lemma tosser_fails I k : ~ meets I (tosser 2) (wp_block I is_dist k tosser_out).
Proof.
  intros M. assert (Hs : env_ok (st 0 0)) by apply (st_ok 0 0).
  pose proof (meets_one I (tosser 2) Down _ _ _ (st 0 0) eq_refl eq_refl M Hs) as H. cbn [below] in H.
  rewrite (elit2 I), tosser_value in H by lra. apply (proj1 (ele_fin 2 1 ltac:(lra) ltac:(lra))) in H. lra.
Qed.
Lemma coin_loop_one I s : interp_ok I -> env_ok s -> ele eone (wp I is_dist Least (SWhile (EVar vb) coin) (fun _ => eone) s).
Proof.
  intros HI Hs. pose proof (coin_proper I (fun _ => false) HI) as [G W P T].
  assert (E : ev I (elit 1) = fun _ => eone) by (apply FunctionalExtensionality.functional_extensionality; intros t; apply ev_elit1).
  pose proof (ost_sound S 2 ltac:(intros; congruence) I is_dist (fun _ => false) (EVar vb) coin (elit 1) (EIte TEUReal (EVar vb) (elit 2) (elit 0)) (lit 1) (elit 1) HI W P T G) as H.
  rewrite <- E. change eone with (fin 1). rewrite <- (ev_elit1 I s). refine (H _ _ _ _ _ T0 "main"%string _ ost_procs _ eq_refl (coin_ost I Least) s Hs).
  all: try (split; reflexivity).
  - repeat split. intros x Hx; exact Hx.
  - apply coin_clear; cbn; intuition (subst; cbn in *; tauto).
Qed.
Lemma tosser_right I : interp_ok I -> meets I (tosser 2) (wp_block I is_dist Least tosses).
Proof.
  intros HI. eapply meets_intro; [reflexivity..|]. intros s Hs. cbn [below]. rewrite (elit2 I).
  change (ele (fin 2) (wp_block I is_dist Least [SWhile (EVar vb) coin] (fun _ => fin 2) (upd s vb (VBool true)))).
  assert (E : (fun _ : env => fin 2) = scale 2 (fun _ => eone)).
  { apply FunctionalExtensionality.functional_extensionality; intros t. unfold scale, eone. rewrite emul_fin by lra. f_equal. lra. }
  assert (Hs' : env_ok (upd s vb (VBool true))) by (apply upd_ok; auto; reflexivity).
  pose proof (coin_proper I (fun _ => false) HI) as [G W P _].
  rewrite E, (block_scales I is_dist (fun _ => false) Least HI); auto; [| cbn [All wts]; auto | cbn [All every scalable]; repeat split; auto; now apply linear_block_scalable | lra].
  replace (fin 2) with (emul (fin 2) eone) at 1 by (unfold eone; rewrite emul_fin by lra; f_equal; lra).
  apply emul_mono; [apply ele_refl|]. exact (coin_loop_one I _ HI Hs').
Qed.
Theorem ost_not_exact : exists p b b' v procs b'' T2, pbody p = Some b /\
  encode_proc S dummy dummy 9 T0 p = Ok (Some b', v) /\ (forall q, In q (v_new v) -> procs (pname q) = Some q) /\
  sc_block procs shift (pdir p) b' (v_tcx v) = Ok (b'', T2) /\
  sound_refutations (pdir p) (track_block (pdir p) (Some Encode.Wp) b) = true /\
  forall I, interp_ok I -> verified I is_dist Least (v_new v) /\ meets I p (wp_block I is_dist Least b) /\
  forall k, ~ meets I p (wp_block I is_dist k b'').
Proof.
  destruct (tosser_encoded 2) as (v & E & En & Et).
  exists (tosser 2), tosses, tosser_body, v, (table ost_procs), tosser_out, tosser_after.
  split; [reflexivity|]. split; [exact E|]. rewrite En, Et. split; [exact tosser_table|]. split; [exact tosser_replaced|]. split; [reflexivity|].
  intros I HI. split; [apply coin_ost|]. split; [now apply tosser_right | intros k; apply tosser_fails].
Qed.
