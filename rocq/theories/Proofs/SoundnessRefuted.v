(** Procedures about which the soundness checker is wrong, and some that the positive results are about. *)
From Coq Require Import Bool List String Arith NArith QArith Reals Lra Lia Classical.
From Verif.Model Require Import Syntax Builder TyCtx AstUtil Dist ProofRules Procs LoopProcs Encode.
From Verif.Spec Require Import Eur Sem Wp Frame Loops Annotated Calls.
From Verif.Proofs Require Import EurLemmas SemLemmas WpLemmas SimLemmas MonoProofs FrameProofs LoopProofs UnrollProofs LoopVc EncodeProofs TidyProofs SoundnessProofs SimplifyRefuted.
Import ListNotations.
Local Open Scope nat_scope.
Local Open Scope list_scope.

Definition ff_e : expr := ELit TBool (LBool false).
Definition num (n : N) : expr := ECast TEUReal (b_uint n).
Lemma num_ev I n s : ev I (num n) s = fin (n2r n).
Proof. reflexivity. Qed.
Lemma num0 I s : ev I (num 0) s = ebot.
Proof. rewrite num_ev. apply fin_neg. unfold n2r. simpl. lra. Qed.
Lemma num_top n : ~ ele etop (fin (n2r n)).
Proof. intros H. exact H. Qed.
Lemma num_pos n : n <> 0%N -> ~ ele (fin (n2r n)) ebot.
Proof.
  intros Hn H. assert (P : (0 < n2r n)%R) by (unfold n2r; apply IZR_lt; lia).
  unfold ebot in H. rewrite ele_fin in H; lra.
Qed.

Definition one_spec (d : direction) (pre post : expr) (b : list stmt) : proc := mkproc d "f" [] [] [Requires pre; Ensures post] (Some b).
Lemma meets_one I d pre post b F : mono F -> (meets I (one_spec d pre post b) F <-> forall s, env_ok s -> dle d (ev I pre s) (F (ev I post) s)).
Proof.
  intros HF. assert (E : forall e s, spec_exp I d [e] s = ev I e s).
  { intros e s. unfold spec_exp, all_of. cbn [map fold_right]. destruct d; apply (dle_antisym Down); unfold dle.
    - apply emin_l.
    - apply emin_glb; [apply ele_refl | apply ele_top].
    - apply emax_lub; [apply ele_refl | apply ebot_le].
    - apply emax_l. }
  assert (E2 : exp_eq (F (spec_exp I d [post])) (F (ev I post))) by (apply mono_eq; auto; intros s _; apply E).
  unfold meets, below, dle. cbn [pdir one_spec]. change (requires (one_spec d pre post b)) with [pre]. change (ensures (one_spec d pre post b)) with [post].
  split; intros H s Hs; specialize (H s Hs); rewrite E, (E2 s Hs) in *; auto.
Qed.

(** A procedure [p] that is correct, though the checker calls counterexamples to its encoding valid. *)
Definition wrong_refutation (c : calculus) (p : proc) (b : list stmt) : Prop :=
  pbody p = Some b /\ All annotated b /\ (forall isd isf, All (wts isd isf) b) /\
  sound_refutations (pdir p) (track_block (pdir p) (Some c) b) = true /\
  forall variant cspan dspan T, exists b' v, encode_proc variant cspan dspan 9 T p = Ok (Some b', v) /\
    forall I isd k, interp_ok I -> meets I p (wp_block I isd (calculus_fix c) b) /\ ~ meets I p (wp_block I isd k b').
(** A procedure [p] that is not correct, though its encoding is and the checker says that is enough. *)
Definition wrong_proof (c : calculus) (p : proc) (b : list stmt) : Prop :=
  pbody p = Some b /\ All annotated b /\ (forall isd isf, All (wts isd isf) b) /\
  sound_proofs (pdir p) (track_block (pdir p) (Some c) b) = true /\
  forall variant cspan dspan T, exists b' v, encode_proc variant cspan dspan 9 T p = Ok (Some b', v) /\
    forall I isd k, interp_ok I -> ~ meets I p (wp_block I isd (calculus_fix c) b) /\ meets I p (wp_block I isd k b').

Definition loop (rule : string) (args : list expr) (c : expr) : list stmt := [SAnn rule args (SWhile c [])].
Lemma loop_mono_ I isd k rule args c : interp_ok I -> is_guard c -> mono (wp_block I isd k (loop rule args c)).
Proof. intros HI Hc. apply (wp_block_mono I isd (fun _ => false)); auto; repeat split; apply Hc. Qed.
Lemma while_false I isd k rule args X s : env_ok s -> wp_block I isd k (loop rule args ff_e) X s = X s.
Proof.
  intros Hs. unfold wp_block, loop. cbn [fold_right wp]. set (F := fun (Y : exp) s => if holds I ff_e s then Y s else X s).
  assert (HF : mono F) by (intros Y Z _ t Ht; apply ele_refl). destruct k; apply ele_antisym.
  - apply (lfp_least F X); auto. intros t Ht. apply ele_refl.
  - exact (lfp_prefix F HF s Hs).
  - exact (gfp_postfix F HF s Hs).
  - apply (gfp_greatest F X); auto. intros t Ht. apply ele_refl.
Qed.
Lemma while_true I isd k rule args X s : env_ok s -> wp_block I isd k (loop rule args tt_e) X s = match k with Least => ebot | Greatest => etop end.
Proof. intros Hs. destruct k; [exact (lfp_skip I isd Least X s Hs) | exact (gfp_skip I isd Greatest X s Hs)]. Qed.

Lemma wp_ind1 I isd k c inv d X s : interp_ok I -> env_ok s ->
  dle d (wp_block I isd k (transform_k_induction c [] d 1 inv) X s) (ev I inv s).
Proof. intros HI Hs. rewrite (wp_k_induction I isd (fun _ => false) k c [] X HI Logic.I Logic.I) by auto. apply dmeet_l. Qed.
Lemma ind_mono I isd k c inv d : interp_ok I -> is_guard c -> is_exp inv -> mono (wp_block I isd k [SSeq (transform_k_induction c [] d 1 inv)]).
Proof.
  intros HI Hc Hi. apply (wp_block_mono I isd (fun _ => false)); auto.
  - cbn [All wts]. split; auto. now apply k_ind_wts.
  - repeat split.
Qed.

(** Induction is encoded by direction, its approximation is claimed by calculus. *)
Lemma wp_refutation_refuted : exists p b, wrong_refutation Wp p b.
Proof.
  exists (one_spec Down (num 1) (num 1) (loop "invariant" [num 0] ff_e)), (loop "invariant" [num 0] ff_e).
  split; [reflexivity|]. split; [repeat split|]. split; [repeat split|]. split; [reflexivity|].
  intros variant cspan dspan T. exists [SSeq (transform_k_induction ff_e [] Down 1 (num 0))]. eexists. split; [reflexivity|]. intros I isd k HI. split.
  - apply meets_one; [now apply loop_mono_|]. intros s Hs. rewrite while_false by auto. apply ele_refl.
  - intros H. rewrite meets_one in H by (now apply ind_mono). specialize (H (st 0 0) (st_ok 0 0)).
    apply (num_pos 1); [discriminate|]. rewrite <- (num0 I (st 0 0)). eapply ele_trans; [exact H|]. exact (wp_ind1 I isd k ff_e (num 0) Down _ _ HI (st_ok 0 0)).
Qed.
Lemma wlp_refutation_refuted : exists p b, wrong_refutation Wlp p b.
Proof.
  exists (one_spec Up (num 1) (num 1) (loop "invariant" [b_inf] ff_e)), (loop "invariant" [b_inf] ff_e).
  split; [reflexivity|]. split; [repeat split|]. split; [repeat split|]. split; [reflexivity|].
  intros variant cspan dspan T. exists [SSeq (transform_k_induction ff_e [] Up 1 b_inf)]. eexists. split; [reflexivity|]. intros I isd k HI. split.
  - apply meets_one; [now apply loop_mono_|]. intros s Hs. rewrite while_false by auto. apply ele_refl.
  - intros H. rewrite meets_one in H by (now apply ind_mono). specialize (H (st 0 0) (st_ok 0 0)).
    apply (num_top 1). eapply ele_trans; [|exact H]. exact (wp_ind1 I isd k ff_e b_inf Up (ev I (num 1)) _ HI (st_ok 0 0)).
Qed.

(** Unrolling with a terminator that is not the bottom (top) element. *)
Lemma unr_mono I isd k c t d : interp_ok I -> is_guard c -> is_exp t -> mono (wp_block I isd k [SSeq (encode_unroll c [] 1 (hey_const t d))]).
Proof.
  intros HI Hc Hi. apply (wp_block_mono I isd (fun _ => false)); auto.
  - cbn [All wts]. split; auto. now apply unroll_wts.
  - repeat split.
Qed.
Lemma wp_unr1 I isd k t d X s : interp_ok I -> env_ok s -> wp_block I isd k (encode_unroll tt_e [] 1 (hey_const t d)) X s = ev I t s.
Proof. intros HI Hs. exact (wp_unroll I isd (fun _ => false) k tt_e [] X HI Logic.I Logic.I 1 t d s Hs). Qed.
Lemma wp_proof_refuted : exists p b, wrong_proof Wp p b.
Proof.
  exists (one_spec Down (num 1) (num 0) (loop "unroll" [b_uint 1; b_inf] tt_e)), (loop "unroll" [b_uint 1; b_inf] tt_e).
  split; [reflexivity|]. split; [repeat split|]. split; [repeat split|]. split; [reflexivity|].
  intros variant cspan dspan T. exists [SSeq (encode_unroll tt_e [] 1 (hey_const b_inf Down))]. eexists. split; [reflexivity|]. intros I isd k HI. split.
  - intros H. rewrite meets_one in H by (now apply loop_mono_). specialize (H (st 0 0) (st_ok 0 0)). rewrite while_true in H by apply st_ok.
    apply (num_pos 1); [discriminate|]. exact H.
  - apply meets_one; [now apply unr_mono|]. intros s Hs. cbn [dle]. eapply ele_trans; [apply ele_top|].
    change (ele etop (wp_block I isd k (encode_unroll tt_e [] 1 (hey_const b_inf Down)) (ev I (num 0)) s)). rewrite wp_unr1 by auto. apply ele_refl.
Qed.
Lemma wlp_proof_refuted : exists p b, wrong_proof Wlp p b.
Proof.
  exists (one_spec Up (num 1) (num 0) (loop "unroll" [b_uint 1; num 0] tt_e)), (loop "unroll" [b_uint 1; num 0] tt_e).
  split; [reflexivity|]. split; [repeat split|]. split; [repeat split|]. split; [reflexivity|].
  intros variant cspan dspan T. exists [SSeq (encode_unroll tt_e [] 1 (hey_const (num 0) Up))]. eexists. split; [reflexivity|]. intros I isd k HI. split.
  - intros H. rewrite meets_one in H by (now apply loop_mono_). specialize (H (st 0 0) (st_ok 0 0)). rewrite while_true in H by apply st_ok.
    apply (num_top 1). exact H.
  - apply meets_one; [now apply unr_mono|]. intros s Hs. cbn [dle].
    change (ele (wp_block I isd k (encode_unroll tt_e [] 1 (hey_const (num 0) Up)) (ev I (num 0)) s) (ev I (num 1) s)). rewrite wp_unr1 by auto.
    rewrite num0. apply ebot_le.
Qed.

(** Loops in the branches of an addition are not looked at. *)
Definition hidden : list stmt := [SAdditive (loop "invariant" [num 5] tt_e) []].
Lemma additive_refuted : sound_proofs Down (track_block Down (Some Wp) (loop "invariant" [num 5] tt_e)) = false /\
  sound_proofs Down (track_block Down (Some Wp) hidden) = true /\ wrong_proof Wp (one_spec Down (num 5) (num 0) hidden) hidden.
Proof.
  split; [reflexivity|]. split; [reflexivity|].
  split; [reflexivity|]. split; [repeat split|]. split; [repeat split|]. split; [reflexivity|].
  intros variant cspan dspan T. exists [SAdditive [SSeq (transform_k_induction tt_e [] Down 1 (num 5))] []]. eexists. split; [reflexivity|]. intros I isd k HI. split.
  - intros H. rewrite meets_one in H by (apply (wp_block_mono I isd (fun _ => false)); auto; repeat split). specialize (H (st 0 0) (st_ok 0 0)).
    change (dle Down (ev I (num 5) (st 0 0)) (eadd (wp_block I isd Least (loop "invariant" [num 5] tt_e) (ev I (num 0)) (st 0 0)) (ev I (num 0) (st 0 0)))) in H.
    rewrite while_true, num0 in H by apply st_ok. rewrite eadd_0_l in H. apply (num_pos 5); [discriminate|]. exact H.
  - apply meets_one; [apply (wp_block_mono I isd (fun _ => false)); auto; repeat split|]. intros s Hs. cbn [dle].
    change (ele (ev I (num 5) s) (eadd (wp_block I isd k (transform_k_induction tt_e [] Down 1 (num 5)) (ev I (num 0)) s) (ev I (num 0) s))).
    rewrite num0, eadd_0_r. rewrite (wp_k_induction I isd (fun _ => false) k tt_e [] (ev I (num 0)) HI Logic.I Logic.I) by auto.
    cbn [havoc_vars mvc_stmt mvc_expr fold_left mmod mvc0].
    destruct (havoc_check Down [] (fun s' => dle Down (ev I (num 5) s') (Phi I isd k tt_e [] (ev I (num 0)) (ev I (num 5)) s')) _ s (fun _ _ => eq_refl)) as [[E _]|[_ (s' & _ & C)]].
    + cbn [Nat.sub ext]. rewrite E. rewrite dmeet_top. apply ele_refl.
    + exfalso. apply C. apply ele_refl.
Qed.

(** * Procedures that the positive results are about *)
Definition sx : ident := mkid "x" 1 TEUReal.
Definition sy : ident := mkid "y" 2 TEUReal.
Definition sgo : ident := mkid "go" 3 TBool.
(** nested loops with a local variable *)
Definition nested : list stmt :=
  [SAnn "invariant" [EVar sx] (SWhile (EVar sgo)
     [SVar sy (Some (EVar sx));
      SAnn "k_induction" [b_uint 2; EVar sx] (SWhile (EVar sgo) [SAssign [sx] (EVar sy)]);
      SAssign [sgo] ff_e])].
Definition unrolled : list stmt :=
  [SAnn "unroll" [b_uint 3; num 0] (SWhile (EVar sgo)
     [SVar sy (Some (EVar sx));
      SDemonic [SAssign [sx] (EVar sy)] [SAssign [sgo] ff_e]])].
Definition over_x (b : list stmt) : proc := mkproc Up "f" [sx; sgo] [] [Requires (EVar sx); Ensures (EVar sx)] (Some b).

Lemma local_nested : forall x, local [SVar sy (Some (EVar sx)); SAnn "k_induction" [b_uint 2; EVar sx] (SWhile (EVar sgo) [SAssign [sx] (EVar sy)]); SAssign [sgo] ff_e] x -> x = sy.
Proof. intros x [H1 H2]. cbn in H1, H2. intuition congruence. Qed.
Lemma local_inner : forall x, ~ local [SAssign [sx] (EVar sy)] x.
Proof. intros x [H1 H2]. cbn in H1, H2. tauto. Qed.
Lemma local_unrolled : forall x, local [SVar sy (Some (EVar sx)); SDemonic [SAssign [sx] (EVar sy)] [SAssign [sgo] ff_e]] x -> x = sy.
Proof. intros x [H1 H2]. cbn in H1, H2. intuition congruence. Qed.
Lemma unread_but (V : ident -> Prop) x : (forall y, V y -> y = sy) -> x <> sy -> unread V (EVar x).
Proof. intros HV Hx y Hy Hv. cbn in Hy. subst y. apply Hx, HV, Hv. Qed.
Lemma unread_lit V t l : unread V (ELit t l).
Proof. intros y Hy. cbn in Hy. tauto. Qed.
Lemma unread_none (V : ident -> Prop) e : (forall x, ~ V x) -> unread V e.
Proof. intros H y _. apply H. Qed.

Lemma nested_facts isd isf c : c <> Wlp ->
  checkable isd isf Up Up (fun _ _ => calculus_fix c) (fun x => Forall (unread (eq x)) (ensures (over_x nested))) nested /\
  sound_proofs Up (track_block Up (Some c) nested) = true /\
  forall variant cspan dspan T, exists b' v, encode_proc variant cspan dspan 9 T (over_x nested) = Ok (Some b', v).
Proof.
  intros Hc. split; [|split; [destruct c; auto; congruence | intros; do 2 eexists; reflexivity]].
  assert (K : calculus_fix c = Least) by (destruct c; auto; congruence).
  repeat split; try exact Logic.I; try (match goal with H : local [SAssign _ _] _ |- _ => now apply local_inner in H end).
  - left. split; auto. eexists. split; [reflexivity|]. repeat split.
  - right. left. split; auto. do 2 eexists. split; [reflexivity|]. repeat split.
  - apply local_nested in H. subst x. constructor; [|constructor]. intros z Hz <-. cbn in Hz. discriminate Hz.
  - apply unread_but; [apply local_nested | discriminate].
  - constructor; [|constructor]. apply unread_but; [apply local_nested | discriminate].
  - apply unread_but; [apply local_nested | discriminate].
  - intros _. constructor; [apply unread_lit|]. constructor; [|constructor]. apply unread_none. intros x [H Hn]. apply Hn. now apply local_nested.
  - apply unread_none. intros x [H Hn]. apply Hn. now apply local_nested.
  - apply unread_none. intros x [H Hn]. apply Hn. now apply local_nested.
  - apply unread_lit.
  - apply unread_none, local_inner.
  - constructor; [apply unread_lit|]. constructor; [|constructor]. apply unread_none, local_inner.
  - apply unread_none, local_inner.
Qed.
Lemma unrolled_facts isd isf c : c <> Wlp ->
  checkable isd isf Down Up (fun _ _ => calculus_fix c) (fun x => Forall (unread (eq x)) (ensures (over_x unrolled))) unrolled /\
  sound_refutations Up (track_block Up (Some c) unrolled) = true /\
  forall variant cspan dspan T, exists b' v, encode_proc variant cspan dspan 9 T (over_x unrolled) = Ok (Some b', v).
Proof.
  intros Hc. split; [|split; [destruct c; auto; congruence | intros; do 2 eexists; reflexivity]].
  repeat split; try exact Logic.I.
  - right. right. left. split; auto. exists TUInt, 3%N, (num 0). repeat split. discriminate.
  - apply local_unrolled in H. subst x. constructor; [|constructor]. intros z Hz <-. cbn in Hz. discriminate Hz.
  - apply unread_but; [apply local_unrolled | discriminate].
  - constructor; [apply unread_lit|]. constructor; [|constructor]. intros y Hy. cbn in Hy. tauto.
  - apply unread_but; [apply local_unrolled | discriminate].
  - apply unread_none. intros x [H Hn]. apply Hn. now apply local_unrolled.
  - apply unread_lit.
Qed.
