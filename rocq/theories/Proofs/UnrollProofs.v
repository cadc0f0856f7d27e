(** Unrolling and omega-invariants; witnesses against the loop rules. *)
From Coq Require Import Bool List String ZArith NArith QArith Reals Qreals Lia Lra Classical.
From Verif.Model Require Import Syntax Builder AstUtil Lits ProofRules.
From Verif.Spec Require Import Eur Sem Wp Frame Loops.
From Verif.Proofs Require Import EurLemmas SemLemmas WpLemmas DistProofs VcGenProofs MonoProofs SubstProofs FrameProofs LoopProofs ValidateProofs.
Import ListNotations.

Lemma bot_lit_ev I t s : is_exp t -> is_bot_lit t = true -> ev I t s = ebot.
Proof.
  intros [W T] H.
  assert (Z : forall q, Qeq_bool q 0 = true -> fin (Q2R q) = ebot).
  { intros q Hq. apply Qeq_bool_iff, Qeq_eqR in Hq. rewrite Hq. unfold Q2R; simpl. apply fin_neg. lra. }
  destruct t; try discriminate; cbn [is_bot_lit] in H.
  - destruct t0; try discriminate. destruct l; cbn [lit_is_bot] in H; cbn [ty_of] in T; subst;
      cbn [wt ty_of] in W; split_andb; destruct t0; try discriminate.
    + apply N.eqb_eq in H. subst. reflexivity.
    + unfold ev. cbn [eval eval_lit eval_cast]. rewrite <- (Z q H). reflexivity.
  - cbn [ty_of] in T; subst. destruct l; cbn [lit_is_bot wt lit_ok] in *; try discriminate.
    unfold ev. cbn. now apply Z.
Qed.
Lemma top_lit_ev I t s : is_exp t -> is_top_lit t = true -> ev I t s = etop.
Proof.
  intros [W T] H. destruct t; try discriminate; cbn [is_top_lit] in H. cbn [ty_of] in T; subst.
  destruct l; cbn [lit_is_top wt lit_ok] in *; try discriminate. reflexivity.
Qed.
Lemma const_number_val I e q s : wt e = true -> const_number e = Some (Some q) -> (0 <= Q2R q)%R /\
  has_ty (eval I e s) (ty_of e) /\
  match eval I e s with
  | VUInt n => n2r n = Q2R q | VInt z => IZR z = Q2R q | VReal r => r = Q2R q
  | VUReal x => nval x = Q2R q | VEur v => v = fin (Q2R q) | _ => False
  end.
Proof.
  assert (ZN : forall n, Q2R (inject_Z (Z.of_N n)) = n2r n) by (intros n; unfold Q2R, n2r; simpl; lra).
  assert (NP : forall n, (0 <= n2r n)%R) by (intros n; unfold n2r; apply IZR_le; lia).
  revert q. induction e; intros q0 W H; try discriminate.
  - cbn [const_number wt] in *. split_andb. destruct (IHe q0 H0 H) as (Hq & Ht & Hv). split; auto. split.
    { cbn [eval ty_of]. eapply eval_cast_ty; eauto. }
    cbn [eval]. destruct t, (ty_of e) eqn:Et; cbn in H1; try discriminate; inv_ty Ht; rewrite Ht in *; cbn [eval_cast];
      unfold n2r in *; rewrite ?nval_of by (rewrite Hv; auto); rewrite ?Fin_fin; try rewrite Hv; auto.
  - destruct l; try discriminate; cbn [const_number] in H; inversion H; subst; clear H; cbn [wt lit_ok] in W; destruct t; try discriminate.
    + rewrite ZN. split; [apply NP|]. split; reflexivity.
    + apply Qle_bool_iff, Qle_Rle in W. replace (Q2R 0) with 0%R in W by (unfold Q2R; simpl; lra).
      split; auto. split; [reflexivity|]. cbn. now rewrite nval_of.
    + apply Qle_bool_iff, Qle_Rle in W. replace (Q2R 0) with 0%R in W by (unfold Q2R; simpl; lra).
      split; auto. split; reflexivity.
Qed.
Lemma one_lit_ev I t s : is_exp t -> is_one_lit t = true -> ev I t s = eone.
Proof.
  unfold is_one_lit. intros [W T] H.
  destruct (const_number t) as [[q|]|] eqn:E; try discriminate.
  destruct (const_number_val I t q s W E) as (_ & Ht & Hv). rewrite T in Ht. inv_ty Ht.
  apply Qeq_bool_iff, Qeq_eqR in H. rewrite Ht in Hv. unfold ev. rewrite Ht, Hv, H. unfold Q2R; simpl. unfold eone. f_equal. lra.
Qed.

Lemma eq_le X Y : exp_eq X Y -> exp_le X Y.
Proof. intros H. now apply exp_eq_le in H. Qed.
Lemma eq_ge X Y : exp_eq X Y -> exp_le Y X.
Proof. intros H. now apply exp_eq_le in H. Qed.

Fixpoint iterate (n : nat) (F : exp -> exp) (Y : exp) : exp := match n with O => Y | S n' => F (iterate n' F Y) end.

Section Unroll.
  Variables (I : interp) (isd isf : string -> bool) (k : fixkind) (c : expr) (body : list stmt) (X : exp).
  Hypothesis HI : interp_ok I.
  Hypothesis Wb : All (wts isd isf) body.
  Hypothesis Nb : All (every not_negate) body.
  Let F := Phi I isd k c body X.
  Let HF : mono F := Phi_mono I isd isf k c body X HI Wb Nb.

  Lemma wp_unroll n t d : exp_eq (wp_block I isd k (encode_unroll c body n (hey_const t d)) X) (iterate n F (ev I t)).
  Proof.
    induction n as [|n IH]; intros s Hs; [apply wp_hey_const|].
    cbn [encode_unroll iterate]. unfold wp_block. cbn [fold_right]. rewrite wp_iter. apply (mono_eq F); auto.
  Qed.

  Lemma iterate_le_lfp n Y : exp_le Y (lfp F) -> exp_le (iterate n F Y) (lfp F).
  Proof.
    intros H. induction n as [|n IH]; auto. cbn [iterate]. apply exp_le_trans with (F (lfp F)); [apply HF; auto | apply lfp_prefix; auto].
  Qed.
  Lemma gfp_le_iterate n Y : exp_le (gfp F) Y -> exp_le (gfp F) (iterate n F Y).
  Proof.
    intros H. induction n as [|n IH]; auto. cbn [iterate]. apply exp_le_trans with (F (gfp F)); [apply gfp_postfix; auto | apply HF; auto].
  Qed.

  (** [lits]: which terminators make the claim of each fixpoint kind true *)
  Lemma unroll_under n t d : is_exp t -> is_bot_lit t = true ->
    exp_le (wp_block I isd k (encode_unroll c body n (hey_const t d)) X) (lfp F).
  Proof.
    intros Ht Hb. apply exp_le_trans with (iterate n F (ev I t)); [apply eq_le, wp_unroll|].
    apply iterate_le_lfp. intros s Hs. rewrite bot_lit_ev by auto. apply ebot_le.
  Qed.
  Lemma unroll_over n t d : is_exp t -> is_top_lit t = true ->
    exp_le (gfp F) (wp_block I isd k (encode_unroll c body n (hey_const t d)) X).
  Proof.
    intros Ht Hb. apply exp_le_trans with (iterate n F (ev I t)); [|apply eq_ge, wp_unroll].
    apply gfp_le_iterate. intros s Hs. rewrite top_lit_ev by auto. apply ele_top.
  Qed.
  Lemma unroll_over1 n t d : is_exp t -> is_one_lit t = true ->
    exp_le (gfp1 F) (wp_block I isd k (encode_unroll c body n (hey_const t d)) X).
  Proof.
    intros Ht Hb. apply exp_le_trans with (iterate n F (ev I t)); [|apply eq_ge, wp_unroll].
    intros s Hs. apply esup_lub. intros r (Y & H1 & HY & ->). revert s Hs. change (exp_le Y (iterate n F (ev I t))).
    induction n as [|n IH]; cbn [iterate].
    - intros s Hs. rewrite one_lit_ev by auto. apply H1; auto.
    - apply exp_le_trans with (F Y); auto.
  Qed.
End Unroll.

(** The claims of the approximation table, for literal terminators. *)
Theorem unroll_claims I isd isf k c body X n t d b : interp_ok I -> All (wts isd isf) body -> All (every not_negate) body -> is_exp t ->
  unroll_transform [ELit TUInt (LUInt n); t] c body d = Ok b ->
  let F := Phi I isd k c body X in let enc := wp_block I isd k b X in
  (is_bot_lit t = true -> unroll_default d t = LFP /\
     approx_holds (a_under (unroll_approx LFP EXACT)) (a_over (unroll_approx LFP EXACT)) enc (lfp F)) /\
  (is_top_lit t = true -> unroll_default d t = GFP /\
     approx_holds (a_under (unroll_approx GFP EXACT)) (a_over (unroll_approx GFP EXACT)) enc (gfp F)) /\
  (is_one_lit t = true -> unroll_default d t = GFP /\
     approx_holds (a_under (unroll_approx GFP EXACT)) (a_over (unroll_approx GFP EXACT)) enc (gfp1 F)).
Proof.
  intros HI W N Ht E. cbn [unroll_transform lit_u128] in E. destruct (N.ltb n (2 ^ 128)); try discriminate.
  cbn [rbind] in E. inversion E; subst b; clear E. cbn zeta.
  assert (Hb : forall I s, is_bot_lit t = true -> ev I t s = ebot) by (intros; now apply bot_lit_ev).
  assert (NB : is_top_lit t || is_one_lit t = true -> is_bot_lit t = false).
  { intros H. destruct (is_bot_lit t) eqn:B; auto. exfalso.
    pose proof (Hb I (fun x => match ity x with TBool => VBool true | TInt => VInt 0 | TUInt => VUInt 0 | TReal => VReal 0 | TUReal => VUReal (nnr_of 0) | TEUReal => VEur ebot end) eq_refl) as E.
    apply orb_prop in H. destruct H as [H|H].
    - rewrite (top_lit_ev I t _ Ht H) in E. discriminate E.
    - rewrite (one_lit_ev I t _ Ht H) in E. exact (eone_neq_ebot E). }
  unfold approx_holds. cbn [unroll_approx a_and a_under a_over EXACT UNDER OVER andb].
  split; [|split]; intros H; (split; [unfold unroll_default | split; intros K; try discriminate K]).
  - now rewrite H.
  - eapply unroll_under; eauto.
  - rewrite NB; rewrite H; auto.
  - eapply unroll_over; eauto.
  - rewrite NB; rewrite H; rewrite ?orb_true_r; auto.
  - eapply unroll_over1; eauto.
Qed.

(** [while true {}] *)
Definition tt_e : expr := ELit TBool (LBool true).
Lemma Phi_skip I isd k X Y s : Phi I isd k tt_e [] X Y s = Y s.
Proof. reflexivity. Qed.
Lemma lfp_skip I isd k X s : env_ok s -> lfp (Phi I isd k tt_e [] X) s = ebot.
Proof. intros Hs. apply le_ebot. apply (lfp_least (Phi I isd k tt_e [] X) (fun _ => ebot)); auto. intros t Ht. apply ele_refl. Qed.
Lemma gfp_skip I isd k X s : env_ok s -> gfp (Phi I isd k tt_e [] X) s = etop.
Proof. intros Hs. apply top_le. apply (gfp_greatest (Phi I isd k tt_e [] X) (fun _ => etop)); auto. intros t Ht. apply ele_refl. Qed.

(** Under a least-fixpoint calculus the claim UNDER is made whatever the terminator is. *)
Lemma unroll_lfp_refuted : exists t b, is_exp t /\ a_under (unroll_approx LFP EXACT) = true /\
  unroll_transform [ELit TUInt (LUInt 1); t] tt_e [] Down = Ok b /\
  forall I isd k X s, env_ok s -> wp_block I isd k b X s = etop /\ lfp (Phi I isd k tt_e [] X) s = ebot.
Proof.
  exists b_inf. eexists. split; [split; reflexivity|]. split; [reflexivity|]. split; [reflexivity|].
  intros I isd k X s Hs. split; [|now apply lfp_skip].
  change (wp_block I isd k (hey_const b_inf Down) X s = etop). now rewrite wp_hey_const.
Qed.
Lemma unroll_gfp_refuted : exists t b, is_exp t /\ a_over (unroll_approx GFP EXACT) = true /\
  unroll_transform [ELit TUInt (LUInt 1); t] tt_e [] Up = Ok b /\
  forall I isd k X s, env_ok s -> wp_block I isd k b X s = ebot /\ gfp (Phi I isd k tt_e [] X) s = etop.
Proof.
  exists (ECast TEUReal (b_uint 0)). eexists. split; [split; reflexivity|]. split; [reflexivity|]. split; [reflexivity|].
  intros I isd k X s Hs. split; [|now apply gfp_skip].
  change (wp_block I isd k (hey_const (ECast TEUReal (b_uint 0)) Up) X s = ebot). now rewrite wp_hey_const.
Qed.
(** Without a calculus, any other terminator (here 5) is claimed sound as well. *)
Lemma unroll_default_refuted : exists t b, is_exp t /\ unroll_default Down t = LFP /\
  unroll_transform [ELit TUInt (LUInt 1); t] tt_e [] Down = Ok b /\
  forall I isd k X s, env_ok s -> wp_block I isd k b X s = fin 5 /\ lfp (Phi I isd k tt_e [] X) s = ebot.
Proof.
  exists (ECast TEUReal (b_uint 5)). eexists. split; [split; reflexivity|]. split; [reflexivity|]. split; [reflexivity|].
  intros I isd k X s Hs. split; [|now apply lfp_skip].
  change (wp_block I isd k (hey_const (ECast TEUReal (b_uint 5)) Down) X s = fin 5). now rewrite wp_hey_const.
Qed.
(** Terminator 1 does not over-approximate the unbounded greatest fixpoint. *)
Lemma unroll_one_refuted : exists t b, is_exp t /\ unroll_default Up t = GFP /\
  unroll_transform [ELit TUInt (LUInt 1); t] tt_e [] Up = Ok b /\
  forall I isd k X s, env_ok s -> wp_block I isd k b X s = eone /\ gfp (Phi I isd k tt_e [] X) s = etop.
Proof.
  exists (ECast TEUReal (b_uint 1)). eexists. split; [split; reflexivity|]. split; [reflexivity|]. split; [reflexivity|].
  intros I isd k X s Hs. split; [|now apply gfp_skip].
  change (wp_block I isd k (hey_const (ECast TEUReal (b_uint 1)) Up) X s = eone). now rewrite wp_hey_const.
Qed.
