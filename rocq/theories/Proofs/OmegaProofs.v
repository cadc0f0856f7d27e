(** Omega-invariants, and witnesses against the induction rules. *)
From Coq Require Import Bool List String ZArith NArith QArith Reals Qreals Lia Lra Classical.
From Verif.Model Require Import Syntax Builder AstUtil ProofRules Dist VcGen.
From Verif.Spec Require Import Eur Sem Wp Frame Loops.
From Verif.Proofs Require Import EurLemmas SemLemmas WpLemmas DistProofs VcGenProofs MonoProofs SubstProofs FrameProofs LoopProofs ValidateProofs UnrollProofs.
Import ListNotations.

(** The fixpoint that iteration in a direction is about. *)
Definition dfix' (d : direction) (F : exp -> exp) : exp := match d with Down => lfp F | Up => gfp F end.
Lemma dfix'_prefix d F : mono F -> dexp_le d (F (dfix' d F)) (dfix' d F).
Proof. intros HF. destruct d; [exact (lfp_prefix F HF) | exact (gfp_postfix F HF)]. Qed.

Lemma wp_havoc I isd k d xs X : wp I isd k (SHavoc d xs) X = havoc_sem d xs X.
Proof. reflexivity. Qed.
Lemma wp_validate I isd k d X : wp I isd k (SValidate d) X = fun s => validate_sem d (X s).
Proof. reflexivity. Qed.
Lemma wp_assume I isd k d e X : wp I isd k (SAssume d e) X = fun s => assume_sem d (ev I e s) (X s).
Proof. reflexivity. Qed.

Lemma wp_choice I isd k d a b X s :
  wp I isd k (match d with Down => SDemonic a b | Up => SAngelic a b end) X s = dmeet d (wp_block I isd k a X s) (wp_block I isd k b X s).
Proof. destruct d; reflexivity. Qed.

Section Omega.
  Variables (I : interp) (isd isf : string -> bool) (k : fixkind) (c : expr) (body : list stmt) (X : exp).
  Hypothesis HI : interp_ok I.
  Hypothesis Wb : All (wts isd isf) body.
  Hypothesis Nb : All (every not_negate) body.
  Variables (d : direction) (n : ident) (inv : expr).
  Hypothesis Tn : ity n = TUInt.
  Let F := Phi I isd k c body X.
  Let HF : mono F := Phi_mono I isd isf k c body X HI Wb Nb.
  (** n is fresh for the loop *)
  Let Vn (x : ident) : Prop := x = n.
  Hypothesis Uc : unread Vn c.
  Hypothesis Sb : scoped_block Vn body.
  Hypothesis BX : blind Vn X.
  Hypothesis Wn : ~ writes_block n body.

  Let In_ (m : N) : exp := fun t => ev I inv (upd t n (VUInt m)).
  Lemma In_blind m : blind Vn (In_ m).
  Proof.
    intros s s' Hs Hs' E. unfold In_, ev. rewrite (eval_ext I inv (upd s n (VUInt m)) (upd s' n (VUInt m))); auto.
    intros x _. unfold upd. destruct (ident_eqb_spec n x) as [|Hx]; [reflexivity|]. apply E. intros ->. now apply Hx.
  Qed.

  (** The two obligations at a state. *)
  Definition base_at (Z : exp) (t : env) : Prop := dle d (In_ 0 t) (F Z t).
  Definition step_at (t : env) : Prop := forall m, dle d (In_ (m + 1) t) (F (ev I inv) (upd t n (VUInt m))).

  Lemma upd_n t m : env_ok t -> env_ok (upd t n (VUInt m)).
  Proof. intros Ht. apply upd_ok; auto. now rewrite Tn. Qed.

  Lemma F_inv t m : env_ok t -> F (ev I inv) (upd t n (VUInt m)) = F (In_ m) t.
  Proof.
    intros Ht. set (u := upd t n (VUInt m)).
    assert (Hu : env_ok u) by (apply upd_n; auto).
    transitivity (F (In_ m) u).
    - set (M x := writes_block x body).
      assert (E : forall v, only_changes M u v -> ev I inv v = In_ m v).
      { intros v [Hv1 Hv2]. unfold In_, ev. rewrite (eval_ext I inv v (upd v n (VUInt m))); auto.
        intros x _. unfold upd at 1. destruct (ident_eqb_spec n x); auto. subst x. rewrite Hv2; auto.
        unfold u. apply upd_same. }
      assert (L : local_mono M F) by (apply (Phi_local I isd isf k c body X HI Wb Nb); auto).
      apply ele_antisym; apply (L u); auto using only_refl; intros v Hv; rewrite E by auto; apply ele_refl.
    - apply (Phi_blind I isd isf k c body X HI Wb Nb Vn); auto using In_blind.
      intros x Hx. unfold u. apply upd_other. unfold Vn in Hx. congruence.
  Qed.

  (** If the obligations hold wherever the loop can get to, every member of the sequence bounds the loop. *)
  Lemma omega_bound s : env_ok s ->
    (forall t, only_changes (fun x => writes_block x body) s t -> base_at (fun _ => dbot d) t /\ step_at t) ->
    forall m, dle d (In_ m s) (dfix' d F s).
  Proof.
    intros Hs H. set (M x := writes_block x body).
    assert (L : local_mono M F) by (apply (Phi_local I isd isf k c body X HI Wb Nb); auto).
    assert (G : forall m t, only_changes M s t -> dle d (In_ m t) (dfix' d F t)).
    { intros m. induction m as [|m IH] using N.peano_ind; intros t Ht; destruct (H t Ht) as [Hb Hst].
      - eapply dle_trans; [exact Hb|]. eapply dle_trans; [|apply dfix'_prefix; [exact HF | apply Ht]].
        apply mono_d; auto; [|apply Ht]. intros u Hu. apply dbot_le.
      - rewrite <- N.add_1_r. eapply dle_trans; [exact (Hst m)|]. rewrite F_inv by apply Ht.
        eapply dle_trans; [|apply dfix'_prefix; [exact HF | apply Ht]].
        apply (local_d d M F s); auto. }
    intros m. apply G. now apply only_refl.
  Qed.

  Lemma wp_omega b s : is_exp inv -> omega_transform [EVar n; inv] c body d = Ok b -> env_ok s ->
    wp_block I isd k b X s = havoc_sem (toggle_dir d) [n] (fun s' => dmeet d (ev I inv s')
      (dmeet d (if dec (base_at (fun _ => ebot) s') then dtop d else dbot d)
         (havoc_sem d [n] (fun t => if dec (dle d (ev I (ESubst n (EBin TUInt OAdd (EVar n) (b_uint 1)) inv) t) (F (ev I inv) t)) then dtop d else dbot d) s'))) s.
  Proof.
    intros Hi E Hs. cbn [omega_transform] in E. inversion E; subst b; clear E.
    unfold wp_block. cbn [fold_right]. rewrite wp_havoc. apply havoc_ext; auto. intros t Ht.
    rewrite wp_assert. f_equal.
    assert (C1 : wp_block I isd k [SValidate d; SAssume d (b_subst inv [(n, b_uint 0)]);
       encode_iter c body (hey_const (b_cast TEUReal (b_uint 0)) d)] X t = if dec (base_at (fun _ => ebot) t) then dtop d else dbot d).
    { unfold wp_block. cbn [fold_right]. rewrite wp_iter, wp_validate, wp_assume. rewrite validate_assume_sem.
      replace (ev I (b_subst inv [(n, b_uint 0)]) t) with (In_ 0 t) by reflexivity.
      replace (Phi I isd k c body X (wp_block I isd k (hey_const (b_cast TEUReal (b_uint 0)) d) X) t) with (F (fun _ => ebot) t); auto.
      apply (mono_eq F); auto. intros u Hu. now rewrite wp_hey_const. }
    assert (C2 : wp_block I isd k [SHavoc d [n]; SValidate d; SAssume d (b_subst inv [(n, EBin TUInt OAdd (EVar n) (b_uint 1))]);
       encode_iter c body (hey_const inv d)] X t = havoc_sem d [n] (fun t => if dec (dle d (ev I (ESubst n (EBin TUInt OAdd (EVar n) (b_uint 1)) inv) t) (F (ev I inv) t)) then dtop d else dbot d) t).
    { unfold wp_block. cbn [fold_right]. rewrite wp_iter, wp_havoc, wp_validate, wp_assume. apply havoc_ext; auto. intros u Hu. rewrite validate_assume_sem.
      replace (Phi I isd k c body X (wp_block I isd k (hey_const inv d) X) u) with (F (ev I inv) u); auto.
      apply (mono_eq F); auto. intros v Hv. now rewrite wp_hey_const. }
    rewrite wp_choice. f_equal; assumption.
  Qed.

  Lemma dle_havoc_toggle xs Y s r : (forall s', havocked xs s s' -> dle d (Y s') r) -> dle d (havoc_sem (toggle_dir d) xs Y s) r.
  Proof.
    intros H. destruct d; cbn [toggle_dir havoc_sem dle] in *.
    - apply esup_lub. intros v (s' & Hs' & ->). auto.
    - apply einf_glb. intros v (s' & Hs' & ->). auto.
  Qed.

  Lemma dfix'_blind : blind Vn (dfix' d F).
  Proof.
    destruct d; [apply lfp_blind | apply gfp_blind]; auto; intros Y HY; apply (Phi_blind I isd isf k c body X HI Wb Nb Vn); auto.
  Qed.

  (** The encoding bounds the loop at [s] if the obligations hold at all states the loop can reach from [s]. *)
  Theorem omega_sound b s : is_exp inv -> omega_transform [EVar n; inv] c body d = Ok b -> env_ok s ->
    (forall t, only_changes (fun x => writes_block x body) s t -> base_at (fun _ => dbot d) t /\ step_at t) ->
    dle d (wp_block I isd k b X s) (dfix' d F s).
  Proof.
    intros Hi E Hs H. rewrite (wp_omega b s Hi E Hs). apply dle_havoc_toggle. intros s' Hs'.
    apply dle_trans with (ev I inv s'); [apply dmeet_l|].
    assert (Tv : exists m, s' n = VUInt m).
    { clear H E. pose proof (proj2 Hs' n (or_introl eq_refl)) as Tv. rewrite Tn in Tv. inv_ty Tv. eauto. }
    destruct Tv as [b0 Tv].
    replace (ev I inv s') with (In_ b0 s).
    - apply omega_bound; auto.
    - unfold In_, ev. rewrite (eval_ext I inv s' (upd s n (VUInt b0))); auto.
      intros x _. unfold upd. destruct (ident_eqb_spec n x); [congruence|]. apply Hs'. intros [E'|[]]. congruence.
  Qed.
  (** A value of the encoding other than zero means that the obligations hold at that state. *)
  Lemma omega_checks b t : is_exp inv -> omega_transform [EVar n; inv] c body d = Ok b -> env_ok t -> d = Down ->
    wp_block I isd k b X t <> ebot -> base_at (fun _ => dbot d) t /\ step_at t.
  Proof.
    intros Hi E Ht Hd Hz. rewrite (wp_omega b t Hi E Ht) in Hz.
    assert (Ex : exists s', havocked [n] t s' /\ dmeet d (ev I inv s')
      (dmeet d (if dec (base_at (fun _ => ebot) s') then dtop d else dbot d)
         (havoc_sem d [n] (fun t => if dec (dle d (ev I (ESubst n (EBin TUInt OAdd (EVar n) (b_uint 1)) inv) t) (F (ev I inv) t)) then dtop d else dbot d) s')) <> ebot).
    { apply NNPP. intros H. apply Hz. apply le_ebot. replace (toggle_dir d) with Up by (rewrite Hd; reflexivity). unfold havoc_sem at 1. apply esup_lub. intros r (s' & Hs' & ->).
      assert (K : forall x, (x <> ebot -> False) -> ele x ebot).
      { intros x Hx. destruct (classic (x = ebot)) as [->|Hne]; [apply ele_refl | elim (Hx Hne)]. }
      apply K. intros H1. apply H. exists s'. split; auto. }
    destruct Ex as (s' & Hs' & Hm). pose proof (havocked_ok _ _ _ Ht Hs') as Hok.
    assert (Et : forall x, ~ Vn x -> t x = s' x).
    { intros x Hx. symmetry. apply Hs'. intros [Hc|[]]. apply Hx. unfold Vn. congruence. }
    assert (Sub : forall u m, In_ m u = ev I inv (upd u n (VUInt m))) by reflexivity.
    split.
    - destruct (dec (base_at (fun _ => ebot) s')) eqn:D.
      2:{ exfalso. apply Hm. rewrite Hd. cbn [dmeet dbot dtop]. apply le_ebot. eapply ele_trans; [apply emin_r | apply emin_l]. }
      apply (proj1 (dec_iff _)) in D. unfold base_at in *.
      rewrite (In_blind 0 t s' Ht Hok Et).
      replace (dbot d) with ebot by (rewrite Hd; reflexivity).
      pose proof (Phi_blind I isd isf k c body X HI Wb Nb Vn Uc Sb BX (fun _ => ebot) (fun _ _ _ _ _ => eq_refl) t s' Ht Hok Et) as Eb.
      fold F in Eb. rewrite Eb. exact D.
    - intros m.
      set (P u := dle d (ev I (ESubst n (EBin TUInt OAdd (EVar n) (b_uint 1)) inv) u) (F (ev I inv) u)) in *.
      destruct (havoc_check d [n] P (fun u => if dec (P u) then dtop d else dbot d) s') as [[_ Hall]|[Hb _]]; auto.
      2:{ exfalso. apply Hm. unfold P in Hb. cbv beta in Hb. fold F in Hb. rewrite Hb, Hd. cbn [dmeet dbot dtop]. apply le_ebot. eapply ele_trans; [apply emin_r | apply emin_r]. }
      assert (Hu : havocked [n] s' (upd t n (VUInt m))).
      { split.
        - intros x Hx. rewrite upd_other by (intros Hc; apply Hx; left; congruence). apply Et. intros Hc. apply Hx. left. symmetry. exact Hc.
        - intros x [Hc|[]]. rewrite <- Hc, upd_same, Tn. reflexivity. }
      specialize (Hall _ Hu). unfold P in Hall.
      replace (In_ (m + 1) t) with (ev I (ESubst n (EBin TUInt OAdd (EVar n) (b_uint 1)) inv) (upd t n (VUInt m))); auto.
      unfold In_, ev. cbn [eval]. rewrite upd_same.
      change (eval_bin I TUInt OAdd (VUInt m) (eval I (b_uint 1) (upd t n (VUInt m)))) with (VUInt (m + 1)).
      rewrite (eval_ext I inv (upd (upd t n (VUInt m)) n (VUInt (m + 1))) (upd t n (VUInt (m + 1)))); auto.
      intros x _. unfold upd. destruct (ident_eqb n x); reflexivity.
  Qed.

  (** Down: if the encoding is positive wherever the loop can get to from [s], it bounds the loop at [s]. *)
  Theorem omega_sound_down b s : is_exp inv -> d = Down -> omega_transform [EVar n; inv] c body d = Ok b -> env_ok s ->
    (forall t, only_changes (fun x => writes_block x body) s t -> wp_block I isd k b X t <> ebot) ->
    ele (wp_block I isd k b X s) (lfp F s).
  Proof.
    intros Hi Hd E Hs H.
    assert (G : dle d (wp_block I isd k b X s) (dfix' d F s)).
    { apply (omega_sound b s Hi E Hs). intros t Ht. apply (omega_checks b t); auto. apply Ht. }
    rewrite Hd in G. exact G.
  Qed.
End Omega.

(** * Witnesses *)
Definition xb := mkid "x" 0 TBool.
Definition nn := mkid "n" 1 TUInt.
Lemma bool_ok s x v : env_ok s -> ity x = TBool -> env_ok (upd s x (VBool v)).
Proof. intros Hs Hx. apply upd_ok; auto. now rewrite Hx. Qed.


(** The inductivity of an invariant is only checked for the collected variables, and havocked ones
    are not collected. *)
Lemma k_induction_havoc_refuted : exists c body inv b, invariant_transform [inv] c body Down = Ok b /\
  is_guard c /\ is_exp inv /\ (forall isd isf, All (wts isd isf) body) /\ All (every not_negate) body /\
  exists post, is_exp post /\ forall I isd k s, interp_ok I -> env_ok s -> s xb = VBool false ->
    wp_block I isd k b (ev I post) s = eone /\ gfp (Phi I isd k c body (ev I post)) s = ebot.
Proof.
  exists (EUn TBool ONot (EVar xb)), [SHavoc Down [xb]], one_e. eexists. split; [reflexivity|].
  split; [split; reflexivity|]. split; [apply one_e_ok|]. split; [cbn; auto|]. split; [cbn; auto|].
  set (post := EUn TEUReal OIverson (EUn TBool ONot (EVar xb))).
  exists post. split; [split; reflexivity|]. intros I isd k s HI Hs Hx.
  set (body := [SHavoc Down [xb]]). set (c := EUn TBool ONot (EVar xb)).
  assert (Wb : All (wts isd (fun _ => false)) body) by (cbn; auto).
  assert (Nb : All (every not_negate) body) by (cbn; auto).
  set (F := Phi I isd k c body (ev I post)).
  assert (F0 : forall Y t, t xb = VBool false -> F Y t = havoc_sem Down [xb] Y t).
  { intros Y t Ht. unfold F, Phi, holds. cbn [eval c]. rewrite Ht. reflexivity. }
  assert (F1 : forall Y t, t xb = VBool true -> F Y t = ebot).
  { intros Y t Ht. unfold F, Phi, holds, ev, post. cbn [eval c]. rewrite Ht. cbn. reflexivity. }
  split.
  - rewrite (wp_k_induction I isd (fun _ => false) k c body (ev I post) HI Wb Nb) by auto.
    replace (havoc_vars c body) with (@nil ident) by reflexivity. cbn [dmeet Nat.sub ext]. rewrite ev_one. fold F.
    destruct (havoc_check Down [] (fun u => ele (ev I one_e u) (F (ev I one_e) u))
      (fun u => if dec (ele (ev I one_e u) (F (ev I one_e) u)) then dtop Down else dbot Down) s) as [[H _]|[_ (u & Hu & Hn)]].
    { intros. reflexivity. }
    + cbn [dle]. rewrite H. apply (dmeet_top Down).
    + exfalso. apply Hn. rewrite F0 by (rewrite (proj1 (havocked_nil s u) Hu); auto).
      rewrite ev_one. unfold havoc_sem. apply einf_glb. intros r (v & _ & ->). rewrite ev_one. apply ele_refl.
  - assert (HF : mono F) by (apply (Phi_mono I isd (fun _ => false)); auto).
    apply le_ebot. eapply ele_trans; [apply (gfp_postfix F HF); auto|]. rewrite F0 by auto.
    set (s' := upd s xb (VBool true)). assert (Hs' : env_ok s') by (apply bool_ok; auto).
    apply ele_trans with (gfp F s').
    + apply einf_lb. exists s'. split; auto. split.
      * intros x Hn. apply upd_other. intros E. apply Hn. now left.
      * intros x [<-|[]]. reflexivity.
    + eapply ele_trans; [apply (gfp_postfix F HF); auto|]. rewrite F1; [apply ele_refl | reflexivity].
Qed.

(** The conditions of omega-invariants are only checked at the state in front of the loop. *)
Definition omega_inv : expr :=
  EIte TEUReal (EVar xb) one_e (EUn TEUReal OIverson (EBin TBool OLe (b_uint 1) (EVar nn))).
Lemma omega_refuted : exists c body inv b, omega_transform [EVar nn; inv] c body Down = Ok b /\
  is_guard c /\ is_exp inv /\ (forall isd isf, All (wts isd isf) body) /\ All (every not_negate) body /\
  a_under (unroll_approx (omega_default Down) EXACT) = true /\
  forall I isd k X s, interp_ok I -> env_ok s -> s xb = VBool false -> blind (fun x => x = nn) X ->
    wp_block I isd k b X s = eone /\ lfp (Phi I isd k c body X) s = ebot.
Proof.
  exists tt_e, [SAssign [xb] tt_e], omega_inv. eexists. split; [reflexivity|].
  split; [split; reflexivity|]. split; [split; reflexivity|]. split; [cbn; auto|]. split; [cbn; auto|]. split; [reflexivity|].
  intros I isd k X s HI Hs Hx BX.
  set (body := [SAssign [xb] tt_e]).
  assert (Wb : All (wts isd (fun _ => false)) body) by (cbn; auto).
  assert (Nb : All (every not_negate) body) by (cbn; auto).
  set (F := Phi I isd k tt_e body X).
  assert (HF : mono F) by (apply (Phi_mono I isd (fun _ => false)); auto).
  assert (F0 : forall Y t, F Y t = Y (upd t xb (VBool true))) by reflexivity.
  assert (V1 : forall t, t xb = VBool true -> ev I omega_inv t = eone).
  { intros t Ht. unfold ev, omega_inv. cbn [eval]. rewrite Ht. cbn. unfold eone, fin, n2r; simpl. reflexivity. }
  assert (V2 : forall t m, t xb = VBool false -> t nn = VUInt m -> ev I omega_inv t = if N.leb 1 m then eone else ebot).
  { intros t m Ht Hm. unfold ev, omega_inv. cbn [eval]. rewrite Ht, Hm. cbn. destruct m; reflexivity. }
  split.
  - rewrite (wp_omega I isd (fun _ => false) k tt_e body X HI Wb Nb Down nn omega_inv _ s (conj eq_refl eq_refl) eq_refl Hs).
    fold F. unfold toggle_dir, havoc_sem at 1. cbn [dmeet].
    assert (Tn : forall t, env_ok t -> exists m, t nn = VUInt m).
    { intros t Ht. pose proof (Ht nn) as Hn. cbn in Hn. inv_ty Hn. eauto. }
    apply ele_antisym.
    + apply esup_lub. intros r (s' & Hs' & ->). eapply ele_trans; [apply emin_l|].
      pose proof (havocked_ok _ _ _ Hs Hs') as Hok. destruct (Tn s' Hok) as [m Hm].
      rewrite (V2 s' m); auto.
      * destruct (N.leb 1 m); [apply ele_refl | apply ebot_le].
      * rewrite <- Hx. apply Hs'. intros [E|[]]. discriminate E.
    + set (s' := upd s nn (VUInt 1)). assert (Hs' : env_ok s') by (apply upd_ok; auto; reflexivity).
      apply esup_ub. exists s'. split.
      { split; [|intros x [<-|[]]; reflexivity]. intros x Hn. apply upd_other. intros E. apply Hn. now left. }
      rewrite (V2 s' 1%N) by (auto; reflexivity). cbn [N.leb N.compare].
      rewrite dec_true.
      2:{ unfold base_at. cbn [dle]. fold F. rewrite F0.
          rewrite (V2 (upd s' nn (VUInt 0)) 0%N); [apply ele_refl | | apply upd_same].
          unfold s'. rewrite !upd_other by discriminate. exact Hx. }
      match goal with |- context [havoc_sem Down ?xs ?Y ?u] => assert (EA : havoc_sem Down xs Y u = etop) end.
      { apply top_le. apply einf_glb. intros r (t & Ht & ->). rewrite dec_true; [apply ele_refl|].
        cbn [dle]. rewrite F0, V1 by reflexivity.
        rewrite ev_subst. pose proof (havocked_ok _ _ _ Hs' Ht) as Hok. destruct (Tn t Hok) as [m Hm].
        assert (Tx : t xb = VBool false).
        { rewrite (proj1 Ht) by (intros [E|[]]; discriminate E). exact Hx. }
        rewrite (V2 _ (m + 1)%N).
        - destruct (N.leb 1 (m + 1)); [apply ele_refl | apply ebot_le].
        - rewrite upd_other by discriminate. exact Tx.
        - rewrite upd_same. cbn [eval]. rewrite Hm. reflexivity. }
      rewrite EA. change etop with (dtop Down). rewrite !(dmeet_top Down). reflexivity.
  - apply le_ebot. apply (lfp_least F (fun _ => ebot)); auto. intros t Ht. rewrite F0. apply ele_refl.
Qed.

(** In the upper direction the base case starts from zero instead of from the top element. *)
Lemma omega_up_refuted : exists inv b, omega_transform [EVar nn; inv] tt_e [] Up = Ok b /\ is_exp inv /\
  a_over (unroll_approx (omega_default Up) EXACT) = true /\
  forall I isd k X s, interp_ok I -> env_ok s ->
    wp_block I isd k b X s = ebot /\ gfp (Phi I isd k tt_e [] X) s = etop.
Proof.
  exists (ECast TEUReal (b_uint 0)). eexists. split; [reflexivity|]. split; [split; reflexivity|]. split; [reflexivity|].
  intros I isd k X s HI Hs. split; [|now apply gfp_skip].
  rewrite (wp_omega I isd (fun _ => false) k tt_e [] X HI Logic.I Logic.I Up nn (ECast TEUReal (b_uint 0)) _ s (conj eq_refl eq_refl) eq_refl Hs).
  apply le_ebot. unfold toggle_dir, havoc_sem at 1. apply einf_lb. exists s. split; [now apply havocked_refl|].
  cbn [dmeet]. replace (ev I (ECast TEUReal (b_uint 0)) s) with ebot by reflexivity.
  rewrite dec_true by apply ele_refl.
  match goal with |- context [havoc_sem ?a ?b ?Y ?t] => assert (EA : havoc_sem a b Y t = ebot) end.
  { apply le_ebot. apply esup_lub. intros r (t & Ht & ->). rewrite dec_true; [apply ele_refl|]. apply ele_refl. }
  rewrite EA. change ebot with (dtop Up). rewrite !(dmeet_top Up). reflexivity.
Qed.

Lemma omega_rule I isd isf k c body X : interp_ok I ->
  All (wts isd isf) body -> All (every not_negate) body -> forall d n inv, ity n = TUInt ->
  unread (fun x => x = n) c -> scoped_block (fun x => x = n) body -> blind (fun x => x = n) X -> ~ writes_block n body ->
  forall b s, is_exp inv -> omega_transform [EVar n; inv] c body d = Ok b -> env_ok s ->
  let F := Phi I isd k c body X in
  (forall t, only_changes (fun x => writes_block x body) s t ->
     dle d (ev I inv (upd t n (VUInt 0))) (F (fun _ => match d with Down => ebot | Up => etop end) t) /\
     forall m, dle d (ev I inv (upd t n (VUInt (m + 1)))) (F (ev I inv) (upd t n (VUInt m)))) ->
  dle d (wp_block I isd k b X s) (match d with Down => lfp F s | Up => gfp F s end).
Proof.
  intros HI W N d n inv Tn Uc Sb BX Wn b s Hi E Hs F H.
  assert (G : dle d (wp_block I isd k b X s) (dfix' d F s)).
  { apply (omega_sound I isd isf k c body X HI W N d n inv Tn Uc Sb BX Wn b s Hi E Hs).
    intros t Ht. destruct (H t Ht) as [H1 H2]. split; [|exact H2]. destruct d; exact H1. }
  destruct d; exact G.
Qed.

Section Ex.
  Let c15_x := mkid "x" 0 TUInt.
  Let c15_n := mkid "n" 1 TUInt.
  Let c15_body : list stmt := [SAssign [c15_x] (EBin TUInt OSub (EVar c15_x) (ELit TUInt (LUInt 1%N)))].
  Let c15_c : expr := EBin TBool OLt (ELit TUInt (LUInt 0%N)) (EVar c15_x).
  Let c15_inv : expr := EUn TEUReal OIverson (EBin TBool OLt (EVar c15_x) (EVar c15_n)).
  Lemma omega_example : forall I isd k, interp_ok I ->
    let post := ECast TEUReal (ELit TUInt (LUInt 1%N)) in let F := Phi I isd k c15_c c15_body (ev I post) in
    All (wts isd (fun _ => false)) c15_body /\ is_exp c15_inv /\ unread (fun x => x = c15_n) c15_c /\
    scoped_block (fun x => x = c15_n) c15_body /\ blind (fun x => x = c15_n) (ev I post) /\ ~ writes_block c15_n c15_body /\
    forall t, env_ok t ->
      dle Down (ev I c15_inv (upd t c15_n (VUInt 0))) (F (fun _ => ebot) t) /\
      forall m, dle Down (ev I c15_inv (upd t c15_n (VUInt (m + 1)))) (F (ev I c15_inv) (upd t c15_n (VUInt m))).
  Proof.
    intros I isd k HI post F.
    assert (V : forall t x n, t c15_x = VUInt x -> t c15_n = VUInt n -> ev I c15_inv t = if N.ltb x n then eone else ebot).
    { intros t x n Hx Hn. unfold ev, c15_inv. cbn [eval]. rewrite Hx, Hn. cbn. rewrite N.ltb_antisym. destruct (N.leb n x); reflexivity. }
    assert (FV : forall Y t x, t c15_x = VUInt x -> F Y t = if N.ltb 0 x then Y (upd t c15_x (VUInt (x - 1))) else eone).
    { intros Y t x Hx. unfold F, Phi, holds, c15_c. cbn [eval]. rewrite Hx. cbn. destruct x; cbn.
      - unfold n2r, fin, eone; reflexivity.
      - rewrite Hx. reflexivity. }
    repeat split; auto.
    - intros y Hy. cbn in Hy. destruct Hy as [[]| ->]. discriminate.
    - intros y Hy. cbn in Hy. destruct Hy as [-> | []]. discriminate.
    - cbn. intros [[H|[]]|[]]. discriminate H.
    - pose proof (H c15_x) as Tx. cbn in Tx. inv_ty Tx.
      rewrite (V _ b 0%N); [| rewrite upd_other by discriminate; exact Tx | apply upd_same].
      destruct (N.ltb_spec b 0); [lia|]. apply ebot_le.
    - intros m. pose proof (H c15_x) as Tx. cbn in Tx. inv_ty Tx.
      rewrite (V _ b (m + 1)%N); [| rewrite upd_other by discriminate; exact Tx | apply upd_same].
      rewrite (FV _ _ b) by (rewrite upd_other by discriminate; exact Tx).
      destruct (N.ltb_spec 0 b); [|destruct (N.ltb b (m + 1)); [apply ele_refl | apply ebot_le]].
      rewrite (V _ (b - 1)%N m); [| apply upd_same | rewrite upd_other by discriminate; apply upd_same].
      destruct (N.ltb_spec b (m + 1)); [|apply ebot_le]. destruct (N.ltb_spec (b - 1) m); [apply ele_refl | lia].
  Qed.
End Ex.
