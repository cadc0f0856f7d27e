(** Soundness of the loop encodings. *)
From Coq Require Import Bool List String ZArith NArith QArith Reals Lia Lra Classical.
From Verif.Model Require Import Syntax Builder AstUtil ProofRules.
From Verif.Spec Require Import Eur Sem Wp Frame Loops.
From Verif.Proofs Require Import EurLemmas SemLemmas WpLemmas DistProofs VcGenProofs MonoProofs SubstProofs FrameProofs.
Import ListNotations.

(** * Expectations that ignore local variables *)
Lemma scoped_block_eq b : forall V, (fix block (V : ident -> Prop) (b : list stmt) {struct b} : Prop :=
    match b with
    | [] => True
    | s :: b' => scoped V s /\ block (fun x => V x /\ match s with SVar y (Some _) => x <> y | _ => True end) b'
    end) V b = scoped_block V b.
Proof. induction b as [|s b IH]; intros V; simpl; auto. Qed.

Lemma unread_eval (V : ident -> Prop) I e s s' : unread V e -> (forall x, ~ V x -> s x = s' x) -> eval I e s = eval I e s'.
Proof. intros H Hs. apply eval_ext. intros x Hx. apply Hs. apply H, Hx. Qed.
Lemma unread_blind V I e : unread V e -> blind V (ev I e).
Proof. intros H s s' _ _ Hs. unfold ev. now rewrite (unread_eval V I e s s'). Qed.
Lemma unread_holds V I e s s' : unread V e -> (forall x, ~ V x -> s x = s' x) -> holds I e s = holds I e s'.
Proof. intros H Hs. unfold holds. now rewrite (unread_eval V I e s s'). Qed.
Lemma blind_mono (V W : ident -> Prop) X : (forall x, W x -> V x) -> blind V X -> blind W X.
Proof. intros H HX s s' Hs Hs' E. apply HX; auto. Qed.

Lemma lfp_blind V F : mono F -> (forall Y, blind V Y -> blind V (F Y)) -> blind V (lfp F).
Proof.
  intros HF HB.
  set (Z := fun s => einf (fun r => exists s', env_ok s' /\ (forall x, ~ V x -> s x = s' x) /\ r = lfp F s')).
  assert (BZ : blind V Z).
  { intros s s' Hs Hs' E. apply einf_ext. intros r; split; intros (t & H1 & H2 & H3); exists t; repeat split; auto;
      intros x Hx; rewrite <- H2 by auto; [symmetry|]; auto. }
  assert (ZL : exp_le Z (lfp F)).
  { intros s Hs. apply einf_lb. exists s. auto. }
  assert (LZ : exp_le (lfp F) Z).
  { apply lfp_least. intros s Hs. apply einf_glb. intros r (t & Ht & E & ->).
    rewrite (HB Z BZ s t Hs Ht E). apply ele_trans with (F (lfp F) t); [apply HF; auto | apply lfp_prefix; auto]. }
  intros s s' Hs Hs' E. transitivity (Z s); [apply ele_antisym; auto|]. transitivity (Z s'); [apply BZ; auto|].
  apply ele_antisym; auto.
Qed.
Lemma gfp_blind V F : mono F -> (forall Y, blind V Y -> blind V (F Y)) -> blind V (gfp F).
Proof.
  intros HF HB.
  set (Z := fun s => esup (fun r => exists s', env_ok s' /\ (forall x, ~ V x -> s x = s' x) /\ r = gfp F s')).
  assert (BZ : blind V Z).
  { intros s s' Hs Hs' E. apply esup_ext. intros r; split; intros (t & H1 & H2 & H3); exists t; repeat split; auto;
      intros x Hx; rewrite <- H2 by auto; [symmetry|]; auto. }
  assert (ZL : exp_le (gfp F) Z).
  { intros s Hs. apply esup_ub. exists s. auto. }
  assert (LZ : exp_le Z (gfp F)).
  { apply gfp_greatest. intros s Hs. apply esup_lub. intros r (t & Ht & E & ->).
    rewrite (HB Z BZ s t Hs Ht E). apply ele_trans with (F (gfp F) t); [apply gfp_postfix; auto | apply HF; auto]. }
  intros s s' Hs Hs' E. transitivity (Z s); [apply ele_antisym; auto|]. transitivity (Z s'); [apply BZ; auto|].
  apply ele_antisym; auto.
Qed.

Lemma blind_assign (V : ident -> Prop) I isd isf x e X : interp_ok I -> assign_ok isd isf x e -> unread V e ->
  blind (fun y => V y /\ y <> x) X -> blind V (assign_sem I isd [x] e X).
Proof.
  intros HI Ha Hu HX s s' Hs Hs' E.
  assert (U : forall v, has_ty v (ity x) -> X (upd s x v) = X (upd s' x v)).
  { intros v Hv. apply HX; try apply upd_ok; auto. intros y Hy. unfold upd. destruct (ident_eqb_spec x y); auto. }
  assert (Plain : forall e, unread V e -> wt e = true -> ty_of e = ity x -> X (upd s x (eval I e s)) = X (upd s' x (eval I e s'))).
  { intros e0 Hu0 W Ty. rewrite <- (unread_eval V I e0 s s') by auto. apply U. rewrite <- Ty. now apply eval_ty. }
  destruct e as [y|t f args|t c a b|t op a b|t op a|t a|op xs a|y b a|t l];
    try (destruct Ha as [W Ty]; cbn [assign_sem]; apply Plain; auto; fail).
  unfold assign_ok in Ha. unfold assign_sem. destruct (isd f).
  - apply in_range_correct in Ha. destruct Ha as (d & _ & _ & Wd & Ed).
    assert (Em : map (fun a => eval I a s) args = map (fun a => eval I a s') args).
    { apply map_ext_in. intros a Hin. apply (unread_eval V); auto. intros z Hz. apply Hu. rewrite fv_call, Exists_exists. eauto. }
    rewrite <- Em. rewrite Ed by auto.
    assert (G : Forall (fun pv => X (upd s x (snd pv)) = X (upd s' x (snd pv))) (den I s d)).
    { unfold den, dist_wt in *. rewrite Forall_forall in *. intros [p v] Hin. apply in_map_iff in Hin.
      destruct Hin as ([p' v'] & Epv & Hin). inversion Epv; subst. cbn [fst snd]. apply U.
      destruct (Wd _ Hin) as (_ & W & Ty). cbn [snd] in *. rewrite <- Ty. now apply eval_ty. }
    induction G as [|[p v] l Hv _ IH]; cbn [expected]; auto. cbn [snd] in Hv. now rewrite Hv, IH.
  - destruct Ha as (_ & W & Ty). apply Plain; auto.
Qed.

Lemma blind_havoc V d xs X : blind V X -> blind V (havoc_sem d xs X).
Proof.
  intros HX.
  assert (H : forall s s', env_ok s -> env_ok s' -> (forall x, ~ V x -> s x = s' x) -> forall r,
     (exists t, havocked xs s t /\ r = X t) -> (exists t, havocked xs s' t /\ r = X t)).
  { intros s s' Hs Hs' E r (t & Ht & ->). exists (splice xs s' t).
    assert (Hh : havocked xs s' (splice xs s' t)) by (apply splice_havocked; apply Ht).
    split; auto. apply HX; eauto using havocked_ok.
    intros x Hx. unfold splice. destruct (in_dec ident_dec x xs); auto. rewrite (proj1 Ht) by auto. auto. }
  intros s s' Hs Hs' E. unfold havoc_sem.
  assert (Hr : forall r, (exists t, havocked xs s t /\ r = X t) <-> (exists t, havocked xs s' t /\ r = X t)).
  { intros r. split; apply H; auto. intros x Hx. symmetry; auto. }
  destruct d; [apply einf_ext | apply esup_ext]; auto.
Qed.

Theorem scoped_blind I isd isf k : interp_ok I -> forall st, wts isd isf st -> every not_negate st ->
  forall (V : ident -> Prop) X, scoped V st ->
  blind (fun x => V x /\ match st with SVar y (Some _) => x <> y | _ => True end) X -> blind V (wp I isd k st X).
Proof.
  intros HI.
  assert (HB : forall b, Forall (fun st => wts isd isf st -> every not_negate st -> forall (V : ident -> Prop) X, scoped V st ->
      blind (fun x => V x /\ match st with SVar y (Some _) => x <> y | _ => True end) X -> blind V (wp I isd k st X)) b ->
    All (wts isd isf) b -> All (every not_negate) b -> forall V X, scoped_block V b -> blind V X -> blind V (wp_block I isd k b X)).
  { induction 1 as [|s b Hs Hb IH]; intros W N V X Hsc HX; [exact HX|].
    destruct W as [W1 W2], N as [N1 N2], Hsc as [S1 S2]. unfold wp_block. cbn [fold_right]. apply Hs; auto.
    apply IH; auto. revert HX. apply blind_mono. tauto. }
  induction st using stmt_rect'; intros W N V X Hsc HX; cbn [wts every scoped not_negate] in W, N, Hsc;
    rewrite ?scoped_block_eq in Hsc.
  - apply HB; try tauto. revert HX; apply blind_mono; tauto.
  - destruct i as [e|].
    + cbn [wp]. apply (blind_assign V I isd isf); auto.
    + cbn [wp]. revert HX. apply blind_mono. tauto.
  - destruct xs as [|x [|? ?]]; try contradiction. cbn [wp].
    apply (blind_assign V I isd isf); auto. revert HX. apply blind_mono. tauto.
  - cbn [wp]. apply blind_havoc. revert HX. apply blind_mono. tauto.
  - assert (HX' : blind V X) by (revert HX; apply blind_mono; tauto).
    intros s s' Hs Hs' E. destruct d; cbn [wp]; rewrite (unread_blind V I e Hsc s s'), (HX' s s'); auto.
  - assert (HX' : blind V X) by (revert HX; apply blind_mono; tauto).
    intros s s' Hs Hs' E. cbn [wp]; rewrite (unread_blind V I e Hsc s s'), (HX' s s'); auto.
  - assert (HX' : blind V X) by (revert HX; apply blind_mono; tauto).
    intros s s' Hs Hs' E. cbn [wp]; rewrite (unread_blind V I e Hsc s s'), (HX' s s'); auto.
  - destruct N as [[] _].
  - assert (HX' : blind V X) by (revert HX; apply blind_mono; tauto).
    intros s s' Hs Hs' E. cbn [wp]; rewrite (HX' s s'); auto.
  - assert (HX' : blind V X) by (revert HX; apply blind_mono; tauto).
    intros s s' Hs Hs' E. cbn [wp]; rewrite (unread_blind V I e Hsc s s'), (HX' s s'); auto.
  - assert (HX' : blind V X) by (revert HX; apply blind_mono; tauto).
    intros s s' Hs Hs' E. cbn [wp]; rewrite (unread_blind V I e Hsc s s'), (HX' s s'); auto.
  - assert (HX' : blind V X) by (revert HX; apply blind_mono; tauto). destruct W as [W1 W2], N as (_ & N1 & N2), Hsc as [S1 S2].
    intros s s' Hs Hs' E. cbn [wp]. f_equal; [apply (HB a H W1 N1 V X) | apply (HB b H0 W2 N2 V X)]; auto.
  - assert (HX' : blind V X) by (revert HX; apply blind_mono; tauto). destruct W as [W1 W2], N as (_ & N1 & N2), Hsc as [S1 S2].
    intros s s' Hs Hs' E. cbn [wp]. f_equal; [apply (HB a H W1 N1 V X) | apply (HB b H0 W2 N2 V X)]; auto.
  - assert (HX' : blind V X) by (revert HX; apply blind_mono; tauto). destruct W as [W1 W2], N as (_ & N1 & N2), Hsc as [S1 S2].
    intros s s' Hs Hs' E. cbn [wp]. f_equal; [apply (HB a H W1 N1 V X) | apply (HB b H0 W2 N2 V X)]; auto.
  - assert (HX' : blind V X) by (revert HX; apply blind_mono; tauto). destruct W as (_ & W1 & W2), N as (_ & N1 & N2), Hsc as (Sc & S1 & S2).
    intros s s' Hs Hs' E. cbn [wp]. rewrite (unread_holds V I c s s') by auto.
    destruct (holds I c s'); [apply (HB a H W1 N1 V X) | apply (HB b H0 W2 N2 V X)]; auto.
  - assert (HX' : blind V X) by (revert HX; apply blind_mono; tauto). destruct W as [_ W], N as [_ N], Hsc as [Sc Sb].
    cbn [wp].
    assert (HBb : forall Y, blind V Y -> blind V (fun s => if holds I c s then wp_block I isd k b Y s else X s)).
    { intros Y HY s s' Hs Hs' E. rewrite (unread_holds V I c s s') by auto.
      destruct (holds I c s'); [apply (HB b H W N V Y)|]; auto. }
    pose proof (loop_mono I isd k c b (wp_block_mono I isd isf k b HI W N) X) as M.
    destruct k; [apply lfp_blind | apply gfp_blind]; auto.
  - cbn [wp]. apply IHst; auto; try tauto. revert HX. apply blind_mono. tauto.
  - cbn [wp]. revert HX. apply blind_mono. tauto.
Qed.

Lemma scoped_block_blind I isd isf k b : interp_ok I -> All (wts isd isf) b -> All (every not_negate) b ->
  forall V X, scoped_block V b -> blind V X -> blind V (wp_block I isd k b X).
Proof.
  intros HI W N V X S HX.
  assert (Hs : blind V (wp I isd k (SSeq b) X)); [|exact Hs].
  apply (scoped_blind I isd isf k HI (SSeq b)); cbn [wts every scoped not_negate]; rewrite ?scoped_block_eq; auto.
  revert HX. apply blind_mono. tauto.
Qed.

(** * Directed order *)
Definition dbot (d : direction) : eur := match d with Down => ebot | Up => etop end.
Definition dtop (d : direction) : eur := match d with Down => etop | Up => ebot end.
Definition dmeet (d : direction) (a b : eur) : eur := match d with Down => emin a b | Up => emax a b end.
Definition djoin (d : direction) (a b : eur) : eur := match d with Down => emax a b | Up => emin a b end.
Lemma dle_refl d a : dle d a a.
Proof. destruct d; apply ele_refl. Qed.
Lemma dle_trans d a b c : dle d a b -> dle d b c -> dle d a c.
Proof. destruct d; unfold dle; eauto using ele_trans. Qed.
Lemma dle_antisym d a b : dle d a b -> dle d b a -> a = b.
Proof. destruct d; unfold dle; auto using ele_antisym. Qed.
Lemma dbot_le d a : dle d (dbot d) a.
Proof. destruct d; [apply ebot_le | apply ele_top]. Qed.
Lemma dle_dtop d a : dle d a (dtop d).
Proof. destruct d; [apply ele_top | apply ebot_le]. Qed.
Lemma dmeet_l d a b : dle d (dmeet d a b) a.
Proof. destruct d; [apply emin_l | apply emax_l]. Qed.
Lemma dmeet_r d a b : dle d (dmeet d a b) b.
Proof. destruct d; [apply emin_r | apply emax_r]. Qed.
Lemma dmeet_glb d a b c : dle d c a -> dle d c b -> dle d c (dmeet d a b).
Proof. destruct d; [apply emin_glb | apply emax_lub]. Qed.
Lemma djoin_l d a b : dle d a (djoin d a b).
Proof. destruct d; [apply emax_l | apply emin_l]. Qed.
Lemma djoin_r d a b : dle d b (djoin d a b).
Proof. destruct d; [apply emax_r | apply emin_r]. Qed.
Lemma djoin_lub d a b c : dle d a c -> dle d b c -> dle d (djoin d a b) c.
Proof. destruct d; [apply emax_lub | apply emin_glb]. Qed.

Definition dexp_le (d : direction) (X Y : exp) : Prop := forall s, env_ok s -> dle d (X s) (Y s).
Lemma mono_d d F X Y : mono F -> dexp_le d X Y -> dexp_le d (F X) (F Y).
Proof. intros HF H. destruct d; [exact (HF X Y H) | exact (HF Y X H)]. Qed.
Lemma local_d d M F s0 X Y : local_mono M F -> env_ok s0 -> (forall s, only_changes M s0 s -> dle d (X s) (Y s)) ->
  forall s, only_changes M s0 s -> dle d (F X s) (F Y s).
Proof. intros HF H0 H s Hs. destruct d; [exact (HF s0 X Y H0 H s Hs) | exact (HF s0 Y X H0 H s Hs)]. Qed.

(** Park induction relative to the states reachable from [s0]. *)
Lemma dfix_local d M F J s0 : mono F -> local_mono M F -> env_ok s0 ->
  (forall t, only_changes M s0 t -> dle d (J t) (F J t)) -> dle d (J s0) (dfix d F s0).
Proof.
  intros HF HL Hs0 H.
  set (Z := fun s => if dec (only_changes M s0 s) then J s else dbot d).
  assert (Zs : forall s, only_changes M s0 s -> Z s = J s) by (intros t Ht; unfold Z; now rewrite dec_true).
  assert (Z0 : only_changes M s0 s0) by (split; auto).
  rewrite <- (Zs s0 Z0).
  assert (P : dexp_le d Z (F Z)).
  { intros t Ht. unfold Z at 1. destruct (dec (only_changes M s0 t)) eqn:D; [|apply dbot_le].
    apply (proj1 (dec_iff _)) in D. apply dle_trans with (F J t); auto.
    apply (local_d d M F s0); auto. intros u Hu. rewrite Zs by auto. apply dle_refl. }
  destruct d; [apply gfp_greatest | apply lfp_least]; auto.
Qed.

(** * Pieces of the encodings *)
Definition exp_eq (X Y : exp) : Prop := forall s, env_ok s -> X s = Y s.
Lemma exp_eq_le X Y : exp_eq X Y <-> exp_le X Y /\ exp_le Y X.
Proof.
  split.
  - intros H. split; intros s Hs; rewrite H by auto; apply ele_refl.
  - intros [H1 H2] s Hs. apply ele_antisym; auto.
Qed.
Lemma mono_eq F X Y : mono F -> exp_eq X Y -> exp_eq (F X) (F Y).
Proof. intros HF H. apply exp_eq_le in H. apply exp_eq_le. destruct H. split; apply HF; auto. Qed.

Lemma ev_extreme I d s : ev I (extreme_lit d) s = dbot d.
Proof. destruct d; reflexivity. Qed.
Lemma extreme_exp d : is_exp (extreme_lit d).
Proof. destruct d; split; reflexivity. Qed.

Lemma assume_bot d a : assume_sem d (dbot d) a = dtop d.
Proof.
  destruct d; unfold assume_sem, dbot, dtop.
  - now rewrite (proj2 (eleb_iff ebot a) (ebot_le a)).
  - now rewrite (proj2 (eleb_iff a etop) (ele_top a)).
Qed.
Lemma dmeet_top d a : dmeet d a (dtop d) = a.
Proof. apply (dle_antisym d); [apply dmeet_l | apply dmeet_glb; [apply dle_refl | apply dle_dtop]]. Qed.

Lemma wp_assert I isd k d e X s : wp I isd k (SAssert d e) X s = dmeet d (ev I e s) (X s).
Proof. destruct d; reflexivity. Qed.
Lemma wp_assert_toggle I isd k d e X s : wp I isd k (SAssert (toggle_dir d) e) X s = djoin d (ev I e s) (X s).
Proof. destruct d; reflexivity. Qed.

Lemma wp_hey_const I isd k e d X : forall s, wp_block I isd k (hey_const e d) X s = ev I e s.
Proof.
  intros s. unfold hey_const, wp_block. cbn [fold_right]. rewrite wp_assert. cbn [wp].
  rewrite ev_extreme, assume_bot, dmeet_top. reflexivity.
Qed.
Lemma wp_park_terminator I isd k e d X : forall s, wp_block I isd k (park_terminator e d) X s = ev I e s.
Proof. intros s. exact (wp_hey_const I isd k e d X s). Qed.

Lemma wp_block_app I isd k a b X : wp_block I isd k (a ++ b) X = wp_block I isd k a (wp_block I isd k b X).
Proof. unfold wp_block. apply fold_right_app. Qed.

Lemma wp_iter I isd k c body next X : wp I isd k (encode_iter c body next) X = Phi I isd k c body X (wp_block I isd k next X).
Proof.
  unfold encode_iter, Phi. cbn [wp]. change (fold_right (wp I isd k) X (body ++ next)) with (wp_block I isd k (body ++ next) X).
  now rewrite wp_block_app.
Qed.

(** The check [validate; assume a] in front of a program with pre-expectation [b]. *)
Lemma validate_assume_sem d a b : validate_sem d (assume_sem d a b) = if dec (dle d a b) then dtop d else dbot d.
Proof.
  rewrite compare_validate. destruct d; unfold dle, dtop, dbot.
  - destruct (eleb a b) eqn:E; [rewrite dec_true; auto; now apply eleb_iff|].
    apply eleb_false in E. now rewrite (proj2 (dec_false _) E).
  - destruct (eleb b a) eqn:E; [rewrite dec_true; auto; now apply eleb_iff|].
    apply eleb_false in E. now rewrite (proj2 (dec_false _) E).
Qed.

(** [havoc] of a two-valued check: extreme, and only top if the check succeeds everywhere. *)
Lemma havoc_check d xs (P : env -> Prop) X s :
  (forall s', havocked xs s s' -> X s' = if dec (P s') then dtop d else dbot d) ->
  (havoc_sem d xs X s = dtop d /\ (forall s', havocked xs s s' -> P s')) \/
  (havoc_sem d xs X s = dbot d /\ exists s', havocked xs s s' /\ ~ P s').
Proof.
  intros H. destruct (classic (forall s', havocked xs s s' -> P s')) as [A|A].
  - left. split; auto. destruct d; unfold havoc_sem; apply (dle_antisym Down).
    + apply ele_top.
    + apply einf_glb. intros r (s' & Hs' & ->). rewrite H, dec_true; auto. apply ele_refl.
    + apply esup_lub. intros r (s' & Hs' & ->). rewrite H, dec_true; auto. apply ele_refl.
    + apply ebot_le.
  - right. apply not_all_ex_not in A. destruct A as (s' & A). apply imply_to_and in A. destruct A as [A1 A2].
    split; [|eauto].
    assert (E : X s' = dbot d) by (rewrite H by auto; now rewrite (proj2 (dec_false _) A2)).
    destruct d; unfold havoc_sem; apply (dle_antisym Down).
    + apply einf_lb. exists s'. split; auto.
    + apply ebot_le.
    + apply ele_top.
    + apply esup_ub. exists s'. split; auto.
Qed.

Section Loop.
  Variables (I : interp) (isd isf : string -> bool) (k : fixkind) (c : expr) (body : list stmt) (X : exp).
  Hypothesis HI : interp_ok I.
  Hypothesis Wb : All (wts isd isf) body.
  Hypothesis Nb : All (every not_negate) body.
  Let F := Phi I isd k c body X.

  Lemma Phi_mono : mono F.
  Proof. apply loop_mono. now apply (wp_block_mono I isd isf). Qed.

  Lemma Phi_local (M : ident -> Prop) : (forall x, writes_block x body -> M x) -> local_mono M F.
  Proof.
    intros HM s0 Y Z Hs0 H s Hs. unfold F, Phi. destruct (holds I c s); [|apply ele_refl].
    assert (L : local_mono M (wp I isd k (SSeq body))).
    { apply (frame_mono I isd isf k M HI (SSeq body)); auto; [cbn; auto|]. intros x Hx. apply HM. cbn [writes] in Hx. now rewrite writes_block_eq in Hx. }
    apply (L s0); auto.
  Qed.

  Lemma Phi_blind (V : ident -> Prop) : unread V c -> scoped_block V body -> blind V X -> forall Y, blind V Y -> blind V (F Y).
  Proof.
    intros Hc Hb HX Y HY s s' Hs Hs' E. unfold F, Phi. rewrite (unread_holds V I c s s') by auto.
    destruct (holds I c s'); auto. apply (scoped_block_blind I isd isf k body HI Wb Nb V Y); auto.
  Qed.

  (** k-induction *)
  Variables (d : direction) (inv : expr).
  Fixpoint ext (j : nat) : exp :=
    match j with O => ev I inv | S j' => fun s => djoin d (ev I inv s) (F (ext j') s) end.

  Lemma wp_extend j next Y : exp_eq (wp_block I isd k next X) (ev I inv) -> Y = X ->
    exp_eq (wp_block I isd k (encode_extend c body j inv (toggle_dir d) next) Y) (ext j).
  Proof.
    intros Hn ->. induction j as [|j IH]; [exact Hn|].
    intros s Hs. cbn [encode_extend ext]. unfold wp_block. cbn [fold_right]. rewrite wp_assert_toggle, wp_iter.
    f_equal. apply (mono_eq F); auto. apply Phi_mono.
  Qed.

  Lemma ext_inc j : dexp_le d (ext j) (ext (S j)).
  Proof.
    induction j as [|j IH]; intros s Hs; [apply djoin_l|]. cbn [ext].
    apply djoin_lub; [apply djoin_l|]. apply dle_trans with (F (ext (S j)) s); [|apply djoin_r].
    apply mono_d; auto. apply Phi_mono.
  Qed.
  Lemma ext_ge j : dexp_le d (ev I inv) (ext j).
  Proof. destruct j; intros s Hs; [apply dle_refl | apply djoin_l]. Qed.
  Lemma ext_post j t : env_ok t -> dle d (ev I inv t) (F (ext j) t) -> dle d (ext j t) (F (ext j) t).
  Proof.
    intros Ht H. destruct j as [|j]; auto. cbn [ext] in *.
    apply djoin_lub; auto. apply mono_d; auto; [apply Phi_mono|]. apply ext_inc.
  Qed.
  Lemma ext_blind V j : unread V c -> scoped_block V body -> blind V X -> unread V inv -> blind V (ext j).
  Proof.
    intros Hc Hb HX Hi. induction j as [|j IH]; [now apply unread_blind|].
    intros s s' Hs Hs' E. cbn [ext]. f_equal; [now apply (unread_blind V) | apply (Phi_blind V Hc Hb HX _ IH); auto].
  Qed.

  (** [havoc_vars] are the collected variables. *)
  Definition havoc_vars : list ident := mmod (mvc_stmt (SWhile c body) mvc0).
  (** Written in the body, but not havocked by the encoding. *)
  Definition unhavocked (x : ident) : Prop := writes_block x body /\ ~ In x havoc_vars.

  Lemma wp_k_induction n s : (1 <= n)%nat -> env_ok s ->
    wp_block I isd k (transform_k_induction c body d n inv) X s =
    dmeet d (ev I inv s) (havoc_sem d havoc_vars (fun s' => if dec (dle d (ev I inv s') (F (ext (n - 1)) s')) then dtop d else dbot d) s).
  Proof.
    intros Hn Hs. unfold transform_k_induction, encode_loop_spec, wrap_error, wrap_success. fold havoc_vars.
    rewrite wp_block_app. unfold wp_block at 1. cbn [fold_right].
    change (wp I isd k (SAnn "error_msg" [] (SAssert d inv))) with (wp I isd k (SAssert d inv)). rewrite wp_assert.
    f_equal. cbn [wp]. apply havoc_ext; auto. intros t Ht. rewrite validate_assume_sem.
    replace (wp_block I isd k [encode_iter c body (encode_extend c body (n - 1) inv (toggle_dir d)
       (if Nat.eqb n 1 then park_terminator inv d else hey_const inv d))] X t) with (F (ext (n - 1)) t); auto.
    unfold wp_block. cbn [fold_right]. rewrite wp_iter. fold F. symmetry. apply (mono_eq F); auto; [apply Phi_mono|].
    apply wp_extend; auto. intros u Hu. destruct (Nat.eqb n 1); [apply wp_park_terminator | apply wp_hey_const].
  Qed.

  Theorem k_induction_sound n : (1 <= n)%nat ->
    unread unhavocked c -> scoped_block unhavocked body -> unread unhavocked inv -> blind unhavocked X ->
    dexp_le d (wp_block I isd k (transform_k_induction c body d n inv) X) (dfix d F).
  Proof.
    intros Hn Uc Sb Ui BX s Hs. rewrite wp_k_induction by auto.
    destruct (havoc_check d havoc_vars (fun s' => dle d (ev I inv s') (F (ext (n - 1)) s'))
      (fun s' => if dec (dle d (ev I inv s') (F (ext (n - 1)) s')) then dtop d else dbot d) s (fun _ _ => eq_refl)) as [[E A]|[E _]]; rewrite E.
    - rewrite dmeet_top. apply dle_trans with (ext (n - 1) s); [apply ext_ge; auto|].
      apply (dfix_local d (fun x => writes_block x body)); auto; [apply Phi_mono | apply Phi_local; auto|].
      intros t Ht. apply ext_post; [apply Ht|].
      set (t' := splice havoc_vars s t).
      assert (Ht' : havocked havoc_vars s t') by (apply splice_havocked; intros; apply Ht).
      assert (Et : forall x, ~ unhavocked x -> t x = t' x).
      { intros x Hx. unfold t', splice. destruct (in_dec ident_dec x havoc_vars); auto.
        apply Ht. intros Wx. apply Hx. split; auto. }
      pose proof (havocked_ok _ _ _ Hs Ht') as Hok.
      rewrite (unread_blind unhavocked I inv Ui t t' (proj1 Ht) Hok Et).
      rewrite (Phi_blind unhavocked Uc Sb BX (ext (n - 1)) (ext_blind unhavocked (n-1) Uc Sb BX Ui) t t' (proj1 Ht) Hok Et).
      apply A; auto.
    - apply dle_trans with (dbot d); [apply dmeet_r | apply dbot_le].
  Qed.
End Loop.
