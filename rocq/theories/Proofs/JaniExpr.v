(** Translated expressions have the value of the original ones. *)
From Coq Require Import Bool List ZArith NArith QArith Reals Qreals Lia Lra.
From Verif.Model Require Import Syntax Lits Builder Dist Jani.
From Verif.Spec Require Import Eur Sem Wp JaniSem.
From Verif.Proofs Require Import EurLemmas SemLemmas WpLemmas DistProofs.
Import ListNotations.

Definition rep (ids : list ident) (s : env) (t : jstate) : Prop := forall x, In x ids -> t (iname x) = jv (s x).
Definition finite (v : val) : Prop := v <> VEur Inf.

Lemma dec_is (P : Prop) b : (b = true <-> P) -> dec P = b.
Proof. intros H. destruct b; [apply dec_true; tauto | apply dec_false; intros HP; apply H in HP; discriminate]. Qed.

Lemma n2r_le a b : (n2r a <= n2r b)%R <-> (a <= b)%N.
Proof. unfold n2r. split; intros H; [apply le_IZR in H; lia | apply IZR_le; lia]. Qed.
Lemma n2r_eq a b : n2r a = n2r b <-> a = b.
Proof. unfold n2r. split; intros H; [apply eq_IZR in H; lia | now subst]. Qed.
Lemma n2r_sub a b : n2r (a - b) = if (b <=? a)%N then (n2r a - n2r b)%R else 0%R.
Proof.
  unfold n2r. destruct (N.leb_spec b a); [rewrite <- minus_IZR; f_equal; lia|].
  replace (a - b)%N with 0%N by lia. reflexivity.
Qed.
Lemma n2r_min a b : n2r (N.min a b) = Rmin (n2r a) (n2r b).
Proof.
  destruct (N.min_spec a b) as [[H ->]|[H ->]]; symmetry; [apply Rmin_left|apply Rmin_right]; apply n2r_le; lia.
Qed.
Lemma n2r_max a b : n2r (N.max a b) = Rmax (n2r a) (n2r b).
Proof.
  destruct (N.max_spec a b) as [[H ->]|[H ->]]; symmetry; [apply Rmax_right|apply Rmax_left]; apply n2r_le; lia.
Qed.
Lemma IZR_min a b : IZR (Z.min a b) = Rmin (IZR a) (IZR b).
Proof.
  destruct (Z.min_spec a b) as [[H ->]|[H ->]]; symmetry; [apply Rmin_left|apply Rmin_right]; apply IZR_le; lia.
Qed.
Lemma IZR_max a b : IZR (Z.max a b) = Rmax (IZR a) (IZR b).
Proof.
  destruct (Z.max_spec a b) as [[H ->]|[H ->]]; symmetry; [apply Rmax_right|apply Rmax_left]; apply IZR_le; lia.
Qed.
Lemma int_part_div a b : b <> 0%N -> Int_part (n2r a / n2r b) = Z.of_N (a / b).
Proof.
  intros Hb. pose proof (n2r_nz b Hb) as Pb. 
  pose proof (N.div_mod a b Hb) as E. pose proof (N.mod_lt a b Hb) as L.
  assert (E' : n2r a = (n2r b * n2r (a / b) + n2r (a mod b))%R) by (rewrite <- n2r_mul, <- n2r_add; congruence).
  assert (L' : (n2r (a mod b) < n2r b)%R) by (unfold n2r; apply IZR_lt; lia).
  pose proof (n2r_pos (a mod b)).
  change (IZR (Z.of_N (a / b))) with (n2r (a / b)).
  replace (n2r a / n2r b)%R with (n2r (a / b) + n2r (a mod b) / n2r b)%R by (rewrite E'; field; lra).
  assert (B : (0 <= n2r (a mod b) / n2r b < 1)%R);
    [|unfold Int_part; rewrite <- (tech_up (n2r (a / b) + n2r (a mod b) / n2r b) (Z.of_N (a / b) + 1)); [lia|rewrite plus_IZR; fold (n2r (a / b)); lra..]].
  split; [apply Rmult_le_pos; [lra|]; left; now apply Rinv_0_lt_compat|].
  apply Rmult_lt_reg_r with (n2r b); auto. unfold Rdiv. rewrite Rmult_assoc, Rinv_l; lra.
Qed.

Lemma jmod_uint J a b : b <> 0%N -> jbin J JMod (JN (n2r a)) (JN (n2r b)) = JN (n2r (a mod b)).
Proof.
  intros Hb. cbn [jbin]. pose proof (n2r_nz b Hb).
  rewrite (proj2 (dec_false _)) by lra. f_equal. rewrite int_part_div by auto.
  change (IZR (Z.of_N (a / b))) with (n2r (a / b)).
  rewrite (N.div_mod a b Hb) at 1. rewrite n2r_add, n2r_mul. lra.
Qed.

Lemma nval_ge0 x : (0 <= nval x)%R. Proof. apply nval_nonneg. Qed.
Lemma nval_inj x y : nval x = nval y <-> x = y.
Proof. split; [apply nnr_eq | now intros ->]. Qed.

Lemma jv_inj v w t : has_ty v t -> has_ty w t -> finite v -> finite w -> jv v = jv w -> v = w.
Proof.
  intros Hv Hw Fv Fw E. destruct t; inv_ty Hv; inv_ty Hw; subst; cbn [jv] in E;
    try (injection E as E); try (now subst).
  - now apply eq_IZR in E; subst.
  - now apply n2r_eq in E; subst.
  - f_equal. now apply nnr_eq.
  - destruct b, b0; try (exfalso; unfold finite in *; congruence). injection E as E. do 2 f_equal. now apply nnr_eq.
Qed.

Lemma dec_le_nnr x y : eleb (Fin x) (Fin y) = dec (nval x <= nval y)%R.
Proof. symmetry. apply dec_is. rewrite eleb_iff. reflexivity. Qed.

(** Equality, for values of one type. *)
Lemma jeq_sound J v w t : has_ty v t -> has_ty w t -> finite v -> finite w ->
  jbin J JEq (jv v) (jv w) = JB (dec (v = w)) /\ jbin J JNe (jv v) (jv w) = JB (negb (dec (v = w))).
Proof.
  intros Hv Hw Fv Fw. pose proof (jv_inj v w t Hv Hw Fv Fw) as Inj.
  destruct t; inv_ty Hv; inv_ty Hw; subst; cbn [jv jbin] in *.
  1:{ assert (E : dec (VBool b = VBool b0) = Bool.eqb b b0).
      { apply dec_is. rewrite eqb_true_iff. split; congruence. }
      now rewrite E. }
  1-4: match goal with |- context [dec (?a = ?b :> R)] => match goal with |- context [dec (?v = ?w :> val)] =>
         assert (E : dec (a = b) = dec (v = w)) by (apply dec_ext; split; intros E0; [apply Inj; now rewrite E0 | now inversion E0]) end end; now rewrite E.
  destruct b as [x|], b0 as [y|]; try (exfalso; unfold finite in *; congruence). cbn [jbin].
  assert (E : dec (nval x = nval y) = dec (VEur (Fin x) = VEur (Fin y))).
  { apply dec_ext; split; intros E0; [apply Inj; now rewrite E0 | now inversion E0]. }
  now rewrite E.
Qed.

Lemma negb_dec_lt a b : negb (dec (b <= a)%R) = dec (a < b)%R.
Proof. symmetry. apply dec_is. rewrite negb_true_iff, dec_false. lra. Qed.
Lemma dec_ge a b : dec (a >= b)%R = dec (b <= a)%R.
Proof. apply dec_ext. lra. Qed.
Lemma dec_gt a b : dec (a > b)%R = dec (b < a)%R.
Proof. apply dec_ext. lra. Qed.

Lemma jle_sound J v w t : t <> TBool -> has_ty v t -> has_ty w t -> finite v -> finite w ->
  exists b, vle v w = Some b /\ jbin J JLe (jv v) (jv w) = JB b /\ jbin J JGe (jv w) (jv v) = JB b /\
    jbin J JLt (jv w) (jv v) = JB (negb b) /\ jbin J JGt (jv v) (jv w) = JB (negb b).
Proof.
  intros Nb Hv Hw Fv Fw. 
  assert (K : exists x y b, jv v = JN x /\ jv w = JN y /\ vle v w = Some b /\ dec (x <= y)%R = b).
  { destruct t; [congruence|..]; inv_ty Hv; inv_ty Hw; subst; cbn [jv vle].
    - exists (IZR b), (IZR b0), (Z.leb b b0). repeat split. apply dec_is. rewrite Z.leb_le. split; [apply IZR_le|apply le_IZR].
    - exists (n2r b), (n2r b0), (N.leb b b0). repeat split. apply dec_is. rewrite N.leb_le. symmetry. apply n2r_le.
    - eauto 9.
    - eauto 9.
    - destruct b as [x|], b0 as [y|]; try (exfalso; unfold finite in *; congruence).
      exists (nval x), (nval y), (dec (nval x <= nval y)%R). rewrite dec_le_nnr. auto. }
  destruct K as (x & y & b & -> & -> & E & D). exists b. split; auto. cbn [jbin].
  rewrite dec_ge, dec_gt, <- !negb_dec_lt, D. auto.
Qed.

Lemma bin_same_ty t op ta tb : bin_ok t op ta tb = true -> (t = TBool /\ ta = tb) \/ (t <> TBool /\ ta = t /\ tb = t).
Proof.
  destruct t, op; cbn [bin_ok]; intros H; try discriminate;
    try (apply andb_prop in H; destruct H as [H1 H2]; apply ty_eqb_eq in H1; apply ty_eqb_eq in H2; subst; auto);
    try (apply ty_eqb_eq in H; subst; auto); right; repeat split; congruence.
Qed.

Section Sound.
  Context (ids : list ident) (fbody : String.string -> option (list ty * ty)) (I : interp) (J : jint).
  Context (HI : interp_ok I) (HJ : same_interp fbody I J).

  Lemma jbin_sound t op o v w ta tb : jbinop op = Ok o -> bin_ok t op ta tb = true ->
    match t, op with
    | TInt, OMod | TBool, (OInf | OSup) => false
    | TBool, (OLe | OLt | OGe | OGt) => negb (ty_eqb ta TBool)
    | _, _ => true
    end = true ->
    has_ty v ta -> has_ty w tb -> finite v -> finite w ->
    jbin J o (jv v) (jv w) = jv (eval_bin I t op v w) /\ finite (eval_bin I t op v w).
  Proof.
    intros Ho Hok Hx Hv Hw Fv Fw. pose proof (bin_same_ty _ _ _ _ Hok) as [[-> ->]|(Nb & -> & ->)].
    - destruct op; cbn [jbinop] in Ho; try discriminate Ho; injection Ho as <-; cbn [bin_ok] in Hok; try discriminate Hok; try discriminate Hx.
      + apply andb_prop in Hok. destruct Hok as [H1 _]. apply ty_eqb_eq in H1; subst. inv_ty Hv; inv_ty Hw; subst. now split.
      + apply andb_prop in Hok. destruct Hok as [H1 _]. apply ty_eqb_eq in H1; subst. inv_ty Hv; inv_ty Hw; subst. now split.
      + cbn [eval_bin]. unfold veq. rewrite Hv, Hw, ty_eqb_refl. cbn [obool jv]. split; [|discriminate]. eapply jeq_sound; eauto.
      + apply negb_true_iff in Hx. destruct (jle_sound J w v tb) as (b & E & _ & _ & E1 & _); auto. { intros ->. discriminate. }
        cbn [eval_bin]. rewrite E. cbn [option_map obool jv]. split; [auto|discriminate].
      + apply negb_true_iff in Hx. destruct (jle_sound J v w tb) as (b & E & E1 & _); auto. { intros ->. discriminate. }
        cbn [eval_bin]. rewrite E. cbn [option_map obool jv]. split; [auto|discriminate].
      + cbn [eval_bin]. unfold veq. rewrite Hv, Hw, ty_eqb_refl. cbn [obool option_map jv]. split; [|discriminate]. eapply jeq_sound; eauto.
      + apply negb_true_iff in Hx. destruct (jle_sound J w v tb) as (b & E & _ & E1 & _); auto. { intros ->. discriminate. }
        cbn [eval_bin]. rewrite E. cbn [option_map obool jv]. split; [auto|discriminate].
      + apply negb_true_iff in Hx. destruct (jle_sound J v w tb) as (b & E & _ & _ & _ & E1); auto. { intros ->. discriminate. }
        cbn [eval_bin]. rewrite E. cbn [option_map obool jv]. split; [auto|discriminate].
    - destruct HJ as (_ & D0 & U0 & M0).
      destruct t; [congruence|..]; inv_ty Hv; inv_ty Hw; subst;
      destruct op; cbn [jbinop] in Ho; try discriminate Ho; injection Ho as <-; cbn [bin_ok] in Hok; try discriminate Hok; try discriminate Hx; cbn [eval_bin jv jbin].
      all: try (split; [|discriminate]).
      all: try (f_equal; first [reflexivity | symmetry; apply plus_IZR | symmetry; apply mult_IZR | symmetry; apply IZR_min | symmetry; apply IZR_max
             | symmetry; apply n2r_add | symmetry; apply n2r_mul | symmetry; apply n2r_min | symmetry; apply n2r_max]; fail).
      (* UInt mod *)
      + destruct (N.eqb_spec b0 0) as [->|Nz]; [|apply (jmod_uint J); auto].
        change (n2r 0) with 0%R. rewrite dec_true by reflexivity. f_equal. apply M0.
      (* Real / *)
      + destruct (dec (b0 = 0)%R); auto. now rewrite D0.
      (* UReal *)
      + pose proof (nval_ge0 b); pose proof (nval_ge0 b0). now rewrite nval_of by lra.
      + pose proof (nval_ge0 b); pose proof (nval_ge0 b0). rewrite nval_of by (apply Rmult_le_pos; lra). reflexivity.
      + pose proof (nval_ge0 b); pose proof (nval_ge0 b0). destruct (dec (nval b0 = 0)%R) eqn:D; [now rewrite U0|].
        apply (proj1 (dec_false _)) in D. rewrite nval_of; auto. apply Rmult_le_pos; [lra|]. left. apply Rinv_0_lt_compat. lra.
      + pose proof (nval_ge0 b); pose proof (nval_ge0 b0). rewrite nval_of by (now apply Rmin_glb). reflexivity.
      + pose proof (nval_ge0 b); pose proof (nval_ge0 b0). rewrite nval_of; auto. apply Rle_trans with (nval b); auto. apply Rmax_l.
      (* EUReal *)
      + destruct b as [x|], b0 as [y|]; try (exfalso; unfold finite in *; congruence). rewrite !Fin_fin.
        pose proof (nval_ge0 x); pose proof (nval_ge0 y). rewrite eadd_fin by auto. unfold fin. rewrite !nval_of by lra. split; [auto|discriminate].
      + destruct b as [x|], b0 as [y|]; try (exfalso; unfold finite in *; congruence). rewrite !Fin_fin.
        pose proof (nval_ge0 x); pose proof (nval_ge0 y). rewrite emul_fin by auto. unfold fin.
        rewrite !nval_of; auto; [split; [auto|discriminate]|]. now apply Rmult_le_pos.
      + destruct b as [x|], b0 as [y|]; try (exfalso; unfold finite in *; congruence). unfold emin. rewrite dec_le_nnr.
        destruct (dec (nval x <= nval y)%R) eqn:D; [apply (proj1 (dec_iff _)) in D; rewrite Rmin_left by auto | apply (proj1 (dec_false _)) in D; rewrite Rmin_right by lra];
          split; auto; discriminate.
      + destruct b as [x|], b0 as [y|]; try (exfalso; unfold finite in *; congruence). unfold emax. rewrite dec_le_nnr.
        destruct (dec (nval x <= nval y)%R) eqn:D; [apply (proj1 (dec_iff _)) in D; rewrite Rmax_right by auto | apply (proj1 (dec_false _)) in D; rewrite Rmax_left by lra];
          split; auto; discriminate.
  Qed.

  Lemma jsub_sound t v w a b j st : jtr_sub t a b = Ok j -> bin_ok t OSub t t = true ->
    has_ty v t -> has_ty w t -> finite v -> finite w -> jeval J a st = jv v -> jeval J b st = jv w ->
    jeval J j st = jv (eval_bin I t OSub v w) /\ finite (eval_bin I t OSub v w).
  Proof.
    intros Hj Hok Hv Hw Fv Fw Ea Eb.
    destruct t; cbn [jtr_sub] in Hj; try discriminate Hj; injection Hj as <-; inv_ty Hv; inv_ty Hw; subst;
      cbn [jeval eval_bin]; rewrite ?Ea, ?Eb; cbn [jv jbin].
    - now rewrite minus_IZR.
    - rewrite dec_ge, (dec_is (n2r b1 <= n2r b0)%R (b1 <=? b0)%N) by (rewrite N.leb_le; symmetry; apply n2r_le).
      rewrite n2r_sub. destruct (b1 <=? b0)%N; split; auto; discriminate.
    - split; auto; discriminate.
    - rewrite dec_ge, nval_of_max. split; [|discriminate].
      destruct (dec (nval b1 <= nval b0)%R) eqn:D; [apply (proj1 (dec_iff _)) in D; rewrite Rmax_right by lra; auto | apply (proj1 (dec_false _)) in D; rewrite Rmax_left by lra; auto].
    - destruct b0 as [x|], b1 as [y|]; try (exfalso; unfold finite in *; congruence). rewrite !Fin_fin.
      pose proof (nval_ge0 x); pose proof (nval_ge0 y). rewrite emonus_fin by auto. unfold fin. cbn [jbin].
      rewrite dec_ge, nval_of_max. split; [|discriminate].
      destruct (dec (nval y <= nval x)%R) eqn:D; [apply (proj1 (dec_iff _)) in D; rewrite Rmax_right by lra; auto | apply (proj1 (dec_false _)) in D; rewrite Rmax_left by lra; auto].
  Qed.

  Lemma jcast_sound t v ta : cast_ok t ta = true -> has_ty v ta -> finite v -> jv (eval_cast t v) = jv v /\ finite (eval_cast t v).
  Proof.
    intros Hok Hv Fv. destruct t, ta; cbn [cast_ok] in Hok; try discriminate; inv_ty Hv; subst; cbn [eval_cast jv];
      (split; [|discriminate]); auto.

    - now rewrite nval_of by apply n2r_pos.
    - unfold fin. now rewrite nval_of by apply n2r_pos.
  Qed.

  Lemma jlit_sound t l j st : lit_ok t l = true -> jtr_lit l = Ok j ->
    jeval J j st = jv (eval_lit t l) /\ finite (eval_lit t l).
  Proof.
    intros Hok Hj. destruct l as [n|q| |b]; cbn [jtr_lit] in Hj; try discriminate Hj.
    - destruct (n <? u64_bound)%N; [|discriminate]. injection Hj as <-. destruct t; try discriminate Hok. split; [auto|discriminate].
    - match type of Hj with (if ?c then _ else _) = _ => destruct c eqn:C; [|discriminate] end. injection Hj as <-.
      rewrite !andb_true_iff in C. destruct C as [[C1 _] _]. apply Z.leb_le in C1.
      assert (E : Q2R q = (n2r (Z.to_N (Qnum (Qred q))) / n2r (N.pos (Qden (Qred q))))%R).
      { rewrite <- (Qeq_eqR _ _ (Qred_correct q)). unfold Q2R, Rdiv, n2r. do 2 f_equal. lia. }
      assert (P : (0 <= Q2R q)%R).
      { rewrite E. apply Rmult_le_pos; [apply n2r_pos|]. left. apply Rinv_0_lt_compat. now apply n2r_nz. }
      assert (NZ : (n2r (N.pos (Qden (Qred q))) > 0)%R) by now apply n2r_nz.
      cbn [jeval jbin]. rewrite (proj2 (dec_false _)) by lra. rewrite <- E.
      destruct t; try discriminate Hok; cbn [eval_lit jv]; unfold fin; rewrite nval_of by auto; split; auto; discriminate.
    - injection Hj as <-. destruct t; try discriminate Hok. split; [auto|discriminate].
  Qed.

  Lemma jtr_args_spec args : forall l,
    (fix go l := match l with
                 | [] => Ok []
                 | a :: l' => let? x := jtr fbody a in let? xs := go l' in Ok (x :: xs)
                 end) args = Ok l -> Forall2 (fun a j => jtr fbody a = Ok j) args l.
  Proof.
    induction args as [|a args IH]; intros l H; [injection H as <-; constructor|].
    destruct (jtr fbody a) eqn:E; try discriminate. cbn [rbind] in H.
    destruct ((fix go l := match l with [] => Ok [] | a :: l' => let? x := jtr fbody a in let? xs := go l' in Ok (x :: xs) end) args) eqn:E2; try discriminate.
    injection H as <-. constructor; auto.
  Qed.

  Lemma same_tys_spec l : forall l', (fix same (l l' : list ty) := match l, l' with
                            | [], [] => true | a :: l, b :: l' => ty_eqb a b && same l l' | _, _ => false end) l l' = true -> l = l'.
  Proof.
    induction l as [|a l IH]; intros [|b l'] H; try discriminate; auto.
    apply andb_prop in H. destruct H as [H1 H2]. apply ty_eqb_eq in H1. subst. f_equal. auto.
  Qed.

  Theorem jtr_sound : forall e, wt e = true -> jexp_ok ids fbody e = true -> (forall x, In x ids -> ity x <> TEUReal) ->
    forall j, jtr fbody e = Ok j -> forall s st, env_ok s -> rep ids s st ->
    jeval J j st = jv (eval I e s) /\ finite (eval I e s).
  Proof.
    intros e W Hok Fi. induction e using expr_rect'; intros j Hj s st Hs HR; cbn [wt jexp_ok] in W, Hok; try discriminate Hok.
    - injection Hj as <-. apply existsb_exists in Hok. destruct Hok as (y & Hy & E). apply ident_eqb_eq in E. subst y.
      cbn [jeval eval]. split; [now apply HR|]. intros E. specialize (Hs x). rewrite E in Hs. injection Hs as Hs. now apply (Fi x).
    - cbn [jtr] in Hj. destruct (fbody f) as [[ts t']|] eqn:Ef; [|discriminate].
      split_andb. match goal with H : ty_eqb t t' = true |- _ => apply ty_eqb_eq in H; subst t' end.
      match goal with H : context [map ty_of args] |- _ => apply same_tys_spec in H; rename H into Ets end.
      match type of Hj with (let? l := ?m in _) = _ => destruct m as [l| |] eqn:El; try discriminate Hj end.
      apply jtr_args_spec in El. injection Hj as <-. cbn [jeval eval].
      assert (Em : map (fun a => jeval J a st) l = map jv (map (fun a => eval I a s) args)).
      { match goal with H : forallb (jexp_ok ids fbody) args = true |- _ => rename H into Hargs end.
        clear - H W Hargs El Hs HR Fi. induction El as [|a j args l Ha El IH]; [auto|]. inversion H; subst. cbn [forallb] in *. split_andb.
        cbn [map]. f_equal; auto. edestruct H2; eauto. }
      rewrite Em. destruct HJ as (HF & _).
      rewrite (HF f ts t) by (auto; rewrite <- Ets; clear - HI W Hs; induction args as [|a args IH]; cbn [map]; constructor;
                              cbn [forallb] in W; split_andb; auto; now apply eval_ty).
      split; auto. intros E. specialize (HI f t (map (fun a => eval I a s) args)). rewrite E in HI. injection HI as <-.
      match goal with H : negb (ty_eqb TEUReal TEUReal) = true |- _ => discriminate H end.
    - split_andb. cbn [jtr] in Hj. destruct (jtr fbody e1) as [c| |]; try discriminate. destruct (jtr fbody e2) as [a| |]; try discriminate.
      destruct (jtr fbody e3) as [b| |]; try discriminate. injection Hj as <-.
      destruct (IHe1 ltac:(auto) ltac:(auto) c eq_refl s st Hs HR) as [E1 _].
      destruct (eval_bool I e1 s) as [b1 Eb]; auto; [now apply ty_eqb_eq|]. cbn [jeval eval]. rewrite E1, Eb. cbn [jv].
      destruct b1; auto.
    - split_andb. cbn [jtr] in Hj. destruct (jtr fbody e1) as [a| |]; try discriminate. destruct (jtr fbody e2) as [b| |]; try discriminate.
      destruct (IHe1 ltac:(auto) ltac:(auto) a eq_refl s st Hs HR) as [E1 F1]. destruct (IHe2 ltac:(auto) ltac:(auto) b eq_refl s st Hs HR) as [E2 F2].
      cbn [rbind] in Hj. pose proof (eval_ty I HI e1 ltac:(auto) s Hs) as T1. pose proof (eval_ty I HI e2 ltac:(auto) s Hs) as T2.
      assert (K : (exists o, jbinop op = Ok o /\ j = JBin o a b) \/ (op = OSub /\ jtr_sub t a b = Ok j)).
      { destruct op; cbn [jbinop rbind] in Hj; try discriminate Hj; try (injection Hj as <-); eauto; try solve [left; eexists; split; reflexivity]. }
      destruct K as [(o & Ho & Ej)|[Eop Hj']]; [subst j | subst op].
      + cbn [jeval eval]. rewrite E1, E2. eapply jbin_sound; eauto.
      + cbn [eval]. match goal with H : bin_ok _ _ _ _ = true |- _ => rename H into Hb end.
        assert (K : ty_of e1 = t /\ ty_of e2 = t) by (destruct (bin_same_ty _ _ _ _ Hb) as [[Et _]|(_ & Ta & Tb)]; [rewrite Et in Hb; discriminate Hb | auto]).
        destruct K as [Ta Tb]. rewrite Ta, Tb in *.
        eapply jsub_sound; eauto.
    - cbn [jtr] in Hj. split_andb. pose proof (eval_ty I HI e ltac:(auto) s Hs) as T1.
      match goal with H : un_ok _ _ _ = true |- _ => rename H into Hu end.
      destruct op; try discriminate Hj.
      + destruct (ty_eqb_spec t TBool) as [->|]; [|discriminate]. destruct (jtr fbody e) as [a| |]; try discriminate. injection Hj as <-.
        cbn [un_ok] in Hu. apply ty_eqb_eq in Hu. destruct (IHe ltac:(auto) ltac:(auto) a eq_refl s st Hs HR) as [E1 _].
        cbn [jeval eval]. rewrite Hu in T1. inv_ty T1. rewrite E1, T1. cbn. split; [auto|discriminate].
      + destruct (jtr fbody e) as [a| |]; try discriminate. injection Hj as <-.
        destruct t; cbn [un_ok] in Hu; try discriminate Hu. apply ty_eqb_eq in Hu. destruct (IHe ltac:(auto) ltac:(auto) a eq_refl s st Hs HR) as [E1 _].
        cbn [jeval eval]. rewrite Hu in T1. inv_ty T1. rewrite E1, T1. cbn [jv]. destruct b; cbn [jeval eval_un]; unfold eone, ebot, fin; cbn [jv]; rewrite nval_of by lra; split; auto; discriminate.
      + destruct (IHe ltac:(auto) ltac:(auto) j Hj s st Hs HR) as [E1 F1]. cbn [eval].
        assert (Ht : ty_of e = t) by (destruct t; cbn [un_ok] in Hu; now apply ty_eqb_eq). rewrite Ht in T1.
        assert (Ev : eval_un t OParens (eval I e s) = eval I e s) by (destruct t; cbn [eval_un]; now rewrite dec_true).
        rewrite Ev. auto.
    - cbn [jtr] in Hj. split_andb. destruct (IHe ltac:(auto) ltac:(auto) j Hj s st Hs HR) as [E1 F1]. cbn [eval].
      destruct (jcast_sound t (eval I e s) (ty_of e)) as [C1 C2]; auto using eval_ty. split; auto. congruence.
    - cbn [jtr] in Hj. cbn [eval]. now apply jlit_sound.
  Qed.
End Sound.
