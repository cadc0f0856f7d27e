(** Translated formulas are valid exactly if the expression is. *)
From Coq Require Import Bool List String ZArith NArith Reals Lra Lia ClassicalEpsilon.
From Verif.Model Require Import EurEncodings Syntax AstUtil ScopeMap Translate.
From Verif.Spec Require Import Eur EncSpec Sem Exprs Translated.
From Verif.Proofs Require Import EurLemmas SemLemmas EncProofs ScopeProofs SubstProofs TranslateTerms TranslateStates TranslateProofs.
Import ListNotations.
Local Open Scope list_scope.
Local Open Scope nat_scope.

Lemma inv_init : inv tst_new.
Proof.
  split; unfold tst_new; simpl.
  - eexists _, _. reflexivity.
  - discriminate.
  - unfold vis. simpl. discriminate.
  - unfold vis. simpl. discriminate.
  - intros s n [].
  - intros c [].
  - constructor; constructor.
Qed.

Lemma local_iter_vis st l : inv st -> locals st = [l] -> exists ls, sm_local_iter (locals st) = Ok ls /\ forall x v, In (x, v) ls <-> vis st x = Some v.
Proof.
  intros Iv El. rewrite El. eexists. split; [reflexivity|].
  pose proof (inv_nd _ Iv) as Nd. rewrite El in Nd. inversion Nd as [|? ? Hl _]; subst.
  destruct (local_iter_spec ident_eqb ident_eqb_eq l [] _ Hl eq_refl) as (_ & H & _). intros x v. rewrite H. unfold vis. rewrite El. simpl.
  destruct (im_get ident_eqb x l) as [[w|]|]; reflexivity.
Qed.

Definition some_val (t : ty) : val :=
  match t with TBool => VBool true | TInt => VInt 0 | TUInt => VUInt 0 | TReal => VReal 0 | TUReal => VUReal (nnr_of 0) | TEUReal => VEur Inf end.
Lemma some_val_ty t : has_ty (some_val t) t. Proof. destruct t; reflexivity. Qed.

Section Props.
Context (isvar : ident -> bool) (fsig : string -> option (list ty * ty)) (ecall : string -> (string -> list dyn -> dyn) -> list dyn -> dyn).

Lemma translate_spec e : translatable isvar fsig e = true -> ty_of e = TBool -> forall I, interp_ok I ->
  exists b st new ls, translate isvar fsig ecall e = Ok (b, new ++ flat_map (fun p : ident * (symb * scope) => scons (snd (snd p))) ls) /\
    (forall x v, In (x, v) ls <-> vis st x = Some v) /\ inv st /\ qstack st = [] /\
    done fsig ecall I (fun x => fv x e) (some eur_sub e = false) (fun M s => enc M (YBool b) (eval I e s)) tst_new new st.
Proof.
  intros T Tb I HI. apply andb_prop in T. destruct T as [W U]. apply negb_true_iff in U.
  destruct (all_good isvar fsig ecall I HI e W U tst_new inv_init) as (y & st & new & E & Ty & _ & _ & D).
  rewrite Tb in Ty. destruct y as [b| | | | |]; try discriminate Ty.
  pose proof (d_step _ _ _ _ _ _ _ _ _ D) as S. pose proof (d_inv _ _ _ _ _ _ _ _ _ D) as Iv.
  destruct (s_loc _ _ _ S) as (l & l' & ms & E1 & E2). cbn in E1. injection E1 as <- <-.
  destruct (local_iter_vis st l' Iv E2) as (ls & El & Hls).
  exists b, st, new, ls. split; [|repeat (split; auto)].
  - unfold translate. replace (ty_eqb (ty_of e) TBool) with true by (symmetry; now apply ty_eqb_eq).
    rewrite E. cbn [rbind fst snd]. unfold local_scope. rewrite (s_lim _ _ _ S). cbn [tst_new limits add_outermost]. rewrite El. cbn [rbind].
    rewrite extend_scope_cons. cbn [scons scope_new app]. do 3 f_equal. clear. induction ls as [|p ls IH]; simpl; congruence.
  - exact (s_q _ _ _ S).
Qed.

Lemma no_panic e : translatable isvar fsig e = true -> ty_of e = TBool -> exists t cs, translate isvar fsig ecall e = Ok (t, cs).
Proof.
  intros T Tb.
  destruct (translate_spec e T Tb {| ifun := fun _ t _ => some_val t; idiv0 := fun r => r; iudiv0 := fun x => x; imod0 := fun z => z; iumod0 := fun n => n |}) as (b & st & new & ls & E & _); eauto.
  intros f t vs. apply some_val_ty.
Qed.

(** What is known of a translation, with or without the cache. *)
Definition translated (e : expr) (I : interp) (t : term bool) (cs : list (term bool)) : Prop := exists st new ls,
  cs = new ++ flat_map (fun p : ident * (symb * scope) => scons (snd (snd p))) ls /\
  (forall x v, In (x, v) ls <-> vis st x = Some v) /\ inv st /\ qstack st = [] /\
  done fsig ecall I (fun x => fv x e) (some eur_sub e = false) (fun M s => enc M (YBool t) (eval I e s)) tst_new new st.
Lemma translate_translated e I t cs : translatable isvar fsig e = true -> ty_of e = TBool -> interp_ok I -> translate isvar fsig ecall e = Ok (t, cs) -> translated e I t cs.
Proof.
  intros T Tb HI E. destruct (translate_spec e T Tb I HI) as (b & st & new & ls & E' & H). rewrite E in E'. injection E' as -> ->. exists st, new, ls. auto.
Qed.

Section Exact.
Context (e : expr) (I : interp) (t : term bool) (cs : list (term bool)).
Context (HS : some eur_sub e = false) (HX : translated e I t cs).

Lemma models_to_states_x M : fits fsig ecall I M -> Forall (fun c => c M = true) cs -> exists s, env_ok s /\ eval I e s = VBool (t M).
Proof.
  intros F C. destruct HX as (st & new & ls & -> & Hls & Iv & Q & D). rewrite Forall_forall in C. change (alltrue (new ++ flat_map (fun p : ident * (symb * scope) => scons (snd (snd p))) ls) M) in C.
  apply alltrue_app in C. destruct C as [C1 C2].
  destruct (decode_env (fun x => fv x e) st M Iv (d_vis _ _ _ _ _ _ _ _ _ D)) as (s & Ts & Es).
  { intros x y sc _ V c Hc. apply C2. apply in_flat_map. exists (x, (y, sc)). split; auto. now apply Hls. }
  exists (fun x => if excluded_middle_informative (fv x e) then s x else some_val (ity x)). split.
  - intros x. destruct (excluded_middle_informative _); auto using some_val_ty.
  - assert (X : enc M (YBool t) (eval I e (fun x => if excluded_middle_informative (fv x e) then s x else some_val (ity x)))).
    { apply (d_corr _ _ _ _ _ _ _ _ _ D); auto.
      - intros c [].
      - intros x Hx. destruct (Es x Hx) as (y & sc & V & C). exists y, sc. split; auto. destruct (excluded_middle_informative _); tauto. }
    simpl in X. destruct (eval _ _ _); try contradiction. now subst.
Qed.

Lemma states_to_models_same_x s M0 : env_ok s -> fits fsig ecall I M0 -> exists M, (ufn M = ufn M0 /\ sdiv0 M = sdiv0 M0 /\ smod0 M = smod0 M0) /\ Forall (fun c => c M = true) cs /\ eval I e s = VBool (t M).
Proof.
  intros Hs F0. destruct HX as (st & new & ls & -> & Hls & Iv & Q & D).
  destruct (assign isvar st Iv (map fst ls)) with (s := s) (M := M0) as (M1 & A1 & V1).
  { intros x Hx. apply in_map_iff in Hx. destruct Hx as ([x' v] & <- & Hx). exists v. now apply Hls. }
  { intros x _. apply Hs. }
  assert (V1' : forall x y sc, vis st x = Some (y, sc) -> enc M1 y (s x) /\ alltrue (scons sc) M1).
  { intros x y sc V. apply V1; auto. apply in_map_iff. exists (x, (y, sc)). split; auto. now apply Hls. }
  assert (F1 : fits fsig ecall I M1) by (eapply fits_off; eauto).
  destruct (d_ex _ _ _ _ _ _ _ _ _ D HS M1 F1) as (M & S & T). { intros x y sc _ V. right. apply (V1' x y sc V). }
  assert (F : fits fsig ecall I M) by (eapply fits_agree; [eapply skdiff_agree; exact S | exact F1]).
  assert (EM : forall x y sc, vis st x = Some (y, sc) -> enc M y (s x) /\ alltrue (scons sc) M).
  { intros x y sc V. destruct (V1' x y sc V) as [G1 G2]. destruct (inv_vis _ Iv _ _ _ V) as (n & _ & En & _). destruct S as (S1&S2&S3&_).
    assert (y = fst (fresh_sym (ity x) n)) as Ey by now rewrite <- En. assert (sc = snd (fresh_sym (ity x) n)) as Esc by now rewrite <- En.
    subst y sc. split; [|eapply fresh_cons_consts; eauto].
    revert G1. destruct (ity x), (s x); simpl; rewrite ?S1, ?S2, ?S3; auto. }
  exists M. split; [|split].
  { destruct A1 as (_&_&_&_&U1&U2&U3). apply skdiff_agree in S. destruct S as (_&_&_&_&U4&U5&U6). repeat split; congruence. }
  - rewrite Forall_forall. intros c Hc. apply in_app_or in Hc. destruct Hc as [Hc|Hc]; [now apply T|].
    apply in_flat_map in Hc. destruct Hc as ([x [y sc]] & Hx & Hc). apply Hls in Hx. now apply (EM x y sc Hx).
  - assert (X : enc M (YBool t) (eval I e s)).
    { apply (d_corr _ _ _ _ _ _ _ _ _ D); auto.
      - intros c [].
      - intros x Hx. destruct (d_vis _ _ _ _ _ _ _ _ _ D x Hx) as [[y sc] V]. exists y, sc. split; auto. now apply (EM x y sc). }
    simpl in X. destruct (eval _ _ _); try contradiction. now subst.
Qed.
Lemma states_to_models_x s M0 : env_ok s -> fits fsig ecall I M0 -> exists M, fits fsig ecall I M /\ Forall (fun c => c M = true) cs /\ eval I e s = VBool (t M).
Proof.
  intros Hs F0. destruct (states_to_models_same_x s M0 Hs F0) as (M & (U1 & U2 & U3) & H). exists M. split; auto. eapply fits_ufn; eauto.
Qed.

Lemma valid_iff_x M0 : fits fsig ecall I M0 ->
  ((forall M, fits fsig ecall I M -> Forall (fun c => c M = true) cs -> t M = true) <-> (forall s, env_ok s -> eval I e s = VBool true)).
Proof.
  intros F0. split.
  - intros H s Hs. destruct (states_to_models_x s M0 Hs F0) as (M & F & C & ->). now rewrite H.
  - intros H M F C. destruct (models_to_states_x M F C) as (s & Hs & E). rewrite (H s Hs) in E. now injection E.
Qed.
End Exact.

Section Exact'.
Context (e : expr) (I : interp) (t : term bool) (cs : list (term bool)).
Context (HT : translatable isvar fsig e = true) (Hb : ty_of e = TBool) (HS : some eur_sub e = false) (HI : interp_ok I) (HE : translate isvar fsig ecall e = Ok (t, cs)).
Let HX : translated e I t cs := translate_translated e I t cs HT Hb HI HE.
Lemma models_to_states M : fits fsig ecall I M -> Forall (fun c => c M = true) cs -> exists s, env_ok s /\ eval I e s = VBool (t M).
Proof. exact (models_to_states_x e I t cs HS HX M). Qed.
Lemma states_to_models_same s M0 : env_ok s -> fits fsig ecall I M0 -> exists M, (ufn M = ufn M0 /\ sdiv0 M = sdiv0 M0 /\ smod0 M = smod0 M0) /\ Forall (fun c => c M = true) cs /\ eval I e s = VBool (t M).
Proof. exact (states_to_models_same_x e I t cs HS HX s M0). Qed.
Lemma states_to_models s M0 : env_ok s -> fits fsig ecall I M0 -> exists M, fits fsig ecall I M /\ Forall (fun c => c M = true) cs /\ eval I e s = VBool (t M).
Proof. exact (states_to_models_x e I t cs HS HX s M0). Qed.
Lemma valid_iff M0 : fits fsig ecall I M0 ->
  ((forall M, fits fsig ecall I M -> Forall (fun c => c M = true) cs -> t M = true) <-> (forall s, env_ok s -> eval I e s = VBool true)).
Proof. exact (valid_iff_x e I t cs HS HX M0). Qed.
End Exact'.

(** * Structures that fit *)
Lemma val_dyn_inj v w t d : has_ty v t -> has_ty w t -> val_dyn v d -> val_dyn w d -> v = w.
Proof.
  intros Tv Tw Hv Hw. destruct v; simpl in Tv; try discriminate Tv; injection Tv as <-; destruct w; try discriminate Tw; destruct d; simpl in *; try contradiction;
    try congruence.
  - subst. apply N2Z.inj in Hw. now subst.
  - subst. f_equal. now apply nnr_eq.
  - destruct Hv as [_ <-], Hw as [_ <-]. reflexivity.
Qed.
Lemma val_dyn_ex v t : has_ty v t -> exists d, val_dyn v d.
Proof.
  intros T. destruct v; simpl in T; try discriminate T; clear T.
  - exists (DyB b); reflexivity. - exists (DyI z); reflexivity. - exists (DyI (Z.of_N n)); reflexivity. - exists (DyR r); reflexivity. - exists (DyR (nval x)); reflexivity.
  - destruct e as [x|].
    + exists (DyE (DReal (nval x))). simpl. split; [apply nval_nonneg | symmetry; apply Fin_fin].
    + exists (DyE DInf). simpl. auto.
Qed.
Lemma fits_exists I : interp_ok I -> agreeing I -> exists M, fits fsig plain_call I M.
Proof.
  intros HI [A1 A2].
  set (P := fun f ds d => forall ts t vs, fsig f = Some (ts, t) -> Forall2 has_ty vs ts -> Forall2 val_dyn vs ds -> val_dyn (ifun I f t vs) d).
  assert (E : forall f ds, exists d, P f ds d).
  { intros f ds. unfold P. destruct (fsig f) as [[ts t]|] eqn:Ef; [|exists (DyB true); discriminate].
    destruct (excluded_middle_informative (exists vs, Forall2 has_ty vs ts /\ Forall2 val_dyn vs ds)) as [(vs & H1 & H2)|N].
    - destruct (val_dyn_ex _ _ (HI f t vs)) as [d Hd]. exists d. intros ts' t' vs' E' G1 G2. injection E' as <- <-.
      replace vs' with vs; auto. clear - H1 H2 G1 G2. revert ts ds vs' H1 H2 G1 G2. induction vs as [|v vs IH]; intros ts ds vs' H1 H2 G1 G2; inversion H1; subst; inversion H2; subst; inversion G1; subst; auto.
      inversion G2; subst. f_equal; [eapply val_dyn_inj; eauto | eapply IH; eauto].
    - exists (DyB true). intros ts' t' vs' E' G1 G2. injection E' as <- <-. exfalso. eauto. }
  exists (mkstr (fun _ => true) (fun _ => 0%Z) (fun _ => 0%R) (fun _ _ => pair_zero) (fun f ds => epsilon (inhabits (DyB true)) (P f ds)) (idiv0 I) (imod0 I)).
  split; simpl; auto. intros f ts t vs ds E1 E2 E3. exact (epsilon_spec (inhabits (DyB true)) _ (E f ds) ts t vs E1 E2 E3).
Qed.
End Props.
