(** The axioms of an encoding, step by step: what makes them true and what they say. *)
From Coq Require Import Bool List String ZArith NArith Reals Lia ClassicalEpsilon.
From Verif.Model Require Import EurEncodings Syntax AstUtil ScopeMap Translate Funcs.
From Verif.Spec Require Import Eur EncSpec Sem Exprs Translated Functions.
From Verif.Proofs Require Import EurLemmas SemLemmas EncProofs EncProps ScopeProofs SubstProofs TranslateTerms TranslateStates TranslateProofs TranslateProps FuncEquations.
Import ListNotations.
Local Open Scope list_scope.
Local Open Scope nat_scope.

(** From a state at top level, a step yields axioms which hold if [P] and imply [Q]. *)
Definition good_step (P Q : strct -> Prop) (f : tst -> res (list (term bool) * tst)) : Prop :=
  forall st, top st -> exists axs st', f st = Ok (axs, st') /\ top st' /\
    (forall M, P M -> alltrue axs M) /\ (forall M, alltrue axs M -> Q M).

Lemma good_impl (P P' Q Q' : strct -> Prop) f : (forall M, P' M -> P M) -> (forall M, Q M -> Q' M) -> good_step P Q f -> good_step P' Q' f.
Proof. intros HP HQ G st T. destruct (G st T) as (axs & st' & E & T' & H1 & H2). exists axs, st'. repeat (split; auto). Qed.
Lemma good_nil P : good_step P (fun _ => True) (fun st => Ok ([], st)).
Proof. intros st T. exists [], st. repeat split; auto using alltrue_nil; apply T. Qed.
Lemma good_and P Q (Q' : strct -> Prop) f : good_step P Q f -> (forall M, Q M -> Q' M) -> good_step P Q' f.
Proof. intros G H. eapply good_impl; eauto. Qed.

(** A family of steps. *)
Lemma good_steps {A} (P : strct -> Prop) (Q : A -> strct -> Prop) (f : A -> tst -> res (list (term bool) * tst)) l :
  (forall a, In a l -> good_step P (Q a) (f a)) -> good_step P (fun M => forall a, In a l -> Q a M) (steps (map f l)).
Proof.
  induction l as [|a l IH]; intros H st T.
  - exists [], st. repeat split; auto using alltrue_nil; try apply T. intros M _ a [].
  - destruct (H a (or_introl eq_refl) st T) as (ax & st1 & E1 & T1 & A1 & B1).
    destruct (IH (fun b Hb => H b (or_intror Hb)) st1 T1) as (axs & st2 & E2 & T2 & A2 & B2).
    exists (ax ++ axs), st2. split; [|split; auto; split].
    + cbn [map steps]. rewrite E1. cbn [rbind fst snd]. rewrite E2. reflexivity.
    + intros M HM. apply alltrue_app. auto.
    + intros M HM b [<-|Hb]; apply alltrue_app in HM; [apply B1 | apply B2]; tauto.
Qed.
Lemma good_app P Q1 Q2 l1 l2 : good_step P Q1 (steps l1) -> good_step P Q2 (steps l2) -> good_step P (fun M => Q1 M /\ Q2 M) (steps (l1 ++ l2)).
Proof.
  intros G1 G2 st T. destruct (G1 st T) as (a1 & st1 & E1 & T1 & A1 & B1). destruct (G2 st1 T1) as (a2 & st2 & E2 & T2 & A2 & B2).
  exists (a1 ++ a2), st2. split; [|split; auto; split].
  - clear - E1 E2. revert st a1 E1. induction l1 as [|f l1 IH]; intros st a1 E1; simpl in *.
    + injection E1 as <- <-. auto.
    + destruct (f st) as [[r s]| |]; simpl in *; try discriminate. destruct (steps l1 s) as [[r' s']| |] eqn:El; simpl in *; try discriminate.
      injection E1 as <- <-. rewrite (IH _ _ El). simpl. now rewrite app_assoc.
  - intros M HM. apply alltrue_app. auto.
  - intros M HM. apply alltrue_app in HM. destruct HM. auto.
Qed.
Lemma good_one P Q f : good_step P Q f -> good_step P Q (steps [f]).
Proof.
  intros G st T. destruct (G st T) as (a & st1 & E & T1 & A & B). exists a, st1. repeat split; auto; try apply T1.
  simpl. rewrite E. simpl. now rewrite app_nil_r.
Qed.
Lemma good_if P Q (b : bool) l : (b = true -> good_step P Q (steps l)) -> good_step P (fun M => b = true -> Q M) (steps (if b then l else [])).
Proof.
  destruct b; intros H.
  - eapply good_and; [apply H; reflexivity | auto].
  - eapply good_and; [apply good_nil | discriminate].
Qed.
Lemma good_all_fuel P (Q : nat -> strct -> Prop) f : (forall k, good_step P (Q k) (f k)) -> good_step P (fun M => forall k, Q k M) (for_all_fuel f).
Proof.
  intros G st T. destruct (G 0 st T) as (a0 & st0 & E0 & T0 & _). unfold for_all_fuel. rewrite E0. cbn [rbind snd].
  eexists [_], st0. split; [reflexivity|]. split; auto. split.
  - intros M HM c [<-|[]]. apply holds_iff. intros k. destruct (G k st T) as (a & st' & E & _ & A & _). rewrite E. cbn [fst].
    apply forallb_forall. intros c Hc. now apply A.
  - intros M HM k. specialize (HM _ (or_introl eq_refl)). apply (proj1 (holds_iff _)) in HM. specialize (HM k).
    destruct (G k st T) as (a & st' & E & _ & _ & B). rewrite E in HM. cbn [fst] in HM. apply B. intros c Hc. rewrite forallb_forall in HM. auto.
Qed.

Lemma from_into t d M : of_sort t (d M) -> into_dynamic (from_dynamic t d) M = d M.
Proof.
  intros H. destruct t; simpl in *; destruct (d M) as [b|z|r|e|k] eqn:Ed; try contradiction; auto.
  unfold datatype_to_pair. rewrite pair_branch_ite. destruct e; reflexivity.
Qed.
Lemma val_sort v t d : has_ty v t -> val_dyn v d -> of_sort t d.
Proof. destruct v; simpl; intros E; try discriminate E; injection E as <-; destruct d; simpl; tauto. Qed.
Lemma vals_sorts vs ts ds : Forall2 has_ty vs ts -> Forall2 val_dyn vs ds -> Forall2 of_sort ts ds.
Proof.
  intros H. revert ds. induction H; intros ds D; inversion D; subst; constructor; eauto using val_sort.
Qed.

(** The invariant of a result makes it a value. *)
Lemma invariant_says t d M : of_sort t (d M) -> (forall c, smt_invariant (from_dynamic t d) = Some c -> c M = true) -> exists v, has_ty v t /\ val_dyn v (d M).
Proof.
  intros S H. destruct t; simpl in *; destruct (d M) as [b|z|r|e|k] eqn:Ed; try contradiction.
  - exists (VBool b). split; reflexivity.
  - exists (VInt z). split; reflexivity.
  - specialize (H _ eq_refl). cbv beta in H. rewrite Ed in H. rewrite Z.geb_leb in H. apply Z.leb_le in H. exists (VUInt (Z.to_N z)). split; [reflexivity|]. simpl. now rewrite Z2N.id.
  - exists (VReal r). split; reflexivity.
  - specialize (H _ eq_refl). cbv beta in H. rewrite Ed in H. apply Rleb_iff in H. exists (VUReal (nnr_of r)). split; [reflexivity|]. simpl. now rewrite nval_of.
  - specialize (H _ eq_refl). cbv beta in H. rewrite Ed in H. apply pair_invariant_ok in H. exists (VEur (dt_val e)). split; [reflexivity|]. simpl. split; auto.
    revert H. unfold datatype_to_pair. rewrite pair_branch_ite. destruct e; simpl; auto.
Qed.
Lemma invariant_true t d M v c : has_ty v t -> val_dyn v (d M) -> smt_invariant (from_dynamic t d) = Some c -> c M = true.
Proof.
  intros T V H. destruct t; simpl in H; try discriminate H; injection H as <-; destruct v; try discriminate T; simpl in V; destruct (d M) as [?|?|?|w|?] eqn:Ed; try contradiction.
  - subst. destruct n; reflexivity.
  - subst. apply Rleb_iff, nval_nonneg.
  - destruct V as [O V]. unfold datatype_to_pair. rewrite pair_branch_ite. unfold pair_invariant. destruct w; simpl in *.
    + apply andb_true_intro. split; [apply Rleb_iff; apply Rle_0_1 | now apply Reqb_iff].
    + apply andb_true_intro. split; [apply Rleb_iff, O | reflexivity].
Qed.

Section Axioms.
Context (isvar : ident -> bool) (fsig : string -> option (list ty * ty)) (E : encoder).
Notation tr_at fuel := (tr isvar fsig (enc_call E fuel)).
Notation fits_at k := (fits fsig (enc_call E k)).
Notation sig_ok := (sig_ok isvar fsig).

(** States for argument lists. *)
Lemma args_state xs vs : NoDup xs -> Forall2 has_ty vs (map ity xs) -> exists s, env_ok s /\ map s xs = vs.
Proof.
  revert vs. induction xs as [|x xs IH]; intros vs N H; inversion H; subst.
  - exists (fun x => some_val (ity x)). split; auto. intros x. apply some_val_ty.
  - inversion N; subst. destruct (IH l H5 H4) as (s & Hs & <-). exists (upd s x x0). split.
    + now apply upd_ok.
    + simpl. rewrite upd_same. f_equal. apply map_ext_in. intros y Hy. apply upd_other. congruence.
Qed.

(** The arguments that a state gives. *)
Lemma args_vals st xs ys M s ds : Forall2 (seen st) xs ys -> encs (fun x => In x xs) st M s -> Forall2 val_dyn (map s xs) ds -> args_at ys M = ds.
Proof.
  intros F He. pose proof (encs_args _ _ _ _ _ F He) as H. clear F He. revert ds. revert H. generalize (map s xs). intros vs H.
  unfold args_at. induction H; intros ds D; inversion D; subst; simpl; auto. f_equal; auto. eapply val_dyn_fun; [|eauto]. now apply into_dynamic_val.
Qed.

(** ** Return invariants *)
(** Results are values. *)
Definition says_ret (k : nat) (d : fdecl) (M : strct) : Prop := forall vs ds, Forall2 has_ty vs (map ity (finputs d)) -> Forall2 val_dyn vs ds ->
  exists v, has_ty v (fout d) /\ val_dyn v (enc_call E k (fname d) (ufn M) ds).

Lemma bnds_keeps st st' xs : (forall x, In x xs -> exists v, vis st x = Some v) -> keeps st st' -> bnds st xs = bnds st' xs /\ cons_ st xs = cons_ st' xs.
Proof.
  intros V K. induction xs as [|x xs IH]; simpl; auto. destruct (V x (or_introl eq_refl)) as [v Vx]. rewrite Vx, (K _ _ Vx).
  destruct IH as [-> ->]; auto. intros y Hy. apply V. now right.
Qed.
Lemma scope_ok xs : (forall x, In x xs -> isvar x = true) -> forall acc st, top st -> exists st',
  mk_scope isvar (map QShadow xs) acc st = Ok (mkscope (sbounds acc ++ bnds st' xs) (scons acc ++ cons_ st' xs), st') /\
  top st' /\ keeps st st' /\ forall x, In x xs -> exists v, vis st' x = Some v.
Proof.
  induction xs as [|x xs IH]; intros Hx acc st T.
  - exists st. simpl. rewrite !app_nil_r. destruct acc. split; auto. split; auto. split; [apply keeps_refl | tauto].
  - destruct T as [Iv Q]. destruct (get_local_done isvar fsig plain_call dummy x st Iv (Hx x (or_introl eq_refl))) as (v & st1 & E1 & V & _ & D).
    pose proof (d_step _ _ _ _ _ _ _ _ _ D) as St.
    destruct (IH (fun y Hy => Hx y (or_intror Hy)) (append_scope acc (snd v)) st1) as (st2 & E2 & T2 & K2 & V2).
    { split; [apply (d_inv _ _ _ _ _ _ _ _ _ D) | rewrite (s_q _ _ _ St); exact Q]. }
    exists st2. split; [|split; auto; split].
    + cbn [map mk_scope qname]. rewrite E1. cbn [rbind fst snd]. rewrite E2. cbn [bnds cons_ flat_map]. rewrite (K2 _ _ V). destruct v as [y sc]. cbn [append_scope sbounds scons snd]. unfold bnds, cons_. now rewrite !app_assoc.
    + eapply keeps_trans; [exact (s_vis _ _ _ St) | exact K2].
    + intros y [<-|Hy]; eauto.
Qed.

Lemma good_ret k d : sig_ok d -> NoDup (finputs d) ->
  good_step (says_ret k d) (fun M => well_sorted fsig E M -> says_ret k d M) (return_invariant isvar fsig E k d).
Proof.
  intros Sd Nd st T.
  destruct (scope_ok (finputs d) (proj1 Sd) scope_new st T) as (st1 & E1 & T1 & K1 & V1).
  destruct (tr_call isvar fsig E k d st1 Sd T1) as (ys & st2 & E2 & T2 & K2 & F2).
  destruct (bnds_keeps st1 st2 (finputs d) V1 K2) as [Eb Ec].
  unfold return_invariant, inputs_scope. rewrite E1. cbn [rbind fst snd]. rewrite E2. cbn [rbind fst snd scope_new sbounds scons app].
  eexists _, st2. split; [reflexivity|]. split; auto. rewrite Eb, Ec. split.
  - intros M HM c Hc. destruct (smt_invariant (call_at E k d ys)) as [c0|] eqn:Es; [|destruct Hc]. destruct Hc as [<-|[]].
    apply scope_forall_iff. cbn [sbounds scons]. intros M' A C.
    destruct (decode_inputs isvar st2 (finputs d) M' (proj1 T2) (seen_vis isvar _ _ _ F2) C) as (s & Hs & He).
    destruct (HM (map s (finputs d)) (args_at ys M')) as (v & Tv & Dv).
    { clear - Hs. induction (finputs d); simpl; constructor; auto. }
    { pose proof (encs_args _ _ _ _ _ F2 He) as H. clear - H. unfold args_at. induction H; simpl; constructor; auto using into_dynamic_val. }
    unfold call_at in Es. eapply invariant_true; [exact Tv | | exact Es]. destruct A as (_&_&_&_&Eu&_). cbv beta. now rewrite Eu.
  - intros M HM W vs ds Hv Hd. destruct (args_state _ _ Nd Hv) as (s & Hs & <-).
    destruct (assign_inputs isvar st2 (finputs d) M s (proj1 T2) (seen_vis isvar _ _ _ F2) Hs) as (M' & A & C & He).
    pose proof (args_vals _ _ _ _ _ _ F2 He Hd) as Ea. pose proof A as (_&_&_&_&Eu&_).
    destruct (invariant_says (fout d) (fun M => enc_call E k (fname d) (ufn M) (args_at ys M)) M') as (v & Tv & Dv).
    + rewrite Ea, Eu. eapply W; [apply Sd|]. eapply vals_sorts; eauto.
    + intros c Hc. fold (call_at E k d ys) in Hc. rewrite Hc in HM. specialize (HM _ (or_introl eq_refl)). rewrite scope_forall_iff in HM. now apply HM.
    + exists v. split; auto. cbv beta in Dv. now rewrite Ea, Eu in Dv.
Qed.

(** ** Equations *)
(** In interpretations that fit, the equation holds. *)
Definition says_eq (fh fb : nat) (d : fdecl) (e : expr) (M : strct) : Prop := forall I, interp_ok I -> fits_at fh I M -> fits_at fb I M ->
  forall s, env_ok s -> ifun I (fname d) (fout d) (map s (finputs d)) = eval I e s.
Definition eq_ok (d : fdecl) (e : expr) : Prop := plain_expr isvar fsig e /\ ty_of e = fout d /\ forall x, fv x e -> In x (finputs d).

Lemma good_eq_partial I fh fb d e : interp_ok I -> sig_ok d -> eq_ok d e ->
  (forall s, env_ok s -> ifun I (fname d) (fout d) (map s (finputs d)) = eval I e s) ->
  good_step (fun M => fits_at fh I M /\ fits_at fb I M) (says_eq fh fb d e) (fun st => single (equation isvar fsig E Partial fh fb d e st)).
Proof.
  intros HI Sd (Pe & Te & Fe) Heq st T. destruct (equation_ok isvar fsig E Partial fh fb d e st Sd Pe Fe T) as (ax & st' & ys & yb & Eq & Q).
  exists [ax], st'. rewrite Eq. split; [reflexivity|]. split; [apply (q_top _ _ _ _ _ _ _ _ _ _ _ _ _ Q)|]. split.
  - intros M [F1 F2] c [<-|[]]. eapply eqn_partial; eauto.
  - intros M HM I' HI' F1 F2 s Hs. eapply eqn_says; eauto. apply HM. now left.
Qed.
(** Whatever makes the equation true. *)
Lemma good_eq_any p fh fb d e : sig_ok d -> eq_ok d e ->
  good_step (fun _ => False) (says_eq fh fb d e) (fun st => single (equation isvar fsig E p fh fb d e st)).
Proof.
  intros Sd (Pe & Te & Fe) st T. destruct (equation_ok isvar fsig E p fh fb d e st Sd Pe Fe T) as (ax & st' & ys & yb & Eq & Q).
  exists [ax], st'. rewrite Eq. split; [reflexivity|]. split; [apply (q_top _ _ _ _ _ _ _ _ _ _ _ _ _ Q)|]. split; [tauto|].
  intros M HM I' HI' F1 F2 s Hs. eapply eqn_says; eauto. apply HM. now left.
Qed.

(** Calls of a function with its own inputs. *)
Lemma call_expr_ok d : sig_ok d -> eq_ok d (mk_call_expr d).
Proof.
  intros [Hx Hf]. assert (S : forall P xs, (forall x, In x xs -> P (EVar x) = false) -> existsb (some P) (map EVar xs) = false).
  { intros P. induction xs as [|x xs IH]; simpl; auto. intros H. rewrite H by auto. simpl. auto. }
  split; [|split; [reflexivity|]].
  - split; [|split].
    + unfold translatable, mk_call_expr. cbn [wt some untranslatable]. rewrite Hf. replace (ty_eqb (fout d) (fout d)) with true by (symmetry; now apply ty_eqb_eq).
      replace (tys_eqb (map ty_of (map EVar (finputs d))) (map ity (finputs d))) with true.
      * simpl. rewrite S by (intros x H; simpl; now rewrite Hx). rewrite andb_true_r. apply forallb_forall. intros a Ha. apply in_map_iff in Ha. now destruct Ha as (x & <- & _).
      * clear. induction (finputs d) as [|x xs IH]; simpl; auto. rewrite <- IH. symmetry. apply andb_true_intro. split; auto. now apply ty_eqb_eq.
    + simpl. now apply S.
    + simpl. now apply S.
  - intros x. simpl. clear. induction (finputs d) as [|y ys IH]; simpl; [tauto|]. intros [->|H]; auto.
Qed.
Lemma call_expr_eval I d s : eval I (mk_call_expr d) s = ifun I (fname d) (fout d) (map s (finputs d)).
Proof. simpl. f_equal. rewrite map_map. reflexivity. Qed.

(** More and less fuel give the same. *)
Definition says_syn (k : nat) (d : fdecl) (M : strct) : Prop := forall vs ds, Forall2 has_ty vs (map ity (finputs d)) -> Forall2 val_dyn vs ds ->
  enc_call E (S k) (fname d) (ufn M) ds = enc_call E k (fname d) (ufn M) ds.
Lemma good_syn k d : sig_ok d -> NoDup (finputs d) ->
  good_step (says_syn k d) (fun M => well_sorted fsig E M -> says_syn k d M) (fun st => single (equation isvar fsig E Partial (S k) k d (mk_call_expr d) st)).
Proof.
  intros Sd Nd st T. destruct (tr_call isvar fsig E (S k) d st Sd T) as (ys & st1 & E1 & T1 & K1 & F1).
  destruct (tr_call isvar fsig E k d st1 Sd T1) as (zs & st2 & E2 & T2 & K2 & F2).
  assert (F1' : Forall2 (seen st2) (finputs d) ys) by (eapply seen_list_keeps; eauto).
  unfold equation, inputs_scope. rewrite E1. cbn [rbind fst snd]. rewrite E2. cbn [rbind fst snd].
  rewrite mk_scope_vis by exact (seen_vis isvar _ _ _ F2). cbn [single rmap rbind fst snd scope_new sbounds scons app].
  eexists [_], st2. split; [reflexivity|]. split; auto. split.
  - intros M HM c [<-|[]]. apply scope_forall_iff. cbn [sbounds scons]. intros M' A C. apply dyn_eq_iff.
    destruct (decode_inputs isvar st2 (finputs d) M' (proj1 T2) (seen_vis isvar _ _ _ F2) C) as (s & Hs & He).
    assert (Hd : exists ds, Forall2 val_dyn (map s (finputs d)) ds).
    { pose proof (encs_args _ _ _ _ _ F2 He) as H. clear - H. induction H as [|y v l l' H _ [ds IH]]; [exists []; constructor|].
      exists (into_dynamic y M' :: ds). constructor; auto using into_dynamic_val. }
    destruct Hd as [ds Hd]. pose proof (args_vals _ _ _ _ _ _ F1' He Hd) as Ea. pose proof (args_vals _ _ _ _ _ _ F2 He Hd) as Eb.
    pose proof A as (_&_&_&_&Eu&_).
    assert (X : enc_call E (S k) (fname d) (ufn M') (args_at ys M') = enc_call E k (fname d) (ufn M') (args_at zs M')).
    { rewrite Ea, Eb, Eu. eapply HM; [|exact Hd]. clear - Hs. induction (finputs d); simpl; constructor; auto. }
    unfold call_at. destruct (fout d); simpl; rewrite X; reflexivity.
  - intros M HM W vs ds Hv Hd. destruct (args_state _ _ Nd Hv) as (s & Hs & <-).
    destruct (assign_inputs isvar st2 (finputs d) M s (proj1 T2) (seen_vis isvar _ _ _ F2) Hs) as (M' & A & C & He).
    specialize (HM _ (or_introl eq_refl)). rewrite scope_forall_iff in HM. specialize (HM M' A C). apply dyn_eq_iff in HM.
    pose proof (args_vals _ _ _ _ _ _ F1' He Hd) as Ea. pose proof (args_vals _ _ _ _ _ _ F2 He Hd) as Eb. pose proof A as (_&_&_&_&Eu&_).
    unfold call_at in HM. rewrite !from_into in HM.
    + now rewrite Ea, Eb, Eu in HM.
    + rewrite Eb, Eu. eapply W; [apply Sd|]. eapply vals_sorts; eauto.
    + rewrite Ea, Eu. eapply W; [apply Sd|]. eapply vals_sorts; eauto.
Qed.

(** ** Axioms *)
Definition says_ax (e : expr) (M : strct) : Prop := forall I, interp_ok I -> fits_at (ambient E) I M -> forall s, env_ok s -> eval I e s = VBool true.
Lemma good_axiom I n e : interp_ok I -> spec_ok isvar fsig (DAxiom n e) ->
  good_step (fun M => fits_at (ambient E) I M /\ exists s, eval I e s = VBool true) (says_ax e) (spec_axioms isvar fsig E (DAxiom n e)).
Proof.
  intros HI (Pe & Te & Fe) st T. destruct (tr_plain isvar fsig E (ambient E) e st Pe T) as (y & st' & Et & T' & _ & Ty & _ & C).
  rewrite Te in Ty. destruct y as [b| | | | |]; try discriminate Ty. cbn [spec_axioms].
  replace (ty_eqb (ty_of e) TBool) with true by (symmetry; now apply ty_eqb_eq). rewrite Et. cbn [rbind fst snd].
  exists [b], st'. split; [reflexivity|]. split; auto. split.
  - intros M (F & s & Hs) c [<-|[]]. assert (X : enc M (YBool b) (eval I e s)). { apply C; auto. intros x Hx. destruct (Fe x Hx). }
    rewrite Hs in X. exact X.
  - intros M HM I' HI' F s Hs. assert (X : enc M (YBool b) (eval I' e s)). { apply C; auto. intros x Hx. destruct (Fe x Hx). }
    simpl in X. destruct (eval I' e s); try contradiction. rewrite (HM b (or_introl eq_refl)) in X. now subst.
Qed.
End Axioms.
