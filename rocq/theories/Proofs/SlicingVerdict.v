(** What slicing guarantees for a whole program. *)
From Coq Require Import Bool List String ZArith NArith QArith Qreals Reals Lia Lra FunctionalExtensionality.
From Verif.Model Require Import Syntax Builder VcGen Negations TyCtx Subsets Slicing.
From Verif.Spec Require Import Eur Sem Wp Frame Loops Sliced.
From Verif.Proofs Require Import EurLemmas SemLemmas WpLemmas DistProofs VcGenProofs MonoProofs FrameProofs LoopProofs TyCtxProofs ValidateProofs SimplifyRefuted SlicingProofs SlicingSteps SlicingVisit SlicingForm.
Import ListNotations.
Local Open Scope nat_scope.
Local Open Scope list_scope.
Local Arguments eleb : simpl never.

(** * States *)
Lemma set_on_in l s e : In e l -> set_on l s (sl_ident e) = VBool true.
Proof.
  induction l as [|a l IH]; [intros []|]. intros [->|H]; cbn [set_on fold_right]; unfold upd.
  - now rewrite ident_eqb_refl.
  - destruct (ident_eqb _ _); auto.
Qed.
Lemma set_on_out l s x : ~ In x (map sl_ident l) -> set_on l s x = s x.
Proof.
  induction l as [|a l IH]; [auto|]. cbn [set_on fold_right map In]. intros H. unfold upd.
  destruct (ident_eqb (sl_ident a) x) eqn:E; [apply ident_eqb_eq in E; tauto | apply IH; tauto].
Qed.
Lemma set_on_ok l s : (forall e, In e l -> ity (sl_ident e) = TBool) -> env_ok s -> env_ok (set_on l s).
Proof.
  induction l as [|a l IH]; intros H Hs; [exact Hs|]. cbn [set_on fold_right]. intros x. unfold upd.
  destruct (ident_eqb (sl_ident a) x) eqn:E; [|apply IH; auto; intros; apply H; now right].
  apply ident_eqb_eq in E. subst x. rewrite (H a) by (now left). constructor.
Qed.
Lemma bool_val s x : env_ok s -> ity x = TBool -> exists v, s x = VBool v.
Proof. intros Hs H. specialize (Hs x). rewrite H in Hs. unfold has_ty in Hs. destruct (s x); try discriminate. eauto. Qed.

Lemma off_at l s e v : NoDup (map sl_at l) -> In e l -> s (sl_ident e) = VBool v -> off_in l s (sl_at e) = negb v.
Proof.
  intros Hn He Ev. unfold off_in. destruct v; cbn [negb].
  - apply not_true_is_false. intros H. apply existsb_exists in H. destruct H as (e' & I' & H). apply andb_prop in H. destruct H as [H1 H2].
    apply place_eqb_iff in H1. assert (e' = e); [|subst e'; unfold is_off in H2; rewrite Ev in H2; discriminate].
    clear Ev H2. induction l as [|a l IH]; [destruct He|]. cbn in Hn. inversion Hn as [|? ? Na Nl]; subst.
    destruct He as [->|He], I' as [->|I']; auto.
    + destruct Na. rewrite <- H1. now apply in_map.
    + destruct Na. rewrite H1. now apply in_map.
  - apply existsb_exists. exists e. split; auto. unfold is_off. rewrite Ev. cbn. rewrite andb_true_r. now apply place_eqb_iff.
Qed.
Lemma off_else l s x : (forall e, In e l -> sl_at e <> x) -> off_in l s x = false.
Proof.
  intros H. apply not_true_is_false. intros E. apply existsb_exists in E. destruct E as (e & He & E). apply andb_prop in E. destruct E as [E _].
  apply place_eqb_iff in E. now apply (H e).
Qed.
Lemma off_none l s : (forall e, In e l -> s (sl_ident e) = VBool true) -> forall x, off_in l s x = false.
Proof.
  intros H x. apply not_true_is_false. intros E. apply existsb_exists in E. destruct E as (e & He & E). apply andb_prop in E. destruct E as [_ E].
  unfold is_off in E. now rewrite (H e He) in E.
Qed.

Section Program.
Variables (C : tcx) (F : filter) (span_at : place -> nat) (isd isf A : string -> bool).
Hypothesis HT : tcx_ok C isd isf A.

Lemma prepare_cases T d b : sliceable C isd isf T b -> exists b' S, prepare_slicing C F span_at T d b = Ok (b', S) /\
  NoDup (map sl_ident (s_stmts S)) /\ NoDup (map sl_at (s_stmts S)) /\
  (forall e, In e (s_stmts S) -> ity (sl_ident e) = TBool /\ ~ declared T (sl_ident e)) /\
  (forall I k X s, env_ok s -> meets I S s -> wp_block I isd k b' X s = wp_block I isd k (slice_program (off_in (s_stmts S) s) b) X s) /\
  (forall d', All (every neutral) b -> mono_visit_block d b = Ok d' ->
     eff isd (inblock [] 0) (fun off => slice_program off b) (s_stmts S) (s_constr S) d d').
Proof.
  intros (H1 & H2 & H3 & H4). destruct (block_fine C F span_at isd isf A HT b no_anns [] 0 (mkslicer T d [] []) H1 H2 H3)
    as (b' & S & ok & N & K & E & (G1 & G2 & G3 & G4 & G5) & (P1 & P2) & M & D).
  exists b', S. unfold prepare_slicing. rewrite E. cbn [rbind s_stmts s_constr app] in *. subst N K.
  split; [reflexivity|]. split; [exact G5|]. split; [exact P2|]. split; [intros e He; split; apply G3; auto|]. split.
  - intros I k X s Hs Hc. apply (M I k s (off_in (s_stmts S) s) (fun x => In x (map sl_ident (s_stmts S)))).
    + intros e He. split; [now apply in_map|]. destruct (bool_val s (sl_ident e) Hs) as [v Ev]; [apply G3; auto|]. exists v. split; [exact Ev|].
      now apply off_at.
    + intros x _ Hx. now apply off_else.
    + exact Hc.
    + intros x Hx Hw. apply in_map_iff in Hx. destruct Hx as (e & <- & He). destruct (G3 e He) as (_ & Q & _). apply Q. cbn [s_tcx]. apply contains_key_iff. auto.
    + reflexivity.
    + intros x _. reflexivity.
  - intros d' Hn Hv. destruct (D d' Hn Hv) as (_ & _ & Q). exact Q.
Qed.

(** With everything on the original is left. *)
Lemma slice_on b off : (forall x, off x = false) -> slice_program off b = b.
Proof. intros H. apply (proj2 (slice_all_on off)). auto. Qed.

Lemma on_meets T d b b' S : prepare_slicing C F span_at T d b = Ok (b', S) ->
  forall I s, (forall e, In e (s_stmts S) -> s (sl_ident e) = VBool true) -> meets I S s.
Proof.
  intros E I s H c Hc.
  destruct (prepare_rec C F span_at (fun _ => false) (fun _ => True) (fun _ _ => eq_refl) (fun _ _ _ => eq_refl) T d b b' S eq_refl) as [R _]; auto.
  { assert (Q : forall st, every (not_ann (fun _ => True)) st).
    { assert (B : forall c, Forall (every (not_ann (fun _ => True))) c -> All (every (not_ann (fun _ => True))) c) by (induction 1; split; auto).
      induction st using stmt_rect'; cbn [every not_ann]; auto 6. }
    clear - Q. induction b; split; auto. }
  destruct (R c Hc) as (e1 & e2 & I1 & I2 & ->). unfold holds. cbn [eval eval_bin]. rewrite (H e1 I1), (H e2 I2). reflexivity.
Qed.

Theorem slices T d b : sliceable C isd isf T b -> exists b' S, prepare_slicing C F span_at T d b = Ok (b', S) /\
  NoDup (map sl_ident (s_stmts S)) /\ NoDup (map sl_at (s_stmts S)) /\
  (forall e, In e (s_stmts S) -> ity (sl_ident e) = TBool /\ contains_key T (sl_ident e) = false) /\
  forall I k X s, env_ok s -> meets I S s -> wp_block I isd k b' X s = wp_block I isd k (slice_program (off_in (s_stmts S) s) b) X s.
Proof.
  intros H. destruct (prepare_cases T d b H) as (b' & S & E & H1 & H2 & H3 & H4 & _). exists b', S. repeat (split; auto).
  - now apply H3.
  - destruct (contains_key T (sl_ident e)) eqn:Q; auto. apply contains_key_iff in Q. destruct (H3 e H0) as [_ N]. contradiction.
Qed.
Theorem all_on T d b b' S : sliceable C isd isf T b -> prepare_slicing C F span_at T d b = Ok (b', S) ->
  forall I k X s, env_ok s -> (forall e, In e (s_stmts S) -> s (sl_ident e) = VBool true) ->
  meets I S s /\ wp_block I isd k b' X s = wp_block I isd k b X s.
Proof.
  intros H E I k X s Hs Ho. pose proof (on_meets T d b b' S E I s Ho) as M. split; [exact M|].
  destruct (slices T d b H) as (b2 & S2 & E2 & _ & _ & _ & Q). rewrite E2 in E. inversion E; subst. rewrite Q by auto.
  now rewrite slice_on by (now apply off_none).
Qed.

(** ** Programs that do not know of the toggles *)
Lemma nw_blind I k : interp_ok I -> forall st, wts isd isf st -> every not_while st ->
  forall (V : ident -> Prop) X, scoped V st ->
  blind (fun x => V x /\ match st with SVar y (Some _) => x <> y | _ => True end) X -> blind V (wp I isd k st X).
Proof.
  intros HI.
  assert (HB : forall b, Forall (fun st => wts isd isf st -> every not_while st -> forall (V : ident -> Prop) X, scoped V st ->
      blind (fun x => V x /\ match st with SVar y (Some _) => x <> y | _ => True end) X -> blind V (wp I isd k st X)) b ->
    All (wts isd isf) b -> All (every not_while) b -> forall V X, scoped_block V b -> blind V X -> blind V (wp_block I isd k b X)).
  { induction 1 as [|s b Hs Hb IH]; intros W N V X Hsc HX; [exact HX|].
    destruct W as [W1 W2], N as [N1 N2], Hsc as [S1 S2]. unfold wp_block. cbn [fold_right]. apply Hs; auto.
    apply IH; auto. revert HX. apply blind_mono. tauto. }
  induction st using stmt_rect'; intros W N V X Hsc HX; cbn [wts every scoped not_while] in W, N, Hsc;
    rewrite ?scoped_block_eq in Hsc.
  - apply HB; try tauto. revert HX; apply blind_mono; tauto.
  - destruct i as [e|].
    + cbn [wp]. apply (blind_assign V I isd isf); auto.
    + cbn [wp]. revert HX. apply blind_mono. tauto.
  - destruct xs as [|x [|? ?]]; try contradiction. cbn [wp].
    apply (blind_assign V I isd isf); auto. revert HX. apply blind_mono. tauto.
  - cbn [wp]. apply blind_havoc. revert HX. apply blind_mono. tauto.
  - assert (HX' : blind V X) by (revert HX; apply blind_mono; tauto).
    intros s s' Hs Hs' E. destruct d; cbn [wp]; rewrite (unread_blind V I e Hsc s s'), (HX' s s'); auto.
  - assert (HX' : blind V X) by (revert HX; apply blind_mono; tauto).
    intros s s' Hs Hs' E. cbn [wp]; rewrite (unread_blind V I e Hsc s s'), (HX' s s'); auto.
  - assert (HX' : blind V X) by (revert HX; apply blind_mono; tauto).
    intros s s' Hs Hs' E. cbn [wp]; rewrite (unread_blind V I e Hsc s s'), (HX' s s'); auto.
  - assert (HX' : blind V X) by (revert HX; apply blind_mono; tauto).
    intros s s' Hs Hs' E. cbn [wp]; rewrite (HX' s s'); auto.
  - assert (HX' : blind V X) by (revert HX; apply blind_mono; tauto).
    intros s s' Hs Hs' E. cbn [wp]; rewrite (HX' s s'); auto.
  - assert (HX' : blind V X) by (revert HX; apply blind_mono; tauto).
    intros s s' Hs Hs' E. cbn [wp]; rewrite (unread_blind V I e Hsc s s'), (HX' s s'); auto.
  - assert (HX' : blind V X) by (revert HX; apply blind_mono; tauto).
    intros s s' Hs Hs' E. cbn [wp]; rewrite (unread_blind V I e Hsc s s'), (HX' s s'); auto.
  - assert (HX' : blind V X) by (revert HX; apply blind_mono; tauto). destruct W as [W1 W2], N as (_ & N1 & N2), Hsc as [S1 S2].
    intros s s' Hs Hs' E. cbn [wp]. f_equal; [apply (HB a H W1 N1 V X) | apply (HB b H0 W2 N2 V X)]; auto.
  - assert (HX' : blind V X) by (revert HX; apply blind_mono; tauto). destruct W as [W1 W2], N as (_ & N1 & N2), Hsc as [S1 S2].
    intros s s' Hs Hs' E. cbn [wp]. f_equal; [apply (HB a H W1 N1 V X) | apply (HB b H0 W2 N2 V X)]; auto.
  - assert (HX' : blind V X) by (revert HX; apply blind_mono; tauto). destruct W as [W1 W2], N as (_ & N1 & N2), Hsc as [S1 S2].
    intros s s' Hs Hs' E. cbn [wp]. f_equal; [apply (HB a H W1 N1 V X) | apply (HB b H0 W2 N2 V X)]; auto.
  - assert (HX' : blind V X) by (revert HX; apply blind_mono; tauto). destruct W as (_ & W1 & W2), N as (_ & N1 & N2), Hsc as (Sc & S1 & S2).
    intros s s' Hs Hs' E. cbn [wp]. rewrite (unread_holds V I c s s') by auto.
    destruct (holds I c s'); [apply (HB a H W1 N1 V X) | apply (HB b H0 W2 N2 V X)]; auto.
  - destruct N as [[] _].
  - cbn [wp]. apply IHst; auto; try tauto. revert HX. apply blind_mono. tauto.
  - cbn [wp]. revert HX. apply blind_mono. tauto.
Qed.

(** The value of the original in any state is one of the prepared program. *)
Theorem original_value T d b b' S : sliceable C isd isf T b -> scoped_block (fun x => contains_key T x = false) b ->
  prepare_slicing C F span_at T d b = Ok (b', S) ->
  forall I k X s, interp_ok I -> env_ok s -> blind (fun x => contains_key T x = false) X ->
  env_ok (set_on (s_stmts S) s) /\ meets I S (set_on (s_stmts S) s) /\
  wp_block I isd k b' X (set_on (s_stmts S) s) = wp_block I isd k b X s.
Proof.
  intros H Hsc E I k X s HI Hs HX.
  destruct (slices T d b H) as (b2 & S2 & E2 & _ & _ & Ht & _). rewrite E2 in E. inversion E; subst b2 S2.
  assert (Hs' : env_ok (set_on (s_stmts S) s)) by (apply set_on_ok; auto; intros; apply Ht; auto).
  destruct (all_on T d b b' S H E2 I k X (set_on (s_stmts S) s) Hs') as [M ->]; [intros; now apply set_on_in|].
  split; [exact Hs'|]. split; [exact M|]. destruct H as (H1 & H2 & _).
  assert (B : blind (fun x => contains_key T x = false) (wp I isd k (SSeq b) X)).
  { apply (nw_blind I k HI (SSeq b)); [exact H1 | | |].
    - split; [exact Logic.I | exact H2].
    - cbn [scoped]. rewrite scoped_block_eq. exact Hsc.
    - revert HX. apply blind_mono. tauto. }
  apply B; auto. intros x Hx. apply set_on_out. intros Hi. apply in_map_iff in Hi. destruct Hi as (e & <- & He). apply Hx. now apply Ht.
Qed.

(** ** Verification conditions *)
Theorem slice_vc T d b post : sliceable C isd isf T b -> All (every (anns_in A)) b -> vguard_block b -> is_exp post ->
  exists b' S e, prepare_slicing C F span_at T d b = Ok (b', S) /\ vcgen C (SSeq b') post = Ok e /\ is_exp e /\
  forall I k s, interp_ok I -> env_ok s -> meets I S s -> ev I e s = wp_block I isd k (slice_program (off_in (s_stmts S) s) b) (ev I post) s.
Proof.
  intros H Ha Hv Hp. destruct (slices T d b H) as (b' & S & E & _ & _ & _ & Q).
  assert (W : wellb isd isf A b) by (destruct H as (H1 & H2 & _); split; [exact H1|]; auto).
  pose proof (prepare_well C F span_at isd isf A HT T d b b' S W E) as (W1 & W2 & W3 & W4).
  assert (R : forall I k, interp_ok I -> exists e, vcgen C (SSeq b') post = Ok e /\ is_exp e /\ forall s, env_ok s -> ev I e s = wp I isd k (SSeq b') (ev I post) s).
  { intros I k HI. apply (vcgen_is_semantics C I isd isf A k); auto; try (split; [exact Logic.I | assumption]). }
  assert (I0 : exists I0, interp_ok I0).
  { exists I5. exact I5_ok. }
  destruct I0 as [I0 HI0]. destruct (R I0 Least HI0) as (e & Ee & We & _). exists b', S, e. split; [exact E|]. split; [exact Ee|]. split; [exact We|].
  intros I k s HI Hs Hm. destruct (R I k HI) as (e' & Ee' & _ & Hv'). rewrite Ee in Ee'. inversion Ee'; subst e'. rewrite Hv' by auto. now apply Q.
Qed.

(** * Effects *)
Section Effects.
Variables (T : tyctx) (d d' : direction) (b b' : list stmt) (S : slicer).
Hypotheses (H : sliceable C isd isf T b) (E : prepare_slicing C F span_at T d b = Ok (b', S))
  (Hn : All (every neutral) b) (Hv : mono_visit_block d b = Ok d').

Theorem more_off (g : bool) I k X s1 s2 : interp_ok I -> env_ok s1 -> env_ok s2 -> meets I S s1 -> meets I S s2 ->
  (forall e, In e (s_stmts S) -> s1 (sl_ident e) = s2 (sl_ident e) \/ s1 (sl_ident e) = VBool true /\ s2 (sl_ident e) = VBool false /\ lab g e = true) ->
  ord (seen g d) (wp_block I isd k (slice_program (off_in (s_stmts S) s1) b) X) (wp_block I isd k (slice_program (off_in (s_stmts S) s2) b) X).
Proof.
  intros HI Hs1 Hs2 M1 M2 Hd. destruct (prepare_cases T d b H) as (b2 & S2 & E2 & _ & Hp & Ht & _ & Q). pose proof E as E'. rewrite E2 in E'. inversion E'; subst b2 S2.
  eapply (Q d' Hn Hv I k g s1 s2); auto.
  - intros e He. destruct (bool_val s1 (sl_ident e) Hs1) as [v1 V1]; [apply Ht; auto|]. destruct (bool_val s2 (sl_ident e) Hs2) as [v2 V2]; [apply Ht; auto|].
    exists v1, v2. split; [exact V1|]. split; [exact V2|]. split; [now apply off_at|]. split; [now apply off_at|].
    destruct (Hd e He) as [Eq|(Q1 & Q2 & Q3)]; [left; congruence|]. right. split; [congruence|]. split; [congruence | exact Q3].
  - intros x _ Hx. split; now apply off_else.
  - apply ord_refl.
Qed.

Lemma against_on (g : bool) I k X s : interp_ok I -> env_ok s -> meets I S s ->
  (forall e, In e (s_stmts S) -> s (sl_ident e) = VBool true \/ lab g e = true) ->
  match seen g d with Down => ele (wp_block I isd k b X s) (wp_block I isd k b' X s) | Up => ele (wp_block I isd k b' X s) (wp_block I isd k b X s) end.
Proof.
  intros HI Hs Hm Ho. destruct (slices T d b H) as (b2 & S2 & E2 & _ & _ & Ht & Hq). pose proof E as E'. rewrite E2 in E'. inversion E'; subst b2 S2.
  rewrite Hq by auto. set (s1 := set_on (s_stmts S) s).
  assert (Hs1 : env_ok s1) by (apply set_on_ok; auto; intros; apply Ht; auto).
  assert (On : forall e, In e (s_stmts S) -> s1 (sl_ident e) = VBool true) by (intros; now apply set_on_in).
  pose proof (on_meets T d b b' S E2 I s1 On) as M1.
  assert (Q : ord (seen g d) (wp_block I isd k (slice_program (off_in (s_stmts S) s1) b) X) (wp_block I isd k (slice_program (off_in (s_stmts S) s) b) X)).
  { apply more_off; auto. intros e He. rewrite (On e He). destruct (bool_val s (sl_ident e) Hs) as [v V]; [apply Ht; auto|]. destruct v; auto.
    right. split; [reflexivity|]. split; [exact V|]. destruct (Ho e He) as [Q|Q]; [congruence | exact Q]. }
  rewrite slice_on in Q by (now apply off_none). apply (ord_at _ _ _ s Q Hs).
Qed.

(** What the solver may switch off when it looks for a counterexample. *)
Theorem counterexample I k X s : All (every (without_ann "slice_error")) b -> interp_ok I -> env_ok s -> meets I S s ->
  (forall e, In e (s_stmts S) -> enables failure_selection (sl_sel e) = false -> s (sl_ident e) = VBool true) ->
  match d with Down => ele (wp_block I isd k b X s) (wp_block I isd k b' X s) | Up => ele (wp_block I isd k b' X s) (wp_block I isd k b X s) end.
Proof.
  intros Hw HI Hs Hm Ho. apply (against_on true); auto. intros e He.
  destruct (prepare_rec C F span_at in_error (fun n => n <> "slice_error"%string)) with (T := T) (d := d) (b := b) (b' := b') (S := S) as [_ R]; auto.
  { intros n anns Hne. unfold push_annotation. destruct (n =? "slice_verify")%string; auto. destruct (n =? "slice_error")%string eqn:Q; auto.
    apply String.eqb_eq in Q. contradiction. }
  destruct (R e He) as [R1 _]. destruct (enables failure_selection (sl_sel e)) eqn:Q; [right | left; auto].
  unfold enables in Q. cbn in Q. rewrite R1, !orb_false_r in Q. exact Q.
Qed.
(** ... and when it looks for statements that are not necessary for verification. *)
Theorem verified_slice I k X s : All (every (without_ann "slice_verify")) b -> interp_ok I -> env_ok s -> meets I S s ->
  (forall e, In e (s_stmts S) -> enables verified_selection (sl_sel e) = false -> s (sl_ident e) = VBool true) ->
  match d with Down => ele (wp_block I isd k b' X s) (wp_block I isd k b X s) | Up => ele (wp_block I isd k b X s) (wp_block I isd k b' X s) end.
Proof.
  intros Hw HI Hs Hm Ho. assert (Q : match seen false d with Down => ele (wp_block I isd k b X s) (wp_block I isd k b' X s) | Up => ele (wp_block I isd k b' X s) (wp_block I isd k b X s) end).
  2:{ destruct d; exact Q. }
  apply (against_on false); auto. intros e He.
  destruct (prepare_rec C F span_at in_verify (fun n => n <> "slice_verify"%string)) with (T := T) (d := d) (b := b) (b' := b') (S := S) as [_ R]; auto.
  { intros n anns Hne. unfold push_annotation. destruct (n =? "slice_verify")%string eqn:Q; [apply String.eqb_eq in Q; contradiction|].
    destruct (n =? "slice_error")%string; auto. }
  destruct (R e He) as [R1 _]. destruct (enables verified_selection (sl_sel e)) eqn:Q; [right | left; auto].
  unfold enables in Q. cbn in Q. rewrite R1, !orb_false_r in Q. exact Q.
Qed.

(** With the default options the verdict is that of the original program. *)
Theorem default_verdict ticks sampling I k : F = slice_filter false false ticks sampling ->
  All (every (without_ann "slice_error")) b -> interp_ok I -> scoped_block (fun x => contains_key T x = false) b ->
  let post := match d with Down => etop | Up => ebot end in
  (forall s, env_ok s -> meets I S s -> wp_block I isd k b' (fun _ => post) s = post) <->
  (forall s, env_ok s -> wp_block I isd k b (fun _ => post) s = post).
Proof.
  intros HF Hw HI Hsc post. split; intros Hp s Hs.
  - destruct (original_value T d b b' S H Hsc E I k (fun _ => post) s HI Hs) as (O1 & O2 & O3); [intros ? ? _ _ _; reflexivity|].
    rewrite <- O3. now apply Hp.
  - intros Hm.
    assert (Q : match d with Down => ele (wp_block I isd k b (fun _ => post) s) (wp_block I isd k b' (fun _ => post) s)
                | Up => ele (wp_block I isd k b' (fun _ => post) s) (wp_block I isd k b (fun _ => post) s) end).
    { apply counterexample; auto. intros e He Hf. exfalso.
      destruct (prepare_rec C F span_at in_error (fun n => n <> "slice_error"%string)) with (T := T) (d := d) (b := b) (b' := b') (S := S) as [_ R]; auto.
      { intros n anns Hne. unfold push_annotation. destruct (n =? "slice_verify")%string; auto. destruct (n =? "slice_error")%string eqn:Q; auto.
        apply String.eqb_eq in Q. contradiction. }
      destruct (R e He) as [R1 R2]. rewrite HF in R2. unfold enables in R2, Hf. cbn in R2, Hf. congruence. }
    rewrite (Hp s Hs) in Q. subst post. destruct d; apply ele_antisym; auto using ele_top, ebot_le.
Qed.
End Effects.
End Program.
