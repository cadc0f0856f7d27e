(** Markers do not change what the translation means. *)
From Coq Require Import Bool List String Arith ZArith Reals Lia.
From Verif.Model Require Orders.
From Verif.Model Require Import EurEncodings Syntax AstUtil ScopeMap Translate Literals.
From Verif.Spec Require Import Markers.
Import ListNotations.
Local Open Scope list_scope.

(** * Terms that agree if the markers are the identity *)
Definition eqt {A} (reg : list srt) (t t' : term A) : Prop := forall M, lit_id reg M -> t M = t' M.
Lemma lit_id_mono reg reg' M : incl reg reg' -> lit_id reg' M -> lit_id reg M.
Proof. intros H L s d Hs. apply L. auto. Qed.
Lemma eqt_mono {A} reg reg' (t t' : term A) : incl reg reg' -> eqt reg t t' -> eqt reg' t t'.
Proof. intros H E M L. apply E. eapply lit_id_mono; eauto. Qed.
Lemma eqt_refl {A} reg (t : term A) : eqt reg t t. Proof. now intros M _. Qed.
Lemma lit_id_agree reg bs M M' : agree_off bs M M' -> lit_id reg M -> lit_id reg M'.
Proof. intros (_ & _ & _ & _ & U & _) L s d Hs Hd. rewrite U. auto. Qed.

Lemma holds_ext P Q : (P <-> Q) -> holds P = holds Q.
Proof. intros H. unfold holds. do 2 destruct ClassicalEpsilon.excluded_middle_informative; tauto. Qed.
Lemma scope_forall_eqt reg s t t' : eqt reg t t' -> eqt reg (scope_forall s t) (scope_forall s t').
Proof.
  intros E. unfold scope_forall.
  set (b := match scons s with [] => t | _ => _ end). set (b' := match scons s with [] => t' | _ => _ end).
  assert (Eb : eqt reg b b') by (intros M L; unfold b, b'; destruct (scons s); rewrite ?(E M L); auto).
  destruct (sbounds s) as [|x bs]; auto. intros M L. apply holds_ext.
  split; intros H M' A; [rewrite <- (Eb M')|rewrite (Eb M')]; eauto using lit_id_agree.
Qed.
Lemma scope_exists_eqt reg s t t' : eqt reg t t' -> eqt reg (scope_exists s t) (scope_exists s t').
Proof.
  intros E. unfold scope_exists.
  set (b := match scons s with [] => t | _ => _ end). set (b' := match scons s with [] => t' | _ => _ end).
  assert (Eb : eqt reg b b') by (intros M L; unfold b, b'; destruct (scons s); rewrite ?(E M L); auto).
  destruct (sbounds s) as [|x bs]; auto. intros M L. apply holds_ext.
  split; intros (M' & A & H); exists M'; (split; [exact A|]); [rewrite <- (Eb M')|rewrite (Eb M')]; eauto using lit_id_agree.
Qed.

(** * Symbolic values, scopes and states *)
Definition rel_symb (reg : list srt) (y y' : symb) : Prop :=
  match y, y' with
  | YBool t, YBool t' => eqt reg t t'
  | YInt t, YInt t' | YUInt t, YUInt t' => eqt reg t t'
  | YReal t, YReal t' | YUReal t, YUReal t' => eqt reg t t'
  | YEur t, YEur t' => eqt reg t t'
  | _, _ => False
  end.
Lemma rel_symb_refl reg y : rel_symb reg y y. Proof. destruct y; cbn; apply eqt_refl. Qed.
Lemma rel_symb_mono reg reg' y y' : incl reg reg' -> rel_symb reg y y' -> rel_symb reg' y y'.
Proof. intros H. destruct y, y'; cbn; auto; now apply eqt_mono. Qed.
Definition rel_scope (reg : list srt) (s s' : scope) : Prop := sbounds s = sbounds s' /\ Forall2 (eqt reg) (scons s) (scons s').
Lemma f2_refl {A} (R : A -> A -> Prop) l : (forall a, R a a) -> Forall2 R l l.
Proof. intros H. induction l; auto. Qed.
Lemma f2_mono {A B} (R R' : A -> B -> Prop) l l' : (forall a b, R a b -> R' a b) -> Forall2 R l l' -> Forall2 R' l l'.
Proof. intros H. induction 1; auto. Qed.
Lemma rel_scope_mono reg reg' s s' : incl reg reg' -> rel_scope reg s s' -> rel_scope reg' s s'.
Proof. intros H [E F]. split; auto. eapply f2_mono; [|exact F]. intros a b. now apply eqt_mono. Qed.
Lemma rel_scope_refl reg s : rel_scope reg s s.
Proof. split; auto. apply f2_refl, eqt_refl. Qed.

Definition with_limits (L : list scope) (st : tst) : tst := mktst L (locals st) (qstack st) (nxt st).
Definition rel_st (reg : list srt) (st st' : tst) : Prop := exists L, st' = with_limits L st /\ Forall2 (rel_scope reg) (limits st) L.
Lemma rel_st_mono reg reg' st st' : incl reg reg' -> rel_st reg st st' -> rel_st reg' st st'.
Proof. intros H (L & -> & F). exists L. split; auto. eapply f2_mono; [|exact F]. intros a b. now apply rel_scope_mono. Qed.

(** * Results *)
Definition rel_res {A B} (R : A -> B -> Prop) (r : res A) (r' : res B) : Prop :=
  match r, r' with Ok a, Ok b => R a b | Err w, Err w' => w = w' | Panic w, Panic w' => w = w' | _, _ => False end.
Lemma rel_bind {A B C D} (R : A -> B -> Prop) (Q : C -> D -> Prop) r r' f g :
  rel_res R r r' -> (forall a b, r = Ok a -> r' = Ok b -> R a b -> rel_res Q (f a) (g b)) -> rel_res Q (rbind r f) (rbind r' g).
Proof. destruct r, r'; cbn; intros H K; try contradiction; auto. Qed.
Lemma rel_res_refl {A} (R : A -> A -> Prop) r : (forall a, R a a) -> rel_res R r r.
Proof. intros H. destruct r; cbn; auto. Qed.

Ltac pointwise := intros M LM; cbn; unfold lift2, liftM2; repeat match goal with E : eqt _ ?t ?t' |- _ => rewrite (E M LM); clear E end; reflexivity.
Ltac two x x' := destruct x, x'; cbn in *; try contradiction.
Lemma sym_eq_rel reg x x' y y' : rel_symb reg x x' -> rel_symb reg y y' -> rel_res (eqt reg) (sym_eq x y) (sym_eq x' y').
Proof. intros Hx Hy. two x x'; two y y'; auto; pointwise. Qed.
Lemma sym_cmp_rel reg o x x' y y' : rel_symb reg x x' -> rel_symb reg y y' -> rel_res (eqt reg) (sym_cmp o x y) (sym_cmp o x' y').
Proof. intros Hx Hy. two x x'; two y y'; auto; pointwise. Qed.
Lemma rmap_rel {A B C D} (R : A -> B -> Prop) (Q : C -> D -> Prop) f g r r' : rel_res R r r' -> (forall a b, R a b -> Q (f a) (g b)) -> rel_res Q (rmap f r) (rmap g r').
Proof. destruct r, r'; cbn; auto; contradiction. Qed.
Lemma bin_rel reg t op x x' y y' : rel_symb reg x x' -> rel_symb reg y y' -> rel_res (rel_symb reg) (bin_term t op x y) (bin_term t op x' y').
Proof.
  intros Hx Hy. pose proof (sym_eq_rel reg x x' y y' Hx Hy) as HE. pose proof (fun o => sym_cmp_rel reg o x x' y y' Hx Hy) as HC.
  destruct t, op; try (now cbn);
    try (cbn [bin_term]; eapply rmap_rel; [first [exact HE | apply HC]|]; intros a b E; first [exact E | cbn; pointwise]);
    clear HE HC; destruct x, x'; cbn in Hx; try contradiction; try (now cbn); destruct y, y'; cbn in Hy; try contradiction; try (now cbn); cbn; pointwise.
Qed.
Lemma un_rel reg t op x x' : rel_symb reg x x' -> rel_res (rel_symb reg) (un_term t op x) (un_term t op x').
Proof. intros Hx. destruct t, op; try (now cbn); destruct x, x'; cbn in Hx; try contradiction; try (now cbn); cbn; auto; pointwise. Qed.
Lemma cast_rel reg t x x' : rel_symb reg x x' -> rel_res (rel_symb reg) (cast_term t x) (cast_term t x').
Proof. intros Hx. destruct t; try (now cbn); destruct x, x'; cbn in Hx; try contradiction; try (now cbn); cbn; auto; pointwise. Qed.
Lemma ite_rel reg t c c' x x' y y' : rel_symb reg c c' -> rel_symb reg x x' -> rel_symb reg y y' -> rel_res (rel_symb reg) (ite_term t c x y) (ite_term t c' x' y').
Proof. intros Hc Hx Hy. destruct c, c'; cbn in Hc; try contradiction; try (now cbn); two x x'; auto; two y y'; auto; pointwise. Qed.
Lemma into_rel reg y y' : rel_symb reg y y' -> eqt reg (into_dynamic y) (into_dynamic y').
Proof. intros H. two y y'; pointwise. Qed.
Lemma from_rel reg t d d' : eqt reg d d' -> rel_symb reg (from_dynamic t d) (from_dynamic t d').
Proof. intros H. destruct t; cbn; pointwise. Qed.
Lemma call_rel fsig ecall reg t f ys ys' : Forall2 (rel_symb reg) ys ys' -> rel_res (rel_symb reg) (call_term fsig ecall t f ys) (call_term fsig ecall t f ys').
Proof.
  intros H. unfold call_term. destruct (fsig f) as [[ts r]|]; [|now cbn]. destruct (ty_eqb r t); [|now cbn]. cbn. apply from_rel. intros M L. f_equal.
  induction H; cbn; auto. now rewrite (into_rel _ _ _ H M L), IHForall2.
Qed.

(** * Wrapping *)
Lemma register_incl s reg : incl reg (register s reg).
Proof. unfold register. destruct existsb; [apply incl_refl|apply incl_appl, incl_refl]. Qed.
Lemma register_in s reg : In s (register s reg).
Proof.
  unfold register. destruct existsb eqn:E; [|apply in_or_app; right; now left].
  apply existsb_exists in E. destruct E as (x & H & E). now destruct s, x; try discriminate.
Qed.
Lemma lit_b_id reg t : In SB reg -> eqt reg t (lit_b t).
Proof. intros H M L. unfold lit_b. now rewrite (L SB (DyB (t M)) H I). Qed.
Lemma lit_i_id reg t : In SI reg -> eqt reg t (lit_i t).
Proof. intros H M L. unfold lit_i. now rewrite (L SI (DyI (t M)) H I). Qed.
Lemma lit_r_id reg t : In SR reg -> eqt reg t (lit_r t).
Proof. intros H M L. unfold lit_r. now rewrite (L SR (DyR (t M)) H I). Qed.
Lemma eqt_trans {A} reg (a b c : term A) : eqt reg a b -> eqt reg b c -> eqt reg a c.
Proof. intros H K M L. now rewrite (H M L), (K M L). Qed.
Lemma wrap_rel on y y' reg : rel_symb reg y y' -> incl reg (snd (lit_wrap on y' reg)) /\ rel_symb (snd (lit_wrap on y' reg)) y (fst (lit_wrap on y' reg)).
Proof.
  intros H. unfold lit_wrap. destruct on; [|split; [apply incl_refl|exact H]].
  two y y'; (split; [try apply register_incl|]).
  - eapply eqt_trans; [eapply eqt_mono; [apply register_incl|exact H]|]. apply lit_b_id, register_in.
  - eapply eqt_trans; [eapply eqt_mono; [apply register_incl|exact H]|]. apply lit_i_id, register_in.
  - eapply eqt_trans; [eapply eqt_mono; [apply register_incl|exact H]|]. apply lit_i_id, register_in.
  - eapply eqt_trans; [eapply eqt_mono; [apply register_incl|exact H]|]. apply lit_r_id, register_in.
  - eapply eqt_trans; [eapply eqt_mono; [apply register_incl|exact H]|]. apply lit_r_id, register_in.
  - eapply incl_tran; apply register_incl.
  - intros M L.
    assert (L1 : lit_id (register SB reg) M) by (eapply lit_id_mono; [apply register_incl|exact L]).
    rewrite (H M) by (eapply lit_id_mono; [apply register_incl|exact L1]).
    rewrite <- (lit_b_id (register SB reg) (fun M => p_inf (t0 M)) (register_in _ _) M L1).
    rewrite <- (lit_r_id _ (fun M => p_num (t0 M)) (register_in SR _) M L). now destruct (t0 M).
Qed.
Definition rel_out (w0 : list srt) (r : symb * tst) (r' : symb * wst) : Prop :=
  incl w0 (wreg (snd r')) /\ rel_symb (wreg (snd r')) (fst r) (fst r') /\ rel_st (wreg (snd r')) (snd r) (wbase (snd r')).
Lemma wrap_out on marks p w0 r r' : rel_out w0 r r' -> rel_out w0 r (wrap_if_literal on marks p (fst r') (snd r')).
Proof.
  intros (H1 & H2 & H3). unfold wrap_if_literal. destruct (marks p); [|destruct r'; exact (conj H1 (conj H2 H3))].
  destruct (wrap_rel on _ _ _ H2) as [K1 K2]. split; [|split]; cbn.
  - eapply incl_tran; eauto.
  - exact K2.
  - eapply rel_st_mono; eauto.
Qed.

(** * The state *)
Section State.
Context (isvar : ident -> bool).
Definition over {A} (L : list scope) (r : res (A * tst)) : res (A * tst) := rmap (fun r => (fst r, with_limits L (snd r))) r.
Lemma init_local_over x L st : init_local isvar x (with_limits L st) = rmap (with_limits L) (init_local isvar x st).
Proof. unfold init_local. destruct (isvar x); auto. cbn. now destruct sm_insert. Qed.
Lemma get_local_over x L st : get_local isvar x (with_limits L st) = over L (get_local isvar x st).
Proof.
  unfold get_local. cbn. destruct sm_contains; cbn.
  - now destruct sm_get.
  - rewrite init_local_over. destruct init_local as [s|w|w]; cbn; auto. now destruct sm_get.
Qed.
Lemma get_local_limits x st r : get_local isvar x st = Ok r -> limits (snd r) = limits st.
Proof.
  unfold get_local. destruct sm_contains; cbn.
  - destruct sm_get; [intros E; injection E as <-; auto|discriminate].
  - unfold init_local. destruct (isvar x); cbn; [|discriminate]. destruct sm_insert as [m|w|w]; cbn; try discriminate.
    destruct sm_get; [intros E; injection E as <-; auto|discriminate].
Qed.
Lemma get_locals_over xs : forall L st, get_locals isvar xs (with_limits L st) = rmap (with_limits L) (get_locals isvar xs st).
Proof. induction xs as [|x xs IH]; intros L st; cbn; auto. rewrite get_local_over. destruct get_local as [r|w|w]; cbn; auto. Qed.
Lemma get_locals_limits xs : forall st st', get_locals isvar xs st = Ok st' -> limits st' = limits st.
Proof.
  induction xs as [|x xs IH]; intros st st'; cbn; [congruence|]. destruct (get_local isvar x st) as [r|w|w] eqn:E; cbn; try discriminate.
  intros H. rewrite (IH _ _ H). now apply get_local_limits in E.
Qed.
Lemma init_over e xs L st : init_quantifier_free_vars isvar e xs (with_limits L st) = rmap (with_limits L) (init_quantifier_free_vars isvar e xs st).
Proof. unfold init_quantifier_free_vars. destruct free_variables; cbn; auto. apply get_locals_over. Qed.
Lemma init_limits e xs st st' : init_quantifier_free_vars isvar e xs st = Ok st' -> limits st' = limits st.
Proof. unfold init_quantifier_free_vars. destruct free_variables; cbn; try discriminate. apply get_locals_limits. Qed.
Lemma fresh_all_over xs : forall L st, fresh_all xs (with_limits L st) = rmap (with_limits L) (fresh_all xs st).
Proof. induction xs as [|x xs IH]; intros L st; cbn; auto. unfold tr_fresh. cbn. destruct sm_remove as [m|w|w]; cbn; auto. apply (IH L (mktst (limits st) (fst m) (qstack st) (nxt st))). Qed.
Lemma fresh_all_limits xs : forall st st', fresh_all xs st = Ok st' -> limits st' = limits st.
Proof. induction xs as [|x xs IH]; intros st st'; cbn; [congruence|]. unfold tr_fresh. destruct sm_remove as [m|w|w]; cbn; try discriminate. intros H. now rewrite (IH _ _ H). Qed.
Lemma mk_scope_over xs : forall acc L st, mk_scope isvar xs acc (with_limits L st) = over L (mk_scope isvar xs acc st).
Proof. induction xs as [|x xs IH]; intros acc L st; cbn; auto. rewrite get_local_over. destruct get_local as [r|w|w]; cbn; auto. Qed.
Lemma mk_scope_limits xs : forall acc st r, mk_scope isvar xs acc st = Ok r -> limits (snd r) = limits st.
Proof.
  induction xs as [|x xs IH]; intros acc st r; cbn; [intros E; injection E as <-; auto|].
  destruct (get_local isvar (qname x) st) as [g|w|w] eqn:E; cbn; try discriminate. intros H. rewrite (IH _ _ _ H). now apply get_local_limits in E.
Qed.
Lemma enter_over xs L st : enter isvar xs (with_limits L st) = over (scope_new :: L) (enter isvar xs st).
Proof.
  unfold enter. change (tr_push (with_limits L st)) with (with_limits (scope_new :: L) (tr_push st)). rewrite fresh_all_over.
  destruct fresh_all as [s|w|w]; cbn; auto. rewrite mk_scope_over. destruct mk_scope as [r|w|w]; cbn; auto.
Qed.
Lemma enter_limits xs st r : enter isvar xs st = Ok r -> limits (snd r) = scope_new :: limits st.
Proof.
  unfold enter. destruct (fresh_all xs (tr_push st)) as [s|w|w] eqn:E; cbn; try discriminate.
  destruct (mk_scope isvar xs scope_new s) as [g|w|w] eqn:G; cbn; try discriminate. intros H. injection H as <-. cbn.
  rewrite (mk_scope_limits _ _ _ _ G), (fresh_all_limits _ _ _ E). reflexivity.
Qed.

Lemma get_local_rel reg x st st' : rel_st reg st st' ->
  rel_res (fun r r' => fst r = fst r' /\ rel_st reg (snd r) (snd r')) (get_local isvar x st) (get_local isvar x st').
Proof.
  intros (L & -> & F). rewrite get_local_over. destruct (get_local isvar x st) as [r|w|w] eqn:E; cbn; auto. split; auto.
  exists L. split; auto. now rewrite (get_local_limits _ _ _ E).
Qed.
Lemma init_rel reg e xs st st' : rel_st reg st st' -> rel_res (rel_st reg) (init_quantifier_free_vars isvar e xs st) (init_quantifier_free_vars isvar e xs st').
Proof.
  intros (L & -> & F). rewrite init_over. destruct (init_quantifier_free_vars isvar e xs st) as [r|w|w] eqn:E; cbn; auto.
  exists L. split; auto. now rewrite (init_limits _ _ _ _ E).
Qed.
Lemma enter_rel reg xs st st' : rel_st reg st st' -> rel_res (fun r r' => fst r = fst r' /\ rel_st reg (snd r) (snd r')) (enter isvar xs st) (enter isvar xs st').
Proof.
  intros (L & -> & F). rewrite enter_over. destruct (enter isvar xs st) as [r|w|w] eqn:E; cbn; auto. split; auto.
  exists (scope_new :: L). split; auto. rewrite (enter_limits _ _ _ E). constructor; auto. apply rel_scope_refl.
Qed.
Lemma leave_rel reg st st' : rel_st reg st st' -> rel_res (rel_st reg) (leave st) (leave st').
Proof.
  intros (L & -> & F). unfold leave. cbn. destruct (qstack st) as [|q qs]; [now cbn|]. unfold tr_pop. cbn.
  destruct F as [|a b l l' _ F]; [now cbn|]. destruct F as [|c d l l' H F]; [now cbn|]. destruct sm_unchecked_pop as [m|w|w]; cbn; auto.
  exists (d :: l'). split; [reflexivity|]. constructor; auto.
Qed.
Lemma add_outermost_rel reg c c' : eqt reg c c' -> forall ls ls', Forall2 (rel_scope reg) ls ls' -> Forall2 (rel_scope reg) (add_outermost [c] ls) (add_outermost [c'] ls').
Proof.
  intros E. induction 1 as [|s s' ls ls' H F IH]; cbn; auto. destruct F as [|a b l l' Hab F].
  - constructor; auto. destruct H as [H1 H2]. split; auto. cbn. apply Forall2_app; auto.
  - constructor; auto.
Qed.
Lemma add_global_rel reg c c' st st' : eqt reg c c' -> rel_st reg st st' -> rel_st reg (add_global c st) (add_global c' st').
Proof. intros E (L & -> & F). exists (add_outermost [c'] L). split; auto. cbn. now apply add_outermost_rel. Qed.
Lemma infimum_rel reg La b b' q args st st' : eqt reg b b' -> rel_st reg st st' ->
  eqt reg (fst (infimum La b q args st)) (fst (infimum La b' q args st')) /\ rel_st reg (snd (infimum La b q args st)) (snd (infimum La b' q args st')).
Proof.
  intros E (L & -> & F). unfold infimum. cbn [fst snd with_limits nxt limits locals qstack]. split; [apply eqt_refl|].
  apply add_global_rel; [|apply add_global_rel; [|apply add_global_rel; [apply eqt_refl|]]].
  - apply scope_forall_eqt. intros M LM. f_equal. apply (scope_forall_eqt reg q); auto. intros M' L'. now rewrite (E M' L').
  - apply scope_forall_eqt, scope_forall_eqt. intros M' L'. now rewrite (E M' L').
  - exists L. split; auto.
Qed.
End State.

(** * The translation *)
Section Sim.
Context (isvar : ident -> bool) (fsig : string -> option (list ty * ty)).
Context (ecall : string -> (string -> list dyn -> dyn) -> list dyn -> dyn) (on : bool) (marks : path -> bool).
Notation tr := (tr isvar fsig ecall).
Notation trw := (trw isvar fsig ecall on marks).
Definition simulates (e : expr) : Prop := forall p st w, rel_st (wreg w) st (wbase w) -> rel_res (rel_out (wreg w)) (tr e st) (trw p e w).

Lemma sub_sim a t p st w : simulates a -> rel_st (wreg w) st (wbase w) ->
  rel_res (rel_out (wreg w)) (if ty_eqb (ty_of a) t then tr a st else Panic "assertion failed: expr is not of the type")
    (if ty_eqb (ty_of a) t then trw p a w else Panic "assertion failed: expr is not of the type").
Proof. intros H R. destruct (ty_eqb (ty_of a) t); [now apply H|now cbn]. Qed.
Lemma then_wrap w0 p r (r' : res (symb * wst)) : rel_res (rel_out w0) r r' ->
  rel_res (rel_out w0) r (rbind r' (fun r => Ok (wrap_if_literal on marks p (fst r) (snd r)))).
Proof. destruct r, r'; cbn; auto; try contradiction. apply wrap_out. Qed.

Lemma args_sim p l : Forall simulates l -> forall k st w, rel_st (wreg w) st (wbase w) ->
  rel_res (fun r r' => incl (wreg w) (wreg (snd r')) /\ Forall2 (rel_symb (wreg (snd r'))) (fst r) (fst r') /\ rel_st (wreg (snd r')) (snd r) (wbase (snd r')))
    ((fix go l st := match l with [] => Ok ([], st) | a :: l => let? r := tr a st in let? rs := go l (snd r) in Ok (fst r :: fst rs, snd rs) end) l st)
    ((fix go n l w := match l with [] => Ok ([], w) | a :: l => let? r := trw (n :: p) a w in let? rs := go (S n) l (snd r) in Ok (fst r :: fst rs, snd rs) end) k l w).
Proof.
  induction 1 as [|a l Ha Hl IH]; intros k st w R.
  - cbn. repeat split; auto. apply incl_refl.
  - eapply rel_bind; [exact (Ha (k :: p) st w R)|]. intros r r' _ _ (I1 & Y1 & S1).
    eapply rel_bind; [exact (IH (S k) _ _ S1)|]. intros rs rs' _ _ (I2 & Y2 & S2). cbn. repeat split; auto.
    + eapply incl_tran; eauto.
    + constructor; auto. eapply rel_symb_mono; eauto.
Qed.

Lemma all_simulate e : simulates e.
Proof.
  induction e as [x|t f args IH|t c a b IHc IHa IHb|t op a b IHa IHb|t op a IHa|t a IHa|op xs a IHa|x b a IHb IHa|t l] using expr_rect'; intros p st w R;
    cbn [Translate.tr Literals.trw]; apply then_wrap.
  - eapply rel_bind; [exact (get_local_rel isvar _ x _ _ R)|]. intros r r' _ _ [E S]. cbn. rewrite E. repeat split; cbn; auto using incl_refl, rel_symb_refl.
  - eapply rel_bind; [exact (args_sim p args IH 0 st w R)|]. intros r r' _ _ (I1 & Y & S1).
    eapply rel_bind; [exact (call_rel fsig ecall _ t f _ _ Y)|]. intros y y' _ _ Hy. repeat split; auto.
  - eapply rel_bind; [exact (sub_sim c TBool (0 :: p) st w IHc R)|]. intros rc rc' _ _ (I1 & Y1 & S1).
    eapply rel_bind; [exact (sub_sim a t (1 :: p) _ _ IHa S1)|]. intros ra ra' _ _ (I2 & Y2 & S2).
    eapply rel_bind; [exact (sub_sim b t (2 :: p) _ _ IHb S2)|]. intros rb rb' _ _ (I3 & Y3 & S3).
    eapply rel_bind; [eapply (ite_rel (wreg (snd rb')) t); [eapply rel_symb_mono; [|exact Y1]; eapply incl_tran; eauto|eapply rel_symb_mono; eauto|exact Y3]|].
    intros y y' _ _ Hy. repeat split; auto. cbn. eapply incl_tran; [exact I1|]. eapply incl_tran; eauto.
  - eapply rel_bind; [exact (sub_sim a _ (0 :: p) st w IHa R)|]. intros ra ra' _ _ (I2 & Y2 & S2).
    eapply rel_bind; [exact (sub_sim b _ (1 :: p) _ _ IHb S2)|]. intros rb rb' _ _ (I3 & Y3 & S3).
    eapply rel_bind; [eapply (bin_rel (wreg (snd rb')) t op); [eapply rel_symb_mono; eauto|exact Y3]|].
    intros y y' _ _ Hy. repeat split; auto. cbn. eapply incl_tran; eauto.
  - eapply rel_bind; [exact (sub_sim a _ (0 :: p) st w IHa R)|]. intros ra ra' _ _ (I2 & Y2 & S2).
    eapply rel_bind; [exact (un_rel _ t op _ _ Y2)|]. intros y y' _ _ Hy. repeat split; auto.
  - eapply rel_bind; [exact (IHa (0 :: p) st w R)|]. intros ra ra' _ _ (I2 & Y2 & S2).
    eapply rel_bind; [exact (cast_rel _ t _ _ Y2)|]. intros y y' _ _ Hy. repeat split; auto.
  - destruct (ty_of a); try (now cbn).
    + eapply rel_bind; [exact (init_rel isvar _ a xs _ _ R)|]. intros s1 s1' _ _ R1.
      eapply rel_bind; [exact (enter_rel isvar _ xs _ _ R1)|]. intros r r' _ _ [E R2].
      eapply rel_bind; [exact (IHa (0 :: p) (snd r) (mkwst (snd r') (wreg w)) R2)|]. intros ra ra' _ _ (I2 & Y2 & S2). cbn [wreg] in I2.
      eapply rel_bind; [exact (leave_rel _ _ _ S2)|]. intros s2 s2' _ _ R3. rewrite <- E.
      destruct (fst ra), (fst ra'); cbn in Y2; try contradiction; try (now cbn). repeat split; cbn; auto.
      destruct op; first [now apply scope_forall_eqt | now apply scope_exists_eqt].
    + eapply rel_bind; [exact (init_rel isvar _ a xs _ _ R)|]. intros s1 s1' _ _ R1.
      eapply rel_bind; [exact (enter_rel isvar _ xs _ _ R1)|]. intros r r' _ _ [E R2].
      eapply rel_bind; [exact (IHa (0 :: p) (snd r) (mkwst (snd r') (wreg w)) R2)|]. intros ra ra' _ _ (I2 & Y2 & S2). cbn [wreg] in I2.
      eapply rel_bind; [exact (leave_rel _ _ _ S2)|]. intros s2 s2' _ _ R3. rewrite <- E.
      assert (EA : skolem_arg_scope s1' = skolem_arg_scope s1) by (destruct R1 as (L & -> & _); reflexivity). rewrite EA.
      destruct (fst ra), (fst ra'); cbn in Y2; try contradiction; destruct op; try (now cbn);
      match goal with |- context [infimum ?La _ _ _ s2] => destruct (infimum_rel (wreg (snd ra')) La _ _ (fst r) (skolem_arg_scope s1) s2 s2' Y2 R3) end;
      repeat split; auto.
  - now cbn.
  - destruct (lit_term t l); cbn; auto. repeat split; cbn; auto using incl_refl, rel_symb_refl.
Qed.

Lemma extend_rel reg ss : forall s s', rel_scope reg s s' -> rel_scope reg (extend_scope s ss) (extend_scope s' ss).
Proof.
  induction ss as [|x ss IH]; intros s s' H; cbn; auto. apply IH. destruct H as [H1 H2]. split; cbn; [now rewrite H1|].
  apply Forall2_app; auto. apply f2_refl, eqt_refl.
Qed.
Definition same_question (r : term bool * list (term bool)) (r' : term bool * list (term bool) * list srt) : Prop :=
  eqt (snd r') (fst r) (fst (fst r')) /\ Forall2 (eqt (snd r')) (snd r) (snd (fst r')).
Lemma translate_w_same e : rel_res same_question (translate isvar fsig ecall e) (translate_w isvar fsig ecall on marks e).
Proof.
  unfold translate, translate_w. destruct (ty_eqb (ty_of e) TBool); [|now cbn].
  eapply rel_bind; [apply (all_simulate e [] tst_new (mkwst tst_new []))|].
  { exists [scope_new]. split; auto. constructor; auto. apply rel_scope_refl. }
  intros r r' _ _ (I1 & Y & S1). destruct (fst r), (fst r'); cbn in Y; try contradiction; try (now cbn).
  destruct S1 as (L & E & F). rewrite E. unfold local_scope. cbn [limits with_limits locals].
  destruct F as [|a b l l' H F]; [now cbn|]. destruct sm_local_iter as [ls|x|x]; cbn; auto.
  split; auto. cbn. now apply (extend_rel _ (map (fun p : ident * (symb * scope) => snd (snd p)) ls)) in H as [_ H].
Qed.
End Sim.

(** * The axioms *)
Lemma lit_axioms_iff n reg M : Forall (fun c => c M = true) (lit_axioms n reg) <-> lit_id reg M.
Proof.
  assert (H1 : forall s, lit_axiom s n M = true <-> forall d, dyn_srt d s -> ufn M (lit_name s) [d] = d).
  { intros s. unfold lit_axiom, scope_forall. cbn [scons sbounds]. unfold holds at 1. destruct ClassicalEpsilon.excluded_middle_informative as [H|H].
    - split; auto. intros _ d Hd.
      set (M' := mkstr (fun k => match d with DyB b => if Nat.eqb k n then b else cb M k | _ => cb M k end)
                       (fun k => match d with DyI b => if Nat.eqb k n then b else ci M k | _ => ci M k end)
                       (fun k => match d with DyR b => if Nat.eqb k n then b else cr M k | _ => cr M k end) (sk M) (ufn M) (sdiv0 M) (smod0 M)).
      assert (A : agree_off [(s, n)] M M').
      { unfold agree_off, M'; cbn. repeat split; intros k Hk; destruct d, s; cbn in Hd; try contradiction; auto;
          destruct (Nat.eqb_spec k n); auto; subst; exfalso; apply Hk; now left. }
      specialize (H M' A). unfold holds in H. destruct ClassicalEpsilon.excluded_middle_informative as [X|X]; [|discriminate].
      assert (B : bval M' (s, n) = d) by (destruct d, s; cbn in Hd; try contradiction; cbn; now rewrite Nat.eqb_refl).
      rewrite B in X. exact X.
    - split; [discriminate|]. intros X. exfalso. apply H. intros M' (_ & _ & _ & _ & U & _). unfold holds.
      destruct ClassicalEpsilon.excluded_middle_informative as [Y|Y]; auto. exfalso. apply Y. rewrite U. apply X. now destruct s. }
  unfold lit_axioms. rewrite Forall_forall. split.
  - intros H s d Hs Hd. apply H1; auto. apply H. apply (in_map (fun s => lit_axiom s n)). exact Hs.
  - intros H c Hc. apply in_map_iff in Hc. destruct Hc as (s & <- & Hs). apply H1. intros d. now apply H.
Qed.
