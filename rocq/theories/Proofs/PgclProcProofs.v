(** The procedure around a translated program. *)
From Coq Require Import Bool List String ZArith NArith Reals Lia.
From Verif.Model Require Import Syntax Pgcl PgclProc.
From Verif.Spec Require Import Eur Sem Wp Frame Loops PgclSem PgclCost PgclProcSpec.
From Verif.Proofs Require Import EurLemmas SemLemmas WpLemmas LoopProofs PgclProofs PgclSound PgclMore PgclTicks.
Import ListNotations.
Local Open Scope list_scope.

Lemma init_inj x y : init_var x = init_var y -> x = y.
Proof. destruct x, y. unfold init_var. cbn. intros [= -> -> ->]. reflexivity. Qed.

(** The state in which the parameters have the values of the variables. *)
Definition called (vars : list ident) (s : env) : env := fold_right (fun x t => upd t (init_var x) (s x)) s vars.

Lemma called_ok vars s : env_ok s -> env_ok (called vars s).
Proof. intros Hs. induction vars as [|x vars IH]; [exact Hs|]. cbn. apply upd_ok; auto. apply (Hs x). Qed.
Lemma called_init vars s x : In x vars -> called vars s (init_var x) = s x.
Proof.
  induction vars as [|y vars IH]; intros H; [destruct H|]. cbn [called fold_right].
  destruct (ident_dec (init_var y) (init_var x)) as [E|N].
  - rewrite E, upd_same. now rewrite (init_inj _ _ E).
  - rewrite upd_other by auto. apply IH. destruct H as [->|H]; auto. now contradiction N.
Qed.
Lemma called_other vars s y : (forall x, In x vars -> y <> init_var x) -> called vars s y = s y.
Proof.
  induction vars as [|x vars IH]; intros H; [reflexivity|]. cbn [called fold_right].
  rewrite upd_other; [apply IH; intros; apply H; cbn; auto|]. intros E. apply (H x); cbn; auto.
Qed.
Lemma called_free vars s G : env_ok s -> (forall x, In x vars -> free_of (init_var x) G) -> G (called vars s) = G s.
Proof.
  intros Hs. induction vars as [|x vars IH]; intros H; [reflexivity|]. cbn [called fold_right].
  change (G (upd (called vars s) (init_var x) (s x)) = G s).
  rewrite (upd_pc (init_var x)); [apply IH; intros; apply H; cbn; auto | apply H; cbn; auto | now apply called_ok | apply (Hs x)].
Qed.

Lemma upd_self s x v : v = s x -> upd s x v = s.
Proof.
  intros ->. apply FunctionalExtensionality.functional_extensionality. intros y. unfold upd. destruct (ident_eqb_spec x y); congruence.
Qed.
Lemma wp_inits I isd kd Y t vs : (forall x, In x vs -> t (init_var x) = t x) -> wp_block I isd kd (init_assign vs) Y t = Y t.
Proof.
  induction vs as [|x vs IH]; intros H; [reflexivity|].
  change (wp I isd kd (SAssign [x] (EVar (init_var x))) (wp_block I isd kd (init_assign vs) Y) t = Y t).
  rewrite wp_asgn by exact Logic.I. cbn [eval]. rewrite upd_self by (apply H; cbn; auto). apply IH. intros y Hy. apply H. cbn; auto.
Qed.

Lemma eval_init I e s t : simple e -> (forall x, fv x e -> t (init_var x) = s x) -> eval I (to_init e) t = eval I e s.
Proof.
  induction e as [x|ty f args IH|ty c a b IHc IHa IHb|ty op a b IHa IHb|ty op a IHa|ty a IHa|op xs a IHa|x b a IHb IHa|ty l] using expr_rect';
    intros S H; cbn [to_init eval simple] in *.
  - apply H. reflexivity.
  - f_equal. rewrite map_map. apply map_ext_in. intros a Ha. rewrite Forall_forall in IH. apply IH; auto.
    + now apply (proj1 (All_In _ _) S).
    + intros x Hx. apply H. apply fv_call. rewrite Exists_exists. eauto.
  - destruct S as (S1 & S2 & S3). rewrite IHc, IHa, IHb; auto; intros x Hx; apply H; cbn; auto.
  - destruct S as (S1 & S2). rewrite IHa, IHb; auto; intros x Hx; apply H; cbn; auto.
  - rewrite IHa; auto.
  - rewrite IHa; auto.
  - destruct S.
  - destruct S.
  - reflexivity.
Qed.

Lemma pok_ticks isd pc i : pok isd pc i -> pok isd pc (remove_ticks i).
Proof.
  assert (HB : forall l, Forall (fun i => pok isd pc i -> pok isd pc (remove_ticks i)) l -> All (pok isd pc) l -> All (pok isd pc) (map remove_ticks l)).
  { induction 1; cbn; tauto. }
  induction i as [|c b IH|c a b IHa IHb|x e|p a b IHa IHb|e] using pinstr_all; cbn; intros H; auto.
  - destruct H as (H1 & H2 & H3). auto.
  - destruct H as (H1 & H2 & H3 & H4). auto.
  - destruct H as (H1 & H2 & H3 & H4 & H5). repeat split; auto.
Qed.
Lemma pok_ticks_list isd pc l : All (pok isd pc) l -> All (pok isd pc) (map remove_ticks l).
Proof. induction l as [|i l IH]; cbn; auto. intros [H1 H2]. split; auto. now apply pok_ticks. Qed.

Theorem proc_bound I isd pc kd d ert vars l pre post st pre' b st' : interp_ok I -> isd "flip"%string = true -> ity pc = TBool ->
  All (pok isd pc) l -> Forall (good_annot pc) st -> clean pc post ->
  (forall x, In x vars -> All (pok isd (init_var x)) l /\ clean (init_var x) post) ->
  (forall x y, In x vars -> In y vars -> x <> init_var y) ->
  simple pre -> (forall x, fv x pre -> In x vars) ->
  k_ind_proc pc d ert vars l pre st = Some (pre', b, st') ->
  (forall s, env_ok s -> dle d (ev I pre' s) (wp_block I isd kd b (ev I post) s)) ->
  forall s, env_ok s -> dle d (ev I pre s) ((if ert then pwps else pwps0) I (kind_of d) l (ev I post) s).
Proof.
  intros HI Hf Hp O G Cp Hv Hn Sp Fp E H s Hs. unfold k_ind_proc in E.
  set (l' := if ert then l else map remove_ticks l) in *.
  destruct (directs false pc d l' st) as [[b1 st1]|] eqn:Ed; [|discriminate]. injection E as <- <- <-.
  assert (E' : (if ert then pwps else pwps0) I (kind_of d) l (ev I post) = pwps I (kind_of d) l' (ev I post)).
  { unfold l'. destruct ert; auto. symmetry. apply free_ticks_list. }
  rewrite E'. assert (O' : forall q, All (pok isd q) l -> All (pok isd q) l') by (intros q Hq; unfold l'; destruct ert; auto using pok_ticks_list).
  set (t := called vars s). pose proof (called_ok vars s Hs : env_ok t) as Ht.
  specialize (H t Ht). rewrite wp_block_app in H.
  assert (D : forall Y, wp_block I isd kd (if existsb has_choice l then [SVar pc None] else []) Y t = Y t) by (intros Y; destruct (existsb has_choice l); reflexivity).
  rewrite D, wp_block_app, wp_inits in H.
  2:{ intros x Hx. unfold t. rewrite called_init by auto. symmetry. apply called_other. auto. }
  assert (Ep : ev I (to_init pre) t = ev I pre s).
  { unfold ev. rewrite (eval_init I pre s t); auto. intros x Hx. apply called_init. auto. }
  rewrite Ep in H. eapply dle_trans; [exact H|].
  pose proof (proj2 (proj2 (worth_directs I isd pc kd HI Hf Hp false d d (kind_of d) (or_introl (conj eq_refl (conj eq_refl eq_refl))) l' (O' pc O) st b1 st1 G Ed)
    (ev I post) (unread_blind _ I post Cp)) t Ht) as K.
  assert (Es : pwps I (kind_of d) l' (ev I post) t = pwps I (kind_of d) l' (ev I post) s).
  { apply called_free; auto. intros x Hx. destruct (Hv x Hx) as [Hx1 Hx2]. apply (pwps_free I isd (init_var x) HI); auto.
    now apply unread_blind. }
  now rewrite Es in K.
Qed.
