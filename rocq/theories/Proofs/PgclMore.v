(** Translation from pGCL: loops that stay loops, and the use of annotations. *)
From Coq Require Import Bool List String ZArith NArith Reals Lia Lra Classical.
From Verif.Model Require Import Syntax Builder ProofRules Pgcl.
From Verif.Spec Require Import Eur Sem Wp Frame Loops PgclSem.
From Verif.Proofs Require Import EurLemmas SemLemmas WpLemmas DistProofs MonoProofs SubstProofs FrameProofs LoopProofs OmegaProofs PgclProofs.
Import ListNotations.
Local Open Scope list_scope.

Lemma All_app {A} (P : A -> Prop) l m : All P (l ++ m) <-> All P l /\ All P m.
Proof. induction l as [|a l IH]; cbn; [tauto|]. rewrite IH. tauto. Qed.
Lemma All_flat {A B} (P : B -> Prop) (f : A -> list B) l : (forall a, In a l -> All P (f a)) -> All P (flat_map f l).
Proof.
  induction l as [|a l IH]; intros H; cbn; [exact Logic.I|]. apply All_app. split; [apply H; cbn; auto | apply IH; intros; apply H; cbn; auto].
Qed.

Lemma plain_typed isd pc i : isd "flip"%string = true -> ity pc = TBool -> pok isd pc i ->
  All (wts isd (fun _ => true)) (plain pc i) /\ All (every not_negate) (plain pc i).
Proof.
  intros Hf Hpc.
  assert (HB : forall l, Forall (fun i => pok isd pc i -> All (wts isd (fun _ => true)) (plain pc i) /\ All (every not_negate) (plain pc i)) l ->
    All (pok isd pc) l -> All (wts isd (fun _ => true)) (flat_map (plain pc) l) /\ All (every not_negate) (flat_map (plain pc) l)).
  { induction 1 as [|j l Hj Hl IH]; intros O; [cbn; auto|]. destruct O as [Oj Ol]. cbn [flat_map]. rewrite !All_app.
    destruct (Hj Oj), (IH Ol). tauto. }
  assert (HG : is_guard (EVar pc)) by (split; [reflexivity | exact Hpc]).
  induction i as [|c b IH|c a b IHa IHb|x e|p a b IHa IHb|e] using pinstr_all; intros O; cbn [plain].
  - cbn; auto.
  - destruct O as (_ & G & O). destruct (HB b IH O). cbn. repeat split; auto; apply G.
  - destruct O as (_ & G & Oa & Ob). destruct (HB a IHa Oa), (HB b IHb Ob). cbn. repeat split; auto; apply G.
  - destruct O as (_ & _ & W & Ty & Hx). split; [|cbn; auto]. cbn [All wts]. split; [|exact Logic.I].
    unfold assign_ok. destruct e; auto. rewrite Hx. auto.
  - destruct O as (_ & W & Ty & Oa & Ob). destruct (HB a IHa Oa), (HB b IHb Ob). cbn [All wts every].
    repeat split; auto; try apply HG.
    unfold assign_ok. rewrite Hf, Hpc. now constructor.
  - destruct O as (_ & Ie). cbn. auto.
Qed.
Lemma plains_typed isd pc l : isd "flip"%string = true -> ity pc = TBool -> All (pok isd pc) l ->
  All (wts isd (fun _ => true)) (plains pc l) /\ All (every not_negate) (plains pc l).
Proof.
  intros Hf Hpc O. split; apply All_flat; intros i Hi; apply (plain_typed isd pc i Hf Hpc); now apply (proj1 (All_In _ _) O).
Qed.

(** Two monotone maps that agree on the expectations without [V] and keep them have the same fixpoints. *)
Lemma fix_agree V k F G : mono F -> mono G -> (forall Y, blind V Y -> blind V (G Y)) -> (forall Y, blind V Y -> exp_eq (F Y) (G Y)) ->
  exp_eq (loop_sem k F) (loop_sem k G).
Proof.
  intros HF HG BG E.
  assert (BF : forall Y, blind V Y -> blind V (F Y)).
  { intros Y HY s s' Hs Hs' A. rewrite !(E Y HY) by auto. now apply BG. }
  apply exp_eq_le. destruct k; cbn [loop_sem]; split.
  - apply lfp_least. intros s Hs. rewrite E by (auto using lfp_blind). now apply lfp_prefix.
  - apply lfp_least. intros s Hs. rewrite <- E by (auto using lfp_blind). now apply lfp_prefix.
  - apply gfp_greatest. intros s Hs. rewrite <- E by (auto using gfp_blind). now apply gfp_postfix.
  - apply gfp_greatest. intros s Hs. rewrite E by (auto using gfp_blind). now apply gfp_postfix.
Qed.

Section Plain.
  Variables (I : interp) (isd : string -> bool) (pc : ident) (k : fixkind).
  Hypothesis HI : interp_ok I.
  Hypothesis Hflip : isd "flip"%string = true.
  Hypothesis Hpc : ity pc = TBool.
  Let free := free_of pc.

  Lemma plain_list l : Forall (fun i => pok isd pc i -> forall X, free X -> exp_eq (wp_block I isd k (plain pc i) X) (pwp I k i X)) l ->
    All (pok isd pc) l -> forall X, free X -> exp_eq (wp_block I isd k (plains pc l) X) (pwps I k l X).
  Proof.
    induction 1 as [|i l Hi Hl IH]; intros O X HX s Hs; [reflexivity|]. destruct O as [Oi Ol].
    unfold plains. cbn [flat_map pwps fold_right]. rewrite wp_block_app. fold (plains pc l).
    destruct (plain_typed isd pc i Hflip Hpc Oi) as [Ti Ni].
    transitivity (wp_block I isd k (plain pc i) (pwps I k l X) s).
    - apply (mono_eq (wp_block I isd k (plain pc i))); auto. now apply (wp_block_mono I isd (fun _ => true)).
    - apply Hi; auto. now apply (pwps_free I isd pc HI).
  Qed.

  Lemma exp_eq_free X Y : exp_eq X Y -> free Y -> free X.
  Proof. intros E H s s' Hs Hs' A. rewrite !E by auto. now apply H. Qed.

  Theorem plain_exact i : pok isd pc i -> forall X, free X -> exp_eq (wp_block I isd k (plain pc i) X) (pwp I k i X).
  Proof.
    induction i as [|c b IH|c a b IHa IHb|x e|p a b IHa IHb|e] using pinstr_all; intros O X HX; cbn [plain].
    - intros s Hs. reflexivity.
    - destruct O as (Hc & _ & O). pose proof (plain_list b IH O) as Eb. destruct (plains_typed isd pc b Hflip Hpc O) as [Tb Nb].
      fold (plains pc b).
      assert (A : exp_eq (loop_sem k (Phi I isd k c (plains pc b) X)) (loop_sem k (body_map I k c b X))).
      { apply (fix_agree (fun x => x = pc)).
        - apply loop_mono. now apply (wp_block_mono I isd (fun _ => true)).
        - now apply (body_mono I isd pc).
        - intros Y HY. apply free_if; auto. now apply (pwps_free I isd pc HI).
        - intros Y HY s Hs. unfold Phi, body_map. destruct (holds I c s); auto. now apply Eb. }
      intros s Hs. generalize (A s Hs). destruct k; auto.
    - destruct O as (Hc & _ & Oa & Ob). intros s Hs.
      change (wp_block I isd k [SIf c (flat_map (plain pc) a) (flat_map (plain pc) b)] X s) with
        (if holds I c s then wp_block I isd k (plains pc a) X s else wp_block I isd k (plains pc b) X s).
      cbn [pwp]. destruct (holds I c s); [now apply (plain_list a IHa Oa) | now apply (plain_list b IHb Ob)].
    - destruct O as (_ & _ & _ & _ & Hf). intros s Hs. exact (wp_asgn I isd k x e X s Hf).
    - destruct O as (Hc & W & Ty & Oa & Ob). intros s Hs.
      pose proof (plain_list a IHa Oa X HX) as Ea. pose proof (plain_list b IHb Ob X HX) as Eb.
      rewrite (wp_choice I isd pc HI Hflip Hpc); auto.
      + cbn [pwp]. fold (plains pc a). fold (plains pc b). now rewrite (Ea s Hs), (Eb s Hs).
      + apply exp_eq_free with (pwps I k a X); auto. now apply (pwps_free I isd pc HI).
      + apply exp_eq_free with (pwps I k b X); auto. now apply (pwps_free I isd pc HI).
    - intros s Hs. reflexivity.
  Qed.
  Theorem plains_exact l : All (pok isd pc) l -> forall X, free X -> exp_eq (wp_block I isd k (plains pc l) X) (pwps I k l X).
  Proof. intros O. apply plain_list; auto. rewrite Forall_forall. intros i _. apply plain_exact. Qed.
End Plain.

(** * Annotations *)
Definition sized (t : trans) (n : nat) : Prop := forall st : list annot, Forall (fun a => fst a = 1%nat) st -> (n <= List.length st)%nat ->
  exists b, t st = Some (b, skipn n st).

Lemma skipn_all_1 st n : Forall (fun a : annot => fst a = 1%nat) st -> Forall (fun a : annot => fst a = 1%nat) (skipn n st).
Proof. intros H. rewrite <- (firstn_skipn n st) in H. apply Forall_app in H. apply H. Qed.
Lemma skipn_skipn' {A} (l : list A) n m : skipn m (skipn n l) = skipn (n + m) l.
Proof. revert l. induction n as [|n IH]; intros l; cbn; auto. destruct l; auto. now rewrite skipn_nil. Qed.

Lemma sized_list bmc pc d l : Forall (fun i => sized (direct bmc pc d i) (loops i)) l -> sized (directs bmc pc d l) (list_sum (map loops l)).
Proof.
  induction 1 as [|i l Hi Hl IH]; intros st H L; [exists []; reflexivity|]. cbn [map list_sum fold_right] in *.
  change (fold_right plus 0%nat (map loops l)) with (list_sum (map loops l)) in *.
  destruct (Hi st H) as [b Eb]; [lia|]. destruct (IH (skipn (loops i) st)) as [b' Eb']; [now apply skipn_all_1 | rewrite skipn_length; lia|].
  exists (b ++ b'). change (directs bmc pc d (i :: l)) with (tseq (direct bmc pc d i) (directs bmc pc d l)).
  unfold tseq. rewrite Eb, Eb'. now rewrite skipn_skipn'.
Qed.
Lemma sized_direct bmc pc d i : sized (direct bmc pc d i) (loops i).
Proof.
  induction i as [|c b IH|c a b IHa IHb|x e|p a b IHa IHb|e] using pinstr_all; intros st H L; cbn [direct loops] in *;
    try (eexists; reflexivity).
  - destruct st as [|[k inv] st]; [cbn in L; lia|]. inversion H as [|? ? H1 H2]; subst. cbn in H1. subst k.
    destruct (sized_list bmc pc d b IH st H2) as [b' E]; [cbn in L; lia|].
    change (fold_right (fun i r => tseq (direct bmc pc d i) r) tnil b) with (directs bmc pc d b).
    unfold pgcl_loop, pgcl_iter. destruct bmc; cbn [pgcl_bmc pgcl_extend]; rewrite E; eexists; reflexivity.
  - destruct (sized_list bmc pc d a IHa st H) as [a' Ea]; [lia|].
    destruct (sized_list bmc pc d b IHb (skipn (list_sum (map loops a)) st)) as [b' Eb]; [now apply skipn_all_1 | rewrite skipn_length; lia|].
    unfold directs in *. rewrite Ea, Eb, skipn_skipn'. eexists; reflexivity.
  - destruct (sized_list bmc pc d a IHa st H) as [a' Ea]; [lia|].
    destruct (sized_list bmc pc d b IHb (skipn (list_sum (map loops a)) st)) as [b' Eb]; [now apply skipn_all_1 | rewrite skipn_length; lia|].
    unfold directs in *. rewrite Ea, Eb, skipn_skipn'. eexists; reflexivity.
Qed.
Theorem sized_directs bmc pc d l : sized (directs bmc pc d l) (list_sum (map loops l)).
Proof. apply sized_list. rewrite Forall_forall. intros i _. apply sized_direct. Qed.

(** No loop: both translations are the same, and use no annotation. *)
Lemma loopfree_list bmc pc d l : Forall (fun i => loops i = 0%nat -> forall st, direct bmc pc d i st = Some (plain pc i, st)) l ->
  list_sum (map loops l) = 0%nat -> forall st, directs bmc pc d l st = Some (plains pc l, st).
Proof.
  induction 1 as [|i l Hi Hl IH]; intros L st; [reflexivity|]. cbn [map list_sum fold_right] in L.
  change (fold_right plus 0%nat (map loops l)) with (list_sum (map loops l)) in L.
  change (directs bmc pc d (i :: l)) with (tseq (direct bmc pc d i) (directs bmc pc d l)).
  unfold tseq. rewrite Hi by lia. rewrite IH by lia. reflexivity.
Qed.
Lemma loopfree_direct bmc pc d i : loops i = 0%nat -> forall st, direct bmc pc d i st = Some (plain pc i, st).
Proof.
  induction i as [|c b IH|c a b IHa IHb|x e|p a b IHa IHb|e] using pinstr_all; intros L st; cbn [direct loops plain] in *; try reflexivity.
  - discriminate.
  - pose proof (loopfree_list bmc pc d a IHa) as Ha. pose proof (loopfree_list bmc pc d b IHb) as Hb. unfold directs in *.
    rewrite Ha, Hb by lia. reflexivity.
  - pose proof (loopfree_list bmc pc d a IHa) as Ha. pose proof (loopfree_list bmc pc d b IHb) as Hb. unfold directs in *.
    rewrite Ha, Hb by lia. reflexivity.
Qed.
Theorem loopfree_directs bmc pc d l : list_sum (map loops l) = 0%nat -> forall st, directs bmc pc d l st = Some (plains pc l, st).
Proof. apply loopfree_list. rewrite Forall_forall. intros i _. apply loopfree_direct. Qed.

(** ** Annotated loops *)
Lemma annotate1_while c b n args st : annotate1 (SWhile c b) ((n, args) :: st) =
  match annotate b st with Some (b', st2) => Some (SAnn n args (SWhile c b'), st2) | None => None end.
Proof.
  cbn [annotate1].
  match goal with |- match ?f b st with _ => _ end = _ => assert (E : forall b st, f b st = annotate b st) end.
  { clear. induction b as [|s b IH]; intros st; [reflexivity|]. cbn [annotate]. destruct (annotate1 s st) as [[s' st1]|]; auto. }
  now rewrite E.
Qed.
Lemma annotate_app a b st : annotate (a ++ b) st =
  match annotate a st with
  | Some (a', st1) => match annotate b st1 with Some (b', st2) => Some (a' ++ b', st2) | None => None end
  | None => None
  end.
Proof.
  revert st. induction a as [|s a IH]; intros st; cbn [app annotate].
  - destruct (annotate b st) as [[? ?]|]; reflexivity.
  - destruct (annotate1 s st) as [[s' st1]|]; auto. rewrite IH. destruct (annotate a st1) as [[a' st2]|]; auto.
    destruct (annotate b st2) as [[b' st3]|]; auto.
Qed.

Definition bare (l : list stmt) := map erase l = l.
Lemma bare_app a b : bare a -> bare b -> bare (a ++ b).
Proof. unfold bare. intros Ha Hb. now rewrite map_app, Ha, Hb. Qed.
Lemma plain_bare pc i : bare (plain pc i).
Proof.
  assert (HB : forall l, Forall (fun i => bare (plain pc i)) l -> bare (flat_map (plain pc) l)).
  { induction 1 as [|j l Hj Hl IH]; [reflexivity|]. cbn [flat_map]. now apply bare_app. }
  induction i as [|c b IH|c a b IHa IHb|x e|p a b IHa IHb|e] using pinstr_all; cbn [plain]; unfold bare; cbn [map erase]; try reflexivity.
  - now rewrite (HB b IH).
  - now rewrite (HB a IHa), (HB b IHb).
  - now rewrite (HB a IHa), (HB b IHb).
Qed.
Lemma plains_bare pc l : bare (plains pc l).
Proof.
  induction l as [|i l IH]; [reflexivity|]. unfold plains in *. cbn [flat_map]. apply bare_app; auto. apply plain_bare.
Qed.

(** Annotating the translation of a program changes nothing else. *)
Lemma annotate_erase pc i : forall st b st', annotate (plain pc i) st = Some (b, st') -> map erase b = plain pc i.
Proof.
  assert (HB : forall l, Forall (fun i => forall st b st', annotate (plain pc i) st = Some (b, st') -> map erase b = plain pc i) l ->
    forall st b st', annotate (flat_map (plain pc) l) st = Some (b, st') -> map erase b = flat_map (plain pc) l).
  { induction 1 as [|j l Hj Hl IH]; intros st b st' E; [now injection E as <- <-|]. cbn [flat_map] in *. rewrite annotate_app in E.
    destruct (annotate (plain pc j) st) as [[a st1]|] eqn:Ea; [|discriminate].
    destruct (annotate (flat_map (plain pc) l) st1) as [[b2 st2]|] eqn:Eb; [|discriminate]. injection E as <- <-.
    rewrite map_app. f_equal; eauto. }
  induction i as [|c b IH|c a b IHa IHb|x e|p a b IHa IHb|e] using pinstr_all; intros st l st' E; pose proof (plain_bare pc) as PB;
    try (specialize (PB (PIf c a b)); cbn [plain annotate annotate1] in *; injection E as <- <-; exact PB);
    try (specialize (PB (PChoice p a b)); cbn [plain annotate annotate1] in *; injection E as <- <-; exact PB);
    try (cbn in *; injection E as <- <-; reflexivity).
  cbn [plain annotate] in *. destruct st as [|[n args] st0]; [discriminate|]. rewrite annotate1_while in E.
  destruct (annotate (flat_map (plain pc) b) st0) as [[b' st2]|] eqn:Eb; [|discriminate]. injection E as <- <-.
  cbn [map erase]. now rewrite (HB b IH _ _ _ Eb).
Qed.
Theorem annotates_erase pc l : forall st b st', annotate (plains pc l) st = Some (b, st') -> map erase b = plains pc l.
Proof.
  induction l as [|i l IH]; intros st b st' E; [now injection E as <- <-|]. unfold plains in *. cbn [flat_map] in *. rewrite annotate_app in E.
  destruct (annotate (plain pc i) st) as [[a st1]|] eqn:Ea; [|discriminate].
  destruct (annotate (flat_map (plain pc) l) st1) as [[b2 st2]|] eqn:Eb; [|discriminate]. injection E as <- <-.
  rewrite map_app. f_equal; eauto using annotate_erase.
Qed.

Lemma no_loops_marks pc i : loops i = 0%nat -> flat_map marks (plain pc i) = [].
Proof.
  assert (HB : forall l, Forall (fun i => loops i = 0%nat -> flat_map marks (plain pc i) = []) l ->
    list_sum (map loops l) = 0%nat -> flat_map marks (flat_map (plain pc) l) = []).
  { induction 1 as [|j l Hj Hl IH]; intros L; [reflexivity|]. cbn [map list_sum fold_right] in L.
    change (fold_right plus 0%nat (map loops l)) with (list_sum (map loops l)) in L.
    cbn [flat_map]. rewrite flat_map_app, Hj, IH by lia. reflexivity. }
  induction i as [|c b IH|c a b IHa IHb|x e|p a b IHa IHb|e] using pinstr_all; intros L; cbn [loops plain] in *; try reflexivity.
  - discriminate.
  - cbn [flat_map marks]. rewrite (HB a IHa), (HB b IHb) by lia. reflexivity.
  - cbn [flat_map marks]. rewrite (HB a IHa), (HB b IHb) by lia. reflexivity.
Qed.
Lemma no_loops_marks_list pc l : list_sum (map loops l) = 0%nat -> flat_map marks (flat_map (plain pc) l) = [].
Proof.
  induction l as [|i l IH]; intros L; [reflexivity|]. cbn [map list_sum fold_right] in L.
  change (fold_right plus 0%nat (map loops l)) with (list_sum (map loops l)) in L.
  cbn [flat_map]. rewrite flat_map_app, no_loops_marks, IH by lia. reflexivity.
Qed.

Definition fitting (b : list stmt) (n : nat) : Prop := forall st, (n <= List.length st)%nat ->
  exists b', annotate b st = Some (b', skipn n st) /\ flat_map marks b' = map Some (firstn n st).
Lemma fitting_app a b n m : fitting a n -> fitting b m -> fitting (a ++ b) (n + m).
Proof.
  intros Ha Hb st L. destruct (Ha st) as (a' & Ea & Ma); [lia|].
  destruct (Hb (skipn n st)) as (b' & Eb & Mb); [rewrite skipn_length; lia|].
  exists (a' ++ b'). rewrite annotate_app, Ea, Eb, skipn_skipn', flat_map_app, Ma, Mb. split; auto.
  rewrite <- map_app. f_equal. rewrite <- (firstn_skipn n (firstn (n + m) st)) at 1.
  rewrite firstn_firstn, skipn_firstn_comm. repeat f_equal; lia.
Qed.
Lemma fitting_plain pc i : straight i -> fitting (plain pc i) (loops i).
Proof.
  assert (HB : forall l, Forall (fun i => straight i -> fitting (plain pc i) (loops i)) l -> All straight l ->
    fitting (flat_map (plain pc) l) (list_sum (map loops l))).
  { induction 1 as [|j l Hj Hl IH]; intros O; [intros st _; exists []; auto|]. destruct O as [Oj Ol].
    cbn [flat_map map list_sum fold_right]. apply fitting_app; auto. }
  induction i as [|c b IH|c a b IHa IHb|x e|p a b IHa IHb|e] using pinstr_all; intros O st L; cbn [loops straight plain] in *;
    try (eexists; split; reflexivity).
  - destruct st as [|[n args] st]; [cbn in L; lia|]. destruct (HB b IH O st) as (b' & E & Mk); [cbn in L; lia|].
    exists [SAnn n args (SWhile c b')]. cbn [annotate]. rewrite annotate1_while, E. split; [reflexivity|].
    cbn [flat_map marks firstn map]. now rewrite app_nil_r, Mk.
  - rewrite O. eexists. split; [reflexivity|]. cbn [flat_map marks]. rewrite !no_loops_marks_list by lia. reflexivity.
  - rewrite O. eexists. split; [reflexivity|]. cbn [flat_map marks]. rewrite !no_loops_marks_list by lia. reflexivity.
Qed.
Theorem fitting_plains pc l : All straight l -> fitting (plains pc l) (list_sum (map loops l)).
Proof.
  induction l as [|i l IH]; intros O; [intros st _; exists []; auto|]. destruct O as [Oi Ol].
  unfold plains in *. cbn [flat_map map list_sum fold_right]. apply fitting_app; [now apply fitting_plain | now apply IH].
Qed.
