(** Omega-invariants of translated pGCL programs. *)
From Coq Require Import Bool List String ZArith NArith Reals Lia.
From Verif.Model Require Import Syntax Builder ProofRules Pgcl PgclProc PgclOmega.
From Verif.Spec Require Import Eur Sem Wp Frame Loops PgclSem PgclCost PgclProcSpec.
From Verif.Proofs Require Import EurLemmas SemLemmas WpLemmas FrameProofs LoopProofs PgclProofs PgclSound PgclMore PgclTicks PgclProcProofs.
Import ListNotations.
Local Open Scope list_scope.

(** Without annotations there is no loop. *)
Lemma no_annots_list bmc pc d l : Forall (fun i => forall b st, direct bmc pc d i [] = Some (b, st) -> loops i = 0%nat /\ st = []) l ->
  forall b st, directs bmc pc d l [] = Some (b, st) -> list_sum (map loops l) = 0%nat /\ st = [].
Proof.
  induction 1 as [|i l Hi Hl IH]; intros b st E.
  - injection E as _ <-. auto.
  - change (directs bmc pc d (i :: l) []) with (tseq (direct bmc pc d i) (directs bmc pc d l) []) in E. unfold tseq in E.
    destruct (direct bmc pc d i []) as [[b1 st1]|] eqn:E1; [|discriminate]. destruct (Hi _ _ eq_refl) as [L1 ->].
    destruct (directs bmc pc d l []) as [[b2 st2]|] eqn:E2; [|discriminate]. destruct (IH _ _ eq_refl) as [L2 ->]. injection E as _ <-.
    cbn [map]. change (list_sum (loops i :: map loops l)) with (loops i + list_sum (map loops l)). split; [lia | reflexivity].
Qed.
Lemma no_annots1 bmc pc d i : forall b st, direct bmc pc d i [] = Some (b, st) -> loops i = 0%nat /\ st = [].
Proof.
  induction i as [|c b IH|c a b IHa IHb|x e|p a b IHa IHb|e] using pinstr_all; intros bs st E.
  - injection E as _ <-. auto.
  - discriminate.
  - change (match directs bmc pc d a [] with Some (a', st1) => match directs bmc pc d b st1 with Some (b', st2) => Some ([SIf c a' b'], st2) | None => None end
      | None => None end = Some (bs, st)) in E.
    destruct (directs bmc pc d a []) as [[b1 st1]|] eqn:E1; [|discriminate]. destruct (no_annots_list _ _ _ _ IHa _ _ E1) as [L1 ->].
    destruct (directs bmc pc d b []) as [[b2 st2]|] eqn:E2; [|discriminate]. destruct (no_annots_list _ _ _ _ IHb _ _ E2) as [L2 ->].
    injection E as _ <-. cbn [loops]. split; [lia | reflexivity].
  - injection E as _ <-. auto.
  - change (match directs bmc pc d a [] with Some (a', st1) => match directs bmc pc d b st1 with Some (b', st2) => Some ([SAssign [pc] (ECall TBool "flip" [p]); SIf (EVar pc) a' b'], st2) | None => None end
      | None => None end = Some (bs, st)) in E.
    destruct (directs bmc pc d a []) as [[b1 st1]|] eqn:E1; [|discriminate]. destruct (no_annots_list _ _ _ _ IHa _ _ E1) as [L1 ->].
    destruct (directs bmc pc d b []) as [[b2 st2]|] eqn:E2; [|discriminate]. destruct (no_annots_list _ _ _ _ IHb _ _ E2) as [L2 ->].
    injection E as _ <-. cbn [loops]. split; [lia | reflexivity].
  - injection E as _ <-. auto.
Qed.
Lemma no_annots bmc pc d l b st : directs bmc pc d l [] = Some (b, st) -> list_sum (map loops l) = 0%nat /\ b = plains pc l.
Proof.
  intros E. destruct (no_annots_list bmc pc d l (proj2 (Forall_forall _ l) (fun i _ => no_annots1 bmc pc d i)) b st E) as [L _].
  split; auto. rewrite (loopfree_directs bmc pc d l L) in E. congruence.
Qed.
Lemma loops_removed i : loops (remove_ticks i) = loops i.
Proof.
  assert (HB : forall l, Forall (fun i => loops (remove_ticks i) = loops i) l -> list_sum (map loops (map remove_ticks l)) = list_sum (map loops l)).
  { induction 1 as [|i0 l Hi Hl IH]; [reflexivity|]. cbn [map]. unfold list_sum in *. cbn [fold_right]. lia. }
  induction i as [|c b IH|c a b IHa IHb|x e|p a b IHa IHb|e] using pinstr_all; cbn [remove_ticks loops]; try reflexivity; rewrite ?HB; auto.
Qed.
Lemma loops_removed_list l : list_sum (map loops (map remove_ticks l)) = list_sum (map loops l).
Proof. rewrite map_map. f_equal. apply map_ext. exact loops_removed. Qed.

(** Without loops the kind of fixpoint does not matter. *)
Lemma any_kind I k k' i : loops i = 0%nat -> forall X, pwp I k i X = pwp I k' i X.
Proof.
  assert (HB : forall l, Forall (fun i => loops i = 0%nat -> forall X, pwp I k i X = pwp I k' i X) l ->
    list_sum (map loops l) = 0%nat -> forall X, pwps I k l X = pwps I k' l X).
  { induction 1 as [|i0 l Hi Hl IH]; intros L X; [reflexivity|]. unfold list_sum in *. cbn [map fold_right] in L.
    change (pwp I k i0 (pwps I k l X) = pwp I k' i0 (pwps I k' l X)). rewrite IH by lia. apply Hi. lia. }
  induction i as [|c b IH|c a b IHa IHb|x e|p a b IHa IHb|e] using pinstr_all; cbn [loops]; intros L X; try reflexivity; try discriminate.
  - change ((fun s => if holds I c s then pwps I k a X s else pwps I k b X s) = fun s => if holds I c s then pwps I k' a X s else pwps I k' b X s).
    rewrite (HB a IHa), (HB b IHb) by lia. reflexivity.
  - cbn [pwp]. fold (pwps I k a X) (pwps I k b X) (pwps I k' a X) (pwps I k' b X). rewrite (HB a IHa), (HB b IHb) by lia. reflexivity.
Qed.
Lemma any_kinds I k k' l : list_sum (map loops l) = 0%nat -> forall X, pwps I k l X = pwps I k' l X.
Proof.
  induction l as [|i l IH]; intros L X; [reflexivity|]. unfold list_sum in *. cbn [map fold_right] in L.
  change (pwp I k i (pwps I k l X) = pwp I k' i (pwps I k' l X)). rewrite IH by lia. apply any_kind. lia.
Qed.

(** Substitution followed by renaming to initial values. *)
Lemma eval_put I n e a s t : simple a -> (forall x, fv x a -> x <> n -> t (init_var x) = s x) ->
  eval I (to_init (put n e a)) t = eval I a (upd s n (eval I (to_init e) t)).
Proof.
  induction a as [x|ty f args IH|ty c a b IHc IHa IHb|ty op a b IHa IHb|ty op a IHa|ty a IHa|op xs a IHa|x b a IHb IHa|ty l] using expr_rect';
    intros S H; cbn [put to_init eval simple] in *.
  - destruct (ident_eqb_spec n x) as [<-|N]; [now rewrite upd_same|]. cbn [to_init eval]. rewrite upd_other by auto. apply H; [reflexivity | auto].
  - f_equal. rewrite !map_map. apply map_ext_in. intros a Ha. rewrite Forall_forall in IH. apply IH; auto.
    + now apply (proj1 (All_In _ _) S).
    + intros x Hx. apply H. apply fv_call. rewrite Exists_exists. eauto.
  - destruct S as (S1 & S2 & S3). rewrite IHc, IHa, IHb; auto; intros x Hx; apply H; cbn; auto.
  - destruct S as (S1 & S2). rewrite IHa, IHb; auto; intros x Hx; apply H; cbn; auto.
  - rewrite IHa; auto.
  - rewrite IHa; auto.
  - destruct S.
  - destruct S.
  - reflexivity.
Qed.

Lemma not_modified isd n l : All (pok isd n) l -> ~ In n (flat_map modified l).
Proof.
  assert (HB : forall l, Forall (fun i => pok isd n i -> ~ In n (modified i)) l -> All (pok isd n) l -> ~ In n (flat_map modified l)).
  { induction 1 as [|i l0 Hi Hl IH]; intros O; [cbn; auto|]. destruct O as [Oi Ol]. cbn [flat_map]. rewrite in_app_iff. intros [K|K]; [now apply Hi | now apply IH]. }
  assert (K : forall i, pok isd n i -> ~ In n (modified i)).
  { intros i. induction i as [|c b IH|c a b IHa IHb|x e|p a b IHa IHb|e] using pinstr_all; intros O; cbn [modified pok] in *.
    - cbn; auto.
    - apply HB; tauto.
    - rewrite in_app_iff. destruct O as (_ & _ & Oa & Ob). intros [K|K]; [exact (HB a IHa Oa K) | exact (HB b IHb Ob K)].
    - cbn. intros [<-|[]]. tauto.
    - rewrite in_app_iff. destruct O as (_ & _ & _ & Oa & Ob). intros [K|K]; [exact (HB a IHa Oa K) | exact (HB b IHb Ob K)].
    - cbn; auto. }
  intros O. apply HB; auto. apply Forall_forall. auto.
Qed.

Section Omega.
  Variables (I : interp) (isd : string -> bool) (pc n : ident) (kd : fixkind).
  Hypothesis HI : interp_ok I.
  Hypothesis Hflip : isd "flip"%string = true.
  Hypothesis Hpc : ity pc = TBool.
  Hypothesis Hn : ity n = TUInt.
  Variables (c : expr) (b : list pinstr) (post inv : expr).
  Let Phi := body_map I kd c b (ev I post).

  Lemma iter_sem e : clean pc e -> All (pok isd pc) b -> forall t, env_ok t ->
    wp_block I isd kd [encode_iter c (plains pc b) (pgcl_const e)] (ev I post) t = Phi (ev I e) t.
  Proof.
    intros He O t Ht. unfold wp_block at 1. cbn [fold_right]. rewrite wp_iter. unfold Loops.Phi, Phi, body_map. destruct (holds I c t); [|reflexivity].
    assert (E : wp_block I isd kd (pgcl_const e) (ev I post) = ev I e).
    { apply FunctionalExtensionality.functional_extensionality. intros s. apply const_sem. }
    rewrite E. apply (plains_exact I isd pc kd HI Hflip Hpc b O); auto. now apply unread_blind.
  Qed.

  Variables (vars : list ident).
  Let vs := vars ++ [n].
  Variable decl : list stmt.
  Hypothesis Hdecl : decl = [] \/ decl = [SVar pc None].
  Hypothesis Ob : forall x, x = pc \/ x = n \/ In x (map init_var vs) -> All (pok isd x) b /\ clean x c /\ clean x post.
  Hypothesis Hvs : forall x y, In x vs -> In y vs -> x <> init_var y.
  Hypothesis Si : simple inv.
  Hypothesis Fi : forall x, fv x inv -> In x vs.
  Hypothesis Ci : clean pc inv.

  (** A verified procedure, in the state in which the parameters have the values of the variables. *)
  Lemma proc_sem d e a s : clean pc a -> (forall x, fv x a -> In x vs) -> env_ok s ->
    (forall s, env_ok s -> dle d (ev I (to_init (put n e inv)) s)
       (wp_block I isd kd ((decl ++ init_assign vs) ++ [encode_iter c (plains pc b) (pgcl_const a)]) (ev I post) s)) ->
    dle d (ev I inv (upd s n (eval I (to_init e) (called vs s)))) (Phi (ev I a) s).
  Proof.
    intros Ca Fa Hs H. set (t := called vs s). pose proof (called_ok vs s Hs : env_ok t) as Ht.
    specialize (H t Ht). rewrite wp_block_app, wp_block_app in H.
    assert (D : forall Y, wp_block I isd kd decl Y t = Y t) by (intros Y; destruct Hdecl as [->| ->]; reflexivity).
    rewrite D, wp_inits in H.
    2:{ intros x Hx. unfold t. rewrite called_init by auto. symmetry. apply called_other. auto. }
    rewrite iter_sem in H by (auto; apply Ob; auto).
    assert (Ep : ev I (to_init (put n e inv)) t = ev I inv (upd s n (eval I (to_init e) t))).
    { unfold ev. rewrite (eval_put I n e inv s t); auto. intros x Hx _. apply called_init. auto. }
    rewrite Ep in H.
    assert (Es : Phi (ev I a) t = Phi (ev I a) s).
    { apply called_free; auto. intros x Hx. destruct (Ob (init_var x)) as (O1 & O2 & O3); [right; right; now apply in_map|].
      unfold Phi, body_map. apply (free_if I (init_var x)); auto; [|now apply unread_blind].
      apply (pwps_free I isd (init_var x) HI); auto. apply unread_blind. intros y Hy ->. apply Fa in Hy. now apply (Hvs _ _ Hy Hx). }
    now rewrite Es in H.
  Qed.

  Variables (d : direction) (last : expr).
  Hypothesis Cl : forall x, ~ fv x last.
  Hypothesis V1 : forall s, env_ok s -> dle d (ev I (to_init (put n (b_uint 0) inv)) s)
       (wp_block I isd kd ((decl ++ init_assign vs) ++ [encode_iter c (plains pc b) (pgcl_const last)]) (ev I post) s).
  Hypothesis V2 : forall s, env_ok s -> dle d (ev I (to_init (put n (EBin TUInt OAdd (EVar n) (b_uint 1)) inv)) s)
       (wp_block I isd kd ((decl ++ init_assign vs) ++ [encode_iter c (plains pc b) (pgcl_const inv)]) (ev I post) s).

  Variable Z : exp.
  Hypothesis HZ : free_of n Z.
  Hypothesis Hlast : dexp_le d (ev I last) Z.
  Hypothesis HPhi : dexp_le d (Phi Z) Z.

  Lemma phi_mono : mono Phi.
  Proof. apply (body_mono I isd pc HI). apply Ob. auto. Qed.
  Lemma phi_local : local_mono (fun x => In x (flat_map modified b)) Phi.
  Proof. apply (body_local I isd pc HI). apply Ob. auto. Qed.

  Lemma omega_all m : forall s, env_ok s -> dle d (ev I inv (upd s n (VUInt m))) (Z s).
  Proof.
    induction m as [|m IH] using N.peano_ind; intros s Hs.
    - assert (Hl : clean pc last) by (intros x Hx _; exact (Cl x Hx)).
      pose proof (proc_sem d (b_uint 0) last s Hl (fun x Hx => False_ind _ (Cl x Hx)) Hs V1) as H.
      change (eval I (to_init (b_uint 0)) (called vs s)) with (VUInt 0) in H.
      eapply dle_trans; [exact H|]. eapply dle_trans; [apply (mono_d d Phi _ Z phi_mono Hlast s Hs) | now apply HPhi].
    - set (s' := upd s n (VUInt m)).
      assert (Hs' : env_ok s') by (apply upd_ok; auto; rewrite Hn; reflexivity).
      pose proof (proc_sem d (EBin TUInt OAdd (EVar n) (b_uint 1)) inv s' Ci Fi Hs' V2) as H.
      assert (En : eval I (to_init (EBin TUInt OAdd (EVar n) (b_uint 1))) (called vs s') = VUInt (N.succ m)).
      { cbn [to_init eval]. rewrite called_init by (apply in_or_app; cbn; auto). unfold s'. rewrite upd_same. cbn. f_equal. lia. }
      rewrite En in H.
      assert (Eu : upd s' n (VUInt (N.succ m)) = upd s n (VUInt (N.succ m))).
      { apply FunctionalExtensionality.functional_extensionality. intros y. unfold s', upd. destruct (ident_eqb n y); reflexivity. }
      rewrite Eu in H. eapply dle_trans; [exact H|].
      assert (Ez : Z s = Z s') by (symmetry; apply (upd_pc n); auto; rewrite Hn; reflexivity). rewrite Ez.
      eapply dle_trans; [|now apply HPhi].
      assert (K : forall t, only_changes (fun x => In x (flat_map modified b)) s' t -> dle d (ev I inv t) (Z t)).
      { intros t [Ht E]. assert (Et : t n = VUInt m).
        { rewrite E by (apply (not_modified isd); apply Ob; auto). unfold s'. apply upd_same. }
        pose proof (IH t Ht) as IHt. rewrite (upd_self t n (VUInt m) (eq_sym Et)) in IHt. exact IHt. }
      destruct d; cbn [dle] in *; apply (phi_local s'); auto; split; auto.
  Qed.
End Omega.
