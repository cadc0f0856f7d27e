(** Verified, possibly recursive procedures meet their specifications. *)
From Coq Require Import Bool List String FunctionalExtensionality Classical Lia.
From Verif.Model Require Import Syntax TyCtx AstUtil Procs.
From Verif.Spec Require Import Eur Sem Wp Calls.
From Verif.Proofs Require Import EurLemmas SemLemmas SimLemmas WpLemmas MonoProofs CallProofs SpecCallProofs.
Import ListNotations.
Local Open Scope list_scope.
Local Arguments eleb : simpl never.

Lemma spec_ext I d l s s' : (forall e y, In e l -> fv y e -> s y = s' y) -> spec_exp I d l s = spec_exp I d l s'.
Proof.
  intros H. unfold spec_exp. f_equal. apply map_ext_in. intros e He. unfold ev. erewrite eval_ext; [reflexivity|]. eauto.
Qed.
Lemma pre_local I Tm p d s s' v : decl_ok Tm p -> typed (pins p) v -> spec_exp I d (requires p) (upds s (pins p) v) = spec_exp I d (requires p) (upds s' (pins p) v).
Proof.
  intros [_ _ D _] T. apply spec_ext. intros e y He Hy. apply upds_in_ext; [now apply typed_length|]. destruct (D e He). auto.
Qed.
Lemma post_local I Tm p d s s' v o : decl_ok Tm p -> typed (pins p) v -> typed (pouts p) o ->
  spec_exp I d (ensures p) (upds (upds s (pins p) v) (pouts p) o) = spec_exp I d (ensures p) (upds (upds s' (pins p) v) (pouts p) o).
Proof.
  intros [_ _ _ D] T To. apply spec_ext. intros e y He Hy. destruct (D e He) as [_ F]. pose proof (F y Hy) as Fy.
  destruct (in_dec ident_dec y (pouts p)) as [i|n]; [apply upds_in_ext; auto using typed_length|].
  rewrite (upds_out _ o (upds s (pins p) v) y n), (upds_out _ o (upds s' (pins p) v) y n).
  apply in_app_or in Fy. destruct Fy; [|contradiction]. apply upds_in_ext; auto using typed_length.
Qed.

Section Rec.
Variables (I : interp) (isd isf : string -> bool) (k : fixkind) (procs : string -> option proc) (variant : nat -> nat) (Tm : ident -> Prop).
Hypothesis HI : interp_ok I.
Hypothesis Hvar : forall m n, variant m = variant n -> m = n.
Hypothesis HTm : forall x, Tm (temp variant x).

Local Notation checked := (checked I isd isf k procs variant Tm).

Theorem caller_sound (Den : string -> option behaviour) p b : decl_ok Tm p -> checked p b ->
  (forall f q, procs f = Some q -> exists D, Den f = Some D /\ behaves_well q D /\ (pdir q = pdir p -> satisfies I q D)) ->
  (forall f, procs f = None -> Den f = None) ->
  forall v s Y, typed (pins p) v -> env_ok s ->
  (forall o, typed (pouts p) o -> below (pdir p) (spec_exp I (pdir p) (ensures p) (upds (upds s (pins p) v) (pouts p) o)) (Y o)) ->
  below (pdir p) (spec_exp I (pdir p) (requires p) (upds s (pins p) v)) (wpc_block I isd Den k b (fun s' => Y (map s' (pouts p))) (upds s (pins p) v)).
Proof.
  intros DO (W1 & W2 & T & b' & T' & E & M) HD HN v s Y Tv Hs HY.
  assert (Hv : env_ok (upds s (pins p) v)) by (now apply upds_ok).
  eapply below_trans; [apply M; exact Hv|].
  eapply (sc_block_sound I isd isf k procs variant Tm (fun x => In x (pins p)) (upds s (pins p) v) Den (pdir p) HI Hvar HTm HD HN b T b' T' E W1 W2);
    [|repeat split; auto].
  intros s1 s1' (A1 & A2 & A3 & A4). eapply below_trans; [|apply HY; now apply typed_map].
  erewrite spec_ext; [apply below_refl|]. intros e y He Hy. destruct DO as [_ D2 _ D4]. destruct (D4 e He) as [_ F]. pose proof (F y Hy) as Fy.
  rewrite A3 by auto. destruct (in_dec ident_dec y (pouts p)) as [i|n].
  - symmetry. rewrite (upds_in_ext _ _ _ s1); [apply upds_self | now rewrite map_length | auto].
  - rewrite upds_out by auto. apply in_app_or in Fy. destruct Fy; [|contradiction]. now rewrite A4.
Qed.

(** A whole program of one direction. *)
Variable d : direction.
Variable E : system.
Local Notation program_ok := (program_ok I isd isf k procs variant Tm d E).

(** The behaviour described by the specification itself. *)
Definition spec_system (s : env) : system := fun f v Y =>
  match procs f with
  | Some p => if dec (forall o, typed (pouts p) o -> below d (spec_exp I d (ensures p) (upds (upds s (pins p) v) (pouts p) o)) (Y o))
              then spec_exp I d (requires p) (upds s (pins p) v) else dbot d
  | None => ebot
  end.
Lemma spec_system_well s : well_behaved procs (spec_system s).
Proof.
  intros f p Hp v Y Z Tv H. unfold spec_system. rewrite Hp.
  match goal with |- ele (if dec ?P then _ else _) (if dec ?Q then _ else _) => destruct (dec P) eqn:D1, (dec Q) eqn:D2 end; try apply ele_refl.
  - apply (proj1 (dec_iff _)) in D1. apply (proj1 (dec_false _)) in D2. clear - D1 D2 H. destruct d; cbn [below dbot] in *; [|apply ele_top].
    exfalso. apply D2. intros o To. eapply ele_trans; [apply D1; auto | auto].
  - apply (proj1 (dec_iff _)) in D2. apply (proj1 (dec_false _)) in D1. clear - D1 D2 H. destruct d; cbn [below dbot] in *; [apply ebot_le|].
    exfalso. apply D1. intros o To. eapply ele_trans; [|apply D2; auto]. auto.
Qed.
Lemma spec_system_satisfies s f p : program_ok -> procs f = Some p -> satisfies I p (spec_system s f).
Proof.
  intros HP Hp v s1 Tv Hs1. destruct (HP f p Hp) as (Hd & DO & _). rewrite Hd. unfold spec_system. rewrite Hp. rewrite dec_true.
  - erewrite pre_local; eauto using below_refl.
  - intros o To. erewrite post_local; eauto using below_refl.
Qed.
Lemma spec_system_step s f p v Y : program_ok -> env_ok s -> procs f = Some p -> typed (pins p) v ->
  below d (spec_system s f v Y) (unfold_bodies I isd k procs E (spec_system s) f v Y).
Proof.
  intros HP Hs Hp Tv. destruct (HP f p Hp) as (Hd & DO & HB). unfold spec_system at 1. rewrite Hp.
  match goal with |- below _ (if dec ?P then _ else _) _ => destruct (dec P) eqn:D1 end; [|apply below_bot]. apply (proj1 (dec_iff _)) in D1.
  unfold unfold_bodies. rewrite Hp. destruct (pbody p) as [b|].
  - assert (H : forall s0, env_ok s0 -> below d (spec_exp I d (requires p) (upds s (pins p) v))
      (wpc_block I isd (den procs (spec_system s)) k b (fun s' => Y (map s' (pouts p))) (upds s0 (pins p) v))).
    { intros s0 Hs0. rewrite (pre_local I Tm p d s s0 v DO Tv). rewrite <- Hd.
      apply (caller_sound (den procs (spec_system s)) p b DO HB); auto.
      - intros g q Hq. exists (spec_system s g). unfold den. rewrite Hq. split; auto. split; [now apply spec_system_well|]. intros _. now apply spec_system_satisfies.
      - intros g Hg. unfold den. now rewrite Hg.
      - intros o To. rewrite Hd. rewrite (post_local I Tm p d s0 s v o DO Tv To). auto. }
    rewrite Hd. clear - H. destruct d; cbn [below] in *; [apply einf_glb | apply esup_lub]; intros r (s0 & Hs0 & ->); auto.
  - destruct HB as [B1 B2]. specialize (B2 v s Tv Hs). rewrite Hd in B2. eapply below_trans; [exact B2|].
    clear - B1 D1 Tv. destruct d; cbn [below] in *; apply B1; auto.
Qed.

Theorem recursion_sound f p : program_ok -> procs f = Some p ->
  satisfies I p (match d with Down => greatest I isd k procs E f | Up => least I isd k procs E f end).
Proof.
  intros HP Hp v s Tv Hs. destruct (HP f p Hp) as (Hd & DO & _).
  pose proof (spec_system_satisfies s f p HP Hp v s Tv Hs) as S. eapply below_trans; [exact S|]. rewrite Hd.
  pose proof (fun g q w Y => spec_system_step s g q w Y HP Hs) as St. pose proof (spec_system_well s) as Sw.
  clear - St Sw. destruct d; cbn [below] in *; [apply esup_ub | apply einf_lb]; eexists; (split; [exact Sw|]); (split; [|reflexivity]);
    intros g q w Y Hq Tw; eapply St; eauto.
Qed.

(** ** The solutions are solutions *)
Lemma wpc_mono2 (D D' : system) (Kept : ident -> Prop) : well_behaved procs D -> sys_le procs D D' ->
  forall st, every (stmt_ok isd isf procs Tm Kept) st -> forall X Y, exp_le X Y -> exp_le (wpc I isd (den procs D) k st X) (wpc I isd (den procs D') k st Y).
Proof.
  intros HW HL.
  assert (HB : forall b, Forall (fun st => every (stmt_ok isd isf procs Tm Kept) st -> forall X Y, exp_le X Y ->
       exp_le (wpc I isd (den procs D) k st X) (wpc I isd (den procs D') k st Y)) b -> All (every (stmt_ok isd isf procs Tm Kept)) b ->
     forall X Y, exp_le X Y -> exp_le (wpc_block I isd (den procs D) k b X) (wpc_block I isd (den procs D') k b Y)).
  { induction 1 as [|s b Hs Hb IH]; intros W X Y H; [exact H|]. destruct W as [W1 W2]. cbn [wpc_block fold_right]. apply Hs; auto. now apply IH. }
  assert (HA : forall xs e, assignc_ok isd isf procs Tm Kept xs e -> forall X Y, exp_le X Y ->
     exp_le (call_sem I isd (den procs D) xs e X) (call_sem I isd (den procs D') xs e Y)).
  { intros xs e A X Y H.
    assert (plain : match xs with [x] => assign_ok isd isf x e /\ avoids Tm e /\ writable Tm Kept x | _ => False end ->
      exp_le (assign_sem I isd xs e X) (assign_sem I isd xs e Y)).
    { destruct xs as [|x [|]]; try tauto. intros (A1 & _). eapply assign_mono; eauto. }
    destruct e as [y|t f args|t c a b|t op a b|t op a|t a|op ys a|y b a|t l]; try (apply plain; exact A).
    unfold assignc_ok in A. unfold call_sem, den. destruct (procs f) as [p|] eqn:Hp; [|now apply plain]. destruct A as [_ C]. intros s Hs.
    assert (Tv : typed (pins p) (map (fun a => eval I a s) args)).
    { pose proof (co_args _ _ _ _ _ _ C) as C1. clear - C1 HI Hs. unfold typed. induction C1 as [|x a l l' [W Ty] _ IH]; constructor; auto. rewrite <- Ty. now apply eval_ty. }
    eapply ele_trans; [|apply (HL f p); eauto]. apply (HW f p Hp); auto. intros o To. apply H. apply upds_ok; auto.
    pose proof (co_lhs _ _ _ _ _ _ C) as C4. clear - C4 To. unfold typed in *. revert o To.
    induction C4 as [|x y l l' Eq _ IH]; intros o To; inversion To; subst; constructor; auto. congruence. }
  induction st using stmt_rect'; intros [W W'] X Y HXY; cbn [wpc]; cbn [stmt_ok] in W.
  - now apply HB.
  - destruct i; [now apply HA | exact HXY].
  - now apply HA.
  - now apply havoc_mono.
  - intros s Hs. destruct d0; cbn [wp]; [apply emin_mono | apply emax_mono]; auto using ele_refl.
  - intros s Hs. cbn [wp]. apply assume_mono; auto.
  - intros s Hs. cbn [wp]. apply validate_mono, assume_mono; auto.
  - contradiction.
  - intros s Hs. cbn [wp]. apply validate_mono; auto.
  - intros s Hs. cbn [wp]. apply eadd_mono; auto using ele_refl.
  - intros s Hs. cbn [wp]. apply emul_mono; auto using ele_refl.
  - destruct W' as [W1 W2]. intros s Hs. apply emin_mono; [apply (HB a) | apply (HB b)]; auto.
  - destruct W' as [W1 W2]. intros s Hs. apply emax_mono; [apply (HB a) | apply (HB b)]; auto.
  - destruct W' as [W1 W2]. intros s Hs. apply eadd_mono; [apply (HB a) | apply (HB b)]; auto.
  - destruct W' as [W1 W2]. intros s Hs. destruct (holds I c s); [apply (HB a) | apply (HB b)]; auto.
  - contradiction.
  - apply IHst; auto.
  - exact HXY.
Qed.

Lemma unfold_mono D D' : program_ok -> well_behaved procs D -> sys_le procs D D' ->
  sys_le procs (unfold_bodies I isd k procs E D) (unfold_bodies I isd k procs E D').
Proof.
  intros HP HW HL f p v Y Hp Tv. destruct (HP f p Hp) as (Hd & DO & HB). unfold unfold_bodies. rewrite Hp.
  destruct (pbody p) as [b|]; [|apply ele_refl]. destruct HB as (W & _).
  assert (H : forall s, env_ok s -> ele (wpc_block I isd (den procs D) k b (fun s' => Y (map s' (pouts p))) (upds s (pins p) v))
                                        (wpc_block I isd (den procs D') k b (fun s' => Y (map s' (pouts p))) (upds s (pins p) v))).
  { intros s Hs. assert (G : forall b, All (every (stmt_ok isd isf procs Tm (fun x => In x (pins p)))) b -> forall X Y, exp_le X Y ->
      exp_le (wpc_block I isd (den procs D) k b X) (wpc_block I isd (den procs D') k b Y)).
    { clear - HW HL HI. induction b as [|s b IH]; intros W X Y H; [exact H|]. destruct W as [W1 W2]. cbn [wpc_block fold_right].
      eapply wpc_mono2; eauto. }
    apply G; auto; [|now apply upds_ok]. intros s1 _. apply ele_refl. }
  destruct (pdir p); [apply einf_glb | apply esup_lub]; intros r (s & Hs & ->).
  - eapply ele_trans; [apply einf_lb; eauto | auto].
  - eapply ele_trans; [apply H; auto | apply esup_ub; eauto].
Qed.
Lemma unfold_well D : program_ok -> well_behaved procs D -> well_behaved procs (unfold_bodies I isd k procs E D).
Proof.
  intros HP HW f p Hp v Y Z Tv HYZ. destruct (HP f p Hp) as (Hd & DO & HB). unfold unfold_bodies. rewrite Hp.
  destruct (pbody p) as [b|]; [|destruct HB as [B _]; now apply B]. destruct HB as (W & _).
  assert (H : forall s, env_ok s -> ele (wpc_block I isd (den procs D) k b (fun s' => Y (map s' (pouts p))) (upds s (pins p) v))
                                        (wpc_block I isd (den procs D) k b (fun s' => Z (map s' (pouts p))) (upds s (pins p) v))).
  { intros s Hs. assert (G : forall b, All (every (stmt_ok isd isf procs Tm (fun x => In x (pins p)))) b -> forall X Y, exp_le X Y ->
      exp_le (wpc_block I isd (den procs D) k b X) (wpc_block I isd (den procs D) k b Y)).
    { clear - HW HI. induction b as [|s b IH]; intros W X Y H; [exact H|]. destruct W as [W1 W2]. cbn [wpc_block fold_right].
      eapply wpc_mono2; eauto. intros g q w Q _ _. apply ele_refl. }
    apply G; auto; [|now apply upds_ok]. intros s1 Hs1. apply HYZ. now apply typed_map. }
  destruct (pdir p); [apply einf_glb | apply esup_lub]; intros r (s & Hs & ->).
  - eapply ele_trans; [apply einf_lb; eauto | auto].
  - eapply ele_trans; [apply H; auto | apply esup_ub; eauto].
Qed.

Theorem greatest_solution : program_ok ->
  well_behaved procs (greatest I isd k procs E) /\
  forall f p v Y, procs f = Some p -> typed (pins p) v ->
    unfold_bodies I isd k procs E (greatest I isd k procs E) f v Y = greatest I isd k procs E f v Y.
Proof.
  intros HP. set (g := greatest I isd k procs E).
  assert (Wg : well_behaved procs g).
  { intros f p Hp v Y Z Tv H. apply esup_lub. intros r (D & W & L & ->). eapply ele_trans; [apply (W f p Hp v Y Z Tv H)|]. apply esup_ub. eauto. }
  assert (L1 : sys_le procs g (unfold_bodies I isd k procs E g)).
  { intros f p v Y Hp Tv. apply esup_lub. intros r (D & W & L & ->). eapply ele_trans; [apply (L f p v Y Hp Tv)|].
    apply (unfold_mono D g HP W) with (p := p); auto. intros f' p' v' Y' Hp' Tv'. apply esup_ub. eauto. }
  split; auto. intros f p v Y Hp Tv. apply ele_antisym; [|now apply (L1 f p)].
  apply esup_ub. exists (unfold_bodies I isd k procs E g). split; [now apply unfold_well|]. split; auto. now apply unfold_mono.
Qed.
Theorem least_solution : program_ok ->
  well_behaved procs (least I isd k procs E) /\
  forall f p v Y, procs f = Some p -> typed (pins p) v ->
    unfold_bodies I isd k procs E (least I isd k procs E) f v Y = least I isd k procs E f v Y.
Proof.
  intros HP. set (g := least I isd k procs E).
  assert (Wg : well_behaved procs g).
  { intros f p Hp v Y Z Tv H. apply einf_glb. intros r (D & W & L & ->). eapply ele_trans; [|apply (W f p Hp v Y Z Tv H)]. apply einf_lb. eauto. }
  assert (L1 : sys_le procs (unfold_bodies I isd k procs E g) g).
  { intros f p v Y Hp Tv. apply einf_glb. intros r (D & W & L & ->). eapply ele_trans; [|apply (L f p v Y Hp Tv)].
    apply (unfold_mono g D HP Wg) with (p := p); auto. intros f' p' v' Y' Hp' Tv'. apply einf_lb. eauto. }
  split; auto. intros f p v Y Hp Tv. apply ele_antisym; [now apply (L1 f p)|].
  apply einf_lb. exists (unfold_bodies I isd k procs E g). split; [now apply unfold_well|]. split; auto. apply unfold_mono; auto. now apply unfold_well.
Qed.
End Rec.
