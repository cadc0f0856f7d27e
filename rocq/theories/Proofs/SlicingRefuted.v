(** Where slicing goes wrong. *)
From Coq Require Import Bool List String NArith QArith Reals Lra.
From Verif.Model Require Import Syntax Builder VcGen Negations TyCtx Subsets Slicing.
From Verif.Spec Require Import Eur Sem Wp Frame Loops Sliced.
From Verif.Proofs Require Import EurLemmas SemLemmas WpLemmas VcGenProofs MonoProofs SlicingSteps SlicingVisit.
Import ListNotations.
Local Open Scope string_scope.
Local Open Scope list_scope.
Local Arguments eleb : simpl never.

Definition no_tcx : tcx := fun _ => None.
Definition nowhere (p : place) : nat := 1.
Definition zero_exp : expr := ECast TEUReal (b_uint 0).
Definition tog : ident := mkid "slice_toggle_0" 1 TBool.

(** ** The direction is threaded through both branches of a conditional *)
Definition thr_c : ident := mkid "c" 0 TBool.
Definition thr_tcx : tyctx := mktcx [(thr_c, true)] [].
Definition thr : list stmt := [SIf (EVar thr_c) [SAssume Down zero_exp; SNegate Down] [SAssume Down zero_exp; SNegate Up]].
Definition thr' : list stmt := [SIf (EVar thr_c) [SAssume Down zero_exp; SNegate Down] [SAssume Down (EIte TEUReal (EVar tog) zero_exp (ELit TEUReal LInf)); SNegate Up]].

Lemma thr_prepared : match prepare_slicing no_tcx (slice_filter false false false false) nowhere thr_tcx Down thr with
  | Ok (b', R) => b' = thr' /\ s_constr R = [] /\ s_dir R = Down /\ map sl_ident (s_stmts R) = [tog] /\ map sl_sel (s_stmts R) = [mksel false true false false]
  | _ => False end.
Proof. vm_compute. auto. Qed.
Lemma neg_top d : negate_sem d etop = ebot.
Proof.
  destruct d; cbn [negate_sem].
  - destruct (eleb etop ebot) eqn:E; auto. apply eleb_iff in E. destruct E.
  - now rewrite (proj2 (eleb_iff _ _) (ele_refl etop)).
Qed.
Lemma thr_verified I isd k s : wp_block I isd k thr (fun _ => etop) s = etop.
Proof.
  cbn [thr wp_block fold_right wp]. unfold zero_exp. rewrite ev_bot, !neg_top.
  destruct (holds _ _ _); cbn [assume_sem]; now rewrite (proj2 (eleb_iff _ _) (ele_refl ebot)).
Qed.
Lemma thr_fails I isd k s : s thr_c = VBool false -> s tog = VBool false -> wp_block I isd k thr' (fun _ => etop) s = ebot.
Proof.
  intros H1 H2. cbn [thr' wp_block fold_right wp]. rewrite !neg_top. unfold holds. cbn [eval]. rewrite H1. rewrite (ev_toggle I s tog false) by auto.
  cbn [assume_sem]. destruct (eleb _ ebot) eqn:E; auto. apply eleb_iff in E. destruct E.
Qed.

Lemma thr_refuted : exists b' R, prepare_slicing no_tcx (slice_filter false false false false) nowhere thr_tcx Down thr = Ok (b', R) /\
  mono_visit_block Down thr = Ok Down /\ All (every (without_ann "slice_error")) thr /\
  (forall I isd k s, wp_block I isd k thr (fun _ => etop) s = etop) /\
  (forall I isd k s, s thr_c = VBool false -> s tog = VBool false -> meets I R s /\ wp_block I isd k b' (fun _ => etop) s = ebot).
Proof.
  pose proof thr_prepared as P. destruct (prepare_slicing _ _ _ _ _ _) as [[b' R]|w|w]; try contradiction.
  destruct P as (-> & Hc & _). exists thr', R. split; [reflexivity|]. split; [reflexivity|]. split; [cbn; auto 10|]. split; [apply thr_verified|].
  intros I isd k s H1 H2. split; [intros c; rewrite Hc; intros [] | now apply thr_fails].
Qed.

(** ** The constraints are assumed when verifying slices are searched *)
Definition ang : list stmt := [SAngelic [] []].
Lemma ang_prepared : match prepare_slicing no_tcx (slice_filter false true false false) nowhere (mktcx [] []) Down ang with
  | Ok (b', R) => exists y1 y2 g1 g2, b' = [SAngelic [g1] [g2]] /\ s_constr R = [EBin TBool OOr (EVar y1) (EVar y2)] /\
      map sl_ident (s_stmts R) = [y1; y2] /\ map sl_sel (s_stmts R) = [mksel true false false false; mksel true false false false] /\
      angelic_guard Down (EVar y1) = Ok g1 /\ angelic_guard Down (EVar y2) = Ok g2
  | _ => False end.
Proof. vm_compute. repeat eexists. Qed.

Definition off_all (s : env) (S : slicer) : Prop := forall e, In e (s_stmts S) -> s (sl_ident e) = VBool false.
Lemma ang_refuted : exists b' S, prepare_slicing no_tcx (slice_filter false true false false) nowhere (mktcx [] []) Down ang = Ok (b', S) /\
  (forall e, In e (s_stmts S) -> enables verified_selection (sl_sel e) = true) /\
  (forall I isd k s, env_ok s -> meets I S s -> wp_block I isd k b' (fun _ => etop) s = etop) /\
  (forall I isd k s, off_all s S -> ~ meets I S s /\ wp_block I isd k b' (fun _ => etop) s = ebot).
Proof.
  pose proof ang_prepared as P. destruct (prepare_slicing _ _ _ _ _ _) as [[b' R]|w|w]; try contradiction.
  destruct P as (y1 & y2 & g1 & g2 & -> & Hc & Hi & Hs & G1 & G2). exists [SAngelic [g1] [g2]], R. split; [reflexivity|].
  destruct (s_stmts R) as [|e1 [|e2 [|]]] eqn:Es; try discriminate. cbn [map] in Hi, Hs. injection Hi as I1 I2. injection Hs as S1 S2.
  destruct (guard_angelic Down y1) as (h1 & Q1 & V1), (guard_angelic Down y2) as (h2 & Q2 & V2). rewrite G1 in Q1. rewrite G2 in Q2. injection Q1 as <-. injection Q2 as <-.
  split; [|split].
  - intros e [<-|[<-|[]]]; [rewrite S1 | rewrite S2]; reflexivity.
  - intros I isd k s Hok Hm. assert (M : holds I (EBin TBool OOr (EVar y1) (EVar y2)) s = true) by (apply Hm; rewrite Hc; left; auto).
    unfold holds in M. cbn [eval] in M. destruct (s y1) as [v1| | | | | |] eqn:E1; try discriminate. destruct (s y2) as [v2| | | | | |] eqn:E2; try discriminate.
    cbn in M. cbn [wp_block fold_right wp]. rewrite (V1 I isd k _ s v1 E1), (V2 I isd k _ s v2 E2).
    destruct v1, v2; try discriminate; rewrite ?emax_top_l; auto; apply ele_antisym; auto using ele_top, emax_r.
  - intros I isd k s Ho. assert (E1 : s y1 = VBool false) by (rewrite <- I1; apply Ho; rewrite Es; left; auto).
    assert (E2 : s y2 = VBool false) by (rewrite <- I2; apply Ho; rewrite Es; right; left; auto). split.
    + intros Hm. assert (M : holds I (EBin TBool OOr (EVar y1) (EVar y2)) s = true) by (apply Hm; rewrite Hc; left; auto).
      unfold holds in M. cbn [eval] in M. rewrite E1, E2 in M. discriminate.
    + cbn [wp_block fold_right wp]. rewrite (V1 I isd k _ s false E1), (V2 I isd k _ s false E2). apply emax_bot_l.
Qed.
