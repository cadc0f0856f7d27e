(** C23: the effect recorded for a statement tells how removing it moves the value of the program. *)
From Coq Require Import Bool List String QArith.
From Verif.Model Require Import Syntax Builder Dist VcGen Negations TyCtx Subsets Slicing.
From Verif.Spec Require Import Eur Sem Wp Frame Loops Sliced.
From Verif.Proofs Require Import DistProofs VcGenProofs MonoProofs SlicingSteps SlicingVerdict SlicingRefuted.
Import ListNotations.

(** Switching off more discordant statements ([g = true]) moves the value against the direction of the program, switching
    off more concordant ones ([g = false]) moves it along; for programs whose branches are neutral in their negations. *)
Theorem C23_more_off : forall C F span_at isd isf A, tcx_ok C isd isf A -> forall T d d' b b' S, sliceable C isd isf T b ->
  prepare_slicing C F span_at T d b = Ok (b', S) -> All (every neutral) b -> mono_visit_block d b = Ok d' ->
  forall (g : bool) I k X s1 s2, interp_ok I -> env_ok s1 -> env_ok s2 -> meets I S s1 -> meets I S s2 ->
  (forall e, In e (s_stmts S) -> s1 (sl_ident e) = s2 (sl_ident e) \/
     s1 (sl_ident e) = VBool true /\ s2 (sl_ident e) = VBool false /\ (if g then discordant (sl_sel e) else concordant (sl_sel e)) = true) ->
  let w1 := wp_block I isd k (slice_program (off_in (s_stmts S) s1) b) X in
  let w2 := wp_block I isd k (slice_program (off_in (s_stmts S) s2) b) X in
  match (if g then d else toggle d) with Down => exp_le w1 w2 | Up => exp_le w2 w1 end.
Proof. exact more_off. Qed.
Print Assumptions C23_more_off.

(** A counterexample of a slice that the solver may choose is one of the original. *)
Theorem C23_counterexample : forall C F span_at isd isf A, tcx_ok C isd isf A -> forall T d d' b b' S, sliceable C isd isf T b ->
  prepare_slicing C F span_at T d b = Ok (b', S) -> All (every neutral) b -> mono_visit_block d b = Ok d' ->
  forall I k X s, All (every (without_ann "slice_error")) b -> interp_ok I -> env_ok s -> meets I S s ->
  (forall e, In e (s_stmts S) -> enables failure_selection (sl_sel e) = false -> s (sl_ident e) = VBool true) ->
  match d with
  | Down => ele (wp_block I isd k b X s) (wp_block I isd k b' X s)
  | Up => ele (wp_block I isd k b' X s) (wp_block I isd k b X s)
  end.
Proof. exact counterexample. Qed.
Print Assumptions C23_counterexample.

(** If a slice is verified in a state, so is the original. *)
Theorem C23_verified_slice : forall C F span_at isd isf A, tcx_ok C isd isf A -> forall T d d' b b' S, sliceable C isd isf T b ->
  prepare_slicing C F span_at T d b = Ok (b', S) -> All (every neutral) b -> mono_visit_block d b = Ok d' ->
  forall I k X s, All (every (without_ann "slice_verify")) b -> interp_ok I -> env_ok s -> meets I S s ->
  (forall e, In e (s_stmts S) -> enables verified_selection (sl_sel e) = false -> s (sl_ident e) = VBool true) ->
  match d with
  | Down => ele (wp_block I isd k b' X s) (wp_block I isd k b X s)
  | Up => ele (wp_block I isd k b X s) (wp_block I isd k b' X s)
  end.
Proof. exact verified_slice. Qed.
Print Assumptions C23_verified_slice.

(** With the default options (slice errors, do not slice verified programs) slicing does not change the verdict. *)
Theorem C23_default_verdict : forall C F span_at isd isf A, tcx_ok C isd isf A -> forall T d d' b b' S, sliceable C isd isf T b ->
  prepare_slicing C F span_at T d b = Ok (b', S) -> All (every neutral) b -> mono_visit_block d b = Ok d' ->
  forall ticks sampling I k, F = slice_filter false false ticks sampling -> All (every (without_ann "slice_error")) b -> interp_ok I ->
  scoped_block (fun x => contains_key T x = false) b ->
  let post := match d with Down => etop | Up => ebot end in
  (forall s, env_ok s -> meets I S s -> wp_block I isd k b' (fun _ => post) s = post) <->
  (forall s, env_ok s -> wp_block I isd k b (fun _ => post) s = post).
Proof. exact default_verdict. Qed.
Print Assumptions C23_default_verdict.

(** Without neutral branches it can: the direction is handed from the first branch to the second, and a program that is
    accepted by the monotonicity check and verified in every state has a counterexample in a slice. *)
Theorem C23_threaded_direction_refuted : exists b' R,
  prepare_slicing no_tcx (slice_filter false false false false) nowhere thr_tcx Down thr = Ok (b', R) /\
  mono_visit_block Down thr = Ok Down /\ All (every (without_ann "slice_error")) thr /\
  (forall I isd k s, wp_block I isd k thr (fun _ => etop) s = etop) /\
  (forall I isd k s, s thr_c = VBool false -> s tog = VBool false -> meets I R s /\ wp_block I isd k b' (fun _ => etop) s = ebot).
Proof. exact thr_refuted. Qed.
Print Assumptions C23_threaded_direction_refuted.

(** The searches for verifying slices assume the constraints instead of requiring them.  So the empty set of toggles passes
    their check for a program with an angelic choice, although with both branches removed it is not verified. *)
Theorem C23_assumed_constraints_refuted : exists b' S,
  prepare_slicing no_tcx (slice_filter false true false false) nowhere (mktcx [] []) Down ang = Ok (b', S) /\
  (forall e, In e (s_stmts S) -> enables verified_selection (sl_sel e) = true) /\
  (forall I isd k s, env_ok s -> meets I S s -> wp_block I isd k b' (fun _ => etop) s = etop) /\
  (forall I isd k s, off_all s S -> ~ meets I S s /\ wp_block I isd k b' (fun _ => etop) s = ebot).
Proof. exact ang_refuted. Qed.
Print Assumptions C23_assumed_constraints_refuted.

(** A program with both effects in both directions meets the hypotheses. *)
Definition ef_x := mkid "x" 0 TEUReal.
Definition ef_tcx : tyctx := mktcx [(ef_x, true)] [].
Definition ef_prog : list stmt :=
  [ SIf (EBin TBool OLe (EVar ef_x) (EVar ef_x)) [SAssert Down (EVar ef_x); SNegate Down; SAssume Up (EVar ef_x); SNegate Up] [SDemonic [] [SAssume Down (EVar ef_x)]];
    SNegate Down; SAngelic [SAssume Down (EVar ef_x)] [SAssert Up (EVar ef_x)]; SNegate Up; SAssert Down (EVar ef_x) ].
Example C23_nonvacuous : tcx_ok (fun f => if is_dist f then Some DProcIntrin else None) is_dist (fun _ => false) (fun _ => false) /\
  sliceable (fun f => if is_dist f then Some DProcIntrin else None) is_dist (fun _ => false) ef_tcx ef_prog /\
  All (every neutral) ef_prog /\ mono_visit_block Down ef_prog = Ok Down /\
  All (every (without_ann "slice_error")) ef_prog /\ All (every (without_ann "slice_verify")) ef_prog /\
  scoped_block (fun x => contains_key ef_tcx x = false) ef_prog /\
  match prepare_slicing (fun f => if is_dist f then Some DProcIntrin else None) (slice_filter false true false false) (fun p => List.length p) ef_tcx Down ef_prog with
  | Ok (b', R) => map (fun e => discordant (sl_sel e)) (s_stmts R) = [true; false; false; true; true; true; true; true; true; true]
  | _ => False
  end.
Proof.
  split; [split; [|split]; intros f; intros; try discriminate; rewrite H; reflexivity|].
  split; [split; [|split; [|split]]|].
  - cbn. repeat split; auto.
  - cbn. auto 30.
  - cbn. auto 30.
  - cbn. intros x H. exfalso. intuition.
  - split; [cbn; auto 30|]. split; [reflexivity|]. split; [cbn; auto 30|]. split; [cbn; auto 30|]. split; [|vm_compute; reflexivity].
    cbn. unfold unread. repeat split; auto; intros x H; cbn in H; intuition; subst; discriminate.
Qed.
