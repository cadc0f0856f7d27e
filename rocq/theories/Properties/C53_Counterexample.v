(** C53: what is shown of a counterexample is what the solver's model says; where it is not. *)
From Coq Require Import Bool List String ZArith Arith Permutation Sorted.
From Verif.Model Require Import Syntax Builder Dist VcGen TyCtx Subsets Slicing Numerals CexDisplay.
From Verif.Spec Require Import Eur Sem Wp Frame Loops Sliced CexSpec.
From Verif.Proofs Require Import DistProofs VcGenProofs SimplifyRefuted CexProofs CexVc CexExamples.
Import ListNotations.
Local Open Scope nat_scope.

(** Every variable of the translation that is not for slicing is shown exactly once. *)
Theorem C53_once : forall inner z sel toggles locals tr vc D, show_counterexample inner z sel toggles locals tr vc = Ok D ->
  Permutation (map fst (entries (d_globals D))) (map v_id (visible locals)).
Proof. exact shown_once. Qed.
Print Assumptions C53_once.

(** They are in nonempty groups by kind, in the order of the kinds; within a group in the order of their declarations. *)
Theorem C53_groups : forall inner z sel toggles locals tr vc D, show_counterexample inner z sel toggles locals tr vc = Ok D ->
  StronglySorted (fun g h => rank (fst g) < rank (fst h)) (d_globals D) /\
  forall k l, In (k, l) (d_globals D) -> l <> [] /\ exists vs, map v_id vs = map fst l /\ StronglySorted (fun v w => v_start v <= v_start w) vs /\
    Permutation vs (List.filter (fun v => vkind_eqb (v_kind v) k) (visible locals)).
Proof. exact shown_groups. Qed.
Print Assumptions C53_groups.

(** The values shown are those of one completion of the solver's model, if the model determines the truth values and the reals. *)
Theorem C53_values_partial : forall inner z sel toggles locals tr vc den D, show_counterexample inner z sel toggles locals tr vc = Ok D -> completes z den ->
  (forall v, In v (visible locals) -> determined z (v_sym v) /\ numeric den (v_sym v)) ->
  forall x w, In (x, Value w) (entries (d_globals D)) -> exists v, In v (visible locals) /\ v_id v = x /\ denotes den (v_sym v) w.
Proof. exact shown_values. Qed.
Print Assumptions C53_values_partial.

(** Nothing is hidden and nothing shown twice: a definition of the model is listed as an extra one exactly if no value that is shown and no
    slice variable reads its name.  In particular an evaluation that fails hides nothing. *)
Theorem C53_extra : forall inner z sel toggles locals tr vc D, show_counterexample inner z sel toggles locals tr vc = Ok D -> NoDup (map v_id locals) ->
  forall d, In d (d_extra D) <-> In d (z_decls z) /\ ~ read_by_shown locals (entries (d_globals D)) (fst d) /\ ~ read_by_toggle z toggles (fst d).
Proof. exact shown_extra. Qed.
Print Assumptions C53_extra.

(** A statement is shown as part of the error exactly if it was selected and the model does not make its slice variable false. *)
Theorem C53_slice : forall inner z sel toggles locals tr vc D, show_counterexample inner z sel toggles locals tr vc = Ok D ->
  forall p r, In (p, r) (d_slice D) <-> exists e t, In (e, t) toggles /\ enables sel (sl_sel e) = true /\ sl_at e = p /\
    match r with
    | PartOfError => exists v, z_eval z false t = Some v /\ v <> ABool false
    | NotNecessary => False
    | ResultError m => z_eval z false t = None /\ m = "EvalError"%string
    end.
Proof. exact shown_slice. Qed.
Print Assumptions C53_slice.
(** For a proof: a statement is shown as not necessary exactly if it was selected and is not among those that were needed. *)
Theorem C53_enabled : forall sel l enabled p r, In (p, r) (iter_results Verify (from_enabled sel l enabled)) <->
  r = NotNecessary /\ exists e t, In (e, t) l /\ enables sel (sl_sel e) = true /\ sl_at e = p /\ ~ In t enabled.
Proof. exact enabled_slice. Qed.
Print Assumptions C53_enabled.
Example C53_enabled_example : In ([0], NotNecessary) (iter_results Verify (from_enabled n_sel n_toggles [])) /\
  iter_results Verify (from_enabled n_sel n_toggles [TApp "no" []]) = [].
Proof. split; [now left|reflexivity]. Qed.

(** The pre-quantity shown is the value of the original program in the state of the model, and that of the sliced program is the value of the
    program without the statements that are switched off, with their number.  Hypotheses: the solver's model satisfies the constraints and
    keeps what was not selected, and the two conditions can be read off it. *)
Theorem C53_pre_partial : forall C F span_at isd isf A, tcx_ok C isd isf A ->
  forall inner z sel toggles locals tr den T d b post b' S e, completes z den ->
  sliceable C isd isf T b -> scoped_block (fun x => contains_key T x = false) b -> All (every (anns_in A)) b -> vguard_block b -> is_exp post ->
  prepare_slicing C F span_at T d b = Ok (b', S) -> vcgen C (SSeq b') post = Ok e ->
  forall I k s D, interp_ok I -> env_ok s -> meets I S s -> blind (fun x => contains_key T x = false) (ev I post) ->
  map fst toggles = s_stmts S ->
  (forall x t, In (x, t) toggles -> exists v, z_eval z false t = Some (ABool v) /\ s (sl_ident x) = VBool v) ->
  (forall x, In x (s_stmts S) -> enables sel (sl_sel x) = false -> s (sl_ident x) = VBool true) ->
  let selected := List.filter (fun x => enables sel (sl_sel x)) (s_stmts S) in
  value_right z den tr I s e -> value_right z den tr I s (b_subst_by e (map sl_ident selected) (fun _ => b_bool true)) ->
  show_counterexample inner z sel toggles locals tr e = Ok D ->
  (forall v, d_pre D = Value v -> shown_eur v = wp_block I isd k b (ev I post) s) /\
  match d_sliced D with
  | None => forall x, In x (s_stmts S) -> s (sl_ident x) = VBool true
  | Some (c, n, m) => (forall v, c = Value v -> shown_eur v = wp_block I isd k (slice_program (off_in (s_stmts S) s) b) (ev I post) s) /\
      n = List.length (List.filter (fun x => is_off s (sl_ident x)) selected) /\ m = List.length selected /\ 0 < n
  end.
Proof. exact shown_pre. Qed.
Print Assumptions C53_pre_partial.

(** assert 1/2 with postcondition 1, where the model switches the assertion off: the pre-quantity is 1/2, that of the slice 1.  One variable
    is shown, and a constant of the solver that nothing reads. *)
Example C53_program : tcx_ok n_C is_dist (fun _ => false) (fun _ => false) /\ sliceable n_C is_dist (fun _ => false) n_T n_prog /\
  scoped_block (fun x => contains_key n_T x = false) n_prog /\ All (every (anns_in (fun _ => false))) n_prog /\ vguard_block n_prog /\ is_exp n_post /\
  prepare_slicing n_C n_F (fun p => List.length p) n_T Down n_prog = Ok ([SAssert Down n_a], n_S) /\ vcgen n_C (SSeq [SAssert Down n_a]) n_post = Ok n_vc.
Proof. exact n_facts. Qed.
Example C53_state : interp_ok I5 /\ env_ok n_s /\ meets I5 n_S n_s /\ blind (fun x => contains_key n_T x = false) (ev I5 n_post) /\ completes n_z (v_den false) /\
  map fst n_toggles = s_stmts n_S /\ NoDup (map v_id n_locals) /\
  (forall x t, In (x, t) n_toggles -> exists v, z_eval n_z false t = Some (ABool v) /\ n_s (sl_ident x) = VBool v) /\
  (forall v, In v (visible n_locals) -> determined n_z (v_sym v) /\ numeric (v_den false) (v_sym v)) /\
  value_right n_z (v_den false) n_tr I5 n_s n_vc /\ value_right n_z (v_den false) n_tr I5 n_s (b_subst_by n_vc [n_y] (fun _ => b_bool true)).
Proof. exact n_state. Qed.
Example C53_display : forall inner, show_counterexample inner n_z n_sel n_toggles n_locals n_tr n_vc =
  Ok (mkdisplay [(KMut, [(n_x, Value (WRat 1 2))])] [("k!0"%string, 0)] [] (Value (WRat 1 2)) (Some (Value (WRat 1 1), 1, 1))).
Proof. exact n_display. Qed.

(** The language server shows the same values, definitions and pre-quantities. *)
Theorem C53_server : forall inner z sel toggles locals tr vc D, show_counterexample inner z sel toggles locals tr vc = Ok D ->
  exists g, emit_counterexample inner z sel toggles locals tr vc = Ok (g, d_extra D, d_pre D, d_sliced D) /\ Permutation g (entries (d_globals D)).
Proof. exact same_in_server. Qed.
Print Assumptions C53_server.

(** A variable that the model leaves open is shown as true, and the pre-quantity is that for false. *)
Theorem C53_unassigned_refuted : exists z den sel locals tr vc x D,
  completes z den /\ (forall v, In v locals -> v_id v = x /\ v_sym v = YBool (TApp "b" [])) /\
  (forall I s b, den (TApp "b" []) = ABool b -> s x = VBool b -> forall v, denotes den (tr vc) v -> shown_eur v = ev I vc s) /\
  (forall inner, show_counterexample inner z sel [] locals tr vc = Ok D) /\
  In (x, Value (WTruth true)) (entries (d_globals D)) /\ exists v, d_pre D = Value v /\
  forall I s, s x = VBool true -> ev I vc s <> shown_eur v.
Proof. exact unassigned_refuted. Qed.
Print Assumptions C53_unassigned_refuted.

(** The value infinity is not shown if the number beside it cannot be read. *)
Theorem C53_infinity_refuted : exists z den y, completes z den /\ determined z y /\ numeric den y /\ denotes den y WInfinity /\
  forall inner a, exists a', pretty_var_value inner z y a = Ok (Failed "ParseError", a').
Proof. exact infinity_refuted. Qed.
Print Assumptions C53_infinity_refuted.

(** A real that the model leaves open is not shown, although its completion has a value; an integer is shown. *)
Theorem C53_open_real_refuted : exists z den t u, completes z den /\ denotes den (YReal t) (WRat 0 1) /\ denotes den (YInt u) (WInt 0) /\
  forall inner a, (exists a', pretty_var_value inner z (YReal t) a = Ok (Failed "ParseError", a')) /\ exists a', pretty_var_value inner z (YInt u) a = Ok (Value (WInt 0), a').
Proof. exact open_real_refuted. Qed.
Print Assumptions C53_open_real_refuted.
