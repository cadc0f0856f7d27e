(** [assume ?(false); assert ?(false)], with slicing for verification: the query is satisfiable without the assumption. *)
From Coq Require Import Bool List String Ascii Arith NArith.
From Verif.Model Require Import Syntax Prover SliceSearch Dump Builder Dist VcGen TyCtx Subsets Slicing.
From Verif.Spec Require Import Eur Sem Wp Sliced SliceSpec DumpSpec.
From Verif.Proofs Require Import EurLemmas SemLemmas SimLemmas TranslateProps DumpProofs.
Import ListNotations.
Local Open Scope string_scope.
Local Open Scope list_scope.

Lemma dump_misleads I : exists b' S e,
  prepare_slicing (fun _ => None) (slice_filter false true false false) (fun p => List.length p) (mktcx [] []) Down assumed_false = Ok (b', S) /\
  vcgen (fun _ => None) (SSeq b') always = Ok e /\
  let asserted s := env_ok s /\ ev I e s <> etop in
  (exists s, asserted s) /\
  forall minl, exists check model,
    sound_search (asked asserted (meets I S) (toggles_of true (s_stmts S)) (toggles_of false (s_stmts S))) check model /\
    slice_failing minl Stop check model (List.length (toggles_of true (s_stmts S))) = Ok (Proof, None).
Proof.
  eexists _, _, _. split; [reflexivity|]. split; [reflexivity|]. split.
  - set (off := mkid "slice_toggle_0" 1 TBool). set (on := mkid "slice_toggle_1" 1 TBool).
    exists (fun x => if ident_eqb x off then VBool false else if ident_eqb x on then VBool true else some_val (ity x)). split.
    + intros x. destruct (ident_eqb x off) eqn:E; [apply ident_eqb_eq in E; subst x; reflexivity|].
      destruct (ident_eqb x on) eqn:E'; [apply ident_eqb_eq in E'; subst x; reflexivity|]. apply some_val_ty.
    + cbn. discriminate.
  - intros minl. exists (fun _ _ => Unsat), (fun _ _ => None). split; [|destruct minl; reflexivity].
    intros k n m _ (s & (O & N) & _ & A & _). apply N. cbn in A.
    specialize (A _ (or_introl eq_refl)). unfold is_off in A. cbn in A.
    pose proof (O (mkid "slice_toggle_0" 1 TBool)) as O0. pose proof (O (mkid "slice_toggle_1" 1 TBool)) as O1. clear O N.
    assert (B : forall r, eleb ebot r = true) by (intros r; apply eleb_iff, ebot_le).
    unfold ev. cbn. destruct (s (mkid "slice_toggle_0" 1 TBool)) as [[]| | | | | |]; try discriminate.
    destruct (s (mkid "slice_toggle_1" 1 TBool)) as [[]| | | | | |]; try discriminate; now rewrite B.
Qed.

Lemma file_of_run globals info name raco o d solver reason r : d_dir o = Some d ->
  forall f, file_after (dump_run globals info name raco o solver reason r) f =
  if comps_eqb f (path_join d (to_file_name name "smt2"))
  then let answer := if d_no_verify o then None else Some r in
       Some (prefix_all "; " (header info name reason answer) ++
             list_ascii_of_string (show_params globals globals ++ newline ++ body raco o solver ++ newline ++ "(check-sat)" ++ match answer with Some r => details r | None => "" end))
  else None.
Proof. intros E f. now apply file_left. Qed.
Lemma z3_globals o globals : single globals ->
  single (set_global_z3_params o globals) /\ set_global_z3_params o (set_global_z3_params o globals) = set_global_z3_params o globals /\
  forall k, lookup k (set_global_z3_params o globals) = or_else (lookup k (z3_params o)) (lookup k globals).
Proof. intros H. split; [now apply extend_single|]. split; [now apply z3_idempotent|]. intros k. apply z3_set. Qed.
Lemma files_clash : exists n n', show_name n <> show_name n' /\ forall d, path_join d (to_file_name n "smt2") = path_join d (to_file_name n' "smt2").
Proof. exists (mkname "a.heyvl" (Some "f")), (mkname "../a.heyvl" (Some "f")). split; [discriminate|reflexivity]. Qed.
Lemma mbqi_clash : exists q, q_mbqi q = false /\ String.prefix mbqi_prefix (qid q) = true.
Proof. exists (mkmeta "mbqi_f(definitional)" false None). split; reflexivity. Qed.
Lemma dump_cases : single (z3_params (mkz3 true (Some 7%N) NoQuant true true None (Some 300%N))) /\
  lookup "smt.random_seed" (z3_params (mkz3 true (Some 7%N) NoQuant true true None (Some 300%N))) = Some "7" /\
  relative "a/b.heyvl" /\ clean (show_name (mkname "a/b.heyvl" (Some "f")) ++ "." ++ "smt2") /\
  to_file_name (mkname "../a/b.heyvl" (Some "f")) "smt2" = [Normal "a"; Normal "b.heyvl::f.smt2"] /\
  qid (mkmeta "q" true None) = "mbqi_q" /\
  complexity_of (mkprobes true (fun t => match t with Lia | Nia => true | _ => false end) true) true = TwoExptime.
Proof.
  split; [apply z3_single|]. split; [reflexivity|]. split; [discriminate|]. split; [|repeat split].
  repeat constructor; discriminate.
Qed.
Lemma search_case : sound_search (asked (fun b : bool => b = true) (fun _ => True) [fun b => b] []) (fun _ n => match n with O => Unsat | _ => Sat end) (fun _ _ => Some 1) /\
  slice_failing SizeMinimal Stop (fun _ n => match n with O => Unsat | _ => Sat end) (fun _ _ => Some 1) 1 = Ok (Counterexample, Some 1).
Proof.
  split; [|reflexivity]. intros k [|n].
  - intros m H (b & -> & _ & _ & E). cbn in E. subst m. inversion H.
  - exists 1. repeat split; auto with arith. exists true. repeat split. intros v [].
Qed.
Lemma qid_newline : exists q v, q_variant q = Some v /\ ~ In nl (list_ascii_of_string (q_name q)) /\ ~ In nl (list_ascii_of_string v) /\ In nl (list_ascii_of_string (qid q)).
Proof. exists (mkmeta "q" false (Some "v")), "v". repeat split; cbn; try tauto; intros [H|[]]; discriminate. Qed.

Lemma concat_nil l : String.concat "" l = fold_right String.append "" l.
Proof.
  induction l as [|a [|b l] IH]; auto; [cbn; induction a; cbn; congruence|]. change (String.concat "" (a :: b :: l)) with (a ++ "" ++ String.concat "" (b :: l))%string.
  now rewrite IH.
Qed.
Lemma option_lines globals ps : single globals -> single ps ->
  show_params globals ps = lines (map option_line (add_global_params globals ps)) /\ show_params globals globals = lines (map option_line globals).
Proof.
  intros S S'. assert (G : forall l, fold_right (fun kv s => "(set-option :" ++ fst kv ++ " " ++ snd kv ++ ")" ++ newline ++ s)%string "" l = lines (map option_line l)).
  { intros l. unfold lines. rewrite concat_nil. induction l as [|[k v] l IH]; cbn [fold_right map]; auto. unfold option_line at 1. now rewrite IH, !str_assoc. }
  unfold show_params. split; [apply G|]. rewrite G. unfold add_global_params. now rewrite extend_same by auto.
Qed.
Lemma header_text info path decl reason r :
  lines (header info (mkname path decl) reason r) = (lines info ++ unit_line path decl ++ match r with Some r => answer_line reason r | None => "" end)%string.
Proof.
  unfold lines, header, unit_line, show_name. rewrite !concat_nil.
  assert (G : forall a b, fold_right String.append "" (a ++ b) = (fold_right String.append "" a ++ fold_right String.append "" b)%string).
  { induction a as [|x a IH]; intros b; cbn; auto. now rewrite IH, str_assoc. }
  assert (Z : forall a, (a ++ "")%string = a) by (induction a; cbn; congruence).
  rewrite !G. cbn [fold_right short_path decl_name]. destruct decl, r as [[]|]; cbn [fold_right answer_line]; unfold show_result; rewrite ?Z, ?str_assoc; reflexivity.
Qed.
Lemma shown_bounds s : shown_complexities s = if has_quant s then [complexity_of s false; complexity_of s true] else [complexity_of s false].
Proof. reflexivity. Qed.
Lemma complexity_table : forall t u,
  from_theory t u false = match t with Lra => PTime | Lia => if u then NP else PTime | Lira => NP | Nra => PSpace | Nia | Nira => Undecidable end /\
  from_theory t u true = match t with Lra => PTime | Lia | Lira => TwoExptime | Nra => PSpace | Nia | Nira => Undecidable end.
Proof. intros [] []; split; reflexivity. Qed.
