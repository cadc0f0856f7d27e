(** C47: the explanation of a verification condition shows the semantics at every statement, and explaining does not
    change the verdict; where it does. *)
From Coq Require Import Bool List String NArith QArith.
From Verif.Model Require Import Syntax Builder Lits TyCtx AstUtil Dist VcGen Subst Unfolder Constfold Negations ProofRules Procs Explain.
From Verif.Spec Require Import Eur Sem Wp Folding Exprs Reach Linear Calls Explained.
From Verif.Proofs Require Import TyCtxProofs SubstProofs VcGenProofs UnfolderProofs PipelineProofs CallProofs LoopVc ExplainBase ExplainProofs ExplainThms ExplainRefuted.
Import ListNotations.
Local Open Scope nat_scope.

(** The condition computed with explanations, which is the one that is verified, has the value of the program, and that of
    the condition computed without.  Hypothesis: every expression given to the constant folder is one that it keeps. *)
Theorem C47_value_partial : forall C procs orc qs isd isf A k, tcx_ok C isd isf A -> (forall n, sound_oracle (orc n)) ->
  forall T sp b post d e st, core_block isd isf A T b -> send sp <> 0 -> is_exp post -> (forall x, In x (ids post) -> is_var T x) ->
  explain_raw_vc C procs orc qs T sp b post d = (Ok e, st) -> Forall foldable (x_folds st) ->
  is_exp e /\ (forall I s, interp_ok I -> env_ok s -> ev I e s = wp_block I isd k (map erase b) (ev I post) s) /\
  exists e0, vcgen_block C (map erase b) post = Ok e0 /\ is_exp e0 /\ forall I s, interp_ok I -> env_ok s -> ev I e s = ev I e0 s.
Proof. exact explain_core_value. Qed.
Print Assumptions C47_value_partial.
Example C47_value_example : tcx_ok x_C (fun _ => false) (fun _ => false) (fun _ => false) /\ (forall n, sound_oracle (x_O n)) /\
  core_block (fun _ => false) (fun _ => false) (fun _ => false) x_Tn ex_block /\
  exists e st, explain_raw_vc x_C x_P x_O (fun _ => 0) x_Tn x_s0 ex_block b_inf Down = (Ok e, st) /\ Forall foldable (x_folds st) /\ Forall fits (x_folds st) /\
    x_folds st <> [] /\ List.length (x_entries st) = 7.
Proof. exact (conj x_tcx_ok (conj x_sound (conj ex_core ex_run))). Qed.

(** Every entry of the explanation is at the position of a statement or of a closing brace, in the block around it, and
    every step shown there has the value of the rest of the program; none is missing. *)
Theorem C47_entries_partial : forall C procs orc qs isd isf A k, tcx_ok C isd isf A -> (forall n, sound_oracle (orc n)) ->
  forall T sp b post d e st, core_block isd isf A T b -> send sp <> 0 -> is_exp post -> (forall x, In x (ids post) -> is_var T x) ->
  explain_raw_vc C procs orc qs T sp b post d = (Ok e, st) -> Forall foldable (x_folds st) -> NoDup (flat_map positions b ++ [brace sp]) ->
  forall I, interp_ok I ->
  Forall2 (explains I) (x_entries st) (notes_stmts I isd k (Some sp) b (ev I post) ++ [mknote (brace sp) (Some sp) (ev I post)]).
Proof. exact explain_core_entries. Qed.
Print Assumptions C47_entries_partial.
Example C47_entries_example : NoDup (flat_map positions ex_block ++ [brace x_s0]) /\ List.length (flat_map positions ex_block) = 6.
Proof. exact (conj ex_nodup eq_refl). Qed.

(** Explaining succeeds for programs without negations whose positions are distinct. *)
Theorem C47_total_partial : forall C procs orc qs isd isf A (k : fixkind), tcx_ok C isd isf A -> (forall n, sound_oracle (orc n)) ->
  forall T sp b post d r st, core_block isd isf A T b -> send sp <> 0 -> is_exp post -> (forall x, In x (ids post) -> is_var T x) ->
  explain_raw_vc C procs orc qs T sp b post d = (r, st) -> Forall foldable (x_folds st) -> Forall fits (x_folds st) ->
  NoDup (flat_map positions b ++ [brace sp]) -> Forall (every not_negate) (map erase b) -> exists e, r = Ok e.
Proof. exact explain_core_total. Qed.
Print Assumptions C47_total_partial.
Example C47_total_example : Forall (every not_negate) (map erase ex_block) /\
  exists e st, explain_raw_vc x_C x_P x_O (fun _ => 0) x_Tn x_s0 ex_block b_inf Down = (Ok e, st) /\ Forall foldable (x_folds st) /\ Forall fits (x_folds st) /\
    x_folds st <> [] /\ List.length (x_entries st) = 7.
Proof. exact (conj ex_no_negations ex_run). Qed.

(** For a procedure the last step is the value of its body for all its postconditions, and a proc with negations is not explained. *)
Theorem C47_procedure_partial : forall C procs orc qs isd isf A k, tcx_ok C isd isf A -> (forall n, sound_oracle (orc n)) ->
  forall T p sp b e st, core_block isd isf A T b -> send sp <> 0 -> Forall is_exp (ensures p) -> (forall x, In x (flat_map ids (ensures p)) -> is_var T x) ->
  explain_decl_vc C procs orc qs T p sp b = (Ok e, st) -> Forall foldable (x_folds st) ->
  (forall I s, interp_ok I -> env_ok s -> ev I e s = wp_block I isd k (map erase b) (spec_exp I (pdir p) (ensures p)) s) /\
  (pdir p = Down -> every not_negate (SSeq (map erase b))).
Proof. exact explain_decl. Qed.
Print Assumptions C47_procedure_partial.
Example C47_procedure_example : Forall is_exp (ensures x_pr) /\ List.length (ensures x_pr) = 2 /\ pdir x_pr = Down /\
  (forall x, In x (flat_map ids (ensures x_pr)) -> is_var x_Tn x) /\
  exists e st, explain_decl_vc x_C x_P x_O (fun _ => 0) x_Tn x_pr x_s0 ex_block = (Ok e, st) /\ Forall foldable (x_folds st).
Proof. exact procedure_example. Qed.

(** At a call the explanation shows the callee's preconditions for the arguments, which bound the value of the encoded call
    whatever follows it. *)
Theorem C47_call : forall C procs orc qs, (forall n, sound_oracle (orc n)) ->
  forall sp xs t f args q p st e st' variant isd k, C f = Some DProc -> procs f = Some q ->
  Forall is_exp (requires q) -> Forall2 (fun x a => wt a = true /\ ty_of a = ity x) (pins q) args ->
  (forall x, In x (pins q ++ flat_map ids (requires q) ++ flat_map ids args) -> is_var (x_tcx st) x) ->
  xgen C procs orc qs (XAtom sp (SAssign xs (ECall t f args))) p st = (Ok e, st') -> Forall foldable (x_folds st') ->
  forall I s, interp_ok I -> env_ok s -> ev I e s = pre_of I q args s /\
    forall T b T' X, encode_assign procs variant T xs (ECall t f args) = Ok (Some (b, T')) -> below (pdir q) (wp_block I isd k b X s) (ev I e s).
Proof. exact explain_call. Qed.
Print Assumptions C47_call.
Example C47_call_example : Forall is_exp (requires x_f) /\ Forall2 (fun x a => wt a = true /\ ty_of a = ity x) (pins x_f) [x_arg] /\
  (forall x, In x (pins x_f ++ flat_map ids (requires x_f) ++ flat_map ids [x_arg]) -> is_var x_Tf x) /\
  (exists e st', xgen x_Cf x_Pf x_O (fun _ => 0) (XAtom x_s1 (SAssign [x_n] (ECall TUInt "f" [x_arg]))) b_inf (mkx Down [] None x_Tf []) = (Ok e, st') /\
    Forall foldable (x_folds st')) /\
  exists b T', encode_assign x_Pf (fun _ => 0) x_Tf [x_n] (ECall TUInt "f" [x_arg]) = Ok (Some (b, T')).
Proof. exact call_example. Qed.

(** At a loop with an invariant it shows the invariant, which bounds the value of the loop's encoding. *)
Theorem C47_invariant : forall C procs orc qs sp inv args w c spb b p st e st', C "invariant"%string <> Some DSlicingAnn ->
  xgen C procs orc qs (XAnn sp "invariant" (inv :: args) (XWhile w c spb b)) p st = (Ok e, st') ->
  e = inv /\ forall I isd k d n body X s, below d (wp_block I isd k (transform_k_induction c body d n inv) X s) (ev I e s).
Proof. exact explain_invariant. Qed.
Print Assumptions C47_invariant.
Example C47_invariant_example : exists e st', xgen x_Cl x_P x_O (fun _ => 0) (XAnn x_s3 "invariant" [x_one] x_w) b_inf (mkx Up [] None x_Tn []) = (Ok e, st') /\
  x_Cl "invariant"%string <> Some DSlicingAnn /\ e = x_one /\ List.length (x_entries st') = 4.
Proof. exact invariant_example. Qed.

(** At an unrolled loop it shows the value of the loop's encoding. *)
Theorem C47_unroll_partial : forall C procs orc qs isd isf A k, tcx_ok C isd isf A -> (forall n, sound_oracle (orc n)) ->
  forall sp tn n t w c spb b p st e st', C "unroll"%string <> Some DSlicingAnn ->
  All (wts isd isf) (map erase b) -> All (every not_while) (map erase b) -> vguard_block (map erase b) -> All (every (anns_in A)) (map erase b) ->
  All (every (fun s => forall x, In x (node_ids s) -> is_var (x_tcx st) x)) (map erase b) -> Forall spanned b -> send spb <> 0 ->
  is_guard c -> is_exp t -> is_exp p -> (forall x, In x (ids c ++ ids t ++ ids p) -> is_var (x_tcx st) x) -> All (every not_negate) (map erase b) ->
  NoDup (sp :: flat_map positions b ++ brace spb :: map en_span (x_entries st)) ->
  xgen C procs orc qs (XAnn sp "unroll" [ELit tn (LUInt n); t] (XWhile w c spb b)) p st = (Ok e, st') ->
  Forall foldable (x_folds st') -> Forall fits (x_folds st') ->
  exists body, unroll_transform [ELit tn (LUInt n); t] c (map erase b) (x_dir st) = Ok body /\
    forall I s, interp_ok I -> env_ok s -> ev I e s = wp_block I isd k body (ev I p) s.
Proof. exact explain_unroll. Qed.
Print Assumptions C47_unroll_partial.
Example C47_unroll_example : exists e st', xgen x_Cl x_P x_O (fun _ => 0) (XAnn x_s3 "unroll" [b_uint 2; b_cast TEUReal (b_uint 0)] x_w) b_inf (mkx Up [] None x_Tn []) = (Ok e, st') /\
  Forall foldable (x_folds st') /\ Forall fits (x_folds st') /\ x_Cl "unroll"%string <> Some DSlicingAnn /\ List.length (x_entries st') = 4.
Proof. exact unroll_example. Qed.

(** In a proc, no program with a negation is explained. *)
Theorem C47_negation_rejected : forall C procs orc qs A, (forall a, A a = true -> C a = Some DSlicingAnn) ->
  forall T sp b post e st, every not_while (SSeq (map erase b)) -> every (anns_in A) (SSeq (map erase b)) -> Forall spanned b ->
  explain_raw_vc C procs orc qs T sp b post Down = (Ok e, st) -> every not_negate (SSeq (map erase b)).
Proof. exact negation_block_rejected. Qed.
Print Assumptions C47_negation_rejected.
Example C47_negation_example : every not_while (SSeq (map erase ex_block)) /\ every (anns_in (fun _ => false)) (SSeq (map erase ex_block)) /\ Forall spanned ex_block.
Proof. destruct ex_core as (_ & H2 & _ & H4 & _ & H6). exact (conj H2 (conj H4 H6)). Qed.

(** Negations that the check for negations accepts are rejected, in either direction. *)
Theorem C47_negations_refuted : exists sp b, map erase b = [SNegate Down; SNegate Up] /\ mono_check Down (map erase b) = true /\
  (exists e0, vcgen_block x_C (map erase b) b_inf = Ok e0 /\ forall I s, ev I e0 s = etop) /\
  forall T d, exists m st, explain_raw_vc x_C x_P x_O (fun _ => 0) T sp b b_inf d = (Err m, st).
Proof. exact explain_negations_refuted. Qed.
Print Assumptions C47_negations_refuted.

(** Constant folding makes a wrong program verify: y = 0 - x; assert ?(y == x). *)
Theorem C47_fold_refuted : exists T sp b e st e0, core_block (fun _ => false) (fun _ => false) (fun _ => false) T b /\
  explain_raw_vc x_C x_P x_O (fun _ => 0) T sp b b_inf Down = (Ok e, st) /\ vcgen_block x_C (map erase b) b_inf = Ok e0 /\
  (forall I s, interp_ok I -> env_ok s -> ev I e s = etop) /\ exists I s, interp_ok I /\ env_ok s /\ ev I e0 s = ebot.
Proof. exact explain_fold_refuted. Qed.
Print Assumptions C47_fold_refuted.

(** A validate before an assignment and an assumption: the two conditions are opposites. *)
Theorem C47_validate_refuted : exists T sp b e st e0, explain_raw_vc x_C x_P x_O (fun _ => 0) T sp b b_inf Down = (Ok e, st) /\
  Forall foldable (x_folds st) /\ vcgen_block x_C (map erase b) b_inf = Ok e0 /\
  forall I s, interp_ok I -> env_ok s -> ev I e s = ebot /\ ev I e0 s = etop.
Proof. exact explain_validate_refuted. Qed.
Print Assumptions C47_validate_refuted.

(** Equal positions, and a block that ends at offset 0 (an empty raw program), make the explanation panic. *)
Theorem C47_spans_refuted : exists sp b, Forall spanned b /\ (exists e0, vcgen_block x_C (map erase b) b_inf = Ok e0) /\
  forall T d, exists m st, explain_raw_vc x_C x_P x_O (fun _ => 0) T sp b b_inf d = (Panic m, st).
Proof. exact explain_spans_refuted. Qed.
Print Assumptions C47_spans_refuted.
Theorem C47_dummy_refuted : forall T b post d, exists m st, explain_raw_vc x_C x_P x_O (fun _ => 0) T (mkspan 0 0 0 0) b post d = (Panic m, st).
Proof. exact explain_dummy_refuted. Qed.
Print Assumptions C47_dummy_refuted.
