(** C56: what is written about a query. *)
From Coq Require Import Bool List String Ascii Arith NArith Permutation Sorted.
From Verif.Model Require Import Syntax Prover SliceSearch Dump Builder Dist VcGen TyCtx Subsets Slicing.
From Verif.Spec Require Import Eur Sem Wp Sliced SliceSpec DumpSpec.
From Verif.Proofs Require Import DumpProofs DumpExamples.
Import ListNotations.
Local Open Scope string_scope.
Local Open Scope list_scope.

(** Options keep one value each; setting the options of a command replaces the values it has and leaves all others, those of
    earlier commands too; the table of what is set; doing it again changes nothing. *)
Theorem C56_params : forall globals ps, single globals -> single ps ->
  single (add_global_params globals ps) /\ forall k, lookup k (add_global_params globals ps) = or_else (lookup k ps) (lookup k globals).
Proof. exact params_added. Qed.
Print Assumptions C56_params.
Theorem C56_options : forall o,
  lookup "smt.ematching" (z3_params o) = match o_inst o with Mbqi | NoQuant => Some "false" | _ => None end /\
  lookup "smt.mbqi.id" (z3_params o) = match o_inst o with EMatching | NoQuant => Some mbqi_prefix | _ => None end /\
  lookup "smt.random_seed" (z3_params o) = option_map decimal (o_seed o) /\
  lookup "verbose" (z3_params o) = option_map decimal (o_verbose o) /\
  lookup "timeout" (z3_params o) = option_map decimal (o_millis o) /\
  lookup "trace" (z3_params o) = (if o_trace o then Some "true" else None) /\
  lookup "smt.qi.profile" (z3_params o) = (if o_qi_profile o then Some "true" else None) /\
  lookup "smt.mbqi.trace" (z3_params o) = (if o_mbqi_trace o then Some "true" else None).
Proof. exact z3_table. Qed.
Print Assumptions C56_options.
Theorem C56_globals : forall o globals, single globals ->
  single (set_global_z3_params o globals) /\ set_global_z3_params o (set_global_z3_params o globals) = set_global_z3_params o globals /\
  forall k, lookup k (set_global_z3_params o globals) = or_else (lookup k (z3_params o)) (lookup k globals).
Proof. exact z3_globals. Qed.
Print Assumptions C56_globals.

(** The options are written one per line. *)
Theorem C56_option_lines : forall globals ps, single globals -> single ps ->
  show_params globals ps = lines (map option_line (add_global_params globals ps)) /\ show_params globals globals = lines (map option_line globals).
Proof. exact option_lines. Qed.
Print Assumptions C56_option_lines.

(** Comments do not depend on how the text is cut into pieces. *)
Theorem C56_prefix : forall prefix bufs,
  prefix_all prefix bufs = commented (list_ascii_of_string prefix) true (List.concat (map list_ascii_of_string bufs)).
Proof. exact prefix_all_spec. Qed.
Print Assumptions C56_prefix.

(** The query is printed once or not at all, without the answer. *)
Theorem C56_printed : forall globals info name raco o solver reason r,
  printed (dump_run globals info name raco o solver reason r) =
  if d_print o then [(newline ++ "; --- Solver SMT-LIB ---" ++ newline ++ show_params globals globals ++ newline ++ body raco o solver ++ newline ++ "(check-sat)" ++ newline ++ newline)%string] else [].
Proof. exact printed_once. Qed.
Print Assumptions C56_printed.
Theorem C56_silent : forall globals info name raco o solver reason r, d_print o = false -> d_dir o = None ->
  dump_run globals info name raco o solver reason r = [].
Proof. exact silent. Qed.
Print Assumptions C56_silent.
(** One file is left: comments with the answer, if there is one, whatever the names and reasons contain, the options, the
    query, and the command that fits the answer. *)
Theorem C56_file : forall globals info name raco o d solver reason r, d_dir o = Some d ->
  forall f, file_after (dump_run globals info name raco o solver reason r) f =
  if comps_eqb f (path_join d (to_file_name name "smt2"))
  then let answer := if d_no_verify o then None else Some r in
       Some (prefix_all "; " (header info name reason answer) ++
             list_ascii_of_string (show_params globals globals ++ newline ++ body raco o solver ++ newline ++ "(check-sat)" ++ match answer with Some r => details r | None => "" end))
  else None.
Proof. exact file_of_run. Qed.
Print Assumptions C56_file.
Theorem C56_header : forall info name reason r, comments (prefix_all "; " (header info name reason r)).
Proof. exact header_comments. Qed.
Print Assumptions C56_header.

Theorem C56_header_text : forall info path decl reason r,
  lines (header info (mkname path decl) reason r) = (lines info ++ unit_line path decl ++ match r with Some r => answer_line reason r | None => "" end)%string.
Proof. exact header_text. Qed.
Print Assumptions C56_header_text.

(** Files are below the directory, and different for different names without [.], [..] and empty parts. *)
Theorem C56_inside : forall n e d, relative (short_path n) -> exists names, path_join d (to_file_name n e) = d ++ names /\ Forall normal names.
Proof. exact inside. Qed.
Print Assumptions C56_inside.
Theorem C56_apart : forall n n' e, clean (show_name n ++ "." ++ e) -> clean (show_name n' ++ "." ++ e) ->
  to_file_name n e = to_file_name n' e -> show_name n = show_name n'.
Proof. exact files_apart. Qed.
Print Assumptions C56_apart.
(** Not for all: [f] in [a.heyvl] and [f] in [../a.heyvl] are written to the same file, and the second replaces the first. *)
Theorem C56_apart_refuted : exists n n', show_name n <> show_name n' /\ forall d, path_join d (to_file_name n "smt2") = path_join d (to_file_name n' "smt2").
Proof. exact files_clash. Qed.
Print Assumptions C56_apart_refuted.

(** Quantifiers for which MBQI is asked have the prefix; others do not, unless their name brings it. *)
Theorem C56_marked : forall q, q_mbqi q = true -> String.prefix mbqi_prefix (qid q) = true.
Proof. exact mbqi_marked. Qed.
Print Assumptions C56_marked.
Theorem C56_unmarked : forall q, q_mbqi q = false -> String.prefix mbqi_prefix (q_name q) = false -> 5 <= String.length (q_name q) ->
  String.prefix mbqi_prefix (qid q) = false.
Proof. exact mbqi_unmarked. Qed.
Print Assumptions C56_unmarked.
Theorem C56_unmarked_refuted : exists q, q_mbqi q = false /\ String.prefix mbqi_prefix (qid q) = true.
Proof. exact mbqi_clash. Qed.
Print Assumptions C56_unmarked_refuted.
(** The identifier of a variant ends with a newline. *)
Theorem C56_one_line_refuted : exists q v, q_variant q = Some v /\ ~ In nl (list_ascii_of_string (q_name q)) /\ ~ In nl (list_ascii_of_string v) /\ In nl (list_ascii_of_string (qid q)).
Proof. exact qid_newline. Qed.
Print Assumptions C56_one_line_refuted.

(** The answer and the dumped query: a counterexample is one of the query; a proof refutes it if counterexamples remain
    when everything is switched on. *)
Theorem C56_answer : forall X (asserted constraints : X -> Prop) active inactive minl check model r x,
  sound_search (asked asserted constraints active inactive) check model ->
  slice_failing minl Stop check model (List.length active) = Ok (r, x) ->
  match r with
  | Counterexample => exists s, asserted s
  | Proof => on_keeps asserted constraints inactive -> ~ exists s, asserted s
  | ProveUnknown => True
  end.
Proof. exact @answer_of. Qed.
Print Assumptions C56_answer.
(** Otherwise not: with slicing for verification, [assume ?(false); assert ?(false)] is proved, and the query that is dumped
    with the answer Proof is satisfiable. *)
Theorem C56_answer_refuted : forall I, exists b' S e,
  prepare_slicing (fun _ => None) (slice_filter false true false false) (fun p => List.length p) (mktcx [] []) Down assumed_false = Ok (b', S) /\
  vcgen (fun _ => None) (SSeq b') always = Ok e /\
  let asserted s := env_ok s /\ ev I e s <> etop in
  (exists s, asserted s) /\
  forall minl, exists check model,
    sound_search (asked asserted (meets I S) (toggles_of true (s_stmts S)) (toggles_of false (s_stmts S))) check model /\
    slice_failing minl Stop check model (List.length (toggles_of true (s_stmts S))) = Ok (Proof, None).
Proof. exact dump_misleads. Qed.
Print Assumptions C56_answer_refuted.

(** The complexity is the least of those of the detected theories; quantifiers do not lower it; every theory is shown once. *)
Theorem C56_complexity : forall s q,
  (exists t, detected s t = true /\ complexity_of s q = from_theory t (unbounded s) q /\
     forall u, detected s u = true -> crank (complexity_of s q) <= crank (from_theory u (unbounded s) q)) \/
  ((forall t, detected s t = false) /\ complexity_of s q = UnknownComplexity).
Proof. exact complexity_least. Qed.
Print Assumptions C56_complexity.
Theorem C56_quantifiers : forall s, crank (complexity_of s false) <= crank (complexity_of s true).
Proof. exact quantifiers_harder. Qed.
Print Assumptions C56_quantifiers.
Theorem C56_theories : forall s, let (yes, no) := shown_theories s in
  Permutation (yes ++ no) theories /\ (forall t, In t yes <-> detected s t = true) /\ (forall t, In t no <-> detected s t = false) /\
  StronglySorted (fun t u => crank (from_theory t (unbounded s) (has_quant s)) <= crank (from_theory u (unbounded s) (has_quant s))) yes.
Proof. exact shown_all. Qed.
Print Assumptions C56_theories.

Theorem C56_shown : forall s, shown_complexities s = if has_quant s then [complexity_of s false; complexity_of s true] else [complexity_of s false].
Proof. exact shown_bounds. Qed.
Print Assumptions C56_shown.
Theorem C56_table : forall t u,
  from_theory t u false = match t with Lra => PTime | Lia => if u then NP else PTime | Lira => NP | Nra => PSpace | Nia | Nira => Undecidable end /\
  from_theory t u true = match t with Lra => PTime | Lia | Lira => TwoExptime | Nra => PSpace | Nia | Nira => Undecidable end.
Proof. exact complexity_table. Qed.
Print Assumptions C56_table.

(** Concrete cases *)
Example C56_hypotheses : single (z3_params (mkz3 true (Some 7%N) NoQuant true true None (Some 300%N))) /\
  lookup "smt.random_seed" (z3_params (mkz3 true (Some 7%N) NoQuant true true None (Some 300%N))) = Some "7" /\
  relative "a/b.heyvl" /\ clean (show_name (mkname "a/b.heyvl" (Some "f")) ++ "." ++ "smt2") /\
  to_file_name (mkname "../a/b.heyvl" (Some "f")) "smt2" = [Normal "a"; Normal "b.heyvl::f.smt2"] /\
  qid (mkmeta "q" true None) = "mbqi_q" /\
  complexity_of (mkprobes true (fun t => match t with Lia | Nia => true | _ => false end) true) true = TwoExptime.
Proof. exact dump_cases. Qed.
Example C56_search : sound_search (asked (fun b : bool => b = true) (fun _ => True) [fun b => b] []) (fun _ n => match n with O => Unsat | _ => Sat end) (fun _ _ => Some 1) /\
  slice_failing SizeMinimal Stop (fun _ n => match n with O => Unsat | _ => Sat end) (fun _ _ => Some 1) 1 = Ok (Counterexample, Some 1).
Proof. exact search_case. Qed.
