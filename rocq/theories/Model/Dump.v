(** Model of what is written about a query: z3rro/src/{params,smtlib,probes}.rs, PrefixWriter in z3rro/src/util.rs, src/driver/smt_proof.rs
    63-135, 308-339, 405-422, 453-503, and SourceUnitName in src/driver/item.rs.

    Inputs: what Z3 prints for the solver's state, what raco makes of it, Z3's probes, the texts of src/version.rs.  Errors of the file
    system, logging and Windows (another separator, prefixes of paths) are not modelled. *)
From Coq Require Import Bool List String Ascii NArith DecimalString DecimalN.
From Verif.Model Require Import Syntax Prover.
Import ListNotations.
Local Open Scope string_scope.
Local Open Scope list_scope.

Definition nl : ascii := "010"%char.
Definition newline : string := String nl "".

(** ** Parameters *)
(** params.rs 14-15: an IndexMap, that is keys in order of their first insertion *)
Definition params := list (string * string).
Fixpoint set_param (k v : string) (ps : params) : params :=
  match ps with
  | [] => [(k, v)]
  | (k', v') :: ps => if String.eqb k k' then (k, v) :: ps else (k', v') :: set_param k v ps
  end.
(** IndexMap::extend *)
Definition extend_params (ps new : params) : params := fold_left (fun ps kv => set_param (fst kv) (snd kv) ps) new ps.
(** params.rs 46-54 *)
Definition add_global_params (globals ps : params) : params := extend_params globals ps.
(** params.rs 57-68 *)
Definition show_params (globals ps : params) : string :=
  fold_right (fun kv s => "(set-option :" ++ fst kv ++ " " ++ snd kv ++ ")" ++ newline ++ s)%string "" (add_global_params globals ps).

(** driver/commands/options.rs 131-143 *)
Inductive instantiation := AllQuant | EMatching | Mbqi | NoQuant.
(** The options that are read; numbers in decimal. *)
Record z3_options := mkz3 {
  o_trace : bool; o_seed : option N; o_inst : instantiation; o_qi_profile : bool; o_mbqi_trace : bool; o_verbose : option N; o_millis : option N }.
Definition decimal (n : N) : string := NilEmpty.string_of_uint (N.to_uint n).
(** z3rro/src/quantifiers.rs 48 *)
Definition mbqi_prefix : string := "mbqi_".
(** smt_proof.rs 62-131 *)
Definition z3_params (o : z3_options) : params :=
  [("smt.arith.nl.order", "false")]
  ++ (if o_trace o then [("trace", "true"); ("proof", "true"); ("trace_file_name", "z3.log")] else [])
  ++ (match o_seed o with Some n => [("smt.random_seed", decimal n)] | None => [] end)
  ++ [("smt.qi.eager_threshold", "100"); ("smt.qi.lazy_threshold", "1000")]
  ++ (match o_inst o with
      | EMatching => [("smt.mbqi.id", mbqi_prefix)]
      | Mbqi => [("smt.ematching", "false")]
      | NoQuant => [("smt.ematching", "false"); ("smt.mbqi.id", mbqi_prefix)]
      | AllQuant => []
      end)
  ++ (if o_qi_profile o then [("smt.qi.profile", "true"); ("smt.qi.profile_freq", "1000")] else [])
  ++ (if o_mbqi_trace o then [("smt.mbqi.trace", "true")] else [])
  ++ (match o_verbose o with Some n => [("verbose", decimal n)] | None => [] end)
  ++ (match o_millis o with Some n => [("timeout", decimal n)] | None => [] end).
Definition set_global_z3_params (o : z3_options) (globals : params) : params := extend_params globals (z3_params o).

(** z3rro/src/quantifiers.rs 28-46, 62-73: the identifier of a quantifier *)
Record qmeta := mkmeta { q_name : string; q_mbqi : bool; q_variant : option string }.
Definition qid (q : qmeta) : string :=
  ((if q_mbqi q then mbqi_prefix else "") ++ q_name q ++ match q_variant q with Some v => "_" ++ v ++ newline | None => "" end)%string.

(** ** Comments *)
(** split_inclusive at newlines *)
Fixpoint split_inclusive (t : list ascii) : list (list ascii) :=
  match t with
  | [] => []
  | c :: t => if Ascii.eqb c nl then [c] :: split_inclusive t
              else match split_inclusive t with [] => [[c]] | l :: ls => (c :: l) :: ls end
  end.
Definition ends_in_nl (l : list ascii) : bool := Ascii.eqb (last l " "%char) nl.
(** util.rs 107-117; the state is whether a line starts, and what was written *)
Definition write_line (prefix : list ascii) (st : bool * list ascii) (line : list ascii) : bool * list ascii :=
  (ends_in_nl line, snd st ++ (if fst st then prefix else []) ++ line).
Definition prefix_write (prefix : list ascii) (st : bool * list ascii) (buf : list ascii) : bool * list ascii :=
  fold_left (write_line prefix) (split_inclusive buf) st.
(** The texts written one after another, through a new PrefixWriter (97-104) *)
Definition prefix_all (prefix : string) (bufs : list string) : list ascii :=
  snd (fold_left (prefix_write (list_ascii_of_string prefix)) (map list_ascii_of_string bufs) (true, [])).

(** ** SMT-LIB *)
(** smtlib.rs 18-26 *)
Record smtlib := mksmt { sm_params : option params; sm_body : string }.
(** prover.rs 329-332, smtlib.rs 29-34 *)
Definition from_solver (globals : params) (solver : string) : smtlib := mksmt (Some globals) solver.
(** 37-39 *)
Definition add_check_sat (s : smtlib) : smtlib := mksmt (sm_params s) (sm_body s ++ newline ++ "(check-sat)")%string.
(** 42-48 *)
Definition add_details_query (r : prove_result) (s : smtlib) : smtlib :=
  match r with
  | Proof => s
  | Counterexample => mksmt (sm_params s) (sm_body s ++ newline ++ "(get-model)" ++ newline)%string
  | ProveUnknown => mksmt (sm_params s) (sm_body s ++ newline ++ "(get-info :reason-unknown)" ++ newline)%string
  end.
(** 75-80; parameters are shown with the global ones of that moment *)
Definition into_string (globals : params) (s : smtlib) : string :=
  match sm_params s with
  | Some ps => (show_params globals ps ++ newline ++ sm_body s)%string
  | None => sm_body s
  end.

(** ** Files *)
(** item.rs 14-20 *)
Record unit_name := mkname { short_path : string; decl_name : option string }.
(** 65-73 *)
Definition show_name (n : unit_name) : string :=
  match decl_name n with Some d => (short_path n ++ "::" ++ d)%string | None => short_path n end.
(** std::path on Unix: components.  Empty ones are left out, and [.] except at the beginning. *)
Inductive component := RootDir | CurDir | ParentDir | Normal (name : string).
Fixpoint split_slash (s : string) : list string :=
  match s with
  | "" => [""]
  | String c s => if Ascii.eqb c "/" then "" :: split_slash s
                  else match split_slash s with l :: ls => String c l :: ls | [] => [String c ""] end
  end.
Definition is_empty (s : string) : bool := match s with "" => true | _ => false end.
Definition component_of (s : string) : list component :=
  if is_empty s || String.eqb s "." then [] else if String.eqb s ".." then [ParentDir] else [Normal s].
Definition components (s : string) : list component :=
  match split_slash s with
  | [] => []
  | first :: rest =>
      (if is_empty s then [] else if is_empty first then [RootDir] else if String.eqb first "." then [CurDir] else component_of first)
      ++ flat_map component_of rest
  end.
Definition not_parent (c : component) : bool := match c with ParentDir => false | _ => true end.
(** item.rs 44-58 *)
Definition to_file_name (n : unit_name) (extension : string) : list component :=
  let file_name := match decl_name n with
                   | Some d => (short_path n ++ "::" ++ d ++ "." ++ extension)%string
                   | None => (short_path n ++ "." ++ extension)%string
                   end in
  filter not_parent (components file_name).
(** Path::join: an absolute path replaces the directory. *)
Definition path_join (dir file : list component) : list component :=
  match file with RootDir :: _ => file | _ => dir ++ filter (fun c => match c with CurDir => false | _ => true end) file end.

(** ** The dump *)
(** options.rs: print_smt, smt_dir, no_pretty_smtlib, no_verify *)
Record dump_options := mkdump { d_print : bool; d_dir : option (list component); d_no_pretty : bool; d_no_verify : bool }.
Inductive event := Printed (text : string) | Wrote (file : list component) (content : list ascii).

Section Dump.
Variables (globals : params) (info : list string) (name : unit_name).
(** What raco makes of a text, if it runs (smtlib.rs 51-72). *)
Variable raco : string -> option string.

(** smt_proof.rs 453-466 *)
Definition get_smtlib (o : dump_options) (solver : string) : option smtlib :=
  if d_print o || match d_dir o with Some _ => true | None => false end then
    let s := from_solver globals solver in
    Some (if d_no_pretty o then s else match raco (sm_body s) with Some b => mksmt (sm_params s) b | None => s end)
  else None.
(** prover.rs 25-33, with [reason] for the answer unknown *)
Definition show_result (reason : string) (r : prove_result) : string :=
  match r with Proof => "Proof" | Counterexample => "Counterexample" | ProveUnknown => ("Unknown (reason: " ++ reason ++ ")")%string end.
(** 469-503 *)
Definition header (reason : string) (r : option prove_result) : list string :=
  info ++ [("Source unit: " ++ show_name name ++ newline)%string]
  ++ match r with Some r => [("Prove result: " ++ show_result reason r ++ newline)%string] | None => [] end.
Definition smt_text (s : smtlib) (r : option prove_result) : string :=
  let s := add_check_sat s in
  into_string globals (match r with Some r => add_details_query r s | None => s end).
Definition write_smtlib (o : dump_options) (s : smtlib) (reason : string) (r : option prove_result) : list event :=
  (if d_print o then [Printed (newline ++ "; --- Solver SMT-LIB ---" ++ newline ++ smt_text s r ++ newline ++ newline)%string] else [])
  ++ match d_dir o with
     | Some d => [Wrote (path_join d (to_file_name name "smt2")) (prefix_all "; " (header reason r) ++ list_ascii_of_string (smt_text s r))]
     | None => []
     end.
(** run_solver, 308-339 and 405-422: the dump before solving and the one after it; [r]: the answer *)
Definition dump_run (o : dump_options) (solver : string) (reason : string) (r : prove_result) : list event :=
  match get_smtlib o solver with
  | Some s => write_smtlib o s reason None ++
      (if d_no_verify o then [] else write_smtlib (mkdump false (d_dir o) (d_no_pretty o) (d_no_verify o)) s reason (Some r))
  | None => []
  end.
End Dump.

(** File::create truncates: the last content stays. *)
Definition comp_eqb (a b : component) : bool :=
  match a, b with RootDir, RootDir | CurDir, CurDir | ParentDir, ParentDir => true | Normal x, Normal y => String.eqb x y | _, _ => false end.
Fixpoint comps_eqb (a b : list component) : bool :=
  match a, b with [], [] => true | x :: a, y :: b => comp_eqb x y && comps_eqb a b | _, _ => false end.
Definition file_after (evs : list event) (f : list component) : option (list ascii) :=
  fold_left (fun c e => match e with Wrote g t => if comps_eqb f g then Some t else c | Printed _ => c end) evs None.

(** ** Probes *)
(** probes.rs 29-44 *)
Inductive theory := Lia | Lira | Lra | Nia | Nira | Nra.
Definition theories : list theory := [Lia; Lira; Lra; Nia; Nira; Nra].
(** 227-238, with the derived order *)
Inductive complexity := PTime | NP | PSpace | Exptime | TwoExptime | Decidable | Undecidable | UnknownComplexity.
Definition crank (c : complexity) : nat :=
  match c with PTime => 0 | NP => 1 | PSpace => 2 | Exptime => 3 | TwoExptime => 4 | Decidable => 5 | Undecidable => 6 | UnknownComplexity => 7 end.
(** 240-269 *)
Definition from_theory (t : theory) (is_unbounded has_quantifiers : bool) : complexity :=
  if has_quantifiers then
    match t with Lia | Lira => TwoExptime | Lra => PTime | Nia | Nira => Undecidable | Nra => PSpace end
  else
    match t with
    | Lia => if is_unbounded then NP else PTime
    | Lira => NP | Lra => PTime | Nia | Nira => Undecidable | Nra => PSpace
    end.
(** 114-125 *)
Record probes := mkprobes { has_quant : bool; detected : theory -> bool; unbounded : bool }.
Fixpoint min_by (l : list complexity) : option complexity :=
  match l with
  | [] => None
  | c :: l => match min_by l with Some d => Some (if Nat.leb (crank c) (crank d) then c else d) | None => Some c end
  end.
(** 145-161; the parameter is called quantifier_free, but is used as has_quantifiers *)
Definition complexity_of (s : probes) (quantifier_free : bool) : complexity :=
  match min_by (flat_map (fun t => if detected s t then [from_theory t (unbounded s) quantifier_free] else []) theories) with
  | Some c => c
  | None => UnknownComplexity
  end.
(** sorted_by_key is stable *)
Fixpoint insert_by {A} (key : A -> nat) (a : A) (l : list A) : list A :=
  match l with [] => [a] | b :: l => if Nat.leb (key a) (key b) then a :: b :: l else b :: insert_by key a l end.
Definition sort_by {A} (key : A -> nat) (l : list A) : list A := fold_right (insert_by key) [] l.
(** 170-183: the theories shown as detected and as rejected *)
Definition shown_theories (s : probes) : list theory * list theory :=
  partition (detected s) (sort_by (fun t => crank (from_theory t (unbounded s) (has_quant s))) theories).
(** 191-200: the complexities shown, first the one without quantifiers if there are any *)
Definition shown_complexities (s : probes) : list complexity :=
  if has_quant s then [complexity_of s false; complexity_of s true] else [complexity_of s false].
