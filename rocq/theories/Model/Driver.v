(** The commands: which source units are verified, what the results amount to, and the exit code.  src/driver/commands/{verify,refinement}.rs,
    src/driver/{front,error}.rs, src/servers/{mod,cli}.rs.  What the stages compute for a source unit is modelled in other files; here a
    stage is a function into results.  Printing, timing and tracing are left out, printing a diagnostic never fails, and the time at which
    a resource limit is hit is part of the input ([p_limits]). *)
From Coq Require Import Bool List String.
From Verif.Model Require Import Syntax Builder TyCtx VcGen Subst Unfolder Pipeline.
Import ListNotations.

(** z3rro/src/prover.rs 19-23, z3rro/src/util.rs 124-128 *)
Inductive reason := RInterrupted | RTimeout | ROther.
Inductive result := RProof | RCounterexample | RUnknown (r : reason).
(** src/resource_limits.rs 42-49 *)
Inductive limit_error := LTimeout | LOom | LInterrupted.
(** ariadne's ReportKind *)
Inductive kind := KError | KWarning | KAdvice.
(** driver/error.rs 16-37.  [EPanicked]: a panic, in the task for verify (a JoinError), and in the process itself for entailment. *)
Inductive cerror := EDiag (k : kind) | EIo | ELimit (l : limit_error) | EUser | EServer | EPanicked.
Definition cres (A : Type) : Type := A + cerror.
Definition cbind {A B} (m : cres A) (f : A -> cres B) : cres B := match m with inl a => f a | inr e => inr e end.
Definition throw (e : option cerror) : cres unit := match e with None => inl tt | Some e => inr e end.
Notation "'let!' x := m 'in' f" := (cbind m (fun x => f)) (at level 200, x pattern, m at level 100, f at level 200).

(** servers/cli.rs 26-30: the server of the command line *)
Record server := mkserver { werr : bool; emitted : bool }.
Definition is_error (k : kind) : bool := match k with KError => true | _ => false end.
(** cli.rs 71-77 *)
Definition add_diagnostic (k : kind) (sv : server) : server := mkserver (werr sv) (emitted sv || werr sv || is_error k).
(** cli.rs 79-82, servers/mod.rs 217-223 *)
Definition add_or_throw (k : kind) (sv : server) : cres server := if is_error k || werr sv then inr (EDiag k) else inl (add_diagnostic k sv).

(** front.rs 307-313: a source unit; [UProc b]: a (co)procedure, with a body iff [b] *)
Inductive ukind := UProc (has_body : bool) | URaw | UOther.
Record item := mkitem { u_name : string; u_kind : ukind; u_dir : direction; u_params : list ident }.
(** front.rs 316-322 *)
Definition is_target (u : item) : bool := match u_kind u with UProc _ | URaw => true | UOther => false end.
(** core_verify.rs 79-123: whether there is a verification task *)
Definition has_task (u : item) : bool := match u_kind u with UProc b => b | URaw => true | UOther => false end.

(** The options that matter here. *)
Record doptions := mkdopt { o_filter : option string; o_no_verify : bool; o_output : bool }.

(** The stages. *)
Record parts := mkparts {
  p_parse : cres (list item);                       (* all files *)
  p_declare : item -> option cerror; p_resolve : item -> option cerror; p_tycheck : item -> option cerror;
  p_monotone : item -> option kind;
  p_regex : string -> option (string -> bool);
  p_jani : list item -> server -> cres server;      (* run_model_checking *)
  p_calculus : list item -> option cerror;          (* check_calculus_rules *)
  p_sound : list item -> item -> option bool;       (* get_soundness_map: sound_proofs *)
  p_encode : item -> cres (list item);              (* apply_encodings: the generated units *)
  p_depgraph : list item -> option cerror;
  p_limits : list item -> option limit_error;       (* check_limits, after these units *)
  p_lower : item -> server -> cres server;          (* lower_core_verify_task, lower_quant_prove_task *)
  p_solve : item -> cres result;                    (* run_smt_prove_task without the server *)
  p_interrupted : list item -> limit_error          (* interrupted_error *)
}.

Fixpoint each (f : item -> option cerror) (l : list item) : cres unit :=
  match l with
  | [] => inl tt
  | u :: l => let! _ := throw (f u) in each f l
  end.

(** front.rs 174-192 *)
Fixpoint tycheck (P : parts) (l : list item) (sv : server) : cres server :=
  match l with
  | [] => inl sv
  | u :: l =>
      let! _ := throw (p_tycheck P u) in
      let! sv := match p_monotone P u with None => inl sv | Some k => add_or_throw k sv end in
      tycheck P l sv
  end.
(** front.rs 194-206 *)
Definition retained (f : string -> bool) (l : list item) : list item := filter (fun u => negb (is_target u) || f (u_name u)) l.
(** front.rs 54-93 *)
Definition parse_and_tycheck (P : parts) (o : doptions) (sv : server) : cres (list item * server) :=
  let! l := p_parse P in
  let! _ := each (p_declare P) l in
  let! _ := each (p_resolve P) l in
  let! sv := tycheck P l sv in
  match o_filter o with
  | None => inl (l, sv)
  | Some re => match p_regex P re with None => inr EUser | Some f => inl (retained f l, sv) end
  end.

(** front.rs 212-231: the module with the new units, and the slice of it that is returned (front.rs 105-117) *)
Fixpoint encode_all (P : parts) (l : list item) : cres (list item) :=
  match l with
  | [] => inl []
  | u :: l => let! new := p_encode P u in let! more := encode_all P l in inl (new ++ more)
  end.
Definition extend (l new : list item) : list item * list item :=
  (l ++ new, match new with [] => [] | _ => skipn (List.length l + 1) (l ++ new) end).

(** verify.rs 225-236: [None] if there is no entry for the unit *)
Definition sound_proofs (o : option bool) : bool := match o with Some b => b | None => true end.
(** soundness_checker.rs 126-144, smt_proof.rs 580-582 *)
Definition report (sound : bool) (r : result) (sv : server) : server :=
  match r with RProof => if sound then sv else add_diagnostic KError sv | _ => sv end.
(** verify.rs 287-294, refinement.rs 170-177 *)
Definition stop (P : parts) (done : list item) (r : result) : option cerror :=
  match r with
  | RUnknown RInterrupted => Some (ELimit (p_interrupted P done))
  | RUnknown RTimeout => Some (ELimit LTimeout)
  | _ => None
  end.
(** verify.rs 244-301; the numbers of proven and failed units *)
Fixpoint verify_units (P : parts) (sound : item -> option bool) (done todo : list item) (sv : server) (ok bad : nat) : cres (nat * nat * server) :=
  match todo with
  | [] => inl (ok, bad, sv)
  | u :: todo =>
      let! _ := throw (option_map ELimit (p_limits P done)) in
      let! sv := p_lower P u sv in
      let! r := p_solve P u in
      let sv := report (sound_proofs (sound u)) r sv in
      let! _ := throw (stop P (done ++ [u]) r) in
      match r with
      | RProof => verify_units P sound (done ++ [u]) todo sv (S ok) bad
      | _ => verify_units P sound (done ++ [u]) todo sv ok (S bad)
      end
  end.

(** smt_proof.rs 331-340: with --no-verify the solver is not called *)
Definition skipping (o : doptions) (P : parts) : parts :=
  if o_no_verify o then
    mkparts (p_parse P) (p_declare P) (p_resolve P) (p_tycheck P) (p_monotone P) (p_regex P) (p_jani P) (p_calculus P) (p_sound P)
      (p_encode P) (p_depgraph P) (p_limits P) (p_lower P) (fun _ => inl (RUnknown ROther)) (p_interrupted P)
  else P.

(** verify.rs 159-314 *)
Definition verify_files_main (P : parts) (o : doptions) (sv : server) : cres (bool * server) :=
  let P := skipping o P in
  let! (l, sv) := parse_and_tycheck P o sv in
  let! sv := p_jani P l sv in
  let! _ := throw (p_calculus P l) in
  let sound := p_sound P l in
  let! new := encode_all P l in
  let m := fst (extend l new) in
  if o_no_verify o && negb (o_output o) then inl (true, sv)
  else
    let! _ := throw (p_depgraph P m) in
    let! (ok, bad, sv) := verify_units P sound [] (filter has_task m) sv 0 0 in
    inl (Nat.eqb bad 0, sv).

(** error.rs 39-85; a panic ends the process with 101.  The server is the one at the end of the run. *)
Definition failure (e : cerror) : nat :=
  match e with
  | EDiag _ | EIo | EUser => 1
  | ELimit LTimeout => 2
  | ELimit LOom => 3
  | ELimit LInterrupted => 130
  | EServer | EPanicked => 101
  end.
Definition finalize (r : cres (bool * server)) : nat :=
  match r with
  | inl (all, sv) => if emitted sv then 1 else if all then 0 else 1
  | inr e => failure e
  end.
(** verify.rs 54-68, without the limits on the whole task *)
Definition verify_command (P : parts) (o : doptions) (we : bool) : nat := finalize (verify_files_main P o (mkserver we false)).

(** * Entailment *)

(** refinement.rs 188-232; [inr EDiag]: the mapping errors.  A pair of names for each parameter of the coproc. *)
Fixpoint map_params (a b : list ident) : cres (list (ident * ident)) :=
  match a, b with
  | x :: a, y :: b =>
      if negb (String.eqb (iname x) (iname y)) then inr (EDiag KError)
      else if negb (ty_eqb (ity x) (ity y)) then inr (EDiag KError)
      else let! m := map_params a b in inl ((x, y) :: m)
  | _, _ => inl []
  end.
Definition mapping (a b : item) : cres (list (ident * ident)) :=
  match u_dir a, u_dir b with
  | Up, Down =>
      if negb (Nat.eqb (List.length (u_params a)) (List.length (u_params b))) then inr (EDiag KError) else map_params (u_params a) (u_params b)
  | _, _ => inr (EDiag KError)
  end.
(** refinement.rs 234-261 *)
Definition entails (m : list (ident * ident)) (first second : expr) : expr :=
  EBin (ty_of first) OImpl first (b_subst second (map (fun p => (snd p, EVar (fst p))) m)).

(** refinement.rs 131-155: the question for a pair with these bodies *)
Definition entail_question (o : opt_options) (orc : oracle) (qs : expr -> nat) (C : tcx) (T : tyctx) (m : list (ident * ident)) (a b : list stmt) : res expr :=
  let? e1 := vcgen_block C a (terminal Up) in
  let? e2 := vcgen_block C b (terminal Down) in
  lower o orc qs Down T (entails m e1 e2).

(** refinement.rs 87-101 *)
Definition has_body (u : item) : bool := match u_kind u with UProc b => b | _ => false end.
(** refinement.rs 103-178.  [p_lower]: of both, then of the entailment; [solve]: the solver's result for the pair. *)
Fixpoint entail_pairs (P : parts) (solve : item -> item -> cres result) (done l : list item) (sv : server) {struct l} : cres server :=
  match l with
  | [] => inl sv
  | [_] => inr EPanicked                           (* 106: no second unit *)
  | a :: b :: l =>
      let! _ := mapping a b in
      let! sv := p_lower P a sv in
      let! sv := p_lower P b sv in
      let! r := solve a b in
      let sv := report true r sv in
      let! _ := throw (stop P (done ++ [a; b]) r) in
      entail_pairs P solve (done ++ [a; b]) l sv
  end.
(** refinement.rs 47-181 *)
Definition verify_entailment (P : parts) (solve : item -> item -> cres result) (o : doptions) (sv : server) : cres (bool * server) :=
  let! (l, sv) := parse_and_tycheck P o sv in
  let! new := encode_all P l in
  let (m, generated) := extend l new in
  let sv := match generated with [] => sv | _ => add_diagnostic KError sv end in
  let! _ := throw (p_depgraph P m) in
  let! sv := entail_pairs P solve [] (filter has_body m) sv in
  inl (true, sv).
Definition entailment_command (P : parts) (solve : item -> item -> cres result) (o : doptions) (we : bool) : nat :=
  finalize (verify_entailment P solve o (mkserver we false)).

(** * The statuses shown in the editor: servers/mod.rs 69-119 *)
Inductive status := STodo | SOngoing | SVerified | SRefuted | SFailed | SUnknown | STimeout.
Definition status_of (sound_proof sound_refutation : bool) (r : result) : status :=
  match r with
  | RProof => if sound_proof then SVerified else SFailed
  | RCounterexample => if sound_refutation then SRefuted else SFailed
  | RUnknown _ => SUnknown
  end.
Definition combine_status (a b : status) : status :=
  match a, b with
  | SFailed, _ | _, SFailed => SFailed
  | SVerified, SVerified => SVerified
  | SRefuted, SRefuted => SRefuted
  | SUnknown, _ | _, SUnknown => SUnknown
  | STimeout, _ | _, STimeout => STimeout
  | SOngoing, _ | _, SOngoing => SOngoing
  | STodo, _ | _, STodo => STodo
  | SVerified, SRefuted | SRefuted, SVerified => SUnknown
  end.
(** servers/mod.rs 147-161: the status of a span *)
Definition shown (l : list status) : option status :=
  match l with [] => None | a :: l => Some (fold_left combine_status l a) end.
