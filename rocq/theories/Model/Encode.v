(** Replacing annotated loops, and the approximation each annotation is said to make:
    src/proof_rules/mod.rs, src/proof_rules/calculus/soundness_checker.rs,
    src/intrinsic/annotations.rs. *)
From Coq Require Import Bool List String NArith QArith.
From Verif.Model Require Import Syntax TyCtx ProofRules Procs LoopProcs.
Import ListNotations.
Local Open Scope list_scope.

(** mod.rs 142-171 (init_encodings); other annotation names are slicing annotations or calculi. *)
Inductive enc := Invariant | KInduction | Unroll | Omega | Ost | Past | Ast.
Definition enc_of (name : string) : option enc :=
  (if name =? "invariant" then Some Invariant else if name =? "k_induction" then Some KInduction
   else if name =? "unroll" then Some Unroll else if name =? "omega_invariant" then Some Omega
   else if name =? "ost" then Some Ost else if name =? "past" then Some Past
   else if name =? "ast" then Some Ast else None)%string.
(** is_terminator of each encoding; only ost.rs 388-390 says true *)
Definition is_terminator (e : enc) : bool := match e with Ost => true | _ => false end.

(** annotations.rs 165-200 *)
Inductive calculus := Wp | Wlp | Ert.
Definition is_induction_allowed (c : calculus) (d : direction) : bool :=
  match c, d with Wlp, Down | Wp, Up | Ert, Up => true | _, _ => false end.
Definition to_fp_kind (c : calculus) : fp_kind := match c with Wp | Ert => LFP | Wlp => GFP end.

(** default_fixpoint_semantics of each encoding.  A missing argument is a panic in unroll.rs 104 (two_args); type checking rules it out. *)
Definition default_kind (e : enc) (d : direction) (args : list expr) : fp_kind :=
  match e with
  | Invariant | KInduction => induction_default d
  | Unroll => match args with [_; t] => unroll_default d t | _ => LFP end
  | Omega => omega_default d
  | Ost | Past | Ast => LFP
  end.
(** mod.rs 77-87 *)
Definition infer_kind (e : enc) (c : option calculus) (d : direction) (args : list expr) : fp_kind :=
  match c with Some c => to_fp_kind c | None => default_kind e d args end.

(** The fixpoint that a loop with an annotation is taken to denote: soundness_checker.rs 284-293 *)
Definition assumed_kind (cal : option calculus) (d : direction) (name : string) (args : list expr) : fp_kind :=
  match enc_of name with Some e => infer_kind e cal d args | None => LFP end.

Definition is_exact (a : approx) : bool := a_under a && a_over a.
Definition exact_if_lfp (k : fp_kind) (inner : approx) : approx :=
  match k with LFP => if is_exact inner then EXACT else UNKNOWN | GFP => UNKNOWN end.
(** get_approximation: induction.rs 87-98, 165-176, unroll.rs 85-96, omega.rs 103-114, ost.rs 95-114, past.rs 87-108, mciver_ast.rs 130-149 *)
Definition get_approximation (e : enc) (k : fp_kind) (inner : approx) (c : option calculus) : approx :=
  match e with
  | Invariant | KInduction => induction_approx k inner
  | Unroll | Omega => unroll_approx k inner
  | Past => match c with Some Ert | None => exact_if_lfp k inner | _ => UNKNOWN end
  | Ost | Ast => match c with Some Wp | None => exact_if_lfp k inner | _ => UNKNOWN end
  end.

(** soundness_checker.rs 163-169 *)
Definition infimum (l : list approx) : approx := fold_left a_and l EXACT.
(** soundness_checker.rs 239-322 *)
Fixpoint track (d : direction) (c : option calculus) (s : stmt) {struct s} : list approx :=
  let block b := flat_map (track d c) b in
  match s with
  | SSeq b | SWhile _ b => block b
  | SIf _ b1 b2 | SDemonic b1 b2 | SAngelic b1 b2 => block b1 ++ block b2
  | SAnn name args s' =>
      let inner := track d c s' in
      match enc_of name with
      | Some e => inner ++ [get_approximation e (infer_kind e c d args) (infimum inner) c]
      | None => inner
      end
  | SNegate _ => [UNKNOWN]
  | _ => []
  end.
Definition track_block (d : direction) (c : option calculus) (b : list stmt) : list approx := flat_map (track d c) b.

(** 71-92 *)
Definition sound_proofs (d : direction) (l : list approx) : bool :=
  match d with Down => a_under (infimum l) | Up => a_over (infimum l) end.
Definition sound_refutations (d : direction) (l : list approx) : bool :=
  match d with Down => a_over (infimum l) | Up => a_under (infimum l) end.

(** * The visitor: mod.rs 237-396 *)
Section Visit.
(** Spans: the variant Encoding, the span and the file's dummy span of an annotation. *)
Variables (variant : nat -> nat) (cspan dspan : list expr -> nat).

(** The transformations; those in ProofRules.v generate no procedures. *)
Definition no_procs (T : tyctx) (r : res (list stmt)) : res (list stmt * list proc * tyctx) := let? b := r in Ok (b, [], T).
Definition transform (e : enc) (T : tyctx) (base : string) (d : direction) (args : list expr) (c : expr) (body : list stmt)
  : res (list stmt * list proc * tyctx) :=
  match e with
  | Invariant => no_procs T (invariant_transform args c body d)
  | KInduction => no_procs T (k_induction_transform args c body d)
  | Unroll => no_procs T (unroll_transform args c body d)
  | Omega => no_procs T (omega_transform args c body d)
  | Ost => ost_transform variant (dspan args) T base args c body
  | Past => past_transform variant (dspan args) T base args c body
  | Ast => ast_transform variant (cspan args) (dspan args) T base args c body
  end.

(** proc_context: name and direction of the procedure (its calculus is passed on but no transformation uses it) *)
Definition context := option (string * direction).
(** The visitor's state: is a terminator annotation behind us, the generated procedures, the symbol table. *)
Record vst := mkvst { v_term : bool; v_new : list proc; v_tcx : tyctx }.

(** visit.rs 224-291 (walk_stmt), for the statements in a block *)
Definition visit_block_with (f : stmt -> vst -> res (stmt * vst)) : list stmt -> vst -> res (list stmt * vst) :=
  fix go b v := match b with
                | [] => Ok ([], v)
                | s :: b' => let? (s', v1) := f s v in let? (b'', v2) := go b' v1 in Ok (s' :: b'', v2)
                end.
(** mod.rs 240-263 for generated procedures: their body is always there, they have no calculus *)
Definition visit_procs_with (f : context -> list stmt -> vst -> res (list stmt * vst)) : list proc -> vst -> res (list proc * vst) :=
  fix go ps v := match ps with
                 | [] => Ok ([], v)
                 | p :: ps' =>
                     let? (b, v1) := match pbody p with
                                     | Some b => let? (b', v1) := f (Some (pname p, pdir p)) b v in Ok (Some b', v1)
                                     | None => Ok (None, v)
                                     end in
                     let? (ps'', v2) := go ps' v1 in
                     Ok (mkproc (pdir p) (pname p) (pins p) (pouts p) (pspecs p) b :: ps'', v2)
                 end.

(** 265-395.  The visitor visits what it generated, so the recursion is not structural; [Panic "visitor fuel"] would be
    non-termination and is proved impossible (C38). *)
Fixpoint visit (n : nat) (ctx : context) (nest : nat) (s : stmt) (v : vst) {struct n} : res (stmt * vst) :=
  match n with
  | O => Panic "visitor fuel"
  | S n' =>
      let stop (k : res (stmt * vst)) := if v_term v then Err "NotTerminator" else k in
      let two nest mk b1 b2 :=
        let? (b1', v1) := visit_block_with (visit n' ctx nest) b1 v in
        let? (b2', v2) := visit_block_with (visit n' ctx nest) b2 v1 in
        Ok (mk b1' b2', v2) in
      match s with
      | SAnn name args s1 =>
          let? (s1', v1) := visit n' ctx (S nest) s1 v in
          match enc_of name with
          | None => Ok (SAnn name args s1', v1)
          | Some e =>
              match ctx with
              | None => Err "NotInProcedure"
              | Some (base, d) =>
                  match s1' with
                  | SWhile c body =>
                      if is_terminator e && Nat.ltb 0 nest then Err "NotTerminator" else
                      let? (g, T2) := transform e (v_tcx v1) base d args c body in
                      let v2 := mkvst (v_term v1) (v_new v1) T2 in
                      let? (b, v3) := visit_block_with (visit n' ctx nest) (fst g) v2 in
                      let? (ps, v4) := visit_procs_with (fun ctx => visit_block_with (visit n' ctx nest)) (snd g) v3 in
                      Ok (SSeq b, mkvst (v_term v4 || is_terminator e) (v_new v4 ++ ps) (v_tcx v4))
                  | _ => Err "NotOnWhile"
                  end
              end
          end
      | SSeq b => stop (let? (b', v1) := visit_block_with (visit n' ctx (S nest)) b v in Ok (SSeq b', v1))
      | SIf c b1 b2 => stop (two (S nest) (SIf c) b1 b2)
      | SDemonic b1 b2 => stop (two (S nest) SDemonic b1 b2)
      | SAngelic b1 b2 => stop (two (S nest) SAngelic b1 b2)
      | SAdditive b1 b2 => stop (two (S nest) SAdditive b1 b2)
      | SWhile c b => stop (let? (b', v1) := visit_block_with (visit n' ctx nest) b v in Ok (SWhile c b', v1))
      | _ => stop (Ok (s, v))
      end
  end.
Definition visit_block (n : nat) (ctx : context) (nest : nat) : list stmt -> vst -> res (list stmt * vst) :=
  visit_block_with (visit n ctx nest).
(** mod.rs 237-263: the visitor is created anew for every source unit (driver/front.rs 217) *)
Definition encode_proc (n : nat) (T : tyctx) (p : proc) : res (option (list stmt) * vst) :=
  let v := mkvst false [] T in
  match pbody p with
  | None => Ok (None, v)
  | Some b => let? (b', v1) := visit_block n (Some (pname p, pdir p)) 0 b v in Ok (Some b', v1)
  end.
End Visit.
