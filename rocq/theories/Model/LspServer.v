(** The language server: its files, what it records and publishes about documents, and its loop over the client's messages.
    src/servers/lsp.rs, src/servers/mod.rs 28-171, src/ast/diagnostic.rs 20-35, 78-169 and 234-315, src/driver/commands/verify.rs 78-104 and
    162-314 as far as it talks to the server.
    What the verifier computes is an input ([vrun]).  Left out: JSON, the notes and labels of diagnostics, the counts of statuses, whether
    sending fails (the client always receives), and the order in which a [HashMap] is traversed (here the order of insertion). *)
From Coq Require Import Bool List String ZArith NArith Arith.
From Verif.Model Require Import Syntax Driver.
Import ListNotations.

(** * Files: src/ast/diagnostic.rs *)

(** lsp_types::VersionedTextDocumentIdentifier *)
Record docid := mkdoc { d_uri : string; d_version : Z }.
(** 27-33; a language server has no other files *)
Inductive path := PLsp (d : docid) | PBuiltin.
(** The characters of a text *)
Definition text := list N.
(** 78-83; the id of a file is its position, from 1, and 0 is [FileId::DUMMY] *)
Record file := mkfile { f_path : path; f_source : text }.
Definition files := list file.

Definition doc_eqb (a b : docid) : bool := String.eqb (d_uri a) (d_uri b) && Z.eqb (d_version a) (d_version b).
Definition has_uri (u : string) (f : file) : bool := match f_path f with PLsp d => String.eqb (d_uri d) u | PBuiltin => false end.
Definition is_doc (d : docid) (f : file) : bool := match f_path f with PLsp e => doc_eqb e d | PBuiltin => false end.

(** 130-134: an id is a u16 *)
Definition add_file (f : file) (fs : files) : res files :=
  if (N.of_nat (List.length fs) + 1 <=? 65535)%N then Ok (fs ++ [f]) else Panic "called `Result::unwrap()` on an `Err` value".
(** 136-153 *)
Fixpoint replace_uri (u : string) (f : file) (fs : files) : option files :=
  match fs with
  | [] => None
  | g :: fs => if has_uri u g then Some (f :: fs) else option_map (cons g) (replace_uri u f fs)
  end.
Definition add_or_update (d : docid) (t : text) (fs : files) : res files :=
  match replace_uri (d_uri d) (mkfile (PLsp d) t) fs with Some fs => Ok fs | None => add_file (mkfile (PLsp d) t) fs end.
(** 155-158, with the unwrap of its callers *)
Definition get_file (id : nat) (fs : files) : res file :=
  match id with
  | 0 => Panic "assertion `left != right` failed"
  | S n => match nth_error fs n with Some f => Ok f | None => Panic "called `Option::unwrap()` on a `None` value" end
  end.
(** 160-169: the id of the first such file *)
Fixpoint find_from (n : nat) (p : file -> bool) (fs : files) : option nat :=
  match fs with [] => None | f :: fs => if p f then Some n else find_from (S n) p fs end.
Definition find_file (p : file -> bool) (fs : files) : option nat := find_from 1 p fs.

(** 236-241; the variants of spans are left out: statuses are grouped without them (servers/mod.rs 150-153) *)
Record span := mkspan { s_file : nat; s_start : nat; s_end : nat }.
Definition span_eqb (a b : span) : bool := Nat.eqb (s_file a) (s_file b) && Nat.eqb (s_start a) (s_start b) && Nat.eqb (s_end a) (s_end b).

(** The bytes of a character in UTF-8 *)
Definition utf8_len (c : N) : nat := if (c <? 128)%N then 1 else if (c <? 2048)%N then 2 else if (c <? 65536)%N then 3 else 4.
(** str::is_char_boundary *)
Fixpoint is_boundary (t : text) (i : nat) : bool :=
  match t with
  | [] => Nat.eqb i 0
  | c :: t => Nat.eqb i 0 || (Nat.leb (utf8_len c) i && is_boundary t (i - utf8_len c))
  end.
(** 96-111 *)
Definition count_boundaries (t : text) (from len : nat) : nat := List.length (filter (is_boundary t) (seq from len)).
Definition char_span (t : text) (s : span) : res (nat * nat) :=
  if Nat.leb (s_start s) (s_end s) then
    let a := count_boundaries t 0 (s_start s) in
    Ok (a, a + count_boundaries t (s_start s) (s_end s - s_start s))
  else Panic "assertion failed: span.start <= span.end".

Definition position : Type := nat * nat.
Definition range : Type := position * position.
(** 287-305: one step over a character, and the loop *)
Definition advance (c : N) (p : position) : position := if (c =? 10)%N then (S (fst p), 0) else (fst p, S (snd p)).
Fixpoint scan (i : nat) (t : text) (from to : nat) (start here : position) : range :=
  match t with
  | [] => (start, here)
  | c :: t =>
      if Nat.eqb i to then (start, here)
      else scan (S i) t from to (if Nat.eqb i from then here else start) (advance c here)
  end.
(** 280-319 *)
Definition to_lsp (fs : files) (s : span) : res (option (docid * range)) :=
  let? f := get_file (s_file s) fs in
  let? (a, b) := char_span (f_source f) s in
  Ok (match f_path f with PLsp d => Some (d, scan 0 (f_source f) a b (0, 0) (0, 0)) | PBuiltin => None end).

(** * The state: servers/mod.rs, lsp.rs *)

(** driver/item.rs 12-20; [n_id]: the path and the declared name *)
Record uname := mkname { n_id : string; n_span : span }.
Definition name_eqb (a b : uname) : bool := String.eqb (n_id a) (n_id b) && span_eqb (n_span a) (n_span b).
Record diag := mkdiag { g_kind : kind; g_span : span; g_msg : string }.
Record expl := mkexpl { x_span : span; x_block : bool; x_text : list (string * string) }.
(** servers/mod.rs 56-65 *)
Inductive ftype := FTodo | FOngoing | FInvalid | FTimeout | FDone.
(** servers/mod.rs 39-54 *)
Record fstatus := mkfs { t_type : ftype; t_statuses : list (uname * status); t_diags : list diag; t_expls : list expl }.
Definition no_status : fstatus := mkfs FTodo [] [] [].

(** What the client receives: lsp.rs 52-65 and the responses *)
Inductive reply := RepOk | RepCancelled | RepError.
Inductive message :=
| MDiag (d : docid) (l : list (range * diag))
| MStatus (d : docid) (ty : ftype) (l : list (range * status))
| MPre (d : docid) (l : list (range * expl))
| MReply (id : nat) (r : reply).

(** lsp.rs 68-77; [v_werr] is the option; [v_sent]: the messages sent so far; [v_seen]: the texts verified so far, which only the theorems use *)
Record lserver := mksv { v_werr : bool; v_files : files; v_status : list (nat * fstatus); v_sent : list message; v_seen : list (docid * text) }.
Definition with_files (fs : files) (V : lserver) : lserver := mksv (v_werr V) fs (v_status V) (v_sent V) (v_seen V).
Definition with_status (l : list (nat * fstatus)) (V : lserver) : lserver := mksv (v_werr V) (v_files V) l (v_sent V) (v_seen V).
Definition send (l : list message) (V : lserver) : lserver := mksv (v_werr V) (v_files V) (v_status V) (v_sent V ++ l) (v_seen V).
Definition seeing (d : docid) (t : text) (V : lserver) : lserver := mksv (v_werr V) (v_files V) (v_status V) (v_sent V) (v_seen V ++ [(d, t)]).

(** HashMap: entry(id).and_modify(f), and entry(id).or_default() followed by f *)
Fixpoint modify (id : nat) (f : fstatus -> fstatus) (l : list (nat * fstatus)) : list (nat * fstatus) :=
  match l with [] => [] | (i, s) :: l => if Nat.eqb i id then (i, f s) :: l else (i, s) :: modify id f l end.
Definition lookup (id : nat) (l : list (nat * fstatus)) : option fstatus := option_map snd (find (fun p => Nat.eqb (fst p) id) l).
Definition entry_or_default (id : nat) (f : fstatus -> fstatus) (l : list (nat * fstatus)) : list (nat * fstatus) :=
  match lookup id l with Some _ => modify id f l | None => l ++ [(id, f no_status)] end.

(** servers/mod.rs 127-132: IndexMap::insert keeps the position of a known key *)
Fixpoint insert_status (n : uname) (s : status) (l : list (uname * status)) : option (list (uname * status)) :=
  match l with
  | [] => None
  | (m, r) :: l => if name_eqb m n then Some ((m, s) :: l) else option_map (cons (m, r)) (insert_status n s l)
  end.
Definition update_status (n : uname) (s : status) (l : list (uname * status)) : res (list (uname * status)) :=
  match insert_status n s l, s with
  | Some l, _ => Ok l
  | None, STodo => Ok (l ++ [(n, s)])
  | None, _ => Panic "Must first register the source unit with Todo result before adding any other result"
  end.
(** servers/mod.rs 98-101 *)
Definition is_completed (s : status) : bool := match s with STodo | SOngoing => false | _ => true end.
(** servers/mod.rs 134-145 *)
Definition timeout_status (p : uname * status) : uname * status := (fst p, if is_completed (snd p) then snd p else STimeout).
(** servers/mod.rs 147-161 *)
Fixpoint insert_span (p : span) (s : status) (l : list (span * status)) : list (span * status) :=
  match l with
  | [] => [(p, s)]
  | (q, r) :: l => if span_eqb q p then (q, combine_status r s) :: l else (q, r) :: insert_span p s l
  end.
Definition by_span (l : list (uname * status)) : list (span * status) :=
  fold_left (fun acc p => insert_span (n_span (fst p)) (snd p) acc) l [].

(** map and flat_map, stopping at a panic *)
Fixpoint rmap {A B} (f : A -> res B) (l : list A) : res (list B) :=
  match l with [] => Ok [] | a :: l => let? b := f a in let? bs := rmap f l in Ok (b :: bs) end.
Definition somes {A} (l : list (option A)) : list A := flat_map (fun o => match o with Some a => [a] | None => [] end) l.

(** A span's range, and the datum shown there *)
Definition ranged {A} (fs : files) (sp : A -> span) (a : A) : res (option (range * A)) :=
  let? o := to_lsp fs (sp a) in Ok (option_map (fun p => (snd p, a)) o).
(** Publishing for all documents: lsp.rs 192-218 (here [as_lsp_diagnostic] has a result, since a diagnostic is stored for the file of its
    span), 220-245 and 247-291 *)
Definition publish (mk : docid -> fstatus -> files -> res message) (V : lserver) : res lserver :=
  let? l := rmap (fun p : nat * fstatus =>
    let? f := get_file (fst p) (v_files V) in
    match f_path f with
    | PBuiltin => Ok None
    | PLsp d => let? m := mk d (snd p) (v_files V) in Ok (Some m)
    end) (v_status V) in
  Ok (send (somes l) V).
Definition diag_message (d : docid) (s : fstatus) (fs : files) : res message :=
  let? l := rmap (ranged fs g_span) (t_diags s) in Ok (MDiag d (somes l)).
Definition expl_message (d : docid) (s : fstatus) (fs : files) : res message :=
  let? l := rmap (ranged fs x_span) (t_expls s) in Ok (MPre d (somes l)).
Definition status_message (d : docid) (s : fstatus) (fs : files) : res message :=
  let? l := rmap (ranged fs fst) (by_span (t_statuses s)) in
  Ok (MStatus d (t_type s) (map (fun p : range * (span * status) => (fst p, snd (snd p))) (somes l))).
Definition publish_diagnostics := publish diag_message.
Definition publish_explanations := publish expl_message.
Definition publish_statuses := publish status_message.

(** lsp.rs 405-415 *)
Definition lsp_add_diagnostic (g : diag) (V : lserver) : res lserver :=
  publish_diagnostics (with_status (entry_or_default (s_file (g_span g)) (fun s => mkfs (t_type s) (t_statuses s) (t_diags s ++ [g]) (t_expls s)) (v_status V)) V).
Fixpoint add_diagnostics (l : list diag) (V : lserver) : res lserver :=
  match l with [] => Ok V | g :: l => let? V := lsp_add_diagnostic g V in add_diagnostics l V end.
(** lsp.rs 422-441; shrinking an explanation to its block changes only the span *)
Definition lsp_add_explanation (l : list expl) (V : lserver) : res lserver :=
  publish_explanations (with_status (fold_left (fun st x => entry_or_default (s_file (x_span x)) (fun s => mkfs (t_type s) (t_statuses s) (t_diags s) (t_expls s ++ [x])) st) l (v_status V)) V).
(** A change of the statuses recorded for the file of a unit *)
Definition on_statuses (n : uname) (st : status) (l : list (nat * fstatus)) : res (list (nat * fstatus)) :=
  let id := s_file (n_span n) in
  let? u := update_status n st (match lookup id l with Some s => t_statuses s | None => [] end) in
  Ok (entry_or_default id (fun s => mkfs (t_type s) u (t_diags s) (t_expls s)) l).
(** lsp.rs 443-464 *)
Definition lsp_register (n : uname) (k : ukind) (V : lserver) : res lserver :=
  match k with
  | UProc true => let? l := on_statuses n STodo (v_status V) in publish_statuses (with_status l V)
  | _ => Ok (with_status (entry_or_default (s_file (n_span n)) (fun s => s) (v_status V)) V)
  end.
(** lsp.rs 481-491 *)
Definition lsp_set_type (id : nat) (ty : ftype) (V : lserver) : res lserver :=
  publish_statuses (with_status (entry_or_default id (fun s => mkfs ty (t_statuses s) (t_diags s) (t_expls s)) (v_status V)) V).
(** lsp.rs 466-479 *)
Definition lsp_set_ongoing (n : uname) (V : lserver) : res lserver :=
  let? l := on_statuses n SOngoing (v_status V) in
  let? V := lsp_set_type (s_file (n_span n)) FOngoing (with_status l V) in
  publish_statuses V.
(** lsp.rs 493-525; [l]: the diagnostics of smt_proof.rs 594-676 *)
Definition lsp_result (n : uname) (l : list diag) (st : status) (V : lserver) : res lserver :=
  let? V := add_diagnostics l V in
  let? fl := on_statuses n st (v_status V) in
  let id := s_file (n_span n) in
  let fl := match lookup id fl with
    | Some s => if forallb (fun p => is_completed (snd p)) (t_statuses s)
                then modify id (fun s => mkfs FDone (t_statuses s) (t_diags s) (t_expls s)) fl else fl
    | None => fl
    end in
  publish_statuses (with_status fl V).
(** lsp.rs 329-337 *)
Definition clear_reported (id : nat) (V : lserver) : res lserver :=
  let? V := publish_diagnostics (with_status (modify id (fun _ => no_status) (v_status V)) V) in
  publish_statuses V.
(** lsp.rs 293-327 *)
Definition timeout_diags (s : fstatus) : list diag :=
  flat_map (fun p : uname * status => match snd p with
    | SOngoing => [mkdiag KError (n_span (fst p)) "Timed out while verifying this procedure"]
    | STodo => [mkdiag KWarning (n_span (fst p)) "Skipped this procedure due to timeout"]
    | _ => []
    end) (t_statuses s).
Definition handle_timeout (V : lserver) : res lserver :=
  let ds := flat_map (fun p : nat * fstatus => timeout_diags (snd p)) (v_status V) in
  let l := map (fun p : nat * fstatus => (fst p, mkfs (t_type (snd p)) (map timeout_status (t_statuses (snd p))) (t_diags (snd p)) (t_expls (snd p)))) (v_status V) in
  let? V := add_diagnostics ds (with_status l V) in
  publish_statuses V.

(** * A verification: verify.rs 162-314 *)

(** driver/error.rs 16-37, with the diagnostic *)
Inductive verror := VDiag (g : diag) | VLimit (l : limit_error) | VOther | VPanic.
(** What the stages yield for one unit: its slicing diagnostics, core explanations and errors (lowering), the solver's answer and the
    diagnostics for it, and whether proofs and refutations of it are sound *)
Record vunit := mkvu {
  u_uname : uname; u_ukind : ukind; u_slicing : list diag; u_core : list expl; u_lower : option verror;
  u_solved : result + verror; u_report : list diag; u_sound : bool * bool }.
(** What the stages yield for one text *)
Record vrun := mkvr {
  r_early : option limit_error;      (* await_with_resource_limits, resource_limits.rs 63: stopped before the start *)
  r_parse : option verror;
  r_warn : list diag; r_front : option verror;      (* resolving, checking types and monotonicity *)
  r_units : list vunit;                             (* after --filter *)
  r_expl : list expl; r_mid_diags : list diag; r_mid : option verror;   (* explanations, model checking, calculus rules *)
  r_gen : list vunit + verror;                      (* apply_encodings *)
  r_quiet : bool;                                   (* --no-verify without output *)
  r_depgraph : option verror;
  r_limits : nat -> option limit_error;             (* check_limits before the n-th unit *)
  r_interrupted : limit_error;
  r_hard : option limit_error        (* await_with_resource_limits 65-79: the hard time limit or the memory limit *)
}.

(** A stage: the server afterwards, and the error that ends the verification, if any *)
Definition stage : Type := res (lserver * option verror).
Definition andthen (m : stage) (f : lserver -> stage) : stage :=
  let? (V, e) := m in match e with None => f V | Some e => Ok (V, Some e) end.
Notation "'let!!' x := m 'in' f" := (andthen m (fun x => f)) (at level 200, x name, m at level 100, f at level 200).
Definition good (m : res lserver) : stage := let? V := m in Ok (V, None).
(** A panic poisons the mutex of the server, whose next [lock().unwrap()] ends it *)
Definition raise (e : option verror) (V : lserver) : stage := match e with Some VPanic => Panic "PoisonError" | e => Ok (V, e) end.
(** lsp.rs 417-420, servers/mod.rs 217-223 *)
Definition lsp_add_or_throw (g : diag) (V : lserver) : stage :=
  if is_error (g_kind g) || v_werr V then Ok (V, Some (VDiag g)) else good (lsp_add_diagnostic g V).
Fixpoint add_or_throw_all (l : list diag) (V : lserver) : stage :=
  match l with [] => Ok (V, None) | g :: l => let!! V := lsp_add_or_throw g V in add_or_throw_all l V end.

(** front.rs 298-306: distributions.rs 115-175 (5), annotations.rs 257-260 (1), proof_rules/mod.rs 152-180 (7) add a file each, and the
    server keeps them *)
Definition builtins : nat := 13.
Fixpoint add_builtins (n : nat) (fs : files) : res files :=
  match n with 0 => Ok fs | S n => let? fs := add_file (mkfile PBuiltin []) fs in add_builtins n fs end.

Fixpoint register_all (l : list vunit) (V : lserver) : res lserver :=
  match l with [] => Ok V | u :: l => let? V := lsp_register (u_uname u) (u_ukind u) V in register_all l V end.
(** core_verify.rs 79-123 *)
Definition task (u : vunit) : bool := match u_ukind u with UProc b => b | URaw => true | UOther => false end.
(** verify.rs 246-301 *)
Definition verify_unit (R : vrun) (n : nat) (u : vunit) (V : lserver) : stage :=
  let!! V := raise (option_map VLimit (r_limits R n)) V in
  let!! V := good (lsp_set_ongoing (u_uname u) V) in
  let!! V := add_or_throw_all (u_slicing u) V in
  let!! V := good (match u_core u with [] => Ok V | l => lsp_add_explanation l V end) in
  let!! V := raise (u_lower u) V in
  match u_solved u with
  | inr e => raise (Some e) V
  | inl r =>
      let!! V := good (lsp_result (u_uname u) (u_report u) (status_of (fst (u_sound u)) (snd (u_sound u)) r) V) in
      match r with
      | RUnknown RInterrupted => Ok (V, Some (VLimit (r_interrupted R)))
      | RUnknown RTimeout => Ok (V, Some (VLimit LTimeout))
      | _ => Ok (V, None)
      end
  end.
Fixpoint verify_all (R : vrun) (n : nat) (l : list vunit) (V : lserver) : stage :=
  match l with [] => Ok (V, None) | u :: l => let!! V := verify_unit R n u V in verify_all R (S n) l V end.
Definition verify_main (R : vrun) (V : lserver) : stage :=
  let!! V := raise (r_parse R) V in
  let!! V := good (let? fs := add_builtins builtins (v_files V) in Ok (with_files fs V)) in
  let!! V := add_or_throw_all (r_warn R) V in
  let!! V := raise (r_front R) V in
  let!! V := good (register_all (r_units R) V) in
  let!! V := good (match r_expl R with [] => Ok V | l => lsp_add_explanation l V end) in
  let!! V := good (add_diagnostics (r_mid_diags R) V) in
  let!! V := raise (r_mid R) V in
  match r_gen R with
  | inr e => raise (Some e) V
  | inl g =>
      let!! V := good (register_all g V) in
      if r_quiet R then Ok (V, None)
      else
        let!! V := raise (r_depgraph R) V in
        verify_all R 0 (filter task (r_units R ++ g)) V
  end.
(** verify.rs 78-104, resource_limits.rs 55-80.  If the hard limit is hit, the verifier still holds the server's mutex, so the request goes on
    when it is done. *)
Definition verify_with_limits (R : vrun) (V : lserver) : stage :=
  match r_early R with
  | Some l => Ok (V, Some (VLimit l))
  | None =>
      let? (V, e) := verify_main R V in
      Ok (V, match r_hard R with Some l => Some (VLimit l) | None => e end)
  end.
(** lsp.rs 359-386 *)
Definition handle_result (id : nat) (file : nat) (e : option verror) (V : lserver) : res lserver :=
  match e with
  | None => Ok (send [MReply id RepOk] V)
  | Some (VLimit LInterrupted) => Ok (send [MReply id RepCancelled] V)
  | Some (VDiag g) => let? V := lsp_add_diagnostic g V in let? V := lsp_set_type file FInvalid V in Ok (send [MReply id RepOk] V)
  | Some (VLimit (LTimeout | LOom)) => let? V := handle_timeout V in let? V := lsp_set_type file FTimeout V in Ok (send [MReply id RepOk] V)
  | Some (VOther | VPanic) => Ok (send [MReply id RepError] V)
  end.

(** The verifier: the number of the request, whether it is cancelled, the id of the file, its name and its text *)
Definition verifier : Type := nat -> bool -> nat -> docid -> text -> vrun.
(** lsp.rs 339-357 and 570-599 *)
Definition run_request (W : verifier) (n : nat) (cancelled : bool) (id : nat) (d : docid) (V : lserver) : res lserver :=
  match find_file (is_doc d) (v_files V) with
  | None => Panic "Could not find file id for document"
  | Some f =>
      let? V := clear_reported f V in
      let? fl := get_file f (v_files V) in
      let V := seeing d (f_source fl) V in
      let? (V, e) := verify_with_limits (W n cancelled f d (f_source fl)) V in
      handle_result id f e V
  end.

(** * The loop *)

(** lsp.rs 130-190; [NBad]: parameters that cannot be read *)
Inductive notif := NOpen (d : docid) (lang : string) (t : text) | NChange (d : docid) (changes : list text) | NClose (u : string) | NOther | NBad.
Definition handle_notification (n : notif) (V : lserver) : res lserver :=
  match n with
  | NOpen d lang t => if String.eqb lang "heyvl" then let? fs := add_or_update d t (v_files V) in Ok (with_files fs V) else Ok V
  | NChange d [t] => let? fs := add_or_update d t (v_files V) in Ok (with_files fs V)
  | NChange _ _ => Panic "assertion `left == right` failed"
  | NClose u =>
      match find_file (has_uri u) (v_files V) with
      | None => Panic "Could not find file id for document"
      | Some f => clear_reported f V
      end
  | NOther => Ok V
  | NBad => Err "ServerError"
  end.
Fixpoint handle_all (l : list notif) (V : lserver) : res lserver :=
  match l with [] => Ok V | n :: l => let? V := handle_notification n V in handle_all l V end.

Inductive input := INotif (n : notif) | IVerify (id : nat) (d : docid) | IBadVerify (id : nat) | IShutdown (id : nat) | IRequest (id : nat) | IResponse.

(** lsp.rs 528-531.  While a request is active nothing but its task uses the server, so the task's effect is computed when it is awaited:
    [l_active] is the request, with its number. *)
Record lsp := mklsp { l_server : lserver; l_active : option (nat * nat * option docid); l_queued : list notif; l_count : nat }.
(** lsp.rs 540-567 *)
Definition process (W : verifier) (cancel : bool) (L : lsp) : res lsp :=
  let? V := match l_active L with
    | None => Ok (l_server L)
    | Some (n, id, Some d) => run_request W n cancel id d (l_server L)
    | Some (_, _, None) => Err "ServerError"
    end in
  let? V := handle_all (l_queued L) V in
  Ok (mklsp V None [] (l_count L)).
(** lsp.rs 602-665; [fin]: whether the active task has finished when the message arrives *)
Definition start_task (W : verifier) (id : nat) (d : option docid) (L : lsp) : res lsp :=
  let? L := process W true L in
  Ok (mklsp (l_server L) (Some (l_count L, id, d)) (l_queued L) (S (l_count L))).
Definition lstep (W : verifier) (L : lsp) (i : input * bool) : res lsp :=
  let? L := if snd i && (match l_active L with Some _ => true | None => false end) then process W false L else Ok L in
  match fst i with
  | IVerify id d => start_task W id (Some d) L
  | IBadVerify id => start_task W id None L
  | IShutdown id => let? L := process W true L in Ok (mklsp (send [MReply id RepOk] (l_server L)) (l_active L) (l_queued L) (l_count L))
  | IRequest _ => Ok L
  | IResponse => Panic "not yet implemented"
  | INotif n =>
      match l_active L with
      | Some _ => Ok (mklsp (l_server L) (l_active L) (l_queued L ++ [n]) (l_count L))
      | None => let? V := handle_notification n (l_server L) in Ok (mklsp V None (l_queued L) (l_count L))
      end
  end.
Fixpoint lrun (W : verifier) (L : lsp) (l : list (input * bool)) : res lsp :=
  match l with [] => Ok L | i :: l => let? L := lstep W L i in lrun W L l end.
(** connect_stdio, and a whole session, until the client closes the connection *)
Definition lstart (werr : bool) : lsp := mklsp (mksv werr [] [] [] []) None [] 0.
Definition session (W : verifier) (werr : bool) (l : list (input * bool)) : res lsp :=
  let? L := lrun W (lstart werr) l in process W true L.
