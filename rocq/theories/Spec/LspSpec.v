(** What a client can expect of the language server, in terms of the messages alone. *)
From Coq Require Import Bool List String ZArith NArith.
From Verif.Model Require Import Syntax Driver LspServer.
Import ListNotations.

(** The contents that a notification gives to a document. *)
Definition tells (u : string) (n : notif) : option (docid * text) :=
  match n with
  | NOpen d lang t => if String.eqb lang "heyvl" && String.eqb (d_uri d) u then Some (d, t) else None
  | NChange d [t] => if String.eqb (d_uri d) u then Some (d, t) else None
  | _ => None
  end.
(** The latest contents of a document. *)
Fixpoint latest (u : string) (l : list notif) : option (docid * text) :=
  match l with [] => None | n :: l => match latest u l with Some c => Some c | None => tells u n end end.

(** The notifications among the messages, the documents to be verified, each with what it should contain, and the requests to be answered. *)
Definition notifs (l : list input) : list notif := flat_map (fun i => match i with INotif n => [n] | _ => [] end) l.
Fixpoint wanted (before : list notif) (l : list input) : list (docid * option (docid * text)) :=
  match l with
  | [] => []
  | INotif n :: l => wanted (before ++ [n]) l
  | IVerify _ d :: l => (d, latest (d_uri d) before) :: wanted before l
  | _ :: l => wanted before l
  end.
Definition requests (l : list input) : list nat :=
  flat_map (fun i => match i with IVerify id _ | IBadVerify id | IShutdown id => [id] | _ => [] end) l.
Definition verifications (l : list input) : nat := List.length (flat_map (fun i => match i with IVerify _ d => [d] | _ => [] end) l).
Definition replies (l : list message) : list nat := flat_map (fun m => match m with MReply id _ => [id] | _ => [] end) l.

(** A client that follows the protocol: it verifies documents by their latest version, closes only documents it has opened, sends whole
    texts and well-formed messages. *)
Fixpoint polite (before : list notif) (l : list input) : Prop :=
  match l with
  | [] => True
  | INotif n :: l =>
      match n with
      | NChange _ ts => List.length ts = 1
      | NClose u => latest u before <> None
      | NBad => False
      | _ => True
      end /\ polite (before ++ [n]) l
  | IVerify _ d :: l => (exists t, latest (d_uri d) before = Some (d, t)) /\ polite before l
  | IBadVerify _ :: _ | IResponse :: _ => False
  | _ :: l => polite before l
  end.

(** A verifier that reports only about the file it is given, has only procedures as verification tasks (no option --raw), and does not
    panic. *)
Definition here (f : nat) (s : span) : Prop := s_file s = f /\ s_start s <= s_end s.
Definition error_here (f : nat) (e : verror) : Prop := match e with VDiag g => here f (g_span g) | VPanic => False | _ => True end.
Definition unit_here (f : nat) (u : vunit) : Prop :=
  here f (n_span (u_uname u)) /\ u_ukind u <> URaw /\
  Forall (fun g => here f (g_span g)) (u_slicing u ++ u_report u) /\ Forall (fun x => here f (x_span x)) (u_core u) /\
  (forall e, u_lower u = Some e -> error_here f e) /\ (forall e, u_solved u = inr e -> error_here f e).
Definition run_here (f : nat) (R : vrun) : Prop :=
  (forall e, r_parse R = Some e \/ r_front R = Some e \/ r_mid R = Some e \/ r_depgraph R = Some e \/ r_gen R = inr e -> error_here f e) /\
  Forall (fun g => here f (g_span g)) (r_warn R ++ r_mid_diags R) /\ Forall (fun x => here f (x_span x)) (r_expl R) /\
  Forall (unit_here f) (r_units R) /\ (forall g, r_gen R = inl g -> Forall (unit_here f) g).

(** A place in a text: the line and the number of characters before it on its line. *)
Definition place (before : text) : position := fold_left (fun p c => advance c p) before (0, 0).
(** The bytes of a text *)
Definition bytes (t : text) : nat := list_sum (map utf8_len t).

(** What the client shows for a document, from the messages it has received. *)
Definition shown_status (u : string) (l : list message) : ftype * list (range * status) :=
  fold_left (fun acc m => match m with MStatus d ty s => if String.eqb (d_uri d) u then (ty, s) else acc | _ => acc end) l (FTodo, []).
Definition shown_diags (u : string) (l : list message) : list (range * diag) :=
  fold_left (fun acc m => match m with MDiag d s => if String.eqb (d_uri d) u then s else acc | _ => acc end) l [].
Definition shown_expls (u : string) (l : list message) : list (range * expl) :=
  fold_left (fun acc m => match m with MPre d s => if String.eqb (d_uri d) u then s else acc | _ => acc end) l [].

(** A verification that finishes: no stage fails, and the solver answers for every procedure. *)
Definition calm (werr : bool) (l : list diag) : Prop := Forall (fun g => is_error (g_kind g) = false /\ werr = false) l.
Definition unit_finishes (werr : bool) (u : vunit) : Prop :=
  calm werr (u_slicing u) /\ u_lower u = None /\ exists r, u_solved u = inl r /\ r <> RUnknown RInterrupted /\ r <> RUnknown RTimeout.
Definition tasks (R : vrun) (g : list vunit) : list vunit := filter task (r_units R ++ g).
Definition finishes (werr : bool) (R : vrun) (g : list vunit) : Prop :=
  r_early R = None /\ r_hard R = None /\ r_parse R = None /\ r_front R = None /\ r_mid R = None /\ r_depgraph R = None /\
  r_gen R = inl g /\ r_quiet R = false /\ calm werr (r_warn R) /\ (forall n, r_limits R n = None) /\ Forall (unit_finishes werr) (tasks R g).
(** The status of a procedure whose verification has finished *)
Definition final (u : vunit) : status :=
  match u_solved u with
  | inl RProof => if fst (u_sound u) then SVerified else SFailed
  | inl RCounterexample => if snd (u_sound u) then SRefuted else SFailed
  | _ => SUnknown
  end.
(** What should be recorded afterwards *)
Definition report (R : vrun) (g : list vunit) : fstatus :=
  mkfs (match tasks R g with [] => FTodo | _ => FDone end) (map (fun u => (u_uname u, final u)) (tasks R g))
    (r_warn R ++ r_mid_diags R ++ flat_map (fun u => u_slicing u ++ u_report u) (tasks R g))
    (r_expl R ++ flat_map u_core (tasks R g)).

(** The range of a non-empty span of a text *)
Definition text_range (t : text) (s : span) (r : range) : Prop :=
  exists a b c, t = a ++ b ++ c /\ b <> [] /\ s_start s = bytes a /\ s_end s = bytes (a ++ b) /\ r = (place a, place (a ++ b)).

(** The units of a verification, and what justifies a claim about one *)
Definition run_units (R : vrun) : list vunit := r_units R ++ match r_gen R with inl g => g | inr _ => [] end.
Definition justified (u : vunit) (s : status) : Prop :=
  match s with
  | SVerified => u_solved u = inl RProof /\ fst (u_sound u) = true
  | SRefuted => u_solved u = inl RCounterexample /\ snd (u_sound u) = true
  | _ => True
  end.
Definition claim (s : status) : bool := match s with SVerified | SRefuted => true | _ => false end.

(** The protocol counts columns in UTF-16 units unless the server asks for another encoding, which this one does not. *)
Definition advance16 (c : N) (p : position) : position :=
  if (c =? 10)%N then (S (fst p), 0) else (fst p, snd p + if (c <? 65536)%N then 1 else 2).
Definition place16 (before : text) : position := fold_left (fun p c => advance16 c p) before (0, 0).
