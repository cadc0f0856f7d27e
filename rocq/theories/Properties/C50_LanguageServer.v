(** C50: the language server verifies the latest texts, answers every verification, and shows what was found where it was found. *)
From Coq Require Import Bool List String ZArith NArith.
From Verif.Model Require Import Syntax Driver LspServer.
From Verif.Spec Require Import LspSpec.
From Verif.Proofs Require Import LspBasic LspSession LspSafe LspStatus LspRange LspView LspBacked LspExamples.
Import ListNotations.

(** A session in which nothing panics verifies, for each request and in order, the document with the latest text sent before the request
    (whatever was queued in between, and whenever tasks finish), and holds the latest text of every document. *)
Theorem C50_latest : forall W we l L, session W we l = Ok L ->
  map (fun p : docid * text => (fst p, Some p)) (v_seen (l_server L)) = wanted [] (map fst l) /\
  forall u, lookup_uri u (v_files (l_server L)) = latest u (notifs (map fst l)).
Proof. exact session_verified. Qed.
Print Assumptions C50_latest.
(** Each request for a verification or for the end is answered once, in order. *)
Theorem C50_replies : forall W we l L, session W we l = Ok L -> replies (v_sent (l_server L)) = requests (map fst l).
Proof. exact session_replies. Qed.
Print Assumptions C50_replies.
(** A client that follows the protocol and a verifier that reports about its file do not crash the server, up to a number of
    verifications. *)
Theorem C50_no_crash : forall W we l, (forall n c f d t, run_here f (W n c f d t)) -> polite [] (map fst l) ->
  (13 * N.of_nat (verifications (map fst l)) + N.of_nat (List.length (notifs (map fst l))) <= 65535)%N ->
  exists L, session W we l = Ok L.
Proof. exact session_safe. Qed.
Print Assumptions C50_no_crash.
Example C50_no_crash_ex : (forall n c f d t, run_here f (ex_verifier n c f d t)) /\ polite [] (map fst ex_session) /\
  (13 * N.of_nat (verifications (map fst ex_session)) + N.of_nat (List.length (notifs (map fst ex_session))) <= 65535)%N.
Proof. split; [exact ex_here|]. split; [exact ex_polite|]. vm_compute. discriminate. Qed.
(** After a verification that finishes, exactly its procedures are shown, each at its place in the latest text with its result, and
    exactly its diagnostics and explanations. *)
Theorem C50_shown : forall W we l id d b r fin L, session W we (l ++ [(IVerify id d, b); (IRequest r, fin)]) = Ok L ->
  exists n f t, latest (d_uri d) (notifs (map fst l)) = Some (d, t) /\
  forall g, run_here f (W n (negb fin) f d t) -> finishes we (W n (negb fin) f d t) g -> NoDup (map u_uname (r_units (W n (negb fin) f d t) ++ g)) ->
  (forall rg, (forall u, In u (tasks (W n (negb fin) f d t) g) -> text_range t (n_span (u_uname u)) (rg u)) ->
    NoDup (map (fun u => n_span (u_uname u)) (tasks (W n (negb fin) f d t) g)) ->
    shown_status (d_uri d) (v_sent (l_server L)) =
      (match tasks (W n (negb fin) f d t) g with [] => FTodo | _ => FDone end,
       map (fun u => (rg u, final u)) (tasks (W n (negb fin) f d t) g))) /\
  (forall rg, (forall x, In x (t_diags (report (W n (negb fin) f d t) g)) -> s_file (g_span x) = f /\ text_range t (g_span x) (rg x)) ->
    shown_diags (d_uri d) (v_sent (l_server L)) = map (fun x => (rg x, x)) (t_diags (report (W n (negb fin) f d t) g))) /\
  (forall rg, t_expls (report (W n (negb fin) f d t) g) <> [] ->
    (forall x, In x (t_expls (report (W n (negb fin) f d t) g)) -> s_file (x_span x) = f /\ text_range t (x_span x) (rg x)) ->
    shown_expls (d_uri d) (v_sent (l_server L)) = map (fun x => (rg x, x)) (t_expls (report (W n (negb fin) f d t) g))).
Proof. exact session_shown. Qed.
Print Assumptions C50_shown.
Example C50_shown_ex : (forall n c f d t, finishes false (ex_verifier n c f d t) []) /\
  (forall n c f d t, NoDup (map u_uname (r_units (ex_verifier n c f d t) ++ []))) /\
  exists L, session ex_verifier false ex_session = Ok L /\
  shown_status "a" (v_sent (l_server L)) = (FDone, [(((0, 0), (0, 1)), SVerified); (((1, 0), (1, 1)), SRefuted)]) /\
  shown_diags "a" (v_sent (l_server L)) = [(((1, 0), (1, 1)), ex_diag 1)] /\ replies (v_sent (l_server L)) = [1].
Proof. split; [intros; apply ex_finishes|]. split; [intros; apply ex_nodup|]. exact ex_session_ok. Qed.
(** A verification that an error ends before the procedures are verified: the document is shown as invalid, with the error and the
    warnings before it. *)
Theorem C50_invalid : forall W we l id d b r fin L, session W we (l ++ [(IVerify id d, b); (IRequest r, fin)]) = Ok L ->
  exists n f t, latest (d_uri d) (notifs (map fst l)) = Some (d, t) /\
  let R := W n (negb fin) f d t in run_here f R -> r_early R = None -> r_hard R = None ->
  forall g ws rg, r_parse R = Some (VDiag g) /\ ws = [] \/ r_parse R = None /\ calm we (r_warn R) /\ r_front R = Some (VDiag g) /\ ws = r_warn R ->
  (forall x, In x (ws ++ [g]) -> text_range t (g_span x) (rg x)) ->
  shown_status (d_uri d) (v_sent (l_server L)) = (FInvalid, []) /\ shown_diags (d_uri d) (v_sent (l_server L)) = map (fun x => (rg x, x)) (ws ++ [g]).
Proof. exact session_invalid. Qed.
Print Assumptions C50_invalid.
Example C50_invalid_ex : exists L, session (fun _ _ _ _ _ => ex_error) false ex_session = Ok L /\
  shown_status "a" (v_sent (l_server L)) = (FInvalid, []) /\
  shown_diags "a" (v_sent (l_server L)) = [(((0, 0), (0, 1)), mkdiag KWarning (mkspan 1 0 1) "w"); (((1, 0), (1, 1)), mkdiag KError (mkspan 1 2 3) "e")].
Proof. exact ex_invalid. Qed.
(** A verification that hits the time or memory limit: no procedure is shown as to be done or in progress. *)
Theorem C50_limit : forall W we l id d b r fin L, session W we (l ++ [(IVerify id d, b); (IRequest r, fin)]) = Ok L ->
  exists n f t, latest (d_uri d) (notifs (map fst l)) = Some (d, t) /\
  forall e, e <> LInterrupted ->
  r_early (W n (negb fin) f d t) = Some e \/ r_early (W n (negb fin) f d t) = None /\ r_hard (W n (negb fin) f d t) = Some e ->
  exists k, shown_status (d_uri d) (v_sent (l_server L)) = (FTimeout, k) /\ Forall (fun p => is_completed (snd p) = true) k.
Proof. exact session_limit. Qed.
Print Assumptions C50_limit.
Example C50_limit_ex : exists L, session ex_limit_verifier false ex_session = Ok L /\
  shown_status "a" (v_sent (l_server L)) = (FTimeout, [(((0, 0), (0, 1)), SVerified); (((1, 0), (1, 1)), STimeout)]).
Proof. exact ex_limit. Qed.
(** In every session, whatever is shown as verified or refuted was found so, soundly, for a text of this document that was to be
    verified. *)
Theorem C50_claims : forall W we l L, (forall n c f d t, run_here f (W n c f d t)) -> session W we l = Ok L ->
  forall d ty k r s, In (MStatus d ty k) (v_sent (l_server L)) -> In (r, s) k -> claim s = true ->
  exists n c f e t u, In (e, Some (e, t)) (wanted [] (map fst l)) /\ d_uri e = d_uri d /\ In u (run_units (W n c f e t)) /\ justified u s.
Proof. exact session_claims. Qed.
Print Assumptions C50_claims.
(** But the text may be an older one: after a change, the old result is sent for the new version when another document is verified. *)
Theorem C50_claims_refuted : exists W l L k r, (forall n c f d t, run_here f (W n c f d t)) /\ polite [] (map fst l) /\ session W false l = Ok L /\
  In (MStatus (doc "a" 2) FDone k) (v_sent (l_server L)) /\ In (r, SVerified) k /\ ~ In (doc "a" 2) (map fst (wanted [] (map fst l))).
Proof. exact claims_refuted. Qed.
Print Assumptions C50_claims_refuted.
(** The place of a non-empty span of a text: line and column of its first character, and of the character after its last. *)
Theorem C50_range : forall fs s f d r, get_file (s_file s) fs = Ok f -> f_path f = PLsp d -> text_range (f_source f) s r ->
  to_lsp fs s = Ok (Some (d, r)).
Proof. exact to_lsp_range. Qed.
Print Assumptions C50_range.
Example C50_range_ex : text_range [228; 10; 112]%N (mkspan 1 3 4) ((1, 0), (1, 1)).
Proof. exists [228; 10]%N, [112]%N, []. repeat split; discriminate. Qed.
(** Not so for empty spans, which begin with the text. *)
Theorem C50_empty_refuted : exists fs s d, get_file (s_file s) fs = Ok (mkfile (PLsp d) ex_text) /\ s_start s = bytes [112; 10]%N /\ s_end s = s_start s /\
  to_lsp fs s <> Ok (Some (d, (place [112; 10]%N, place [112; 10]%N))).
Proof. exact empty_refuted. Qed.
Print Assumptions C50_empty_refuted.
(** And columns are not those of the protocol after a character outside the basic plane. *)
Theorem C50_columns_refuted : exists fs s d a b, get_file (s_file s) fs = Ok (mkfile (PLsp d) (a ++ b)) /\ b <> [] /\ s_start s = bytes a /\ s_end s = bytes (a ++ b) /\
  to_lsp fs s <> Ok (Some (d, (place16 a, place16 (a ++ b)))).
Proof. exact columns_refuted. Qed.
Print Assumptions C50_columns_refuted.
(** The server does not live for long: every verification adds thirteen files. *)
Theorem C50_lifetime : forall W we l L, session W we l = Ok L -> (forall n c f d t, r_early (W n c f d t) = None /\ r_parse (W n c f d t) = None) ->
  (13 * N.of_nat (verifications (map fst l)) <= 65535)%N.
Proof. exact session_budget. Qed.
Print Assumptions C50_lifetime.
Theorem C50_no_crash_refuted : exists W l, (forall n c f d t, run_here f (W n c f d t)) /\ polite [] (map fst l) /\ forall L, session W false l <> Ok L.
Proof. exact no_crash_refuted. Qed.
Print Assumptions C50_no_crash_refuted.
(** Messages that the protocol allows end it at once: closing or verifying a document of another language, a response, two changes at
    once. *)
Theorem C50_protocol_refuted : forall W we,
  session W we [(INotif (NOpen (doc "a" 1) "plaintext" []), false); (INotif (NClose "a"), false)] = Panic "Could not find file id for document" /\
  session W we [(INotif (NOpen (doc "a" 1) "plaintext" []), false); (IVerify 1 (doc "a" 1), false)] = Panic "Could not find file id for document" /\
  session W we [(IResponse, false)] = Panic "not yet implemented" /\
  session W we [opens "a" 1 []; (INotif (NChange (doc "a" 2) [[112]%N; [113]%N]), false)] = Panic "assertion `left == right` failed".
Proof. exact protocol_refuted. Qed.
Print Assumptions C50_protocol_refuted.
(** Other requests are never answered. *)
Theorem C50_replies_refuted : forall W we, exists L, session W we [(IRequest 7, false)] = Ok L /\ v_sent (l_server L) = [].
Proof. exact unanswered. Qed.
Print Assumptions C50_replies_refuted.
(** With the option --raw, the first verification ends the server. *)
Theorem C50_raw_refuted : exists W l, polite [] (map fst l) /\ (forall n c f d t, finishes false (W n c f d t) []) /\
  session W false l = Panic "Must first register the source unit with Todo result before adding any other result".
Proof. exact raw_refuted. Qed.
Print Assumptions C50_raw_refuted.
(** A document whose verification was cancelled is shown as in progress although nothing is in progress. *)
Theorem C50_cancelled_refuted : exists L, session cancel_verifier false
    [opens "a" 1 ex_text; opens "b" 1 ex_text; (IVerify 1 (doc "a" 1), false); (IVerify 2 (doc "b" 1), false); (IRequest 3, true)] = Ok L /\ l_active L = None /\
  shown_status "a" (v_sent (l_server L)) = (FOngoing, [(((0, 0), (0, 1)), SVerified); (((1, 0), (1, 1)), STodo)]) /\
  fst (shown_status "b" (v_sent (l_server L))) = FDone.
Proof. exact cancelled. Qed.
Print Assumptions C50_cancelled_refuted.
(** A document without procedures is shown as to be done after its verification. *)
Theorem C50_done_refuted : exists L, session (fun _ _ _ _ _ => ex_run []) false ex_session = Ok L /\
  replies (v_sent (l_server L)) = [1] /\ shown_status "a" (v_sent (l_server L)) = (FTodo, []).
Proof. exact stays_todo. Qed.
Print Assumptions C50_done_refuted.
(** A procedure for which the solver runs out of time is shown as unknown. *)
Theorem C50_timeout_refuted : exists L, session slow_verifier false ex_session = Ok L /\
  shown_status "a" (v_sent (l_server L)) = (FTimeout, [(((0, 0), (0, 1)), SUnknown)]).
Proof. exact slow. Qed.
Print Assumptions C50_timeout_refuted.
(** Explanations are still shown when the diagnostics have been removed. *)
Theorem C50_explanations_refuted : exists L, session explaining false [opens "a" 1 ex_text; (IVerify 1 (doc "a" 1), false); (INotif (NClose "a"), true)] = Ok L /\
  shown_diags "a" (v_sent (l_server L)) = [] /\ shown_expls "a" (v_sent (l_server L)) = [(((0, 0), (0, 1)), mkexpl (mkspan 1 0 1) false [])].
Proof. exact kept_expls. Qed.
Print Assumptions C50_explanations_refuted.
