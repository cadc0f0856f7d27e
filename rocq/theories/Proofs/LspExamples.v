(** The language server: concrete sessions. *)
From Coq Require Import Bool List String ZArith NArith Arith Lia.
From Verif.Model Require Import Syntax Driver LspServer.
From Verif.Spec Require Import LspSpec.
From Verif.Proofs Require Import LspBasic LspSession LspSafe LspStatus LspRange.
Import ListNotations.

Definition doc (u : string) (v : Z) : docid := mkdoc u v.
Definition ex_run (l : list vunit) : vrun := mkvr None None [] None l [] [] None (inl []) false None (fun _ => None) LInterrupted None.
Definition ex_name (f a b : nat) : uname := mkname "" (mkspan f a b).
Definition ex_unit (f a b : nat) (r : result) (l : list diag) : vunit := mkvu (ex_name f a b) (UProc true) [] [] None (inl r) l (true, true).
(** The text "p", a line break and "q": two procedures, of which one is verified and the other is refuted *)
Definition ex_text : text := [112; 10; 113]%N.
Definition ex_diag (f : nat) : diag := mkdiag KError (mkspan f 2 3) "Counter-example to verification found!".
Definition ex_units (f : nat) : list vunit := [ex_unit f 0 1 RProof []; ex_unit f 2 3 RCounterexample [ex_diag f]].
Definition ex_verifier : verifier := fun _ _ f _ _ => ex_run (ex_units f).
Definition opens (u : string) (v : Z) (t : text) : input * bool := (INotif (NOpen (doc u v) "heyvl" t), false).
Definition ex_session : list (input * bool) :=
  [opens "a" 1 [112]%N; (INotif (NChange (doc "a" 2) [ex_text]), false); (IVerify 1 (doc "a" 2), false); (INotif NOther, false); (IRequest 2, true)].

Lemma here_intro f a b : a <= b -> here f (mkspan f a b).
Proof. split; auto. Qed.
Ltac here := repeat first [apply here_intro; lia | constructor | discriminate | intros; discriminate].
Lemma ex_here : forall n c f d t, run_here f (ex_verifier n c f d t).
Proof.
  intros n c f d t. split; [intros e [H|[H|[H|[H|H]]]]; discriminate|]. repeat split; cbn; try constructor; here.
  intros g H. injection H as <-. constructor.
Qed.
Lemma ex_polite : polite [] (map fst ex_session).
Proof. cbn. repeat split; auto. exists ex_text. reflexivity. Qed.
Lemma ex_session_ok : exists L, session ex_verifier false ex_session = Ok L /\
  shown_status "a" (v_sent (l_server L)) = (FDone, [(((0, 0), (0, 1)), SVerified); (((1, 0), (1, 1)), SRefuted)]) /\
  shown_diags "a" (v_sent (l_server L)) = [(((1, 0), (1, 1)), ex_diag 1)] /\ replies (v_sent (l_server L)) = [1].
Proof. eexists. split; [vm_compute; reflexivity|]. vm_compute. auto. Qed.
Lemma ex_finishes f d t n c : finishes false (ex_verifier n c f d t) [].
Proof. repeat split; cbn; try (constructor; fail). repeat constructor; eexists; repeat split; discriminate. Qed.
Lemma ex_nodup f d t n c : NoDup (map u_uname (r_units (ex_verifier n c f d t) ++ [])).
Proof. cbn. constructor; [intros [H|[]]; discriminate|]. constructor; [intros [] | constructor]. Qed.
(** A verifier that is stopped by the memory limit after the first procedure *)
Definition ex_limit_verifier : verifier := fun _ _ f _ _ =>
  mkvr None None [] None (ex_units f) [] [] None (inl []) false None (fun n => if Nat.eqb n 1 then Some LOom else None) LOom (Some LOom).
Lemma ex_limit : exists L, session ex_limit_verifier false ex_session = Ok L /\
  shown_status "a" (v_sent (l_server L)) = (FTimeout, [(((0, 0), (0, 1)), SVerified); (((1, 0), (1, 1)), STimeout)]).
Proof. eexists. split; [vm_compute; reflexivity|]. vm_compute. auto. Qed.
(** A verifier that warns and finds an error *)
Definition ex_error : vrun :=
  mkvr None None [mkdiag KWarning (mkspan 1 0 1) "w"] (Some (VDiag (mkdiag KError (mkspan 1 2 3) "e"))) [] [] [] None (inl []) false None (fun _ => None) LInterrupted None.
Lemma ex_invalid : exists L, session (fun _ _ _ _ _ => ex_error) false ex_session = Ok L /\
  shown_status "a" (v_sent (l_server L)) = (FInvalid, []) /\
  shown_diags "a" (v_sent (l_server L)) = [(((0, 0), (0, 1)), mkdiag KWarning (mkspan 1 0 1) "w"); (((1, 0), (1, 1)), mkdiag KError (mkspan 1 2 3) "e")].
Proof. eexists. split; [vm_compute; reflexivity|]. vm_compute. auto. Qed.

(** * What is false *)

(** A session that is too long: the 5042nd verification *)
Definition long_session : list (input * bool) := opens "a" 1 ex_text :: repeat (IVerify 1 (doc "a" 1), true) (N.to_nat 5042).
Lemma long_polite : polite [] (map fst long_session).
Proof.
  unfold long_session. cbn [map]. split; [exact I|]. fold (map (@fst input bool)). generalize (N.to_nat 5042). induction n as [|n IH]; [exact I|]. cbn [repeat map fst polite].
  split; auto. exists ex_text. reflexivity.
Qed.
Lemma long_crash : forall L, session ex_verifier false long_session <> Ok L.
Proof.
  intros L H. apply session_lifetime in H; [|reflexivity]. assert (K : verifications (map fst long_session) = N.to_nat 5042).
  { unfold long_session. cbn [map]. unfold verifications. cbn [opens fst flat_map app]. generalize (N.to_nat 5042). induction n as [|n IH]; auto. cbn. f_equal. exact IH. }
  rewrite K, N2Nat.id in H. revert H. vm_compute. congruence.
Qed.
(** Closing a document that is not HeyVL *)
Lemma close_panics W we : session W we [(INotif (NOpen (doc "a" 1) "plaintext" []), false); (INotif (NClose "a"), false)] = Panic "Could not find file id for document".
Proof. reflexivity. Qed.
(** Verifying a document that is not stored *)
Lemma unknown_panics W we : session W we [(INotif (NOpen (doc "a" 1) "plaintext" []), false); (IVerify 1 (doc "a" 1), false)] = Panic "Could not find file id for document".
Proof. reflexivity. Qed.
(** An answer of the client *)
Lemma response_panics W we : session W we [(IResponse, false)] = Panic "not yet implemented".
Proof. reflexivity. Qed.
(** Two changes at once *)
Lemma changes_panic W we : session W we [opens "a" 1 []; (INotif (NChange (doc "a" 2) [[112]%N; [113]%N]), false)] = Panic "assertion `left == right` failed".
Proof. reflexivity. Qed.
(** A request that is not known *)
Lemma unanswered W we : exists L, session W we [(IRequest 7, false)] = Ok L /\ v_sent (l_server L) = [].
Proof. eexists. split; reflexivity. Qed.
(** The option --raw *)
Definition raw_verifier : verifier := fun _ _ f _ _ => ex_run [mkvu (ex_name f 0 1) URaw [] [] None (inl RProof) [] (true, true)].
Lemma raw_panics : session raw_verifier false [opens "a" 1 ex_text; (IVerify 1 (doc "a" 1), false)] =
  Panic "Must first register the source unit with Todo result before adding any other result".
Proof. vm_compute. reflexivity. Qed.
(** A cancelled verification: [a] is shown as ongoing while nothing is verified *)
Definition cancel_verifier : verifier := fun _ c f _ _ =>
  mkvr None None [] None (ex_units f) [] [] None (inl []) false None (fun n => if c && Nat.eqb n 1 then Some LInterrupted else None) LInterrupted None.
Lemma cancelled : exists L, session cancel_verifier false
    [opens "a" 1 ex_text; opens "b" 1 ex_text; (IVerify 1 (doc "a" 1), false); (IVerify 2 (doc "b" 1), false); (IRequest 3, true)] = Ok L /\ l_active L = None /\
  shown_status "a" (v_sent (l_server L)) = (FOngoing, [(((0, 0), (0, 1)), SVerified); (((1, 0), (1, 1)), STodo)]) /\
  fst (shown_status "b" (v_sent (l_server L))) = FDone.
Proof. eexists. split; [vm_compute; reflexivity|]. vm_compute. auto. Qed.
(** A file without procedures *)
Lemma stays_todo : exists L, session (fun _ _ _ _ _ => ex_run []) false ex_session = Ok L /\
  replies (v_sent (l_server L)) = [1] /\ shown_status "a" (v_sent (l_server L)) = (FTodo, []).
Proof. eexists. split; [vm_compute; reflexivity|]. vm_compute. auto. Qed.
(** The solver runs out of time *)
Definition slow_verifier : verifier := fun _ _ f _ _ => ex_run [ex_unit f 0 1 (RUnknown RTimeout) []].
Lemma slow : exists L, session slow_verifier false ex_session = Ok L /\
  shown_status "a" (v_sent (l_server L)) = (FTimeout, [(((0, 0), (0, 1)), SUnknown)]).
Proof. eexists. split; [vm_compute; reflexivity|]. vm_compute. auto. Qed.
(** A claim for a version that was not verified: [a] is changed, and then [b] is verified *)
Definition stale_session : list (input * bool) :=
  [opens "a" 1 [112]%N; opens "b" 1 [112]%N; (IVerify 1 (doc "a" 1), false); (INotif (NChange (doc "a" 2) [[113]%N]), true); (IVerify 2 (doc "b" 1), false); (IRequest 3, true)].
Definition proving : verifier := fun _ _ f _ _ => ex_run [ex_unit f 0 1 RProof []].
Lemma stale : exists L k r, session proving false stale_session = Ok L /\ In (MStatus (doc "a" 2) FDone k) (v_sent (l_server L)) /\ In (r, SVerified) k /\
  ~ In (doc "a" 2) (map fst (wanted [] (map fst stale_session))).
Proof.
  eexists. exists [(((0, 0), (0, 1)), SVerified)]. exists ((0, 0), (0, 1)). split; [vm_compute; reflexivity|]. split; [vm_compute; tauto|]. split; [left; reflexivity|].
  cbn. intros [H|[H|[]]]; discriminate.
Qed.
Lemma proving_here : forall n c f d t, run_here f (proving n c f d t).
Proof.
  intros n c f d t. split; [intros e [H|[H|[H|[H|H]]]]; discriminate|]. repeat split; cbn; try constructor; here. intros g H. injection H as <-. constructor.
Qed.
Lemma stale_polite : polite [] (map fst stale_session).
Proof. cbn. repeat split; auto; eexists; reflexivity. Qed.
(** Explanations outlive a document *)
Definition explaining : verifier := fun _ _ f _ _ =>
  mkvr None None [] None [] [mkexpl (mkspan f 0 1) false []] [] None (inl []) false None (fun _ => None) LInterrupted None.
Lemma kept_expls : exists L, session explaining false [opens "a" 1 ex_text; (IVerify 1 (doc "a" 1), false); (INotif (NClose "a"), true)] = Ok L /\
  shown_diags "a" (v_sent (l_server L)) = [] /\ shown_expls "a" (v_sent (l_server L)) = [(((0, 0), (0, 1)), mkexpl (mkspan 1 0 1) false [])].
Proof. eexists. split; [vm_compute; reflexivity|]. vm_compute. auto. Qed.
(** An empty span *)
Lemma empty_span : to_lsp [mkfile (PLsp (doc "a" 1)) ex_text] (mkspan 1 2 2) = Ok (Some (doc "a" 1, ((0, 0), (1, 0)))).
Proof. reflexivity. Qed.
(** A span after a character outside the basic plane *)
Lemma columns : to_lsp [mkfile (PLsp (doc "a" 1)) [128512; 112]%N] (mkspan 1 4 5) = Ok (Some (doc "a" 1, ((0, 1), (0, 2)))) /\
  text_range [128512; 112]%N (mkspan 1 4 5) ((0, 1), (0, 2)) /\ place16 [128512]%N = (0, 2).
Proof. split; [|split]; try reflexivity. exists [128512%N], [112%N], []. repeat split; auto; discriminate. Qed.
Lemma claims_refuted : exists W l L k r, (forall n c f d t, run_here f (W n c f d t)) /\ polite [] (map fst l) /\ session W false l = Ok L /\
  In (MStatus (doc "a" 2) FDone k) (v_sent (l_server L)) /\ In (r, SVerified) k /\ ~ In (doc "a" 2) (map fst (wanted [] (map fst l))).
Proof. exact (let 'ex_intro _ L (ex_intro _ k (ex_intro _ r H)) := stale in
  ex_intro _ proving (ex_intro _ stale_session (ex_intro _ L (ex_intro _ k (ex_intro _ r (conj proving_here (conj stale_polite H))))))). Qed.
Lemma empty_refuted : exists fs s d, get_file (s_file s) fs = Ok (mkfile (PLsp d) ex_text) /\ s_start s = bytes [112; 10]%N /\ s_end s = s_start s /\
  to_lsp fs s <> Ok (Some (d, (place [112; 10]%N, place [112; 10]%N))).
Proof. exists [mkfile (PLsp (doc "a" 1)) ex_text], (mkspan 1 2 2), (doc "a" 1). rewrite empty_span. repeat split; discriminate. Qed.
Lemma columns_refuted : exists fs s d a b, get_file (s_file s) fs = Ok (mkfile (PLsp d) (a ++ b)) /\ b <> [] /\ s_start s = bytes a /\ s_end s = bytes (a ++ b) /\
  to_lsp fs s <> Ok (Some (d, (place16 a, place16 (a ++ b)))).
Proof. exists [mkfile (PLsp (doc "a" 1)) [128512; 112]%N], (mkspan 1 4 5), (doc "a" 1), [128512]%N, [112]%N. repeat split; discriminate. Qed.
Lemma no_crash_refuted : exists W l, (forall n c f d t, run_here f (W n c f d t)) /\ polite [] (map fst l) /\ forall L, session W false l <> Ok L.
Proof. exists ex_verifier, long_session. exact (conj ex_here (conj long_polite long_crash)). Qed.
Lemma protocol_refuted : forall W we,
  session W we [(INotif (NOpen (doc "a" 1) "plaintext" []), false); (INotif (NClose "a"), false)] = Panic "Could not find file id for document" /\
  session W we [(INotif (NOpen (doc "a" 1) "plaintext" []), false); (IVerify 1 (doc "a" 1), false)] = Panic "Could not find file id for document" /\
  session W we [(IResponse, false)] = Panic "not yet implemented" /\
  session W we [opens "a" 1 []; (INotif (NChange (doc "a" 2) [[112]%N; [113]%N]), false)] = Panic "assertion `left == right` failed".
Proof. exact (fun W we => conj (close_panics W we) (conj (unknown_panics W we) (conj (response_panics W we) (changes_panic W we)))). Qed.
Lemma raw_refuted : exists W l, polite [] (map fst l) /\ (forall n c f d t, finishes false (W n c f d t) []) /\
  session W false l = Panic "Must first register the source unit with Todo result before adding any other result".
Proof.
  exists raw_verifier, [opens "a" 1 ex_text; (IVerify 1 (doc "a" 1), false)]. split; [cbn; repeat split; eexists; reflexivity|]. split; [|exact raw_panics].
  intros. repeat split; cbn; try (constructor; fail). repeat constructor; eexists; repeat split; discriminate.
Qed.
