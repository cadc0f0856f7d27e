(** The question with markers is the question without. *)
From Coq Require Import Bool List String Arith ZArith NArith Reals.
From Verif.Model Require Import EurEncodings Syntax Translate Funcs Literals.
From Verif.Spec Require Import Eur Sem Exprs Translated Markers.
From Verif.Proofs Require Import TranslateProps TranslateRefuted LiteralMarks LiteralSim.
Import ListNotations.
Local Open Scope string_scope.
Local Open Scope list_scope.

Lemma eqt_map reg M cs cs' : lit_id reg M -> Forall2 (eqt reg) cs cs' -> map (fun c : term bool => c M) cs = map (fun c => c M) cs'.
Proof. intros L. induction 1 as [|c c' cs cs' H F IH]; cbn; auto. now rewrite (H M L), IH. Qed.
Lemma all_true (M : strct) (cs cs' : list (term bool)) : map (fun c => c M) cs = map (fun c => c M) cs' -> Forall (fun c => c M = true) cs -> Forall (fun c => c M = true) cs'.
Proof.
  revert cs'. induction cs as [|c cs IH]; intros [|c' cs'] E F; try discriminate; auto. injection E as E1 E2. inversion_clear F.
  constructor; auto. congruence.
Qed.

Lemma marked_same isvar fsig ecall on marks e :
  match translate isvar fsig ecall e, translate_w isvar fsig ecall on marks e with
  | Ok (t, cs), Ok (t', cs', reg) => forall M, lit_id reg M -> t M = t' M /\ map (fun c => c M) cs = map (fun c => c M) cs'
  | Err w, Err w' | Panic w, Panic w' => w = w'
  | _, _ => False
  end.
Proof.
  pose proof (translate_w_same isvar fsig ecall on marks e) as H. unfold rel_res in H.
  destruct (translate isvar fsig ecall e) as [[t cs]|w|w], (translate_w isvar fsig ecall on marks e) as [[[t' cs'] reg]|w'|w']; auto.
  destruct H as [H1 H2]. cbn in H1, H2. intros M L. split; [exact (H1 M L)|]. eapply eqt_map; eauto.
Qed.

Section Meaning.
Context (isvar : ident -> bool) (fsig : string -> option (list ty * ty)).
Context (ecall : string -> (string -> list dyn -> dyn) -> list dyn -> dyn) (on : bool) (marks : path -> bool).
Context (e : expr) (I : interp) (t : term bool) (cs : list (term bool)) (reg : list srt) (n : nat).
Context (HT : translatable isvar fsig e = true) (Hb : ty_of e = TBool) (HS : some eur_sub e = false) (HI : interp_ok I).
Context (HE : translate_w isvar fsig ecall on marks e = Ok (t, cs, reg)).

Lemma unmarked : exists t0 cs0, translate isvar fsig ecall e = Ok (t0, cs0) /\
  forall M, lit_id reg M -> t0 M = t M /\ map (fun c => c M) cs0 = map (fun c => c M) cs.
Proof.
  pose proof (marked_same isvar fsig ecall on marks e) as H. rewrite HE in H.
  destruct (translate isvar fsig ecall e) as [[t0 cs0]|w|w]; try contradiction. eauto.
Qed.
Lemma marked_models M : fits fsig ecall I M -> Forall (fun c => c M = true) cs -> Forall (fun c => c M = true) (lit_axioms n reg) ->
  exists s, env_ok s /\ eval I e s = VBool (t M).
Proof.
  intros F C A. apply lit_axioms_iff in A. destruct unmarked as (t0 & cs0 & E & S). destruct (S M A) as [S1 S2]. rewrite <- S1.
  apply (models_to_states isvar fsig ecall e I t0 cs0 HT Hb HS HI E M F). exact (all_true M cs cs0 (eq_sym S2) C).
Qed.

(** Any structure can be changed so that markers are the identity. *)
Definition is_marker (f : string) : bool := String.eqb f (lit_name SB) || String.eqb f (lit_name SI) || String.eqb f (lit_name SR).
Definition with_markers (M : strct) : strct :=
  mkstr (cb M) (ci M) (cr M) (sk M) (fun f ds => if is_marker f then match ds with [d] => d | _ => ufn M f ds end else ufn M f ds) (sdiv0 M) (smod0 M).
Lemma with_markers_id M : lit_id reg (with_markers M).
Proof. intros s d _ _. now destruct s. Qed.
Lemma with_markers_fits M : marker_free fsig ecall -> fits fsig ecall I M -> fits fsig ecall I (with_markers M).
Proof.
  intros MF [F1 F2 F3 F4 F5]. constructor; auto. intros f ts ty vs ds Ef Hv Hd. cbn [ufn with_markers].
  rewrite (MF f _ (ufn M) ds); eauto; [congruence|]. intros g Hg. unfold is_marker.
  rewrite (proj2 (String.eqb_neq g (lit_name SB))), (proj2 (String.eqb_neq g (lit_name SI))), (proj2 (String.eqb_neq g (lit_name SR))); auto.
Qed.
Lemma marked_states s M0 : marker_free fsig ecall -> env_ok s -> fits fsig ecall I M0 ->
  exists M, fits fsig ecall I M /\ Forall (fun c => c M = true) cs /\ Forall (fun c => c M = true) (lit_axioms n reg) /\ eval I e s = VBool (t M).
Proof.
  intros MF Hs F. apply (with_markers_fits M0 MF) in F. destruct unmarked as (t0 & cs0 & E & S).
  destruct (states_to_models_same isvar fsig ecall e I t0 cs0 HT Hb HS HI E s _ Hs F) as (M & (U1 & U2 & U3) & C & Ev).
  assert (L : lit_id reg M) by (intros x d Hx Hd; rewrite U1; now apply with_markers_id).
  destruct (S M L) as [S1 S2]. exists M. split; [|split; [|split]].
  - destruct F as [F1 F2 F3 F4 F5]. constructor; intros; rewrite ?U1, ?U2, ?U3; eauto.
  - eapply all_true; eauto.
  - now apply lit_axioms_iff.
  - now rewrite <- S1.
Qed.
Lemma marked_valid M0 : marker_free fsig ecall -> fits fsig ecall I M0 ->
  ((forall M, fits fsig ecall I M -> Forall (fun c => c M = true) cs -> Forall (fun c => c M = true) (lit_axioms n reg) -> t M = true) <->
   (forall s, env_ok s -> eval I e s = VBool true)).
Proof.
  intros MF F0. split.
  - intros H s Hs. destruct (marked_states s M0 MF Hs F0) as (M & F & C & A & ->). now rewrite (H M F C A).
  - intros H M F C A. destruct (marked_models M F C A) as (s & Hs & E). rewrite (H s Hs) in E. now injection E.
Qed.
End Meaning.

Lemma encoders_marker_free fsig E fuel : (forall s, fsig (lit_name s) = None) -> marker_free fsig (enc_call E fuel).
Proof.
  intros H f u u' ds Hf Hu. assert (G : u f = u' f) by (apply Hu; intros s ->; now apply Hf).
  unfold enc_call. destruct E; auto; try (now rewrite G); destruct (fo_functions o f); now rewrite G.
Qed.

(** The verification condition: marking cannot fail if the translation does not. *)
Lemma vc_no_panic isvar fsig ecall on sf cf e : translatable isvar fsig e = true -> ty_of e = TBool ->
  exists r, translate_vc isvar fsig ecall on sf cf e = Ok r.
Proof.
  intros HT Hb. destruct (no_panic isvar fsig ecall e HT Hb) as (t & cs & E).
  assert (NS : no_subst e = true).
  { unfold translatable in HT. apply andb_prop in HT. destruct HT as [_ HT]. apply negb_true_iff in HT. unfold no_subst. apply negb_true_iff.
    clear -HT. induction e using expr_rect'; cbn in *; rewrite ?orb_false_iff in *; try tauto.
    - destruct HT as [_ HT]. induction H as [|a l Ha Hl IH]; cbn in *; auto. apply orb_false_iff in HT. destruct HT. rewrite Ha; auto. }
  unfold translate_vc. assert (C : exists S, (if on then collect_literals (fun _ => false) cf false sf e else Ok []) = Ok S).
  { destruct on; eauto. unfold collect_literals. destruct (false || sf); eauto. pose proof (visit_total (fun _ => false) cf e [] []) as V. now rewrite NS in V. }
  destruct C as (S & ->). cbn [rbind].
  pose proof (marked_same isvar fsig ecall on (fun p => p_mem p S) e) as H. rewrite E in H.
  destruct (translate_w isvar fsig ecall on (fun p => p_mem p S) e) as [[[t' cs'] reg]|w|w]; try contradiction. eauto.
Qed.

(** * Examples *)
Definition fac_sig (f : string) : option (list ty * ty) := if String.eqb f "fac" then Some ([TUInt], TUInt) else None.
Definition is_fac (f : string) : bool := String.eqb f "fac".
Definition no_var (_ : ident) : bool := false.
Definition five : expr := ELit TUInt (LUInt 5).
(** fac(5) == 120 *)
Definition fac_five : expr := EBin TBool OEq (ECall TUInt "fac" [five]) (ELit TUInt (LUInt 120)).
Lemma fac_five_marks : collect_literals no_var is_fac false true fac_five = Ok [[]; [0; 0]].
Proof. reflexivity. Qed.
Lemma fac_five_ok : translatable all_vars fac_sig fac_five = true /\ ty_of fac_five = TBool /\ some eur_sub fac_five = false /\ marker_free fac_sig plain_call.
Proof. repeat split; auto. intros f u u' ds Hf Hu. unfold plain_call. rewrite Hu; auto. intros s ->. apply Hf. now destruct s. Qed.
Lemma fac_five_markers : exists t cs, translate_vc all_vars fac_sig plain_call true true is_fac fac_five = Ok (t, cs, [SI; SB]).
Proof. do 2 eexists. reflexivity. Qed.

(** a + 4 * b, for a known variable a *)
Definition var_a := mkid "a" 0 TUInt. Definition var_b := mkid "b" 0 TUInt.
Definition doc_example : expr := EBin TUInt OAdd (EVar var_a) (EBin TUInt OMul (ELit TUInt (LUInt 4)) (EVar var_b)).
Definition is_a (x : ident) : bool := ident_eqb x var_a.
Lemma doc_refuted : exists S, collect_literals is_a (fun _ => false) true false doc_example = Ok S /\
  (forall p, p_mem (rev p) S = true <-> p = [0] \/ p = [1; 0]) /\
  forall p e, p_mem (rev p) S = true -> sub_at p doc_example = Some e -> e = EVar var_a \/ e = ELit TUInt (LUInt 4).
Proof.
  exists [[0; 1]; [0]]. split; [reflexivity|].
  assert (H : forall p, p_mem (rev p) [[0; 1]; [0]] = true <-> p = [0] \/ p = [1; 0]).
  { intros p. rewrite p_mem_in. cbn [In]. split.
    - intros [H|[H|[]]]; apply (f_equal (@rev nat)) in H; rewrite rev_involutive in H; cbn in H; auto.
    - intros [-> | ->]; auto. }
  split; auto. intros p e Hp He. apply H in Hp. destruct Hp as [-> | ->]; injection He as <-; auto.
Qed.

(** The axioms are needed. *)
Definition valid_true : expr := ELit TBool (LBool true).
Definition lying : strct := mkstr (fun _ => true) (fun _ => 0%Z) (fun _ => 0%R) (fun _ _ => pair_zero) (fun _ _ => DyB false) (fun r => r) (fun z => z).
Lemma axioms_needed : exists t, translate_vc all_vars no_funs plain_call true true is_fac valid_true = Ok (t, [], [SB]) /\
  (forall I s, eval I valid_true s = VBool true) /\ t lying = false.
Proof. eexists. split; [reflexivity|]. split; auto. Qed.
