(** Runs of the commands. *)
From Coq Require Import Bool List String Arith Lia NArith QArith Reals Lra.
From Verif.Model Require Import Syntax Builder Lits TyCtx AstUtil Dist VcGen Subst Unfolder Pipeline Driver.
From Verif.Spec Require Import Eur Sem Wp Linear Valid Reach Verdicts.
From Verif.Proofs Require Import EurLemmas SemLemmas WpLemmas VcGenProofs SubstProofs UnfolderProofs UnfolderExamples SimplifyRefuted PipelineProofs PipelineExamples TranslateProps DriverProofs EntailProofs.
Import ListNotations.
Local Open Scope string_scope.
Local Open Scope nat_scope.

(** Everything but the solver succeeds, and nothing is generated. *)
Definition calm (l : list item) (gen : item -> list item) (solve : item -> cres result) : parts :=
  mkparts (inl l) (fun _ => None) (fun _ => None) (fun _ => None) (fun _ => None) (fun re => Some (String.eqb re)) (fun _ sv => inl sv) (fun _ => None)
    (fun _ _ => None) (fun u => inl (gen u)) (fun _ => None) (fun _ => None) (fun _ sv => inl sv) solve (fun _ => LInterrupted).
Definition all_units : doptions := mkdopt None false false.
Definition unit_c : item := mkitem "c" (UProc true) Up [].
Definition unit_p : item := mkitem "p" (UProc true) Down [].
Definition unit_d : item := mkitem "d" UOther Down [].
Definition none (u : item) : list item := [].

Lemma calm_quiet l gen solve o : quiet (calm l gen solve) o l.
Proof.
  unfold quiet. simpl. split; [reflexivity|]. split; [now auto|]. split; [discriminate|]. split; [reflexivity|]. split; [reflexivity|].
  split; [reflexivity|]. split; [reflexivity|]. split; [reflexivity|]. eauto.
Qed.
Lemma calm_stay l gen solve : reports_stay (calm l gen solve).
Proof. split; intros ? ? ? H; injection H as <-; auto. Qed.

(** Two units of three are selected by a filter, and proved; the third one is not. *)
Definition proves_c (u : item) : cres result := if String.eqb (u_name u) "p" then inl RCounterexample else inl RProof.
Lemma run_facts : let P := calm [unit_d; unit_c; unit_p] none proves_c in
  reports_stay P /\ (forall o, quiet P o [unit_d; unit_c; unit_p]) /\
  selected P (mkdopt (Some "c") false false) [unit_d; unit_c; unit_p] unit_c /\ ~ selected P (mkdopt (Some "c") false false) [unit_d; unit_c; unit_p] unit_p /\
  verify_command P (mkdopt (Some "c") false false) false = 0 /\ verify_command P all_units false = 1.
Proof.
  cbn zeta. split; [apply calm_stay|]. split; [intros; apply calm_quiet|]. split; [|split; [|split]].
  - split; [reflexivity|]. left. split; [simpl; auto|]. intros _. exists (String.eqb "c"). split; reflexivity.
  - intros [_ [[_ H]|(v & n & _ & E & H)]].
    + destruct (H eq_refl) as (f & E & F). injection E as <-. discriminate.
    + injection E as <-. destruct H.
  - reflexivity.
  - reflexivity.
Qed.

(** The result of --no-verify. *)
Theorem no_verify_refuted : exists P l u, quiet P (mkdopt None true false) l /\ selected P (mkdopt None true false) l u /\ p_solve P u = inl RCounterexample /\
  verify_command P (mkdopt None true false) false = 0.
Proof.
  exists (calm [unit_p] none (fun _ => inl RCounterexample)), [unit_p], unit_p. split; [apply calm_quiet|]. split; [|split; reflexivity].
  split; [reflexivity|]. left. split; [now left|]. intros _. exact I.
Qed.

(** * Entailment *)
(** [coproc c() { coassert 1 }  proc p() { assert 0 }] *)
Definition body_c : list stmt := [SAssert Up (ELit TEUReal (LFrac 1%Q))].
Definition body_p : list stmt := [SAssert Down (ELit TEUReal (LFrac 0%Q))].
Lemma entail_facts : mapping unit_c unit_p = inl [] /\ apart [] /\ (forall c, c = body_c \/ c = body_p ->
  wts ex_isd ex_isf (SSeq c) /\ every not_while (SSeq c) /\ vguard (SSeq c) /\ every (anns_in ex_A) (SSeq c) /\
  every (fun st => forall x, In x (node_ids st) -> is_var ex_T x) (SSeq c) /\ every guarded_node (SSeq c)).
Proof.
  split; [reflexivity|]. split; [split; [constructor|split; [intros ? ? []|intros ? []]]|].
  intros c [-> | ->]; cbn; repeat split; auto; try (intros ? []); intros K; cbn in K; repeat (destruct K as [<-|K]; [exact Logic.I|]); destruct K.
Qed.
Theorem entail_refuted : exists q P solve, entail_question default_options orc_unknown (fun _ => 0) ex_C ex_T [] body_c body_p = Ok q /\
  (forall I, interp_ok I -> ~ forall s, env_ok s -> eval I q s = VBool true) /\
  quiet P all_units [unit_c; unit_p] /\ solve unit_c unit_p = inl RCounterexample /\ entailment_command P solve all_units false = 0.
Proof.
  destruct entail_facts as (_ & A & HC). destruct ex_facts as (TC & _).
  destruct (entail_correct default_options orc_unknown (fun _ => 0) ex_C ex_isd ex_isf ex_A ex_T Least [] body_c body_p TC A ltac:(intros ? ? []) HC
    ltac:(intros _; exact orc_unknown_sound) eq_refl) as (q & Q & _ & _ & V).
  exists q, (calm [unit_c; unit_p] none (fun _ => inl RProof)), (fun _ _ => inl RCounterexample). split; [exact Q|]. split.
  - intros I HI H. pose (s := fun x : ident => some_val (ity x)).
    assert (Hs : env_ok s) by (intros x; apply some_val_ty).
    pose proof (proj1 (V I HI) H s s Hs ltac:(split; [intros ? ? []|auto])) as K. cbn in K.
    apply (ele_trans (fin (Q2R 1))) in K; [|apply emax_l]. apply (proj1 (ele_fin (Q2R 1) (Q2R 0) ltac:(unfold Q2R; simpl; lra) ltac:(unfold Q2R; simpl; lra))) in K.
    unfold Q2R in K. simpl in K. lra.
  - split; [apply calm_quiet|]. split; reflexivity.
Qed.

(** Whatever the solver answers, unless it times out or is interrupted, the exit code is the same. *)
Definition answers (solve : item -> item -> cres result) : Prop :=
  forall a b, solve a b = inl RProof \/ solve a b = inl RCounterexample \/ solve a b = inl (RUnknown ROther).
Lemma pairs_ignore P s1 s2 : answers s1 -> answers s2 -> forall n l done sv, List.length l <= n -> entail_pairs P s1 done l sv = entail_pairs P s2 done l sv.
Proof.
  intros H1 H2. induction n as [|n IH]; intros [|a [|b l]] done sv L; simpl in L; try lia; try reflexivity.
  cbn [entail_pairs]. destruct (mapping a b); [|reflexivity]. cbn [cbind]. destruct (p_lower P a sv) as [sv1|]; [|reflexivity]. cbn [cbind].
  destruct (p_lower P b sv1) as [sv2|]; [|reflexivity]. cbn [cbind].
  destruct (H1 a b) as [-> | [-> | ->]], (H2 a b) as [-> | [-> | ->]]; cbn [cbind report stop throw]; apply IH; lia.
Qed.
Theorem entailment_ignores P s1 s2 o we : answers s1 -> answers s2 -> entailment_command P s1 o we = entailment_command P s2 o we.
Proof.
  intros H1 H2. unfold entailment_command, verify_entailment. f_equal. destruct (parse_and_tycheck P o (mkserver we false)) as [[l sv]|]; [|reflexivity]. cbn [cbind].
  destruct (encode_all P l) as [new|]; [|reflexivity]. cbn [cbind]. destruct (extend l new) as [m g]. destruct (throw (p_depgraph P m)); [|reflexivity]. cbn [cbind].
  now rewrite (pairs_ignore P s1 s2 H1 H2 _ _ _ _ (le_n _)).
Qed.
Theorem entailment_odd_refuted : exists P l, quiet P all_units l /\ List.length (filter has_body l) = 1 /\ forall solve, entailment_command P solve all_units false = 101.
Proof. exists (calm [unit_c] none (fun _ => inl RProof)), [unit_c]. split; [apply calm_quiet|]. split; [|intros solve]; reflexivity. Qed.

(** The first of the generated units is not among those returned; with one only, a generated unit is not noticed. *)
Theorem extend_refuted : exists l new u, In u new /\ ~ In u (snd (extend l new)).
Proof. exists [unit_c], [unit_p], unit_p. split; [now left | intros []]. Qed.

Lemma mapping_example : exists a b m, mapping a b = inl m /\ List.length m = 2 /\ NoDup (u_params b) /\ (forall x, In x (u_params a) -> ~ In x (u_params b)).
Proof.
  exists (mkitem "c" (UProc true) Up [mkid "x" 0 TUInt; mkid "y" 0 TBool]), (mkitem "p" (UProc true) Down [mkid "x" 1 TUInt; mkid "y" 1 TBool]). eexists.
  split; [reflexivity|]. split; [reflexivity|]. split.
  - cbn. constructor; [intros [H|[]]; discriminate|]. constructor; [intros []|constructor].
  - cbn. intros x [<-|[<-|[]]] [H|[H|[]]]; discriminate.
Qed.
