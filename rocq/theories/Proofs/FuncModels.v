(** Models of all the axioms. *)
From Coq Require Import Bool List String ZArith NArith Reals Lia ClassicalEpsilon.
From Verif.Model Require Import EurEncodings Syntax AstUtil ScopeMap Translate Funcs.
From Verif.Spec Require Import Eur EncSpec Sem Exprs Translated Functions.
From Verif.Proofs Require Import EurLemmas SemLemmas EncProofs EncProps TranslateTerms TranslateStates TranslateProps FuncEquations FuncAxioms.
Import ListNotations.
Local Open Scope list_scope.
Local Open Scope nat_scope.

(** ** Which axioms there are *)
Definition emits_eq (E : encoder) (f : string) (p : partial_encoding) (fh fb : nat) : Prop :=
  match E with
  | EncAxiomatic q => p = q /\ fh = 0 /\ fb = 0
  | EncRecFun => p = StrengthenToTotal /\ fh = 0 /\ fb = 0
  | EncFuelMono o =>
      if fo_functions o f then (p = fo_partial o /\ fh = S fb /\ fb < fo_max o) \/ (fo_computation o = true /\ p = Partial /\ fh = fb /\ 1 <= fb <= fo_max o)
      else p = fo_partial o /\ fh = fo_max o /\ fb = fo_max o
  | EncFuelParam o =>
      if fo_functions o f then (p = fo_partial o /\ fh = S fb) \/ (fo_computation o = true /\ p = Partial /\ fh = fb)
      else p = fo_partial o /\ fh = fo_max o /\ fb = fo_max o
  end.
Definition emits_ret (E : encoder) (f : string) (k : nat) : Prop :=
  match E with
  | EncAxiomatic _ | EncRecFun => k = 0
  | EncFuelMono o => if fo_functions o f then k <= fo_max o else k = fo_max o
  | EncFuelParam o => if fo_functions o f then True else k = fo_max o
  end.
Definition emits_syn (E : encoder) (f : string) (k : nat) : Prop :=
  match E with
  | EncAxiomatic _ | EncRecFun => False
  | EncFuelMono o => fo_functions o f = true /\ fo_synonym o = true /\ k < fo_max o
  | EncFuelParam o => fo_functions o f = true /\ fo_synonym o = true
  end.

Section Models.
Context (isvar : ident -> bool) (fsig : string -> option (list ty * ty)) (E : encoder).
Notation fits_at k := (fits fsig (enc_call E k)).
Notation sig_ok := (sig_ok isvar fsig).
Notation says_ret := (says_ret E).
Notation says_syn := (says_syn E).
Notation says_eq := (says_eq fsig E).

Definition says_fun (d : fdecl) (M : strct) : Prop :=
  (forall b p fh fb, fbody d = Some b -> emits_eq E (fname d) p fh fb -> says_eq fh fb d b M) /\
  (forall k, emits_ret E (fname d) k -> well_sorted fsig E M -> says_ret k d M) /\
  (forall k, emits_syn E (fname d) k -> well_sorted fsig E M -> says_syn k d M).
End Models.

Section Models2.
Context (isvar : ident -> bool) (fsig : string -> option (list ty * ty)) (E : encoder).
Notation fits_at k := (fits fsig (enc_call E k)).
Notation sig_ok := (sig_ok isvar fsig).
Notation says_ret := (says_ret E).
Notation says_syn := (says_syn E).
Notation says_eq := (says_eq fsig E).
Notation says_fun := (says_fun fsig E).

Lemma good_function P d : sig_ok d -> NoDup (finputs d) ->
  (match E with EncFuelMono o | EncFuelParam o => fo_functions o (fname d) = true -> fbody d <> None | _ => True end) ->
  (forall b p fh fb, fbody d = Some b -> emits_eq E (fname d) p fh fb -> good_step P (says_eq fh fb d b) (fun st => single (equation isvar fsig E p fh fb d b st))) ->
  (forall k M, emits_ret E (fname d) k -> P M -> says_ret k d M) ->
  (forall k M, emits_syn E (fname d) k -> P M -> says_syn k d M) ->
  good_step P (says_fun d) (function_axioms isvar fsig E d).
Proof.
  intros Sd Nd Fb Heq Hret Hsyn.
  assert (Gr : forall k, emits_ret E (fname d) k -> good_step P (fun M => well_sorted fsig E M -> says_ret k d M) (return_invariant isvar fsig E k d)).
  { intros k Hk. eapply good_impl; [| |apply good_ret]; eauto. }
  assert (Gs : forall k, emits_syn E (fname d) k -> good_step P (fun M => well_sorted fsig E M -> says_syn k d M)
                (fun st => single (equation isvar fsig E Partial (S k) k d (mk_call_expr d) st))).
  { intros k Hk. eapply good_impl; [| |apply good_syn]; eauto. }
  assert (Ga : forall p fuel, (forall b, fbody d = Some b -> emits_eq E (fname d) p fuel fuel) -> emits_ret E (fname d) fuel ->
    (forall p' fh fb, emits_eq E (fname d) p' fh fb -> fh = fuel /\ fb = fuel) -> (forall k, emits_ret E (fname d) k -> k = fuel) -> (forall k, ~ emits_syn E (fname d) k) ->
    good_step P (says_fun d) (axiomatic_axioms isvar fsig E p fuel d)).
  { intros p fuel H1 H2 H3 H4 H5. unfold axiomatic_axioms.
    eapply good_and with (Q := fun M => (forall b, fbody d = Some b -> says_eq fuel fuel d b M) /\ (well_sorted fsig E M -> says_ret fuel d M)).
    - change (good_step P (fun M => (forall b, fbody d = Some b -> says_eq fuel fuel d b M) /\ (well_sorted fsig E M -> says_ret fuel d M))
        (steps ([fun st => match fbody d with Some b => single (equation isvar fsig E p fuel fuel d b st) | None => Ok ([], st) end] ++ [return_invariant isvar fsig E fuel d]))).
      apply good_app; apply good_one; auto. destruct (fbody d) as [b|] eqn:Eb.
      + eapply good_and; [apply Heq with (p := p); eauto|]. intros M HM b' Eb'. injection Eb' as <-. exact HM.
      + eapply good_and; [apply good_nil | discriminate].
    - intros M [Q1 Q2]. split; [|split].
      + intros b p' fh fb Eb He. destruct (H3 _ _ _ He) as [-> ->]. auto.
      + intros k Hk. rewrite (H4 _ Hk). auto.
      + intros k Hk. destruct (H5 k Hk). }
  unfold function_axioms. destruct E as [q| |o|o] eqn:EE.
  - apply Ga; simpl; auto; tauto.
  - unfold recfun_axioms. destruct (fbody d) as [b|] eqn:Eb; [pose proof (Ga StrengthenToTotal 0 ltac:(simpl; auto) ltac:(simpl; auto) ltac:(simpl; tauto) ltac:(simpl; tauto) ltac:(simpl; tauto)) as G;
      unfold axiomatic_axioms in G; rewrite Eb in G; exact G|].
    apply Ga; simpl; auto; try tauto; discriminate.
  - destruct (fo_functions o (fname d)) eqn:Ef.
    2: { apply Ga; simpl; rewrite ?Ef; auto; try tauto. intros k [Hk _]; congruence. }
    destruct (fbody d) as [b|] eqn:Eb; [|destruct (Fb eq_refl eq_refl)].
    unfold fuel_mono_axioms.
    eapply good_and.
    + apply good_app.
      * apply (good_steps P (fun k => FuncAxioms.says_eq fsig (EncFuelMono o) (S k) k d b)). intros k Hk. apply in_seq in Hk. apply Heq with (p := fo_partial o); auto. simpl. rewrite Ef. left. repeat split; lia.
      * apply good_app; [|apply good_app].
        -- apply (good_steps P (fun k M => well_sorted fsig (EncFuelMono o) M -> FuncAxioms.says_ret (EncFuelMono o) k d M)). intros k Hk. apply in_seq in Hk. apply Gr. simpl. rewrite Ef. lia.
        -- apply good_if. intros Hs. apply (good_steps P (fun k M => well_sorted fsig (EncFuelMono o) M -> FuncAxioms.says_syn (EncFuelMono o) k d M)). intros k Hk. apply in_seq in Hk. apply Gs. simpl. repeat split; auto; lia.
        -- apply good_if. intros Hc. apply (good_steps P (fun k => FuncAxioms.says_eq fsig (EncFuelMono o) k k d b)). intros k Hk. apply in_seq in Hk. apply Heq with (p := Partial); auto. simpl. rewrite Ef. right. repeat split; auto; lia.
    + cbv beta. intros M (Q1 & Q2 & Q3 & Q4). split; [|split].
      * intros b' p fh fb Eb' He. rewrite Eb in Eb'. injection Eb' as <-. simpl in He. rewrite Ef in He. destruct He as [(_ & -> & Hl)|(Hc & _ & -> & Hl)].
        -- apply Q1. apply in_seq. lia.
        -- apply (Q4 Hc). apply in_seq. lia.
      * intros k Hk. simpl in Hk. rewrite Ef in Hk. apply Q2. apply in_seq. lia.
      * intros k (_ & Hs & Hl). apply (Q3 Hs). apply in_seq. lia.
  - destruct (fo_functions o (fname d)) eqn:Ef.
    2: { apply Ga; simpl; rewrite ?Ef; auto; try tauto. intros k [Hk _]; congruence. }
    destruct (fbody d) as [b|] eqn:Eb; [|destruct (Fb eq_refl eq_refl)].
    unfold fuel_param_axioms.
    eapply good_and.
    + apply good_app; [apply good_one|apply good_app; [apply good_if; intros Hs; apply good_one|apply good_app; [apply good_one|apply good_if; intros Hc; apply good_one]]].
      * apply (good_all_fuel P (fun k => FuncAxioms.says_eq fsig (EncFuelParam o) (S k) k d b)). intros k. apply Heq with (p := fo_partial o); auto. simpl. rewrite Ef. auto.
      * apply (good_all_fuel P (fun k M => well_sorted fsig (EncFuelParam o) M -> FuncAxioms.says_syn (EncFuelParam o) k d M)). intros k. apply Gs. simpl. auto.
      * apply (good_all_fuel P (fun k M => well_sorted fsig (EncFuelParam o) M -> FuncAxioms.says_ret (EncFuelParam o) k d M)). intros k. apply Gr. simpl. now rewrite Ef.
      * apply (good_all_fuel P (fun k => FuncAxioms.says_eq fsig (EncFuelParam o) k k d b)). intros k. apply Heq with (p := Partial); auto. simpl. rewrite Ef. auto.
    + cbv beta. intros M (Q1 & Q2 & Q3 & Q4). split; [|split].
      * intros b' p fh fb Eb' He. rewrite Eb in Eb'. injection Eb' as <-. simpl in He. rewrite Ef in He. destruct He as [(_ & ->)|(Hc & _ & ->)]; auto.
      * intros k _ W. apply Q3. exact W.
      * intros k (_ & Hs). auto.
Qed.
End Models2.
