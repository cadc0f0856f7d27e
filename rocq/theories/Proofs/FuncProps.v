(** What is proved with the axioms of functions is true, and counterexamples are real. *)
From Coq Require Import Bool List String ZArith NArith Reals Lia ClassicalEpsilon.
From Verif.Model Require Import EurEncodings Syntax AstUtil ScopeMap Translate Funcs.
From Verif.Spec Require Import Eur EncSpec Sem Exprs Translated Functions.
From Verif.Proofs Require Import EurLemmas SemLemmas EncProofs EncProps TranslateTerms TranslateStates TranslateProps FuncEquations FuncAxioms FuncModels.
Import ListNotations.
Local Open Scope list_scope.
Local Open Scope nat_scope.

Lemma fsig_in l f ts t : fsig_of l f = Some (ts, t) -> exists d, In (DFun d) l /\ fname d = f /\ ts = map ity (finputs d) /\ t = fout d.
Proof.
  induction l as [|[d|n e] l IH]; simpl; [discriminate| |].
  - destruct (String.eqb_spec (fname d) f) as [<-|N]; intros H.
    + injection H as <- <-. exists d. auto.
    + destruct (IH H) as (d' & H1 & H2). exists d'. auto.
  - intros H. destruct (IH H) as (d' & H1 & H2). exists d'. auto.
Qed.
Lemma fsig_fun l d : NoDup (map dname l) -> In (DFun d) l -> fsig_of l (fname d) = Some (map ity (finputs d), fout d).
Proof.
  induction l as [|s l IH]; intros N H; [destruct H|]. simpl in N. inversion N as [|? ? N1 N2]; subst. destruct H as [->|H].
  - simpl. now rewrite String.eqb_refl.
  - assert (dname s <> fname d) by (intros Ed; apply N1; rewrite Ed; change (fname d) with (dname (DFun d)); now apply in_map).
    destruct s as [d'|n e]; simpl in *; [|auto]. destruct (String.eqb_spec (fname d') (fname d)); [tauto|auto].
Qed.

Section Props.
Context (isvar : ident -> bool) (E : encoder) (l : list dspec).
Context (Hl : specs_ok isvar l) (He : encoder_ok E l).
Notation fsig := (fsig_of l).
Notation fits_at k := (fits fsig (enc_call E k)).

Lemma spec_sig d : In (DFun d) l -> sig_ok isvar fsig d /\ NoDup (finputs d) /\ forall b, fbody d = Some b -> eq_ok isvar fsig d b.
Proof.
  intros Hd. destruct Hl as [N F]. rewrite Forall_forall in F. pose proof (F _ Hd) as (H1 & H2 & H3).
  split; [split; auto using fsig_fun|]. split; auto. intros b Eb. rewrite Eb in H3. exact H3.
Qed.
Lemma fuel_body d : In (DFun d) l -> match E with EncFuelMono o | EncFuelParam o => fo_functions o (fname d) = true -> fbody d <> None | _ => True end.
Proof. intros Hd. unfold encoder_ok in He. destruct E; auto. Qed.

(** ** No panics, and what the axioms say *)
Definition says_spec (s : dspec) (M : strct) : Prop := match s with DFun d => says_fun fsig E d M | DAxiom _ e => says_ax fsig E e M end.
Lemma good_spec s : In s l -> good_step (fun _ => False) (says_spec s) (spec_axioms isvar fsig E s).
Proof.
  intros Hs. destruct s as [d|n e].
  - destruct (spec_sig d Hs) as (Sd & Nd & Hb). apply good_function; [exact Sd | exact Nd | exact (fuel_body d Hs) | | tauto | tauto]. intros b p fh fb Eb _. apply good_eq_any; auto.
  - destruct Hl as [_ F]. rewrite Forall_forall in F. eapply good_impl; [| |apply (good_axiom isvar fsig E dummy n e dummy_ok (F _ Hs))]; simpl; tauto.
Qed.
Lemma axioms_say l' : incl l' l -> exists axs st', steps (map (spec_axioms isvar fsig E) l') tst_new = Ok (axs, st') /\
  forall M, Forall (fun c => c M = true) axs -> forall s, In s l' -> says_spec s M.
Proof.
  intros Hi. destruct (good_steps (fun _ => False) says_spec (spec_axioms isvar fsig E) l' (fun s Hs => good_spec s (Hi s Hs)) tst_new top_init) as (axs & st' & E1 & _ & _ & B).
  exists axs, st'. split; auto. intros M HM. apply B. intros c Hc. rewrite Forall_forall in HM. auto.
Qed.

(** ** Soundness *)
Lemma synonyms_hold I M d k : interp_ok I -> sig_ok isvar fsig d -> (forall k, fits_at k I M) -> says_syn E k d M.
Proof.
  intros HI Sd F vs ds Hv Hd. eapply val_dyn_fun; eapply (fits_fun _ _ _ _ (F _)); eauto; apply Sd.
Qed.
Lemma returns_hold I M d k : interp_ok I -> sig_ok isvar fsig d -> (forall k, fits_at k I M) -> says_ret E k d M.
Proof.
  intros HI Sd F vs ds Hv Hd. exists (ifun I (fname d) (fout d) vs). split; [apply HI|]. eapply (fits_fun _ _ _ _ (F _)); eauto; apply Sd.
Qed.
Lemma partial_eq p f fh fb : keeps_partial E -> emits_eq E f p fh fb -> p = Partial.
Proof. unfold emits_eq, keeps_partial. destruct E as [q| |o|o]; intros Hp; try tauto. - intros [-> _]. auto. - destruct (fo_functions o f); intros H; decompose [and or] H; congruence.
  - destruct (fo_functions o f); intros H; decompose [and or] H; congruence. Qed.
Lemma axioms_hold I l' : keeps_partial E -> incl l' l -> interp_ok I -> satisfies I l' -> exists axs st', steps (map (spec_axioms isvar fsig E) l') tst_new = Ok (axs, st') /\
  forall M, (forall k, fits_at k I M) -> Forall (fun c => c M = true) axs.
Proof.
  intros Hp Hi HI Hs.
  destruct (good_steps (fun M => forall k, fits_at k I M) (fun _ _ => True) (spec_axioms isvar fsig E) l') with (st := tst_new) as (axs & st' & E1 & _ & A & _); auto using top_init.
  - intros s Hin. specialize (Hi s Hin). specialize (Hs s Hin). destruct s as [d|n e].
    + destruct (spec_sig d Hi) as (Sd & Nd & Hb). eapply good_and; [apply good_function; [exact Sd | exact Nd | exact (fuel_body d Hi) | | |]|auto].
      * intros b p fh fb Eb Hem. rewrite (partial_eq _ _ _ _ Hp Hem). rewrite Eb in Hs. eapply good_impl; [| |apply (good_eq_partial isvar fsig E I); [exact HI | exact Sd | exact (Hb b Eb) | exact Hs]]; [intros M HM; split; apply HM | auto].
      * intros k M _ F. eapply returns_hold; eauto.
      * intros k M _ F. eapply synonyms_hold; eauto.
    + destruct Hl as [_ F]. rewrite Forall_forall in F. eapply good_impl; [| |apply (good_axiom isvar fsig E I n e HI (F _ Hi))]; auto.
      intros M HM. split; auto. exists (fun x => some_val (ity x)). apply Hs. intros x. apply some_val_ty.
  - exists axs, st'. split; auto. intros M HM. rewrite Forall_forall. apply A. exact HM.
Qed.

(** ** Every interpretation is realised *)
Lemma fits_all_exists I : interp_ok I -> agreeing I -> exists M, forall k, fits_at k I M.
Proof.
  intros HI Ag. destruct (fits_exists fsig I HI Ag) as [M0 F].
  set (u := fun f ds => match ds with DyF _ :: r => ufn M0 f r | _ => ufn M0 f ds end).
  exists (mkstr (cb M0) (ci M0) (cr M0) (sk M0) u (sdiv0 M0) (smod0 M0)). intros k. destruct F as [F1 F2 F3 F4 F5]. split; simpl; auto.
  intros f ts t vs ds Hf Hv Hd. assert (X1 : u f ds = ufn M0 f ds).
  { unfold u. inversion Hd as [|v d vs' ds' Hx _]; subst; auto. destruct d; auto. destruct v; contradiction. }
  assert (X2 : enc_call E k f u ds = ufn M0 f ds). { unfold enc_call. destruct E as [| |o|o]; auto; destruct (fo_functions o f); auto. }
  rewrite X2. eapply F5; eauto.
Qed.

(** ** Structures that satisfy the axioms come from interpretations *)
Lemma ambient_ret f : emits_ret E f (ambient E).
Proof. unfold emits_ret, ambient. destruct E as [| |o|o]; auto; destruct (fo_functions o f); auto. Qed.

Section Decode.
Context (M : strct) (HM : forall s, In s l -> says_spec s M) (W : well_sorted fsig E M) (D : division_ok M).

Definition result (f : string) (t : ty) (vs : list val) (v : val) : Prop := has_ty v t /\
  forall ts ds, fsig f = Some (ts, t) -> Forall2 has_ty vs ts -> Forall2 val_dyn vs ds -> val_dyn v (enc_call E (ambient E) f (ufn M) ds).
Lemma vals_fun vs ds ds' : Forall2 val_dyn vs ds -> Forall2 val_dyn vs ds' -> ds = ds'.
Proof. intros H. revert ds'. induction H; intros ds' H'; inversion H'; subst; auto. f_equal; eauto using val_dyn_fun. Qed.
Lemma vals_ex vs ts : Forall2 has_ty vs ts -> exists ds, Forall2 val_dyn vs ds.
Proof. induction 1 as [|v t vs ts T _ [ds IH]]; [exists []; constructor|]. destruct (val_dyn_ex _ _ T) as [d Hd]. exists (d :: ds). now constructor. Qed.
Lemma result_ex f t vs : exists v, result f t vs v.
Proof.
  destruct (excluded_middle_informative (exists ts, fsig f = Some (ts, t) /\ Forall2 has_ty vs ts)) as [(ts & Ef & Hv)|N].
  - destruct (fsig_in _ _ _ _ Ef) as (d & Hd & <- & -> & ->). destruct (vals_ex _ _ Hv) as [ds Hds].
    pose proof (HM _ Hd) as (_ & Hr & _). destruct (Hr (ambient E) (ambient_ret _) W vs ds Hv Hds) as (v & Tv & Dv).
    exists v. split; auto. intros ts ds' Ef' Hv' Hds'. now rewrite (vals_fun _ _ _ Hds' Hds).
  - exists (some_val t). split; [apply some_val_ty|]. intros ts ds Ef Hv _. destruct N. eauto.
Qed.
Definition decoded : interp := {| ifun := fun f t vs => epsilon (inhabits VErr) (result f t vs);
  idiv0 := sdiv0 M; iudiv0 := fun x => nnr_of (sdiv0 M (nval x)); imod0 := smod0 M; iumod0 := fun n => Z.to_N (smod0 M (Z.of_N n)) |}.
Lemma decoded_fun f t vs : result f t vs (ifun decoded f t vs).
Proof. simpl. apply epsilon_spec, result_ex. Qed.
Lemma decoded_ok : interp_ok decoded. Proof. intros f t vs. apply decoded_fun. Qed.
Lemma decoded_fits : fits_at (ambient E) decoded M.
Proof.
  destruct D as [D1 D2]. split; simpl; auto.
  - intros x. rewrite nval_of; auto. apply D1, nval_nonneg.
  - intros n. rewrite Z2N.id; auto.
  - intros f ts t vs ds Ef Hv Hd. eapply decoded_fun; eauto.
Qed.
Lemma decoded_agreeing : agreeing decoded.
Proof. destruct decoded_fits as [F1 F2 F3 F4 F5]. split; intros; [rewrite <- F1, F2 | rewrite <- F3, F4]; auto. Qed.

(** Less fuel gives the same. *)
Lemma same_fuel f ts t vs ds k : linked E -> (match E with EncFuelMono o => k <= fo_max o | _ => True end) ->
  fsig f = Some (ts, t) -> Forall2 has_ty vs ts -> Forall2 val_dyn vs ds -> enc_call E k f (ufn M) ds = enc_call E (ambient E) f (ufn M) ds.
Proof.
  intros L K Ef Hv Hd. destruct (fsig_in _ _ _ _ Ef) as (d & Hin & <- & -> & ->). pose proof (HM _ Hin) as (_ & _ & Hs).
  assert (Z : forall n, (match E with EncFuelMono o => n <= fo_max o | _ => True end) -> enc_call E n (fname d) (ufn M) ds = enc_call E 0 (fname d) (ufn M) ds).
  { assert (Nf : (forall a b, enc_call E a (fname d) (ufn M) ds = enc_call E b (fname d) (ufn M) ds) \/ forall n, (match E with EncFuelMono o => S n <= fo_max o | _ => True end) -> emits_syn E (fname d) n).
    { unfold linked in L. unfold enc_call, emits_syn. destruct E as [| |o|o]; auto; destruct (fo_functions o (fname d)); auto; right; intros n Hn.
      destruct L. auto. }
    destruct Nf as [Nf|Nf]; [intros; apply Nf|].
    induction n as [|n IH]; intros Hn; auto. rewrite <- IH; [|destruct E; auto; lia]. apply (Hs n (Nf n Hn) W vs ds Hv Hd). }
  rewrite (Z k K). symmetry. apply Z. unfold ambient. destruct E; auto.
Qed.
Lemma decoded_fits_at k : linked E -> (match E with EncFuelMono o => k <= fo_max o | _ => True end) -> fits_at k decoded M.
Proof.
  intros L K. destruct decoded_fits as [F1 F2 F3 F4 F5]. split; auto. intros f ts t vs ds Ef Hv Hd. rewrite (same_fuel f ts t vs ds k); eauto.
Qed.
Lemma decoded_satisfies : linked E -> satisfies decoded l.
Proof.
  intros L s Hs. pose proof (HM s Hs) as Hm. destruct s as [d|n e].
  - destruct (fbody d) as [b|] eqn:Eb; auto. destruct Hm as (Heq & _ & _).
    assert (X : exists p fh fb, emits_eq E (fname d) p fh fb /\ (match E with EncFuelMono o => fh <= fo_max o | _ => True end) /\ (match E with EncFuelMono o => fb <= fo_max o | _ => True end)).
    { unfold emits_eq. unfold linked in L. destruct E as [q| |o|o].
      - exists q, 0, 0. auto. - exists StrengthenToTotal, 0, 0. auto.
      - exists (fo_partial o). destruct (fo_functions o (fname d)); [exists 1, 0 | exists (fo_max o), (fo_max o)]; destruct L as [_ L]; repeat split; auto; try lia.
        left. repeat split; auto; lia.
      - exists (fo_partial o). destruct (fo_functions o (fname d)); [exists 1, 0 | exists (fo_max o), (fo_max o)]; auto 6. }
    destruct X as (p & fh & fb & Hem & K1 & K2). apply (Heq b p fh fb Eb Hem decoded decoded_ok); apply decoded_fits_at; auto.
  - apply Hm; [apply decoded_ok | apply decoded_fits].
Qed.
End Decode.
End Props.

(** ** The statements *)
Section Statements.
Context (isvar : ident -> bool) (E : encoder) (c : dep_config) (l : list dspec).
Notation known := (filter (declared c) l).
Notation given := (filter (defined c) l).

Lemma given_known : incl given known.
Proof. intros s. rewrite !filter_In. unfold defined, declared. destruct c; intros [H1 H2]; split; auto; discriminate. Qed.
Lemma encoder_known : encoder_ok E l -> encoder_ok E known.
Proof. unfold encoder_ok. destruct E; auto; intros H d Hd; apply filter_In in Hd; apply H; tauto. Qed.

Lemma functions_no_panic : specs_ok isvar known -> encoder_ok E l -> exists axs, init_dependencies isvar E c l = Ok axs.
Proof.
  intros Hl He. destruct (axioms_say isvar E known Hl (encoder_known He) given given_known) as (axs & st & E1 & _).
  exists axs. unfold init_dependencies. now rewrite E1.
Qed.

Lemma functions_sound axs e t cs : specs_ok isvar known -> encoder_ok E l -> keeps_partial E -> init_dependencies isvar E c l = Ok axs ->
  translatable isvar (fsig_of known) e = true -> ty_of e = TBool -> some eur_sub e = false ->
  translate isvar (fsig_of known) (enc_call E (ambient E)) e = Ok (t, cs) -> proved axs cs t ->
  forall I, interp_ok I -> agreeing I -> satisfies I given -> forall s, env_ok s -> eval I e s = VBool true.
Proof.
  intros Hl He Hp Ei HT Hb HS Et Hpr I HI Ag Hsat s Hs.
  destruct (axioms_hold isvar E known Hl (encoder_known He) I given Hp given_known HI Hsat) as (axs' & st & E1 & Hax).
  unfold init_dependencies in Ei. rewrite E1 in Ei. injection Ei as <-.
  destruct (fits_all_exists E known (encoder_known He) I HI Ag) as [M0 F0].
  destruct (states_to_models_same isvar _ _ e I t cs HT Hb HS HI Et s M0 Hs (F0 (ambient E))) as (M & (U1 & U2 & U3) & C & ->).
  rewrite Hpr; auto. apply Hax. intros k. eapply fits_ufn; eauto.
Qed.

Lemma functions_models axs : specs_ok isvar known -> encoder_ok E l -> linked E -> c <> DepSpecsOnly -> init_dependencies isvar E c l = Ok axs ->
  forall M, well_sorted (fsig_of known) E M -> division_ok M -> Forall (fun a => a M = true) axs ->
  exists I, interp_ok I /\ agreeing I /\ satisfies I given /\ fits (fsig_of known) (enc_call E (ambient E)) I M.
Proof.
  intros Hl He L Hc Ei M W D HM. assert (Eg : given = known) by (unfold defined, declared; destruct c; tauto).
  destruct (axioms_say isvar E known Hl (encoder_known He) given given_known) as (axs' & st & E1 & Hax).
  unfold init_dependencies in Ei. rewrite E1 in Ei. injection Ei as <-. specialize (Hax M HM). rewrite Eg in *.
  pose proof (encoder_known He) as He2. exists (decoded E known M). split; [|split; [|split]].
  - eapply decoded_ok; eauto. - eapply decoded_agreeing; eauto. - eapply decoded_satisfies; eauto. - eapply decoded_fits; eauto.
Qed.

Lemma functions_counterexample axs e t cs : specs_ok isvar known -> encoder_ok E l -> linked E -> c <> DepSpecsOnly -> init_dependencies isvar E c l = Ok axs ->
  translatable isvar (fsig_of known) e = true -> ty_of e = TBool -> some eur_sub e = false ->
  translate isvar (fsig_of known) (enc_call E (ambient E)) e = Ok (t, cs) ->
  forall M, well_sorted (fsig_of known) E M -> division_ok M -> Forall (fun a => a M = true) axs -> Forall (fun a => a M = true) cs -> t M = false ->
  exists I s, interp_ok I /\ agreeing I /\ satisfies I given /\ env_ok s /\ eval I e s = VBool false.
Proof.
  intros Hl He L Hc Ei HT Hb HS Et M W D HM HC Hf.
  destruct (functions_models axs Hl He L Hc Ei M W D HM) as (I & HI & Ag & Hs & F).
  destruct (models_to_states isvar _ _ e I t cs HT Hb HS HI Et M F HC) as (s & Hok & Ev). rewrite Hf in Ev. exists I, s. auto.
Qed.
End Statements.

(** The encoders that are made are fit for the declarations. *)
Lemma same_decl l d d' : NoDup (map dname l) -> In (DFun d) l -> In (DFun d') l -> fname d = fname d' -> d = d'.
Proof.
  induction l as [|s l IH]; intros N H H' Ef; [destruct H|]. simpl in N. inversion N as [|? ? N1 N2]; subst.
  assert (X : forall e, In (DFun e) l -> dname s = fname e -> False).
  { intros e He Es. apply N1. rewrite Es. change (fname e) with (dname (DFun e)). now apply in_map. }
  destruct H as [->|H], H' as [H'|H'].
  - congruence. - destruct (X d' H' Ef). - subst s. destruct (X d H (eq_sym Ef)). - auto.
Qed.
Lemma made_encoder_ok opt ns nsyn max recursive l E : NoDup (map dname l) -> mk_function_encoder opt ns nsyn max recursive l = Ok E -> encoder_ok E l.
Proof.
  intros N H.
  assert (X : forall comp d, In (DFun d) l -> fo_functions (fuel_options_of ns nsyn max comp recursive l) (fname d) = true -> fbody d <> None).
  { intros comp d Hd Hf. simpl in Hf. apply existsb_exists in Hf. destruct Hf as ([d'|] & Hd' & Hb); [|discriminate]. apply andb_prop in Hb. destruct Hb as [Hn Hb].
    apply String.eqb_eq in Hn. rewrite (same_decl l d d' N Hd Hd') by auto. intros Eb. rewrite Eb in Hb. discriminate. }
  destruct opt; simpl in H; [| | | | | |destruct ns; [|discriminate H]]; injection H as <-; try exact Logic.I; intros d; apply X.
Qed.
