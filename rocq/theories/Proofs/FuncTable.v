(** Structures that satisfy the strengthened equations of functions, if recursion needs fuel. *)
From Coq Require Import Bool List String ZArith NArith Reals Lia ClassicalEpsilon Relation_Operators.
From Verif.Model Require Depgraph.
From Verif.Model Require Import EurEncodings Syntax AstUtil ScopeMap Translate Funcs.
From Verif.Spec Require Recursion Needs.
From Verif.Spec Require Import Eur EncSpec Sem Exprs Translated Functions.
From Verif.Proofs Require DepgraphProofs.
From Verif.Proofs Require Import EurLemmas SemLemmas SubstProofs TranslateTerms TranslateStates TranslateProofs TranslateProps FuncEquations FuncAxioms FuncModels FuncProps FuncRaw FuncRefuted.
Import ListNotations.
Local Open Scope list_scope.
Local Open Scope nat_scope.

(** ** Ranks *)
Section Rank.
Context (l : list dspec).
Notation reach := (clos_refl_trans string (calls_of l)).
Definition in_reach (f : string) (s : dspec) : bool := if excluded_middle_informative (reach f (dname s)) then true else false.
Definition rank (f : string) : nat := List.length (filter (in_reach f) l).

Lemma filter_le {A} (p q : A -> bool) xs : (forall x, In x xs -> p x = true -> q x = true) -> List.length (filter p xs) <= List.length (filter q xs).
Proof.
  induction xs as [|x xs IH]; intros H; simpl; auto. assert (IH' : List.length (filter p xs) <= List.length (filter q xs)) by (apply IH; intros; apply H; auto; now right).
  destruct (p x) eqn:Ep; [rewrite (H x (or_introl eq_refl) Ep); simpl; lia|]. destruct (q x); simpl; lia.
Qed.
Lemma filter_lt {A} (p q : A -> bool) xs x : (forall x, In x xs -> p x = true -> q x = true) -> In x xs -> p x = false -> q x = true -> List.length (filter p xs) < List.length (filter q xs).
Proof.
  induction xs as [|y xs IH]; intros H Hx Ep Eq; [destruct Hx|]. simpl. assert (H' : forall x, In x xs -> p x = true -> q x = true) by (intros; apply H; auto; now right).
  destruct Hx as [->|Hx].
  - rewrite Ep, Eq. simpl. pose proof (filter_le p q xs H'). lia.
  - specialize (IH H' Hx Ep Eq). destruct (p y) eqn:Epy; [rewrite (H y (or_introl eq_refl) Epy); simpl; lia|]. destruct (q y); simpl; lia.
Qed.
Lemma trans_rt x y z : clos_trans _ (calls_of l) x y -> reach y z -> clos_trans _ (calls_of l) x z.
Proof. intros T R. revert T. induction R; intros T; auto. eapply t_trans; [exact T | now apply t_step]. Qed.
Lemma rt_trans' x y z : reach x y -> clos_trans _ (calls_of l) y z -> clos_trans _ (calls_of l) x z.
Proof. intros R T. revert T. induction R; intros T; auto. eapply t_trans; [apply t_step; eassumption | exact T]. Qed.
Lemma reach_trans_step f g : calls_of l f g -> reach g f -> clos_trans _ (calls_of l) f f.
Proof. intros H R. eapply trans_rt; [apply t_step; exact H | exact R]. Qed.
Lemma trans_reach f g : clos_trans _ (calls_of l) f g -> reach f g.
Proof. induction 1; [now apply rt_step | eapply rt_trans; eauto]. Qed.
Lemma rank_spec E f g : recursion_fuelled E l -> calls_of l f g -> rank g < rank f \/ (rank g <= rank f /\ fuelled E g = true /\ fuelled E f = true).
Proof.
  intros Hr Hc.
  assert (Sub : forall s, In s l -> in_reach g s = true -> in_reach f s = true).
  { intros s _. unfold in_reach. destruct (excluded_middle_informative (reach g (dname s))) as [R|]; [|discriminate]. intros _.
    destruct (excluded_middle_informative _) as [|N]; auto. destruct N. eapply rt_trans; [apply rt_step; exact Hc | exact R]. }
  destruct (excluded_middle_informative (reach g f)) as [R|N].
  - right. split; [apply filter_le; exact Sub|]. split; apply Hr.
    + eapply rt_trans'; [exact R | apply t_step; exact Hc].
    + eapply reach_trans_step; eauto.
  - left. pose proof Hc as (d & b & Hd & Hn & Hb & _). apply filter_lt with (x := DFun d); auto.
    + unfold in_reach. simpl. rewrite Hn. destruct (excluded_middle_informative _); tauto.
    + unfold in_reach. simpl. rewrite Hn. destruct (excluded_middle_informative _) as [|K]; auto. destruct K. apply rt_refl.
Qed.
End Rank.

Lemma enc_call_fuelled E k f u ds : enc_call E k f u ds = if fuelled E f then u f (DyF k :: ds) else u f ds.
Proof. destruct E; reflexivity. Qed.

Fixpoint bind (xs : list ident) (ds : list dyn) (y : ident) : dyn :=
  match xs, ds with x :: xs, d :: ds => if ident_dec y x then d else bind xs ds y | _, _ => DyF 0 end.
Lemma bind_vals xs s ds : NoDup xs -> Forall2 val_dyn (map s xs) ds -> forall x, In x xs -> val_dyn (s x) (bind xs ds x).
Proof.
  intros N. revert ds. induction N as [|x xs Hx N IH]; intros ds H y Hy; [destruct Hy|]. inversion H; subst. simpl. destruct (ident_dec y x) as [->|Ne]; auto.
  destruct Hy as [->|Hy]; [tauto|]. auto.
Qed.
Lemma bind_seen st xs ys M : NoDup xs -> Forall2 (seen st) xs ys -> forall x, In x xs -> exists y sc, vis st x = Some (y, sc) /\ into_dynamic y M = bind xs (args_at ys M) x.
Proof.
  intros N F. induction F as [|x y xs ys [sc V] _ IH]; intros z Hz; [destruct Hz|]. inversion N; subst. simpl. destruct (ident_dec z x) as [->|Ne]; eauto.
  destruct Hz as [->|Hz]; [tauto|]. auto.
Qed.

Section Table.
Context (isvar : ident -> bool) (E : encoder) (known given : list dspec) (I : interp).
Context (Hl : specs_ok isvar known) (Hi : incl given known) (HI : interp_ok I) (Hsat : satisfies I given) (Hr : recursion_fuelled E given).
Notation fsig := (fsig_of known).
Notation fits_at k := (fits fsig (enc_call E k)).
Context (M0 : strct) (F0 : forall k, fits_at k I M0).

Definition mk (T : string -> list dyn -> dyn) : strct := mkstr (cb M0) (ci M0) (cr M0) (sk M0) T (sdiv0 M0) (smod0 M0).
Definition body_of (f : string) : option (fdecl * expr) :=
  match find (fun s => match s with DFun d => String.eqb (fname d) f | _ => false end) given with
  | Some (DFun d) => match fbody d with Some b => Some (d, b) | None => None end
  | _ => None
  end.
Lemma body_some f d b : body_of f = Some (d, b) -> In (DFun d) given /\ fname d = f /\ fbody d = Some b.
Proof.
  unfold body_of. destruct (find _ given) as [[d'|]|] eqn:Ef; try discriminate. apply find_some in Ef. destruct Ef as [Hin He]. apply String.eqb_eq in He.
  destruct (fbody d') as [b'|] eqn:Eb; [|discriminate]. intros H. injection H as <- <-. auto.
Qed.
Lemma given_same d d' : In (DFun d) given -> In (DFun d') given -> fname d = fname d' -> d = d'.
Proof. intros H H'. eapply same_decl; [apply Hl | |]; apply Hi; assumption. Qed.
Lemma body_in d b : In (DFun d) given -> fbody d = Some b -> body_of (fname d) = Some (d, b).
Proof.
  intros Hd Hb. unfold body_of. destruct (find _ given) as [s|] eqn:Ef.
  - apply find_some in Ef. destruct Ef as [Hin He]. destruct s as [d'|]; [|discriminate]. apply String.eqb_eq in He. rewrite (given_same d' d) by auto. now rewrite Hb.
  - exfalso. eapply find_none in Ef; [|exact Hd]. simpl in Ef. now rewrite String.eqb_refl in Ef.
Qed.

(** One unfolding. *)
Definition next (T : string -> list dyn -> dyn) (f : string) (ds : list dyn) : dyn :=
  match body_of f with
  | None => ufn M0 f ds
  | Some (d, b) =>
      if fuelled E f then match ds with DyF (S k) :: r => raw (enc_call E k) (mk T) b (bind (finputs d) r) | _ => ufn M0 f ds end
      else raw (enc_call E (ambient E)) (mk T) b (bind (finputs d) ds)
  end.
Fixpoint tab (n : nat) : string -> list dyn -> dyn := match n with 0 => ufn M0 | S n => next (tab n) end.
Definition m (f : string) (ds : list dyn) : nat :=
  rank given f * (ambient E + 2) + if fuelled E f then match ds with DyF k :: _ => k | _ => 0 end else ambient E + 1.
Definition fin (f : string) (ds : list dyn) : dyn := tab (S (m f ds)) f ds.

Lemma next_local T T' f ds : (forall g ds', m g ds' < m f ds -> T' g ds' = T g ds') -> next T' f ds = next T f ds.
Proof.
  intros H. unfold next. destruct (body_of f) as [[d b]|] eqn:Eb; auto. destruct (body_some _ _ _ Eb) as (Hin & Hn & Hb).
  assert (R : forall g, Recursion.calls g b -> rank given g < rank given f \/ (rank given g <= rank given f /\ fuelled E g = true /\ fuelled E f = true)).
  { intros g Hg. apply (rank_spec given E f g Hr). exists d, b. auto. }
  destruct (fuelled E f) eqn:Ef.
  - destruct ds as [|[| | | |[|k]] r]; auto. apply raw_local; [split; reflexivity|]. intros g ds' Hg. cbn [ufn mk]. rewrite !enc_call_fuelled.
    specialize (R g Hg). destruct (fuelled E g) eqn:Eg; apply H; unfold m; rewrite Ef, Eg; [|destruct R as [R|[_ [R _]]]; [|discriminate]]; nia.
  - apply raw_local; [split; reflexivity|]. intros g ds' Hg. cbn [ufn mk]. rewrite !enc_call_fuelled.
    specialize (R g Hg). destruct R as [R|[_ [_ R]]]; [|discriminate]. destruct (fuelled E g) eqn:Eg; apply H; unfold m; rewrite Ef, Eg; nia.
Qed.
Lemma tab_stable : forall k n f ds, m f ds < k -> m f ds < n -> tab n f ds = fin f ds.
Proof.
  induction k as [|k IH]; intros n f ds Hk Hn; [lia|]. destruct n as [|n]; [lia|]. unfold fin. cbn [tab]. apply next_local. intros g ds' Hg.
  rewrite (IH n), (IH (m f ds)); auto; lia.
Qed.
Lemma fin_next f ds : fin f ds = next fin f ds.
Proof. unfold fin at 1. cbn [tab]. apply next_local. intros g ds' Hg. apply (tab_stable (S (m g ds'))); lia. Qed.

(** Tables fit. *)
Lemma raw_val k e M s r : plain_expr isvar fsig e -> fits_at k I M -> env_ok s -> (forall x, fv x e -> val_dyn (s x) (r x)) ->
  val_dyn (eval I e s) (raw (enc_call E k) M e r).
Proof.
  intros Pe Fm Hs Hr'. pose proof Pe as (T & S & Q). unfold translatable in T. apply andb_prop in T. destruct T as [W U]. apply negb_true_iff in U.
  destruct (tr_plain isvar fsig E k e tst_new Pe top_init) as (y & st' & Et & T' & _ & Ty & V & C).
  destruct (free_variables_spec e (some_no_subst _ _ _ U)) as (vs & _ & Hvs).
  destruct (assign_inputs isvar st' vs M s (proj1 T')) as (M' & A & _ & He); auto. { intros x Hx. apply V. now apply Hvs. }
  assert (He' : encs (fun x => fv x e) st' M' s) by (intros x Hx; apply He; now apply Hvs).
  pose proof A as (_&_&_&_&Eu&Ed&Em).
  replace (raw (enc_call E k) M e r) with (into_dynamic y M').
  - apply into_dynamic_val, C; auto. eapply fits_ufn; eauto.
  - rewrite (raw_follows isvar fsig (enc_call E k) e W U S Q tst_new y st' (proj1 top_init) Et M' r).
    + apply raw_local; [split; auto|]. intros f ds _. now rewrite Eu.
    + intros x Hx. destruct (He' x Hx) as (z & sc & Vz & Ez). exists z, sc. split; auto. eapply val_dyn_fun; [apply into_dynamic_val; exact Ez | auto].
Qed.
Lemma next_fits T : (forall k, fits_at k I (mk T)) -> forall k, fits_at k I (mk (next T)).
Proof.
  intros F k. destruct (F0 k) as [G1 G2 G3 G4 G5]. split; auto. cbn [ufn mk]. intros f ts t vs ds Ef Hv Hd.
  rewrite enc_call_fuelled. specialize (G5 f ts t vs ds Ef Hv Hd). rewrite enc_call_fuelled in G5. unfold next.
  destruct (body_of f) as [[d b]|] eqn:Eb; [|destruct (fuelled E f); auto]. destruct (body_some _ _ _ Eb) as (Hin & <- & Hb).
  destruct (spec_sig isvar known Hl d (Hi _ Hin)) as ((Hx & Hsig) & Nd & Heq). destruct (Heq b Hb) as (Pe & Te & Fe).
  rewrite Hsig in Ef. injection Ef as <- <-. destruct (args_state _ _ Nd Hv) as (s & Hs & <-).
  pose proof (Hsat _ Hin) as Hsd. simpl in Hsd. rewrite Hb in Hsd.
  assert (R : forall k, val_dyn (ifun I (fname d) (fout d) (map s (finputs d))) (raw (enc_call E k) (mk T) b (bind (finputs d) ds))).
  { intros j. rewrite (Hsd s Hs). apply raw_val; auto. intros x Hx'. eapply bind_vals; eauto. }
  destruct (fuelled E (fname d)); auto. destruct k; auto.
Qed.
Lemma tab_fits n : forall k, fits_at k I (mk (tab n)).
Proof.
  induction n as [|n IH]; cbn [tab]; [|now apply next_fits]. intros k. eapply fits_ufn; [| | |apply (F0 k)]; reflexivity.
Qed.
Lemma fin_fits k : fits_at k I (mk fin).
Proof.
  destruct (F0 k) as [G1 G2 G3 G4 _]. split; auto. cbn [ufn mk]. intros f ts t vs ds Ef Hv Hd.
  rewrite enc_call_fuelled. unfold fin.
  pose proof (fun n => fits_fun _ _ _ _ (tab_fits n k) f ts t vs ds Ef Hv Hd) as X. cbn [ufn mk] in X.
  destruct (fuelled E f) eqn:Eu; [specialize (X (S (m f (DyF k :: ds)))) | specialize (X (S (m f ds)))]; rewrite enc_call_fuelled, Eu in X; exact X.
Qed.

(** Strengthened equations. *)
Definition unfolds (M : strct) : Prop := forall d b fh fb ds, In (DFun d) given -> fbody d = Some b -> emits_eq E (fname d) StrengthenToTotal fh fb ->
  enc_call E fh (fname d) (ufn M) ds = raw (enc_call E fb) M b (bind (finputs d) ds).
Lemma unfolds_same M M' : ufn M' = ufn M -> sdiv0 M' = sdiv0 M -> smod0 M' = smod0 M -> unfolds M -> unfolds M'.
Proof.
  intros Eu Ed Em H d b fh fb ds Hd Hb He. rewrite Eu, (H d b fh fb ds Hd Hb He). symmetry. apply raw_local; [split; auto|]. intros f ds' _. now rewrite Eu.
Qed.
Lemma fin_unfolds : unfolds (mk fin).
Proof.
  intros d b fh fb ds Hd Hb He. rewrite enc_call_fuelled. cbn [ufn mk].
  assert (X : if fuelled E (fname d) then fh = S fb else fh = ambient E /\ fb = ambient E).
  { clear -He. unfold emits_eq in He. destruct E as [q| |o|o]; simpl in *; try tauto; destruct (fo_functions o (fname d)); try tauto; destruct He as [H|H]; try tauto; destruct H as (_ & H & _); discriminate H. }
  destruct (fuelled E (fname d)) eqn:Ef.
  - subst fh. rewrite fin_next. unfold next. now rewrite (body_in d b Hd Hb), Ef.
  - destruct X as [-> ->]. rewrite fin_next. unfold next. now rewrite (body_in d b Hd Hb), Ef.
Qed.

Lemma sort_dynamic y M : of_sort (symb_ty y) (into_dynamic y M). Proof. destruct y; exact Logic.I. Qed.
Lemma good_eq_total d b fh fb : In (DFun d) given -> fbody d = Some b -> emits_eq E (fname d) StrengthenToTotal fh fb ->
  good_step unfolds (says_eq fsig E fh fb d b) (fun st => single (equation isvar fsig E StrengthenToTotal fh fb d b st)).
Proof.
  intros Hd Hb Hem st T. destruct (spec_sig isvar known Hl d (Hi _ Hd)) as (Sd & Nd & Heq). destruct (Heq b Hb) as (Pe & Te & Fe).
  destruct (equation_ok isvar fsig E StrengthenToTotal fh fb d b st Sd Pe Fe T) as (ax & st' & ys & yb & Eq & Q).
  exists [ax], st'. rewrite Eq. split; [reflexivity|]. split; [apply (q_top _ _ _ _ _ _ _ _ _ _ _ _ _ Q)|]. split.
  - intros M HM c [<-|[]]. rewrite (q_ax _ _ _ _ _ _ _ _ _ _ _ _ _ Q). apply scope_forall_iff. cbn [sbounds scons]. intros M' A _. apply dyn_eq_iff.
    pose proof A as (_&_&_&_&Eu&Ed&Em). pose proof (unfolds_same M M' Eu Ed Em HM) as HM'.
    assert (Y : into_dynamic yb M' = enc_call E fh (fname d) (ufn M') (args_at ys M')).
    { rewrite (HM' d b fh fb _ Hd Hb Hem). destruct (q_tr _ _ _ _ _ _ _ _ _ _ _ _ _ Q) as (st0 & T0 & _ & _ & Et).
      pose proof Pe as (Tr & S & Qn). unfold translatable in Tr. apply andb_prop in Tr. destruct Tr as [W U]. apply negb_true_iff in U.
      apply (raw_follows isvar fsig (enc_call E fb) b W U S Qn st0 yb st' (proj1 T0) Et). intros x Hx. eapply bind_seen; [exact Nd | apply (q_seen _ _ _ _ _ _ _ _ _ _ _ _ _ Q) | auto]. }
    rewrite Y. unfold call_at. apply from_into. rewrite <- Y. rewrite <- Te, <- (q_ty _ _ _ _ _ _ _ _ _ _ _ _ _ Q). apply sort_dynamic.
  - intros M HM I' HI' F1 F2 s Hs. eapply eqn_says; eauto. apply HM. now left.
Qed.

Lemma table_axioms (He : encoder_ok E known) : exists axs st', steps (map (spec_axioms isvar fsig E) given) tst_new = Ok (axs, st') /\
  forall M, (forall k, fits_at k I M) -> unfolds M -> Forall (fun c => c M = true) axs.
Proof.
  destruct (good_steps (fun M => (forall k, fits_at k I M) /\ unfolds M) (fun _ _ => True) (spec_axioms isvar fsig E) given) with (st := tst_new) as (axs & st' & E1 & _ & A & _); auto using top_init.
  - intros s Hin. pose proof (Hsat s Hin) as Hs. destruct s as [d|n e].
    + destruct (spec_sig isvar known Hl d (Hi _ Hin)) as (Sd & Nd & Hb). eapply good_and; [apply good_function; [exact Sd | exact Nd | exact (fuel_body E known He d (Hi _ Hin)) | | |]|auto].
      * intros b p fh fb Eb Hem. rewrite Eb in Hs. destruct p.
        -- eapply good_impl; [| |apply (good_eq_partial isvar fsig E I); [exact HI | exact Sd | exact (Hb b Eb) | exact Hs]]; [intros M [HM _]; split; apply HM | auto].
        -- eapply good_impl; [| |apply (good_eq_total d b fh fb Hin Eb Hem)]; [tauto | auto].
      * intros k M _ [F _]. eapply returns_hold; eauto.
      * intros k M _ [F _]. eapply synonyms_hold; eauto.
    + destruct Hl as [_ F]. rewrite Forall_forall in F. eapply good_impl; [| |apply (good_axiom isvar fsig E I n e HI (F _ (Hi _ Hin)))]; auto.
      intros M [HM _]. split; auto. exists (fun x => some_val (ity x)). apply Hs. intros x. apply some_val_ty.
  - exists axs, st'. split; auto. intros M HM HU. rewrite Forall_forall. apply A. auto.
Qed.
End Table.

(** ** Soundness *)
Lemma strengthened_sound isvar E c l axs e t cs : specs_ok isvar (filter (declared c) l) -> encoder_ok E l -> recursion_fuelled E (filter (defined c) l) ->
  init_dependencies isvar E c l = Ok axs -> translatable isvar (fsig_of (filter (declared c) l)) e = true -> ty_of e = TBool -> some eur_sub e = false ->
  translate isvar (fsig_of (filter (declared c) l)) (enc_call E (ambient E)) e = Ok (t, cs) -> proved axs cs t ->
  forall I, interp_ok I -> agreeing I -> satisfies I (filter (defined c) l) -> forall s, env_ok s -> eval I e s = VBool true.
Proof.
  intros Hl He Hr Ei HT Hb HS Et Hpr I HI Ag Hsat s Hs. pose proof (encoder_known E c l He) as He2. pose proof (given_known c l) as Hi.
  destruct (fits_all_exists E _ He2 I HI Ag) as [M0 F0].
  destruct (table_axioms isvar E _ _ I Hl Hi HI Hsat He2) as (axs' & st & E1 & Hax).
  unfold init_dependencies in Ei. rewrite E1 in Ei. injection Ei as <-.
  pose proof (fin_fits isvar E _ _ I Hl Hi HI Hsat M0 F0) as Ff. pose proof (fin_unfolds isvar E _ _ Hl Hi Hr M0) as Fu.
  destruct (states_to_models_same isvar _ _ e I t cs HT Hb HS HI Et s _ Hs (Ff (ambient E))) as (M & (U1 & U2 & U3) & C & ->).
  rewrite Hpr; auto. apply Hax.
  - intros k. eapply fits_ufn; eauto. - eapply unfolds_same; eauto.
Qed.

(** ** The fuel options give fuel to recursion *)
Lemma calls_of_incl l l' f g : incl l l' -> clos_trans _ (calls_of l) f g -> clos_trans _ (calls_of l') f g.
Proof. intros Hi. induction 1 as [f g (d & b & H & H')|]; [apply t_step; exists d, b; auto | eapply t_trans; eauto]. Qed.
Lemma made_fuelled opt ns nsyn max recursive l E c : fuel_option opt = true -> mk_function_encoder opt ns nsyn max recursive l = Ok E ->
  (forall f, clos_trans _ (calls_of l) f f -> recursive f = true) -> recursion_fuelled E (filter (defined c) l).
Proof.
  intros Ho HE Hr f Hf. apply (calls_of_incl _ l) in Hf; [|intros s Hs; apply filter_In in Hs; tauto].
  assert (X : existsb (fun s => match s with DFun d => String.eqb (fname d) f && match fbody d with Some _ => recursive f | None => false end | _ => false end) l = true).
  { apply existsb_exists. assert (Y : forall x y, clos_trans _ (calls_of l) x y -> exists d b, In (DFun d) l /\ fname d = x /\ fbody d = Some b).
    { clear. induction 1 as [f g (d & b & H1 & H2 & H3 & _)|]; eauto. }
    destruct (Y f f Hf) as (d & b & H1 & H2 & H3). exists (DFun d). split; auto. rewrite H2, String.eqb_refl, H3. simpl. auto. }
  destruct opt; try discriminate Ho; injection HE as <-; exact X.
Qed.

(** The dependency graph of a file finds what is recursive. *)
Lemma depgraph_fuelled m us g l : Depgraph.generate_depgraph m us = Ok g ->
  (forall d, In (DFun d) l -> exists doms, Needs.has_func us (Depgraph.mkdfunc (fname d) doms (fbody d))) ->
  exists N, forall n f, N <= n -> clos_trans _ (calls_of l) f f -> Depgraph.is_potentially_recursive g n f = Some true.
Proof.
  intros Hg Hl.
  assert (Sd : forall f, clos_trans _ (calls_of l) f f -> Needs.self_defined us f).
  { intros f. unfold Needs.self_defined. generalize f at 2 4. intros f' H. induction H as [x y (d & b & H1 & H2 & H3 & H4)|]; [|eapply t_trans; eauto].
    apply t_step. destruct (Hl d H1) as [doms Hd]. exists (Depgraph.mkdfunc (fname d) doms (fbody d)). split; auto. split; auto. right. exists b. auto. }
  assert (Fin : forall l' : list dspec, exists N, forall n s, N <= n -> In s l' -> clos_trans _ (calls_of l) (dname s) (dname s) -> Depgraph.is_potentially_recursive g n (dname s) = Some true).
  { induction l' as [|s l' [N IH]]; [exists 0; intros n s _ []|].
    destruct (excluded_middle_informative (clos_trans _ (calls_of l) (dname s) (dname s))) as [T|T].
    - destruct (DepgraphProofs.self_defined_recursive m us g (dname s) Hg (Sd _ T)) as [N' HN]. exists (Nat.max N N'). intros n s' Hn [<-|H]; [intros _; apply HN; lia | apply IH; auto; lia].
    - exists N. intros n s' Hn [<-|H]; [tauto | apply IH; auto]. }
  destruct (Fin l) as [N HN]. exists N. intros n f Hn Hf.
  assert (Y : forall x y, clos_trans _ (calls_of l) x y -> exists d, In (DFun d) l /\ fname d = x).
  { clear. induction 1 as [f g (d & b & H1 & H2 & _)|]; eauto. }
  destruct (Y f f Hf) as (d & Hd & <-). apply (HN n (DFun d) Hn Hd Hf).
Qed.

(** A recursive function under the default options. *)
Lemma down_fuelled : exists E, mk_function_encoder OptFuelParam false false 2 (fun _ => true) down_specs = Ok E /\ encoder_ok E down_specs /\
  recursion_fuelled E down_specs /\ ~ keeps_partial E /\ calls_of down_specs "f" "f".
Proof.
  eexists. split; [reflexivity|]. split; [|split; [|split]].
  - refine (made_encoder_ok OptFuelParam false false 2 (fun _ => true) down_specs _ _ eq_refl). repeat constructor; simpl; tauto.
  - apply (made_fuelled OptFuelParam false false 2 (fun _ => true) down_specs _ DepAll eq_refl eq_refl). auto.
  - discriminate.
  - eexists _, _. split; [now left|]. split; [reflexivity|]. split; [reflexivity|]. simpl. tauto.
Qed.
