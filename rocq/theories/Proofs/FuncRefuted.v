(** Where the encodings of functions are not sound, and declarations for which they are. *)
From Coq Require Import Bool List String ZArith NArith QArith Qreals Reals Lra Lia ClassicalEpsilon.
From Verif.Model Require Import EurEncodings Syntax Translate Funcs.
From Verif.Spec Require Import Eur EncSpec Sem Exprs Translated Functions.
From Verif.Proofs Require Import EurLemmas SemLemmas EncProofs TranslateTerms TranslateProps TranslateRefuted FuncEquations.
Import ListNotations.
Local Open Scope string_scope.
Local Open Scope nat_scope.

Definition ex_ (t : ty) : ident := mkid "x" 0 t.
Definition ey_ (t : ty) : ident := mkid "y" 0 t.
Definition false_expr : expr := ELit TBool (LBool false).

(** [func diff(x: EUReal, y: EUReal): EUReal = x - y] *)
Definition diff_specs : list dspec :=
  [DFun (mkfdecl "diff" [ex_ TEUReal; ey_ TEUReal] TEUReal (Some (EBin TEUReal OSub (EVar (ex_ TEUReal)) (EVar (ey_ TEUReal)))))].
(** [func f(x: UInt): UInt = ite(x + 1 == 0, f(x) + 1, 0)] *)
Definition neg_specs : list dspec :=
  [DFun (mkfdecl "f" [ex_ TUInt] TUInt (Some (EIte TUInt
    (EBin TBool OEq (EBin TUInt OAdd (EVar (ex_ TUInt)) (ELit TUInt (LUInt 1))) (ELit TUInt (LUInt 0)))
    (EBin TUInt OAdd (ECall TUInt "f" [EVar (ex_ TUInt)]) (ELit TUInt (LUInt 1)))
    (ELit TUInt (LUInt 0)))))].
(** [func f(x: EUReal): EUReal = inf y: EUReal. x + y] *)
Definition inf_specs : list dspec :=
  [DFun (mkfdecl "f" [ex_ TEUReal] TEUReal (Some (EQuant QInf [QShadow (ey_ TEUReal)] (EBin TEUReal OAdd (EVar (ex_ TEUReal)) (EVar (ey_ TEUReal))))))].
(** [func f(x: UInt): UInt = ite(x == 0, 0, f(x - 1))] *)
Definition down_specs : list dspec :=
  [DFun (mkfdecl "f" [ex_ TUInt] TUInt (Some (EIte TUInt (EBin TBool OEq (EVar (ex_ TUInt)) (ELit TUInt (LUInt 0))) (ELit TUInt (LUInt 0))
    (ECall TUInt "f" [EBin TUInt OSub (EVar (ex_ TUInt)) (ELit TUInt (LUInt 1))]))))].


(** No structure satisfies the axioms, though the declarations make sense. *)
Definition contradictory (E : encoder) (l : list dspec) : Prop :=
  (exists axs, init_dependencies all_vars E DepAll l = Ok axs /\ forall M, ~ Forall (fun c => c M = true) axs) /\
  exists I, interp_ok I /\ agreeing I /\ satisfies I l.

Definition setc (M : strct) (b0 b1 : bool) (r0 r1 : R) : strct :=
  mkstr (fun n => match n with 0 => b0 | 1 => b1 | _ => cb M n end) (ci M) (fun n => match n with 0 => r0 | 1 => r1 | _ => cr M n end) (sk M) (ufn M) (sdiv0 M) (smod0 M).
Definition seti (M : strct) (z : Z) : strct :=
  mkstr (cb M) (fun n => match n with 0 => z | _ => ci M n end) (cr M) (sk M) (ufn M) (sdiv0 M) (smod0 M).
Lemma setc_off M b0 b1 r0 r1 : agree_off [(SB, 0); (SR, 0); (SB, 1); (SR, 1)] M (setc M b0 b1 r0 r1).
Proof. repeat split; simpl; intros [|[|n]]; auto; simpl; tauto. Qed.
Lemma seti_off M z : agree_off [(SI, 0)] M (seti M z).
Proof. repeat split; simpl; intros [|n]; auto; simpl; tauto. Qed.

Definition interp_of (g : ty -> list val -> val) : interp :=
  {| ifun := fun _ => g; idiv0 := fun r => r; iudiv0 := fun x => x; imod0 := fun z => z; iumod0 := fun n => n |}.
Lemma interp_of_agreeing g : agreeing (interp_of g). Proof. split; reflexivity. Qed.


Definition diff_interp : interp := interp_of (fun t vs => match t, vs with TEUReal, [VEur a; VEur b] => VEur (emonus a b) | _, _ => some_val t end).
Lemma diff_contradictory : exists E, mk_function_encoder OptFuelParam false false 2 (fun _ => false) diff_specs = Ok E /\ contradictory E diff_specs.
Proof.
  eexists. split; [reflexivity|]. split.
  - eexists. split. { lazy -[scope_forall dyn_eq into_dynamic from_dynamic lift2 pair_sub]. reflexivity. }
    intros M H. inversion H as [|? ? H1 _]. clear H. rewrite scope_forall_iff in H1. cbn [sbounds scons] in H1.
    pose proof (H1 (setc M true true 0 0)%R (setc_off _ _ _ _ _) (alltrue_nil _)) as A. pose proof (H1 (setc M true true 1 0)%R (setc_off _ _ _ _ _) (alltrue_nil _)) as B.
    rewrite dyn_eq_iff in A, B. cbn in A, B. rewrite A in B. clear - B. unfold lift2, pair_sub, pair_to_datatype, dt_branch in B. cbn in B. injection B as B.
    revert B. unfold real_monus, real_cmp. rewrite (proj2 (Rleb_iff 0 0)) by lra. rewrite (proj2 (Rleb_iff 0 1)) by lra. simpl. lra.
  - exists diff_interp. split; [|split; [apply interp_of_agreeing|]].
    + intros f t vs. unfold diff_interp. simpl. destruct t; try apply some_val_ty. destruct vs as [|[] [|[] [|? ?]]]; reflexivity.
    + intros d [<-|[]] s Hs. pose proof (Hs (ex_ TEUReal)) as Hx. pose proof (Hs (ey_ TEUReal)) as Hy. cbn -[emonus].
      destruct (s (ex_ TEUReal)); try discriminate Hx. destruct (s (ey_ TEUReal)); try discriminate Hy. reflexivity.
Qed.

(** The recursion happens only at [-1], which is not a UInt. *)
Lemma neg_contradictory_with E : E = EncAxiomatic StrengthenToTotal \/ E = EncRecFun -> contradictory E neg_specs.
Proof.
  intros HE. split.
  - assert (X : exists ax axs, init_dependencies all_vars E DepAll neg_specs = Ok (ax :: axs) /\ forall M, ax M = true ->
      forall z, dyn_eq (fun M => DyI match ufn M "f" [DyI (ci M 0)] with DyI z => z | _ => 0%Z end)
        (fun M => DyI (if Z.eqb (ci M 0 + 1) 0 then (match ufn M "f" [DyI (ci M 0)] with DyI z => z | _ => 0%Z end + 1)%Z else 0%Z)) (seti M z) = true).
    { destruct HE as [-> | ->]; (eexists _, _; split; [lazy -[scope_forall dyn_eq Z.eqb Z.add]; reflexivity|]);
        (intros M HM z; rewrite scope_forall_iff in HM; exact (HM (seti M z) (seti_off M z) (alltrue_nil _))). }
    destruct X as (ax & axs & E1 & Hax). exists (ax :: axs). split; auto. intros M H. inversion H as [|? ? H1 _]; subst.
    pose proof (Hax M H1 (-1)%Z) as A. rewrite dyn_eq_iff in A. simpl in A. injection A as A. destruct (ufn M "f" [DyI (-1)]); lia.
  - exists (interp_of (fun t _ => some_val t)). split; [intros f t vs; apply some_val_ty|]. split; [apply interp_of_agreeing|].
    intros d [<-|[]] s Hs. pose proof (Hs (ex_ TUInt)) as Hx. cbn. destruct (s (ex_ TUInt)) as [| |n| | | |]; try discriminate Hx. cbn.
    unfold dec. destruct (excluded_middle_informative _) as [Hn|]; auto. injection Hn as Hn. lia.
Qed.
Lemma neg_contradictory : (exists E, mk_function_encoder OptAxiomatic false false 2 (fun _ => true) neg_specs = Ok E /\ contradictory E neg_specs) /\
  (exists E, mk_function_encoder OptDecreasing false false 2 (fun _ => true) neg_specs = Ok E /\ contradictory E neg_specs) /\
  exists E, mk_function_encoder OptDefineFunRec true false 2 (fun _ => true) neg_specs = Ok E /\ contradictory E neg_specs.
Proof. split; [|split]; eexists; (split; [reflexivity|]); apply neg_contradictory_with; auto. Qed.

(** define-fun-rec is refused with strengthening and accepted without, though it always strengthens. *)
Lemma define_fun_rec_inverted : forall no_synonym max recursive l,
  (exists m, mk_function_encoder OptDefineFunRec false no_synonym max recursive l = Err m) /\ mk_function_encoder OptDefineFunRec true no_synonym max recursive l = Ok EncRecFun.
Proof. intros. split; [eexists|]; reflexivity. Qed.

(** Constraints on infima in bodies are lost. *)
Definition inf_query : expr := EBin TBool OEq (ECall TEUReal "f" [ELit TEUReal (LFrac 0)]) (ECall TEUReal "f" [ELit TEUReal (LFrac 1)]).
Definition inf_interp : interp := interp_of (fun t vs => match t, vs with TEUReal, [VEur a] => VEur a | _, _ => some_val t end).
Definition setp (M : strct) (b : bool) (r : R) : strct :=
  mkstr (fun n => match n with 0 => b | _ => cb M n end) (ci M) (fun n => match n with 0 => r | _ => cr M n end) (sk M) (ufn M) (sdiv0 M) (smod0 M).
Lemma setp_off M b r : agree_off [(SB, 0); (SR, 0)] M (setp M b r).
Proof. repeat split; simpl; intros [|n]; auto; simpl; tauto. Qed.
Lemma same_datatype p q : pair_to_datatype p = pair_to_datatype q -> pair_eq p q = true.
Proof.
  destruct p as [[] a], q as [[] b]; unfold pair_to_datatype, dt_branch, pair_eq; simpl; intros H; try discriminate; auto. injection H as ->. now apply Reqb_iff.
Qed.
Lemma inf_unsound : exists E axs t cs, mk_function_encoder OptFuelParam false false 2 (fun _ => false) inf_specs = Ok E /\
  init_dependencies all_vars E DepAll inf_specs = Ok axs /\ translate all_vars (fsig_of inf_specs) (enc_call E (ambient E)) inf_query = Ok (t, cs) /\ proved axs cs t /\
  exists I, interp_ok I /\ agreeing I /\ satisfies I inf_specs /\ forall s, eval I inf_query s = VBool false.
Proof.
  eexists _, _, _, _. split; [reflexivity|]. split. { lazy -[scope_forall dyn_eq into_dynamic from_dynamic lift2 Q2R]. reflexivity. }
  split. { lazy -[scope_forall dyn_eq into_dynamic from_dynamic lift2 Q2R pair_eq]. reflexivity. } split.
  - intros M H _. inversion H as [|? ? H1 _]. clear H. rewrite scope_forall_iff in H1. cbn [sbounds scons] in H1.
    pose proof (H1 (setp M false (Q2R 0)) (setp_off _ _ _) (alltrue_nil _)) as A. pose proof (H1 (setp M false (Q2R 1)) (setp_off _ _ _) (alltrue_nil _)) as B.
    rewrite dyn_eq_iff in A, B. clear - A B. cbn -[Q2R] in A, B. rewrite <- B in A. injection A as A. apply same_datatype, A.
  - exists inf_interp. split; [|split; [apply interp_of_agreeing|split]].
    + intros f t vs. unfold inf_interp. simpl. destruct t; try apply some_val_ty. destruct vs as [|[] [|? ?]]; reflexivity.
    + intros d [<-|[]] s Hs. cbn -[eadd]. pose proof (Hs (ex_ TEUReal)) as Hx. destruct (s (ex_ TEUReal)) as [| | | | |a|] eqn:Es; try discriminate Hx. f_equal. symmetry. apply einf_eq. split.
      * intros r (s' & [H1 H2] & Er). rewrite (H1 (ex_ TEUReal)), Es in Er by (intros [X|[]]; discriminate X).
        destruct (s' (ey_ TEUReal)); try discriminate Er. injection Er as <-. rewrite <- (eadd_0_r a) at 1. apply eadd_mono; [apply ele_refl | apply ebot_le].
      * intros u Hu. apply Hu. exists (upd s (ey_ TEUReal) (VEur ebot)). split.
        -- split; intros y Hy; [apply upd_other; intros <-; apply Hy; now left | destruct Hy as [<-|[]]; reflexivity].
        -- rewrite upd_same, upd_other by discriminate. rewrite Es, eadd_0_r. reflexivity.
    + intros s. cbn -[fin]. unfold veq. cbn -[fin]. f_equal. unfold dec. destruct (excluded_middle_informative _) as [Er|]; auto.
      exfalso. injection Er as Er. revert Er. rewrite !Rmax_right by (unfold Q2R; simpl; lra). unfold Q2R. simpl. lra.
Qed.

(** Without synonym axioms the solver can give functions without fuel any value. *)
Definition down_query : expr := EBin TBool OEq (ECall TUInt "f" [ELit TUInt (LUInt 2)]) (ELit TUInt (LUInt 0)).
Definition down_table (ds : list dyn) : dyn :=
  match ds with
  | [DyF k; DyI z] => DyI (if Z.ltb (if Z.ltb z 0 then 1 else z) (Z.of_nat k) then 0 else 7)
  | _ => DyI 0
  end.
Definition down_M : strct := mkstr (fun _ => true) (fun _ => 0%Z) (fun _ => 0%R) (fun _ _ => pair_zero) (fun _ => down_table) (fun r => r) (fun z => z).
Lemma down_true I s : interp_ok I -> satisfies I down_specs -> eval I down_query s = VBool true.
Proof.
  intros HI HS. specialize (HS _ (or_introl eq_refl)). cbn -[N.sub] in HS.
  set (st := fun n => upd (fun x => some_val (ity x)) (ex_ TUInt) (VUInt n)).
  assert (O : forall n, env_ok (st n)). { intros n. apply upd_ok; [intros x; apply some_val_ty | reflexivity]. }
  assert (F : forall n, ifun I "f" TUInt [VUInt n] = VUInt 0).
  { induction n as [|n IH] using N.peano_ind; [specialize (HS (st 0%N) (O _)) | specialize (HS (st (N.succ n)) (O _))];
      unfold st in HS; rewrite upd_same in HS; unfold veq, dec in HS; cbn -[N.sub] in HS.
    - destruct (excluded_middle_informative _) as [_|N]; [exact HS | destruct N; reflexivity].
    - destruct (excluded_middle_informative _) as [X|_]; [injection X as X; lia|]. rewrite HS. replace (N.succ n - 1)%N with n by lia. exact IH. }
  cbn. rewrite F. unfold veq, dec. cbn. destruct (excluded_middle_informative _) as [_|N]; [reflexivity | destruct N; reflexivity].
Qed.
Lemma down_spurious : exists E axs t cs, mk_function_encoder OptFuelParam false true 2 (fun _ => true) down_specs = Ok E /\
  specs_ok all_vars down_specs /\ encoder_ok E down_specs /\
  init_dependencies all_vars E DepAll down_specs = Ok axs /\ translate all_vars (fsig_of down_specs) (enc_call E (ambient E)) down_query = Ok (t, cs) /\
  (exists M, well_sorted (fsig_of down_specs) E M /\ division_ok M /\ Forall (fun a => a M = true) axs /\ Forall (fun a => a M = true) cs /\ t M = false) /\
  forall I s, interp_ok I -> satisfies I down_specs -> eval I down_query s = VBool true.
Proof.
  eexists _, _, _, _. split; [reflexivity|]. split.
  { split; [repeat constructor; simpl; tauto|]. constructor; [|constructor]. split; [repeat constructor; simpl; tauto|]. split; [reflexivity|].
    split; [repeat split; reflexivity|]. split; [reflexivity|]. intros x H. cbn in H. decompose [or] H; try contradiction; subst; now left. }
  split. { intros d [H|[]] _. injection H as <-. discriminate. }
  split. { lazy -[scope_forall dyn_eq holds Z.eqb Z.geb Z.add int_monus]. reflexivity. }
  split. { lazy -[scope_forall dyn_eq into_dynamic from_dynamic Z.eqb]. reflexivity. }
  split; [|apply down_true].
  exists down_M. split; [|split; [|split]].
  - intros k f ts t ds Hf Hd. simpl in Hf. destruct f as [|[[] [] [] [] [] [] [] []] []]; simpl in Hf; try discriminate Hf. injection Hf as <- <-.
    inversion Hd as [|? d ? ? Hd1 Hd2]; subst. inversion Hd2; subst. destruct d; simpl in *; try contradiction. exact Logic.I.
  - split; simpl; auto. lia.
  - constructor; [|constructor; [|constructor]].
    + apply holds_iff. intros k. match goal with |- (if ?b then true else false) = true => assert (X : b = true); [|now rewrite X] end.
      apply scope_forall_iff. cbn [sbounds scons]. intros M A _. apply dyn_eq_iff. destruct A as (_&_&_&_&Eu&_). unfold down_M in Eu. simpl in Eu.
      change (DyI match ufn M "f" [DyF (S k); DyI (ci M 0)] with DyI z => z | _ => 0%Z end =
        DyI (if (ci M 0 =? 0)%Z then 0%Z else match ufn M "f" [DyF k; DyI (int_monus (ci M 0) 1)] with DyI z => z | _ => 0%Z end)).
      rewrite Eu. generalize (ci M 0). intros z. f_equal. unfold down_table, int_monus. rewrite Z.geb_leb.
      destruct (Z.eqb_spec z 0); destruct (Z.leb_spec 1 z); destruct (Z.ltb_spec z 0); destruct (Z.ltb_spec (z - 1) 0); try change (0 <? 0)%Z with false; cbn iota; repeat match goal with |- context [Z.ltb ?a ?b] => destruct (Z.ltb_spec a b) end; lia.
    + apply holds_iff. intros k. match goal with |- (if ?b then true else false) = true => assert (X : b = true); [|now rewrite X] end.
      apply scope_forall_iff. cbn [sbounds scons]. intros M A _. destruct A as (_&_&_&_&Eu&_). unfold down_M in Eu. simpl in Eu.
      change (Z.geb match ufn M "f" [DyF k; DyI (ci M 0)] with DyI z => z | _ => 0%Z end 0 = true). rewrite Eu. unfold down_table.
      repeat match goal with |- context [Z.ltb ?a ?b] => destruct (Z.ltb_spec a b) end; reflexivity.
  - split; [constructor | reflexivity].
Qed.

(** * Declarations to which the theorems apply *)
Definition down_encoder : encoder := EncFuelParam (fuel_options_of true false 2 false (fun _ => true) down_specs).
Lemma down_ok : specs_ok all_vars down_specs /\ mk_function_encoder OptFuelParam true false 2 (fun _ => true) down_specs = Ok down_encoder /\ keeps_partial down_encoder /\ linked down_encoder /\
  exists I, interp_ok I /\ agreeing I /\ satisfies I down_specs.
Proof.
  split.
  { split; [repeat constructor; simpl; tauto|]. constructor; [|constructor]. split; [repeat constructor; simpl; tauto|]. split; [reflexivity|].
    split; [repeat split; reflexivity|]. split; [reflexivity|]. intros x H. cbn in H. decompose [or] H; try contradiction; subst; now left. }
  split; [reflexivity|]. split; [reflexivity|]. split; [reflexivity|].
  exists (interp_of (fun t _ => some_val t)). split; [intros f t vs; apply some_val_ty|]. split; [apply interp_of_agreeing|].
  intros d [<-|[]] s Hs. pose proof (Hs (ex_ TUInt)) as Hx. cbn. destruct (s (ex_ TUInt)) as [| |n| | | |]; try discriminate Hx. cbn.
  unfold dec. destruct (excluded_middle_informative _); reflexivity.
Qed.
Lemma down_query_ok : translatable all_vars (fsig_of down_specs) down_query = true /\ ty_of down_query = TBool /\ some eur_sub down_query = false.
Proof. repeat split; reflexivity. Qed.
