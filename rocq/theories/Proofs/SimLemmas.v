(** Replacing an expression by one of the same type and the same value. *)
From Coq Require Import Bool List String ZArith NArith QArith Reals Qreals Lra.
From Verif.Model Require Import Syntax Builder Lits.
From Verif.Spec Require Import Eur Sem.
From Verif.Proofs Require Import EurLemmas SemLemmas.
Import ListNotations.

Lemma rbind_ok {A B} (m : res A) (f : A -> res B) b : rbind m f = Ok b -> exists a, m = Ok a /\ f a = Ok b.
Proof. destruct m; simpl; intros; try discriminate; eauto. Qed.
Ltac binv E := repeat (let a := fresh "a" in let Ha := fresh "Ha" in apply rbind_ok in E; destruct E as [a [Ha E]]).

Definition sim (e' e : expr) : Prop :=
  wt e' = true /\ ty_of e' = ty_of e /\
  forall I s, interp_ok I -> env_ok s -> eval I e' s = eval I e s.

Lemma sim_refl e : wt e = true -> sim e e.
Proof. intros H; repeat split; auto. Qed.
Lemma sim_trans a b c : sim a b -> sim b c -> sim a c.
Proof.
  intros [H1 [H2 H3]] [H4 [H5 H6]]. repeat split; auto; try congruence.
  intros I s HI Hs. rewrite H3, H6; auto.
Qed.

Lemma quant_ext I op xs e e' s : ty_of e' = ty_of e -> env_ok s ->
  (forall s', env_ok s' -> eval I e' s' = eval I e s') -> eval I (EQuant op xs e') s = eval I (EQuant op xs e) s.
Proof.
  intros Ht Hs H. simpl. rewrite Ht.
  assert (Hr : forall v, (exists s1, havocked (map qname xs) s s1 /\ eval I e' s1 = v) <->
                         (exists s1, havocked (map qname xs) s s1 /\ eval I e s1 = v)).
  { intros v; split; intros [s1 [H1 H2]]; exists s1; split; auto;
      assert (env_ok s1) by (eapply havocked_ok; eauto); [rewrite <- H | rewrite H]; auto. }
  destruct op, (ty_of e); auto; f_equal;
    try (apply dec_ext; first [apply Hr | split; intros Hx v Hv; apply Hx, Hr, Hv]).
  - apply einf_ext; intros; apply Hr.
  - apply esup_ext; intros; apply Hr.
Qed.

Lemma mapr_spec {A B} (f : A -> res B) (P : A -> B -> Prop) l : forall l',
  (forall a b, In a l -> f a = Ok b -> P a b) -> mapr f l = Ok l' -> Forall2 P l l'.
Proof.
  induction l as [|a l IH]; simpl; intros l' HP E.
  - inversion E; constructor.
  - destruct (f a) eqn:Ea; try discriminate. simpl in E. destruct (mapr f l) eqn:El; try discriminate.
    inversion E; subst. constructor; auto.
Qed.

Lemma sim_ite t c a b c' a' b' : wt (EIte t c a b) = true -> sim c' c -> sim a' a -> sim b' b ->
  sim (EIte t c' a' b') (EIte t c a b).
Proof.
  simpl. intros Hw [H1 [H2 H3]] [H4 [H5 H6]] [H7 [H8 H9]]. split_andb. repeat split.
  - simpl. rewrite H1, H4, H7, H2, H5, H8. simpl. apply andb_true_intro; split; auto. apply andb_true_intro; auto.
  - intros I s HI Hs. simpl. rewrite H3, H6, H9; auto.
Qed.
Lemma sim_bin t op a b a' b' : wt (EBin t op a b) = true -> sim a' a -> sim b' b ->
  sim (EBin t op a' b') (EBin t op a b).
Proof.
  simpl. intros Hw [H1 [H2 H3]] [H4 [H5 H6]]. split_andb. repeat split.
  - simpl. rewrite H1, H4, H2, H5. auto.
  - intros I s HI Hs. simpl. rewrite H3, H6; auto.
Qed.
Lemma sim_un t op a a' : wt (EUn t op a) = true -> sim a' a -> sim (EUn t op a') (EUn t op a).
Proof.
  simpl. intros Hw [H1 [H2 H3]]. split_andb. repeat split.
  - simpl. rewrite H1, H2. auto.
  - intros I s HI Hs. simpl. rewrite H3; auto.
Qed.
Lemma sim_cast t a a' : wt (ECast t a) = true -> sim a' a -> sim (ECast t a') (ECast t a).
Proof.
  simpl. intros Hw [H1 [H2 H3]]. split_andb. repeat split.
  - simpl. rewrite H1, H2. auto.
  - intros I s HI Hs. simpl. rewrite H3; auto.
Qed.
Lemma sim_quant op xs a a' : wt (EQuant op xs a) = true -> sim a' a -> sim (EQuant op xs a') (EQuant op xs a).
Proof.
  intros Hw [H1 [H2 H3]]. simpl in Hw. split_andb. split; [|split].
  - simpl. rewrite H1, H2. auto.
  - exact H2.
  - intros I s HI Hs. apply quant_ext; auto.
Qed.
Lemma sim_subst x b a b' a' : wt (ESubst x b a) = true -> sim b' b -> sim a' a -> sim (ESubst x b' a') (ESubst x b a).
Proof.
  simpl. intros Hw [H1 [H2 H3]] [H4 [H5 H6]]. split_andb. repeat split.
  - simpl. rewrite H1, H4, H2. auto.
  - simpl. auto.
  - intros I s HI Hs. simpl. rewrite H3; auto. apply H6; auto. apply upd_ok; auto.
    match goal with H : ty_eqb _ _ = true |- _ => apply ty_eqb_eq in H; rewrite <- H end. apply eval_ty; auto.
Qed.
Lemma sim_call t f args args' : wt (ECall t f args) = true -> Forall2 (fun a a' => sim a' a) args args' ->
  sim (ECall t f args') (ECall t f args).
Proof.
  simpl. intros Hw H. repeat split.
  - simpl. clear Hw. induction H as [|a a' l l' Hs H IH]; simpl; auto. destruct Hs as [-> _]. auto.
  - intros I s HI Hs. simpl. f_equal. clear Hw. induction H as [|a a' l l' Ha H IH]; simpl; auto.
    destruct Ha as [_ [_ ->]]; auto. f_equal. auto.
Qed.

Lemma walk_sim f e e' : (forall a a', f a = Ok a' -> wt a = true -> sim a' a) ->
  walk_expr f e = Ok e' -> wt e = true -> sim e' e.
Proof.
  intros Hf E Hw. pose proof Hw as Hw0. destruct e; simpl in E;
    binv E;
    inversion E; subst; simpl in Hw; split_andb.
  - apply sim_refl; auto.
  - apply sim_call; auto. apply mapr_spec with (f := f); auto. intros a0 b0 Ha0 Hb0. apply Hf; auto.
    rewrite forallb_forall in Hw. auto.
  - apply sim_ite; auto.
  - apply sim_bin; auto.
  - apply sim_un; auto.
  - apply sim_cast; auto.
  - apply sim_quant; auto.
  - apply sim_subst; auto.
  - apply sim_refl; auto.
Qed.

(** * Top, bottom and order of the two lattices. *)
Definition istop (v : val) : bool := match v with VBool b => b | VEur x => eleb etop x | _ => false end.
Definition isbot (v : val) : bool := match v with VBool b => negb b | VEur x => eleb x ebot | _ => false end.
Definition leb (v w : val) : bool := match vle v w with Some b => b | None => false end.

Ltac eur_cases_auto := intros;
  repeat match goal with x : eur |- _ => destruct x end;
  unfold etop, ebot, eone, fin, emin, emax in *; simpl in *;
  repeat match goal with |- context [Rle_dec ?a ?b] => destruct (Rle_dec a b); simpl in * end;
  rewrite ?nval_ebot_proof in *;
  repeat match goal with x : nnr |- _ => lazymatch goal with H : (0 <= nval x)%R |- _ => fail | _ => pose proof (nval_nonneg x) end end;
  try reflexivity; try lra; try congruence.

Lemma eleb_refl a : eleb a a = true.
Proof. apply eleb_iff, ele_refl. Qed.
Lemma eleb_top a : eleb a etop = true.
Proof. apply eleb_iff, ele_top. Qed.
Lemma eleb_bot a : eleb ebot a = true.
Proof. apply eleb_iff, ebot_le. Qed.
Lemma top_bot : eleb etop ebot = false.
Proof. reflexivity. Qed.

Lemma e_impl_top a b : eleb etop (if eleb a b then etop else b) = eleb a b.
Proof. eur_cases_auto. Qed.
Lemma e_coimpl_bot a b : eleb (if eleb b a then ebot else b) ebot = eleb b a.
Proof. eur_cases_auto. Qed.
Lemma e_comp_top a b : eleb etop (if eleb a b then etop else ebot) = eleb a b.
Proof. eur_cases_auto. Qed.
Lemma e_cocomp_bot a b : eleb (if eleb b a then ebot else etop) ebot = eleb b a.
Proof. eur_cases_auto. Qed.
Lemma e_min_top a b : eleb etop (emin a b) = eleb etop a && eleb etop b.
Proof. eur_cases_auto. Qed.
Lemma e_max_top a b : eleb etop (emax a b) = eleb etop a || eleb etop b.
Proof. eur_cases_auto. Qed.
Lemma e_min_bot a b : eleb (emin a b) ebot = eleb a ebot || eleb b ebot.
Proof. eur_cases_auto. Qed.
Lemma e_max_bot a b : eleb (emax a b) ebot = eleb a ebot && eleb b ebot.
Proof. eur_cases_auto. Qed.
Lemma e_not_top a : eleb etop (if eleb a ebot then etop else ebot) = eleb a ebot.
Proof. eur_cases_auto. Qed.
Lemma e_non_bot a : eleb (if eleb etop a then ebot else etop) ebot = eleb etop a.
Proof. eur_cases_auto. Qed.
Lemma e_truth_top b : eleb etop (etruth b) = b.
Proof. destruct b; reflexivity. Qed.
Lemma e_truth_bot b : eleb (etruth b) ebot = negb b.
Proof. destruct b; [reflexivity | apply eleb_refl]. Qed.
Lemma e_truth_le b x : eleb (etruth b) x = implb b (eleb etop x).
Proof. destruct b; [reflexivity | apply eleb_bot]. Qed.
Lemma e_le_truth b x : eleb x (etruth b) = b || eleb x ebot.
Proof. destruct b; [apply eleb_top | reflexivity]. Qed.
Lemma e_co_le a b r : eleb (if eleb b (etruth a) then ebot else b) r = a || eleb b r.
Proof. destruct a; cbn [etruth implb orb]; [rewrite eleb_top; apply eleb_bot|]. eur_cases_auto. Qed.
Lemma e_le_impl a b l : eleb l (if eleb (etruth a) b then etop else b) = implb a (eleb l b).
Proof. destruct a; cbn [etruth implb orb]; [|rewrite eleb_bot; apply eleb_top]. eur_cases_auto. Qed.
Lemma e_truth_impl a b : (if eleb (etruth a) b then etop else b) = if a then b else etop.
Proof. destruct a; cbn [etruth implb orb]; [|now rewrite eleb_bot]. destruct (eleb etop b) eqn:E; auto. apply eleb_iff in E. now apply top_le in E. Qed.
Lemma e_truth_coimpl a b : (if eleb b (etruth a) then ebot else b) = if a then ebot else b.
Proof. destruct a; cbn [etruth implb orb]; [now rewrite eleb_top|]. destruct (eleb b ebot) eqn:E; auto. apply eleb_iff in E. now apply le_ebot in E. Qed.

Lemma eq_top_dec x : dec (VEur etop = VEur x) = eleb etop x.
Proof.
  destruct (eleb etop x) eqn:E.
  - apply dec_true. apply eleb_iff, top_le in E. now subst.
  - apply dec_false. intros H. inversion H; subst. rewrite eleb_refl in E. discriminate.
Qed.
Lemma eq_bot_dec x : dec (VEur ebot = VEur x) = eleb x ebot.
Proof.
  destruct (eleb x ebot) eqn:E.
  - apply dec_true. apply eleb_iff, le_ebot in E. now subst.
  - apply dec_false. intros H. inversion H; subst. rewrite eleb_refl in E. discriminate.
Qed.
Lemma bool_dec_eq a b : dec (VBool a = VBool b) = eqb a b.
Proof.
  destruct (eqb a b) eqn:E.
  - apply dec_true. apply eqb_prop in E. now subst.
  - apply dec_false. intros H. inversion H; subst. destruct b; discriminate.
Qed.

Definition vtop (t : ty) : val := match t with TBool => VBool true | _ => VEur etop end.
Definition vbot (t : ty) : val := match t with TBool => VBool false | _ => VEur ebot end.
Lemma veq_top t v : lattice t = true -> has_ty v t -> veq (vtop t) v = Some (istop v).
Proof.
  intros Hl Hv. destruct t; try discriminate; inv_ty Hv; subst; unfold veq; simpl;
    [rewrite bool_dec_eq; destruct b; reflexivity | now rewrite eq_top_dec].
Qed.
Lemma veq_bot t v : lattice t = true -> has_ty v t -> veq (vbot t) v = Some (isbot v).
Proof.
  intros Hl Hv. destruct t; try discriminate; inv_ty Hv; subst; unfold veq; simpl;
    [rewrite bool_dec_eq; destruct b; reflexivity | now rewrite eq_bot_dec].
Qed.
Lemma veq_sym v w : veq v w = veq w v.
Proof.
  unfold veq. destruct v, w; simpl; auto; f_equal; apply dec_ext; split; congruence.
Qed.

Lemma nnr_of_0 r : (r <= 0)%R -> fin r = ebot.
Proof. apply fin_neg. Qed.
Lemma Q2R_0 q : Qeq_bool q 0 = true -> Q2R q = 0%R.
Proof. intros H. apply Qeq_bool_iff in H. rewrite (Qeq_eqR _ _ H). unfold Q2R. simpl. lra. Qed.
Lemma top_lit_val I e s : wt e = true -> is_top_lit e = true -> lattice (ty_of e) = true /\ eval I e s = vtop (ty_of e).
Proof.
  destruct e; simpl; try discriminate. intros Hw Ht. destruct t, l; simpl in *; try discriminate; auto.
  now rewrite Ht.
Qed.
Lemma bot_lit_val I e s : wt e = true -> is_bot_lit e = true -> lattice (ty_of e) = true -> eval I e s = vbot (ty_of e).
Proof.
  destruct e as [| | | | |t a| | |t l]; simpl; try discriminate; intros Hw Hb Hl.
  - destruct a as [| | | | | | | |ta l]; try discriminate. simpl in Hw. split_andb.
    destruct t, ta, l; simpl in *; try discriminate; f_equal.
    + apply N.eqb_eq in Hb. subst. unfold n2r; simpl. apply nnr_of_0; lra.
    + rewrite (Q2R_0 _ Hb). reflexivity.
  - destruct t, l; simpl in *; try discriminate; f_equal.
    + now destruct b.
    + rewrite (Q2R_0 _ Hb). reflexivity.
Qed.
