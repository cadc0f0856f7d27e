(** The value of a translated expression for all arguments of the right sorts, whether they are values of
    the language or not. *)
From Coq Require Import Bool List String ZArith NArith Reals Lra Lia ClassicalEpsilon.
From Verif.Model Require Orders.
From Verif.Model Require Import EurEncodings Syntax AstUtil ScopeMap Translate.
From Verif.Spec Require Recursion.
From Verif.Spec Require Import Eur EncSpec Sem Exprs Translated.
From Verif.Proofs Require Import EurLemmas SemLemmas EncProofs ScopeProofs SubstProofs TranslateTerms TranslateStates TranslateProofs FuncEquations.
Import ListNotations.
Local Open Scope list_scope.
Local Open Scope nat_scope.

Definition cst (t : ty) (d : dyn) : symb := from_dynamic t (fun _ => d).
Definition val_of (r : res symb) (M : strct) : dyn := match r with Ok y => into_dynamic y M | _ => DyF 0 end.
Definition okv (x : ident) (d : dyn) : Prop := exists v, has_ty v (ity x) /\ val_dyn v d.
Definition rhavoc (xs : list ident) (s s' : ident -> dyn) : Prop :=
  (forall x, ~ In x xs -> s' x = s x) /\ (forall x, In x xs -> okv x (s' x)).

Lemma pair_canon p : datatype_to_pair 0 (pair_to_datatype p) = if p_inf p then pair_infinity else p.
Proof. destruct p as [[|] n]; reflexivity. Qed.
Lemma pair_dyn p q : p_inf p = p_inf q -> (p_inf p = false -> p_num p = p_num q) -> DyE (pair_to_datatype p) = DyE (pair_to_datatype q).
Proof. destruct p as [[|] n], q as [[|] m]; simpl; intros H1 H2; try discriminate; auto. now rewrite H2. Qed.

Local Arguments Reqb : simpl never.
Local Arguments Rleb : simpl never.
Lemma rleb_refl r : Rleb r r = true. Proof. apply Rleb_iff. lra. Qed.

Ltac pairs := rewrite ?pair_canon; repeat match goal with |- context [match p_inf (?a ?M) with true => _ | false => _ end] => destruct (a M) as [[|] ?]; cbn [p_inf] end.
Ltac ops := unfold Orders.implication, Orders.coimplication, Orders.compare, Orders.cocompare, Orders.negate, Orders.conegate, Orders.implication, Orders.compare, Orders.negate,
  pair_add, pair_mul, pair_eq, pair_le, pair_cmp, pair_lattice, Orders.opp, Orders.smt_min_with, Orders.smt_max_with, pair_branch, pair_infinity, pair_from_ureal, pair_zero;
  cbn [Orders.inf Orders.sup Orders.cmp Orders.branch Orders.top Orders.bot Orders.reverse Orders.smt_min_with Orders.smt_max_with pair_cmp pair_branch pair_le p_inf p_num orb andb negb implb Bool.eqb].

Lemma bin_cst M t op x y z : ~ (t = TEUReal /\ op = OSub) -> bin_term t op x y = Ok z ->
  val_of (bin_term t op (cst (symb_ty x) (into_dynamic x M)) (cst (symb_ty y) (into_dynamic y M))) M = into_dynamic z M.
Proof.
  intros NS. unfold cst.
  destruct t, op; try (intros H; discriminate H); destruct x; try (intros H; discriminate H); destruct y; try (intros H; discriminate H);
    intros H; injection H as <-; try (exfalso; apply NS; split; reflexivity); try reflexivity;
    cbn [symb_ty from_dynamic into_dynamic bin_term sym_eq sym_cmp rmap rbind val_of]; unfold lift2; cbn beta;
    pairs; ops; try reflexivity.
  all: try (apply pair_dyn; ops; auto; intros; try discriminate; try lra).
  all: match goal with H : _ = false |- _ => cbn [p_inf orb andb negb] in H; rewrite ?orb_false_r in H; apply negb_false_iff, Reqb_iff in H; rewrite H; ring end.
Qed.
Lemma un_cst M t op x z : un_term t op x = Ok z -> val_of (un_term t op (cst (symb_ty x) (into_dynamic x M))) M = into_dynamic z M.
Proof.
  unfold cst.
  destruct t, op; try (intros H; discriminate H); destruct x; try (intros H; discriminate H);
    intros H; injection H as <-; try reflexivity;
    cbn [symb_ty from_dynamic into_dynamic un_term rmap rbind val_of]; pairs; ops; try reflexivity; apply pair_dyn; ops; auto; intros; try discriminate; try lra.
Qed.
Lemma cast_cst M t x z : cast_term t x = Ok z -> val_of (cast_term t (cst (symb_ty x) (into_dynamic x M))) M = into_dynamic z M.
Proof.
  unfold cst.
  destruct t; try (intros H; discriminate H); destruct x; try (intros H; discriminate H); intros H; injection H as <-; reflexivity.
Qed.
Lemma ite_cst M t c x y z : ite_term t c x y = Ok z ->
  val_of (ite_term t (cst (symb_ty c) (into_dynamic c M)) (cst (symb_ty x) (into_dynamic x M)) (cst (symb_ty y) (into_dynamic y M))) M = into_dynamic z M.
Proof.
  unfold cst.
  destruct c; try (intros H; discriminate H); destruct x; try (intros H; discriminate H); destruct y; try (intros H; discriminate H);
    intros H; injection H as <-; try reflexivity. cbn [symb_ty from_dynamic into_dynamic ite_term val_of]. pairs; ops; apply pair_dyn; ops; destruct (t0 M); intros; auto; discriminate.
Qed.
Lemma cst_same M M' y t : into_dynamic (cst t y) M = into_dynamic (cst t y) M'.
Proof. destruct t; reflexivity. Qed.

(** Operators look at division and remainder by zero only. *)
Definition same_zero (M M' : strct) : Prop := sdiv0 M' = sdiv0 M /\ smod0 M' = smod0 M.
Lemma bin_local M M' t op ta tb a b : same_zero M M' -> val_of (bin_term t op (cst ta a) (cst tb b)) M' = val_of (bin_term t op (cst ta a) (cst tb b)) M.
Proof.
  intros [Z1 Z2]. destruct t, op, ta, tb; try reflexivity; simpl; unfold liftM2, smt_mod, smt_div; now rewrite ?Z1, ?Z2.
Qed.
Lemma un_local M M' t op ta a : val_of (un_term t op (cst ta a)) M' = val_of (un_term t op (cst ta a)) M.
Proof. destruct t, op, ta; reflexivity. Qed.
Lemma cast_local M M' t ta a : val_of (cast_term t (cst ta a)) M' = val_of (cast_term t (cst ta a)) M.
Proof. destruct t, ta; reflexivity. Qed.
Lemma ite_local M M' t tc ta tb c a b : val_of (ite_term t (cst tc c) (cst ta a) (cst tb b)) M' = val_of (ite_term t (cst tc c) (cst ta a) (cst tb b)) M.
Proof. destruct tc, ta, tb; reflexivity. Qed.
Lemma lit_local M M' t l : val_of (lit_term t l) M' = val_of (lit_term t l) M.
Proof. destruct t, l; reflexivity. Qed.

Section Raw.
Context (isvar : ident -> bool) (fsig : string -> option (list ty * ty)) (ecall : string -> (string -> list dyn -> dyn) -> list dyn -> dyn).

Fixpoint raw (M : strct) (e : expr) (s : ident -> dyn) : dyn :=
  match e with
  | EVar x => s x
  | ECall t f args => into_dynamic (cst t (ecall f (ufn M) (map (fun a => raw M a s) args))) M
  | EIte t c a b => val_of (ite_term t (cst (ty_of c) (raw M c s)) (cst (ty_of a) (raw M a s)) (cst (ty_of b) (raw M b s))) M
  | EBin t op a b => val_of (bin_term t op (cst (ty_of a) (raw M a s)) (cst (ty_of b) (raw M b s))) M
  | EUn t op a => val_of (un_term t op (cst (ty_of a) (raw M a s))) M
  | ECast t a => val_of (cast_term t (cst (ty_of a) (raw M a s))) M
  | EQuant op xs a => DyB (match op with
                           | QForall | QInf => holds (forall s', rhavoc (names xs) s s' -> raw M a s' = DyB true)
                           | QExists | QSup => holds (exists s', rhavoc (names xs) s s' /\ raw M a s' = DyB true)
                           end)
  | ESubst _ _ _ => DyF 0
  | ELit t l => val_of (lit_term t l) M
  end.

Definition sees (F : ident -> Prop) (st : tst) (M : strct) (s : ident -> dyn) : Prop :=
  forall x, F x -> exists y sc, vis st x = Some (y, sc) /\ into_dynamic y M = s x.

Lemma calls_in f t g args a : In a args -> Recursion.calls f a -> Recursion.calls f (ECall t g args).
Proof. intros Ha Hc. simpl. right. induction args as [|b args IH]; [destruct Ha|]. destruct Ha as [->|Ha]; [now left | right; exact (IH Ha)]. Qed.
Lemma holds_ext (P Q : Prop) : (P <-> Q) -> holds P = holds Q.
Proof. intros H. apply eq_true_iff_eq. rewrite !holds_iff. exact H. Qed.
Lemma raw_local M M' e : same_zero M M' -> (forall f ds, Recursion.calls f e -> ecall f (ufn M') ds = ecall f (ufn M) ds) -> forall s, raw M' e s = raw M e s.
Proof.
  intros Z. induction e using expr_rect'; intros H' s; cbn [raw]; auto.
  - rewrite H' by (simpl; auto). rewrite (cst_same M' M). do 3 f_equal. apply map_ext_in. intros a Ha. rewrite Forall_forall in H. apply H; auto.
    intros g ds Hg. apply H'. eapply calls_in; eauto.
  - rewrite IHe1, IHe2, IHe3 by (intros; apply H'; simpl; auto). apply ite_local.
  - rewrite IHe1, IHe2 by (intros; apply H'; simpl; auto). now apply bin_local.
  - rewrite IHe by (intros; apply H'; simpl; auto). apply un_local.
  - rewrite IHe by (intros; apply H'; simpl; auto). apply cast_local.
  - assert (R : forall s, raw M' e s = raw M e s) by (apply IHe; intros; apply H'; simpl; auto).
    f_equal. destruct op; apply holds_ext; split; intros K.
    all: try (intros s' Hs; specialize (K s' Hs); congruence). all: destruct K as (s' & K1 & K2); exists s'; split; auto; congruence.
  - apply lit_local.
Qed.

Lemma sees_step (F F' : ident -> Prop) st new st' M s : step st new st' -> (forall x, F x -> F' x) -> (forall x, F x -> exists v, vis st x = Some v) -> sees F' st' M s -> sees F st M s.
Proof.
  intros S HF V H x Hx. destruct (V x Hx) as [[y sc] Vx]. destruct (H x (HF x Hx)) as (y' & sc' & V' & E). rewrite (s_vis _ _ _ S _ _ Vx) in V'. injection V' as <- <-.
  exists y, sc. auto.
Qed.
Definition follows (e : expr) : Prop := forall st y st', inv st -> tr isvar fsig ecall e st = Ok (y, st') -> forall M s, sees (fun x => fv x e) st' M s -> into_dynamic y M = raw M e s.

Lemma follows_args args : Forall (good isvar fsig ecall dummy) args -> Forall follows args -> forall st ys st', inv st ->
  (fix go l st := match l with
                 | [] => Ok ([], st)
                 | a :: l => let? r := tr isvar fsig ecall a st in let? rs := go l (snd r) in Ok (fst r :: fst rs, snd rs)
                 end) args st = Ok (ys, st') ->
  inv st' /\ (exists new, step st new st') /\ forall M s, sees (fun x => exists a, In a args /\ fv x a) st' M s -> map (fun y => into_dynamic y M) ys = map (fun a => raw M a s) args.
Proof.
  intros G F. revert G. induction F as [|a args Fa _ IH]; intros G st ys st' Iv E.
  - injection E as <- <-. split; auto. split; [exists []; now apply step_refl|]. auto.
  - inversion G as [|? ? Ga Gs]; subst. destruct (Ga st Iv) as (y1 & st1 & n1 & E1 & T1 & B1 & Q1 & D1). rewrite E1 in E. cbn [rbind fst snd] in E.
    match type of E with (let? rs := ?g in _) = _ => destruct g as [[zs st2]| |] eqn:E2 end; cbn [rbind fst snd] in E; try discriminate E. injection E as <- <-.
    assert (Iv1 := d_inv _ _ _ _ _ _ _ _ _ D1). destruct (IH Gs st1 zs st2 Iv1 E2) as (Iv2 & (n2 & S2) & R).
    split; auto. split; [exists (n1 ++ n2); eapply step_trans; [apply (d_step _ _ _ _ _ _ _ _ _ D1) | exact S2]|].
    intros M s Hs. cbn [map]. f_equal.
    + apply (Fa st y1 st1 Iv E1). eapply sees_step; [exact S2 | | apply (d_vis _ _ _ _ _ _ _ _ _ D1) | exact Hs]. intros x Hx. exists a. split; [now left | exact Hx].
    + apply R. intros x (b & Hb & Hx). apply Hs. exists b. split; [now right | exact Hx].
Qed.

Lemma follows_quant op xs a : ty_of a = TBool -> good isvar fsig ecall dummy a -> follows a -> wt (EQuant op xs a) = true -> some (untranslatable isvar fsig) (EQuant op xs a) = false -> follows (EQuant op xs a).
Proof.
  intros Ta Ga Fa W U st y st' Iv E M s Hs. cbn [some] in U. apply orb_false_iff in U. destruct U as [U N]. cbn [untranslatable] in U.
  apply negb_false_iff in U. rewrite forallb_forall in U.
  destruct (free_variables_spec a (some_no_subst _ _ _ N)) as (vs & Evs & Hvs).
  set (fs := filter (fun x => negb (mem x (map qname xs))) vs).
  assert (Hfs : forall x, In x fs <-> fv x a /\ ~ In x (names xs)).
  { intros x. unfold fs. rewrite filter_In, Hvs, negb_true_iff. unfold names. rewrite <- mem_iff. destruct (mem x (map qname xs)); intuition congruence. }
  destruct (get_locals_done isvar fsig ecall dummy fs st Iv) as (st1 & E1 & _ & D1).
  { intros x Hx. apply Hfs in Hx. apply (fv_isvar isvar fsig a x N). tauto. }
  assert (Iv1 := d_inv _ _ _ _ _ _ _ _ _ D1).
  destruct (enter_ok isvar xs st1 Iv1 U) as (bs & st2 & E2 & Iv2 & Ent).
  destruct (Ga st2 Iv2) as (yb & st3 & new & E3 & T3 & B3 & Q3 & D3).
  assert (V1 : forall x, outer xs a x -> exists v, vis st1 x = Some v).
  { intros x Hx. apply (d_vis _ _ _ _ _ _ _ _ _ D1). apply Hfs. exact Hx. }
  assert (E0 : init_quantifier_free_vars isvar a xs st = Ok st1) by (unfold init_quantifier_free_vars; rewrite Evs; exact E1).
  pose proof (leave_ok _ _ _ _ _ _ _ _ _ _ _ _ Iv1 Ent [] D3) as E4.
  cbn [tr] in E. rewrite Ta in *. destruct yb as [b| | | | |]; try discriminate T3.
  rewrite E0 in E. cbn [rbind] in E. rewrite E2 in E. cbn [rbind fst snd] in E. rewrite E3 in E. cbn [rbind fst snd] in E. rewrite E4 in E. cbn [rbind] in E.
  injection E as <- <-. cbn [into_dynamic raw]. f_equal.
  assert (Sv := s_vis _ _ _ (d_step _ _ _ _ _ _ _ _ _ D3)).
  assert (A : forall M' s', agree_off (sbounds bs) M M' -> (forall x, ~ In x (names xs) -> s' x = s x) ->
     (forall x, In x (names xs) -> exists z sc, vis st2 x = Some (z, sc) /\ into_dynamic z M' = s' x) -> raw M a s' = DyB (b M')).
  { intros M' s' A H1 H2. transitivity (raw M' a s').
    - symmetry. destruct A as (_&_&_&_&Eu&Ed&Em). apply raw_local; [split; auto|]. intros f ds _. now rewrite Eu.
    - symmetry. apply (Fa st2 (YBool b) st3 Iv2 E3 M' s'). intros x Hx. destruct (in_dec ident_dec x (names xs)) as [i|i].
      + destruct (H2 x i) as (z & sc & V & Ez). exists z, sc. auto.
      + destruct (Hs x) as (z & sc & V & Ez). { simpl. auto. }
        assert (V' : vis st1 x = Some (z, sc)) by exact V. exists z, sc. split; [apply Sv; now rewrite (e_other _ _ _ _ Ent)|].
        rewrite H1 by auto. rewrite <- Ez. destruct (inv_vis _ Iv1 _ _ _ V') as (n & Ln & En & _). assert (z = fst (fresh_sym (ity x) n)) as -> by now rewrite <- En.
        apply (into_dynamic_below (nxt st1)); [now apply fresh_below|]. eapply bs_agree; eauto. }
  assert (X1 : forall M', agree_off (sbounds bs) M M' -> alltrue (scons bs) M' -> exists s', rhavoc (names xs) s s' /\ raw M a s' = DyB (b M')).
  { intros M' Ag C. exists (fun x => if in_dec ident_dec x (names xs) then match vis st2 x with Some (z, _) => into_dynamic z M' | None => s x end else s x).
    assert (Hd : forall x, In x (names xs) -> exists z sc, vis st2 x = Some (z, sc) /\ exists v, has_ty v (ity x) /\ enc M' z v).
    { intros x Hx. destruct (e_bound _ _ _ _ Ent x Hx) as (k & _ & Ek). destruct (fresh_sym (ity x) k) as [z sc] eqn:Ef. exists z, sc. split; auto.
      assert (z = fst (fresh_sym (ity x) k)) as -> by now rewrite Ef. apply decode. rewrite Ef. cbn [snd]. intros c Hc. apply C.
      eapply in_bounds; [exact Ent | exact Hx | exact Ek | exact Hc]. }
    split.
    - split; intros x Hx; destruct (in_dec ident_dec x (names xs)); try tauto. destruct (Hd x Hx) as (z & sc & V & v & Tv & Ev). rewrite V. exists v. split; auto. now apply into_dynamic_val.
    - apply A; auto; intros x Hx; destruct (in_dec ident_dec x (names xs)); try tauto. destruct (Hd x Hx) as (z & sc & V & _). exists z, sc. rewrite V. auto. }
  assert (X2 : forall s', rhavoc (names xs) s s' -> exists M', agree_off (sbounds bs) M M' /\ alltrue (scons bs) M' /\ raw M a s' = DyB (b M')).
  { intros s' [H1 H2].
    assert (Hv : forall x, In x (names xs) -> exists v, vis st2 x = Some v).
    { intros x Hx. destruct (e_bound _ _ _ _ Ent x Hx) as (k & _ & Ek). eauto. }
    set (w := fun x => epsilon (inhabits VErr) (fun v => has_ty v (ity x) /\ val_dyn v (s' x))).
    assert (Hw : forall x, In x (names xs) -> has_ty (w x) (ity x) /\ val_dyn (w x) (s' x)) by (intros x Hx; unfold w; apply epsilon_spec; apply H2; exact Hx).
    destruct (assign isvar st2 Iv2 (names xs) Hv w M (fun x Hx => proj1 (Hw x Hx))) as (M' & Ag & Em).
    assert (Ag' : agree_off (sbounds bs) M M').
    { eapply agree_off_incl; [|exact Ag]. intros q Hq. now apply (e_bnds _ _ _ _ Ent). }
    exists M'. split; auto. split.
    - intros c Hc. apply (e_cons _ _ _ _ Ent) in Hc. unfold cons_ in Hc. apply in_flat_map in Hc. destruct Hc as (x & Hx & Hc).
      destruct (vis st2 x) as [[z sc]|] eqn:V; [|destruct Hc]. apply (Em x z sc); auto.
    - apply A; auto. intros x Hx. destruct (Hv x Hx) as [[z sc] V]. exists z, sc. split; auto. destruct (Em x z sc Hx V) as [Ec _].
      eapply val_dyn_fun; [apply into_dynamic_val; exact Ec | now apply Hw]. }
  destruct op; apply eq_true_iff_eq; rewrite holds_iff; first [rewrite scope_forall_iff | rewrite scope_exists_iff]; split.
  all: try (intros H s' Hs'; destruct (X2 s' Hs') as (M' & Ag & C & ->); f_equal; now apply H).
  all: try (intros H M' Ag C; destruct (X1 M' Ag C) as (s' & Hs' & R); rewrite (H s' Hs') in R; congruence).
  all: try (intros (M' & Ag & C & H); destruct (X1 M' Ag C) as (s' & Hs' & R); exists s'; split; auto; congruence).
  all: intros (s' & Hs' & R); destruct (X2 s' Hs') as (M' & Ag & C & R'); exists M'; repeat (split; auto); congruence.
Qed.

Lemma raw_follows e : wt e = true -> some (untranslatable isvar fsig) e = false -> some eur_sub e = false -> some eur_quant e = false -> follows e.
Proof.
  assert (G : forall e, wt e = true -> some (untranslatable isvar fsig) e = false -> good isvar fsig ecall dummy e) by (intros; apply all_good; auto using dummy_ok).
  induction e using expr_rect'; intros W U S Q.
  - intros st y st' Iv E M s Hs. cbn [raw]. cbn [some untranslatable] in U. apply orb_false_iff in U. destruct U as [U _]. apply negb_false_iff in U.
    destruct (get_local_done isvar fsig ecall dummy x st Iv U) as (v & st1 & E1 & V & _ & D). cbn [tr] in E. rewrite E1 in E. cbn [rbind fst snd] in E. injection E as <- <-.
    destruct (Hs x) as (z & sc & V' & <-); [reflexivity|]. rewrite V in V'. injection V' as ->. reflexivity.
  - intros st y st' Iv E M s Hs. cbn [some untranslatable eur_sub eur_quant orb] in U, S, Q. apply orb_false_iff in U. destruct U as [U N]. cbn [wt] in W. rewrite forallb_forall in W.
    destruct (fsig f) as [[ts r]|] eqn:Ef; [|discriminate U]. apply negb_false_iff, andb_prop in U. destruct U as [U1 U2]. apply ty_eqb_eq in U1. subst r.
    assert (Z : forall P, existsb (some P) args = false -> forall a, In a args -> some P a = false).
    { intros P Hp a Ha. destruct (some P a) eqn:Ea; auto. rewrite <- Hp. symmetry. apply existsb_exists. eauto. }
    assert (Ga : Forall (good isvar fsig ecall dummy) args) by (apply Forall_forall; intros a Ha; apply G; auto).
    assert (Fa : Forall follows args) by (rewrite Forall_forall in *; intros a Ha; apply H; auto).
    cbn [tr] in E. match type of E with (let? rs := ?g in _) = _ => destruct g as [[zs st2]| |] eqn:E2 end; cbn [rbind fst snd] in E; try discriminate E.
    destruct (follows_args args Ga Fa st zs st2 Iv E2) as (_ & _ & R). unfold call_term in E. rewrite Ef in E. replace (ty_eqb t t) with true in E by (symmetry; now apply ty_eqb_eq).
    cbn [rbind] in E. injection E as <- <-. cbn [raw]. rewrite <- R.
    + unfold cst. destruct t; reflexivity.
    + intros x (a & Ha & Hx). apply Hs. apply fv_call, Exists_exists. eauto.
  - cbn [some untranslatable eur_sub eur_quant orb bool_cmp] in U, S, Q. rewrite !orb_false_iff in U, S, Q. destruct U as [[U1 U2] U3], S as [[S1 S2] S3], Q as [[Q1 Q2] Q3].
    cbn [wt] in W. repeat (apply andb_prop in W; destruct W as [W ?]). repeat match goal with h : ty_eqb _ _ = true |- _ => apply ty_eqb_eq in h end.
    intros st y st' Iv E M s Hs.
    destruct (G e1 ltac:(auto) U1 st Iv) as (y1 & st1 & n1 & E1 & T1 & B1 & _ & D1).
    destruct (G e2 ltac:(auto) U2 st1 (d_inv _ _ _ _ _ _ _ _ _ D1)) as (y2 & st2 & n2 & E2 & T2 & B2 & _ & D2).
    destruct (G e3 ltac:(auto) U3 st2 (d_inv _ _ _ _ _ _ _ _ _ D2)) as (y3 & st3 & n3 & E3 & T3 & B3 & _ & D3).
    cbn [tr] in E. rewrite sub_ok in E by auto. rewrite E1 in E. cbn [rbind fst snd] in E.
    rewrite sub_ok in E by auto. rewrite E2 in E. cbn [rbind fst snd] in E. rewrite sub_ok in E by auto. rewrite E3 in E. cbn [rbind fst snd] in E.
    destruct (ite_term t y1 y2 y3) as [z| |] eqn:Ez; cbn [rbind] in E; try discriminate E. injection E as <- <-.
    rewrite <- (ite_cst M t y1 y2 y3 z Ez). cbn [raw]. rewrite T1, T2, T3.
    assert (S12 := d_step _ _ _ _ _ _ _ _ _ D2). assert (S23 := d_step _ _ _ _ _ _ _ _ _ D3).
    rewrite (IHe1 ltac:(auto) U1 S1 Q1 st y1 st1 Iv E1 M s), (IHe2 ltac:(auto) U2 S2 Q2 st1 y2 st2 (d_inv _ _ _ _ _ _ _ _ _ D1) E2 M s), (IHe3 ltac:(auto) U3 S3 Q3 st2 y3 st3 (d_inv _ _ _ _ _ _ _ _ _ D2) E3 M s); auto.
    + intros x Hx. apply Hs. simpl. auto.
    + eapply sees_step; [exact S23 | | apply (d_vis _ _ _ _ _ _ _ _ _ D2) | exact Hs]. simpl. auto.
    + eapply sees_step; [eapply step_trans; [exact S12 | exact S23] | | apply (d_vis _ _ _ _ _ _ _ _ _ D1) | exact Hs]. simpl. auto.
  - cbn [some] in U, S, Q. rewrite !orb_false_iff in U, S, Q. destruct U as [U [U1 U2]], S as [S [S1 S2]], Q as [Q [Q1 Q2]].
    cbn [wt] in W. repeat (apply andb_prop in W; destruct W as [W ?]).
    match goal with h : bin_ok _ _ _ _ = true |- _ => rename h into Hb end. destruct (bin_operand_ok _ _ _ _ Hb) as [O1 O2].
    intros st y st' Iv E M s Hs.
    destruct (G e1 ltac:(auto) U1 st Iv) as (y1 & st1 & n1 & E1 & T1 & B1 & _ & D1).
    destruct (G e2 ltac:(auto) U2 st1 (d_inv _ _ _ _ _ _ _ _ _ D1)) as (y2 & st2 & n2 & E2 & T2 & B2 & _ & D2).
    cbn [tr] in E. rewrite sub_ok in E by auto. rewrite E1 in E. cbn [rbind fst snd] in E.
    rewrite sub_ok in E by auto. rewrite E2 in E. cbn [rbind fst snd] in E.
    destruct (bin_term t op y1 y2) as [z| |] eqn:Ez; cbn [rbind] in E; try discriminate E. injection E as <- <-.
    rewrite <- (bin_cst M t op y1 y2 z); auto. 2: { intros [-> ->]. discriminate S. } cbn [raw]. rewrite T1, T2.
    assert (S12 := d_step _ _ _ _ _ _ _ _ _ D2).
    rewrite (IHe1 ltac:(auto) U1 S1 Q1 st y1 st1 Iv E1 M s), (IHe2 ltac:(auto) U2 S2 Q2 st1 y2 st2 (d_inv _ _ _ _ _ _ _ _ _ D1) E2 M s); auto.
    + intros x Hx. apply Hs. simpl. auto.
    + eapply sees_step; [exact S12 | | apply (d_vis _ _ _ _ _ _ _ _ _ D1) | exact Hs]. simpl. auto.
  - cbn [some] in U, S, Q. rewrite !orb_false_iff in U, S, Q. destruct U as [U U1], S as [S S1], Q as [Q Q1].
    cbn [wt] in W. apply andb_prop in W. destruct W as [W Hu]. intros st y st' Iv E M s Hs.
    destruct (G e W U1 st Iv) as (y1 & st1 & n1 & E1 & T1 & B1 & _ & D1).
    cbn [tr] in E. rewrite sub_ok in E by now apply un_operand_ok. rewrite E1 in E. cbn [rbind fst snd] in E.
    destruct (un_term t op y1) as [z| |] eqn:Ez; cbn [rbind] in E; try discriminate E. injection E as <- <-.
    rewrite <- (un_cst M t op y1 z Ez). cbn [raw]. rewrite T1. now rewrite (IHe W U1 S1 Q1 st y1 st1 Iv E1 M s Hs).
  - cbn [some] in U, S, Q. rewrite !orb_false_iff in U, S, Q. destruct U as [U U1], S as [S S1], Q as [Q Q1].
    cbn [wt] in W. apply andb_prop in W. destruct W as [W Hu]. intros st y st' Iv E M s Hs.
    destruct (G e W U1 st Iv) as (y1 & st1 & n1 & E1 & T1 & B1 & _ & D1).
    cbn [tr] in E. rewrite E1 in E. cbn [rbind fst snd] in E.
    destruct (cast_term t y1) as [z| |] eqn:Ez; cbn [rbind] in E; try discriminate E. injection E as <- <-.
    rewrite <- (cast_cst M t y1 z Ez). cbn [raw]. rewrite T1. now rewrite (IHe W U1 S1 Q1 st y1 st1 Iv E1 M s Hs).
  - assert (Ta : ty_of e = TBool).
    { cbn [some eur_quant] in Q. apply orb_false_iff in Q. destruct Q as [Q _]. cbn [wt] in W. apply andb_prop in W. destruct W as [_ W].
      destruct (ty_of e); auto; try discriminate Q; destruct op; discriminate W. }
    pose proof W as W'. cbn [wt] in W'. apply andb_prop in W'. destruct W' as [W' _].
    pose proof U as U'. cbn [some] in U', S, Q. apply orb_false_iff in U', S, Q. destruct U' as [_ U'], S as [_ S], Q as [_ Q].
    apply follows_quant; auto.
  - cbn [some untranslatable orb] in U. discriminate U.
  - intros st y st' Iv E M s Hs. cbn [tr] in E. destruct (lit_term t l) as [z| |] eqn:Ez; cbn [rbind] in E; try discriminate E. injection E as <- <-.
    cbn [raw]. now rewrite Ez.
Qed.
End Raw.
