(** The translation with the cache is exact whatever is shared. *)
From Coq Require Import Bool List String ZArith NArith Reals Lia.
From Verif.Model Require Orders.
From Verif.Model Require Import EurEncodings Syntax AstUtil ScopeMap Translate TranslateCache.
From Verif.Spec Require Import Eur EncSpec Sem Exprs Translated.
From Verif.Proofs Require Import EurLemmas SemLemmas EncProofs EncProps ScopeProofs SubstProofs TranslateTerms TranslateStates TranslateProofs.
Import ListNotations.
Local Open Scope list_scope.
Local Open Scope nat_scope.

Section Cached.
Context {A : Type} (same : A -> A -> bool) (ptr : nat -> expr -> A) (refs : nat -> A -> nat) (heap : A -> expr).
Context (same_eq : forall p q, same p q = true -> p = q) (heap_ptr : forall n e, heap (ptr n e) = e).
Context (isvar : ident -> bool) (fsig : string -> option (list ty * ty)) (ecall : encoding) (I : interp) (HI : interp_ok I).
Notation fits := (fits fsig ecall I).
Notation doneh := (doneh fsig ecall I).
Notation trc := (trc same ptr refs isvar fsig ecall).
Notation cst := (cst A).
Implicit Types st : cst.

(** * What the cache holds *)
Record entry_ok (old : list (term bool)) (b : tst) (e : expr) (y : symb) : Prop := {
  en_ty : symb_ty y = ty_of e;
  en_below : ybelow (nxt b) y;
  en_vis : forall x, fv x e -> exists v, vis b x = Some v;
  en_corr : some eur_sub e = false -> forall M s, fits M -> alltrue old M -> alltrue (qc b) M -> encs (fun x => fv x e) b M s -> enc M y (eval I e s)
}.
Definition cok (old : list (term bool)) st : Prop :=
  exists l ls, cache st = l :: ls /\ forall p y, In (p, y) l -> entry_ok old (base st) (heap p) y.
Record hok (old : list (term bool)) (b : tst) : Prop := {
  h_below : forall c, In c old -> below (nxt b) c;
  h_qb : forall c, In c old -> forall M M', agree_off (qb b) M M' -> c M' = c M
}.

Lemma entry_step old new b b' e y : step b new b' -> entry_ok old b e y -> entry_ok (old ++ new) b' e y.
Proof.
  intros S [E1 E2 E3 E4]. split; auto.
  - eapply ybelow_le; [apply (s_nxt _ _ _ S) | exact E2].
  - intros x Hx. destruct (E3 x Hx) as [v V]. exists v. now apply (s_vis _ _ _ S).
  - intros Hs M s Hf Ho Hq He. apply E4; auto.
    + apply alltrue_app in Ho. tauto.
    + now rewrite <- (step_qc _ _ _ S).
    + eapply encs_step; eauto.
Qed.
Lemma hok_step old new b b' F P Y : hok old b -> doneh old F P Y b new b' -> hok (old ++ new) b'.
Proof.
  intros [H1 H2] D. pose proof (d_step _ _ _ _ _ _ _ _ _ D) as S. split; intros c Hc; apply in_app_or in Hc; destruct Hc as [Hc|Hc].
  - eapply below_le; [apply (s_nxt _ _ _ S) | auto].
  - apply (d_below _ _ _ _ _ _ _ _ _ D c Hc).
  - rewrite (step_qb _ _ _ S). auto.
  - rewrite (step_qb _ _ _ S). apply (d_off _ _ _ _ _ _ _ _ _ D c Hc).
Qed.
Lemma cok_step old new st st' : step (base st) new (base st') -> cache st' = cache st -> cok old st -> cok (old ++ new) st'.
Proof.
  intros S E (l & ls & El & Hl). exists l, ls. split; [congruence|]. intros p y Hy. eapply entry_step; eauto.
Qed.
Lemma cok_insert old st p y st' : cok old st -> entry_ok old (base st) (heap p) y -> cache_insert p y st = Ok st' ->
  cok old st' /\ base st' = base st /\ tl (cache st') = tl (cache st).
Proof.
  intros (l & ls & El & Hl) En E. unfold cache_insert in E. rewrite El in E. injection E as <-. split; [|split; auto; now rewrite El].
  exists ((p, y) :: l), ls. split; auto. intros q z [Eq|Hz]; [injection Eq as <- <-; exact En | auto].
Qed.
Lemma lookup_in p l y : lookup same p l = Some y -> In (p, y) l.
Proof.
  induction l as [|[q z] l IH]; simpl; [discriminate|]. destruct (same q p) eqn:E; [|auto].
  intros [= ->]. apply same_eq in E. subst. auto.
Qed.

(** * The induction *)
(** What translating [e] from [st] gives, after the constraints [old]. *)
Definition gives (e : expr) (old : list (term bool)) st (r : res (symb * cst)) : Prop := exists y st' new,
  r = Ok (y, st') /\ symb_ty y = ty_of e /\ ybelow (nxt (base st')) y /\ (some eur_quant e = false -> new = []) /\
  doneh old (fun x => fv x e) (some eur_sub e = false) (fun M s => enc M y (eval I e s)) (base st) new (base st') /\
  cok (old ++ new) st' /\ tl (cache st') = tl (cache st).
Definition goodk (e : expr) (k : cst -> res (symb * cst)) : Prop := forall old st, inv (base st) -> hok old (base st) -> cok old st -> gives e old st (k st).
Definition goodc (e : expr) : Prop := goodk e (trc e).

Lemma visit_good e k : goodk e k -> goodk e (visit same ptr refs e k).
Proof.
  intros G old st Iv Ho Co. unfold visit. set (p := ptr (clk st) e).
  assert (Hp : heap p = e) by apply heap_ptr.
  assert (Miss' : gives e old st (
      let? r := k (tick st) in
      let? st' := (if keyed e && worth_caching refs (clk (snd r)) p then cache_insert p (fst r) (snd r) else Ok (snd r)) in
      Ok (fst r, note (Miss p) (tick st')))).
  { destruct (G old (tick st)) as (y & st' & new & E & T & B & Q & D & C & L); auto. rewrite E. cbn [rbind fst snd].
    destruct (keyed e && worth_caching refs (clk st') p).
    - destruct (cache_insert p y st') as [st''| |] eqn:Ei.
      2,3: (unfold cache_insert in Ei; destruct C as (l & ls & El & _); rewrite El in Ei; discriminate Ei).
      assert (En : entry_ok (old ++ new) (base st') (heap p) y).
      { rewrite Hp. split; auto; [apply (d_vis _ _ _ _ _ _ _ _ _ D)|]. intros Hs M s Hf Hn Hq He. apply (d_corr _ _ _ _ _ _ _ _ _ D); auto.
        now rewrite <- (step_qc _ _ _ (d_step _ _ _ _ _ _ _ _ _ D)). }
      destruct (cok_insert _ _ p y st'' C En Ei) as (C' & Eb & El).
      cbn [rbind]. exists y, (note (Miss p) (tick st'')), new. unfold note, tick. cbn [base cache]. rewrite Eb, El.
      refine (conj eq_refl (conj T (conj B (conj Q (conj D (conj _ L)))))). destruct C' as (l & ls & H1 & H2). rewrite Eb in H2. exists l, ls. auto.
    - cbn [rbind]. exists y, (note (Miss p) (tick st')), new. exact (conj eq_refl (conj T (conj B (conj Q (conj D (conj C L)))))). }
  destruct (keyed e && worth_caching refs (clk st) p) eqn:K; [|exact Miss'].
  destruct Co as (l & ls & El & Hl). unfold cache_get. rewrite El. cbn [rbind].
  destruct (lookup same p l) as [y|] eqn:Ey; [|exact Miss']. clear Miss'.
  apply lookup_in in Ey. apply Hl in Ey. rewrite Hp in Ey. destruct Ey as [E1 E2 E3 E4].
  rewrite E1. replace (ty_eqb (ty_of e) (ty_of e)) with true by (symmetry; now apply ty_eqb_eq).
  exists y, (note (Hit p) (tick st)), []. cbn [note tick base cache]. split; auto. split; auto. split; auto. split; auto. split; [|split; auto].
  - split; auto.
    + now apply step_refl.
    + intros c [].
    + intros c [].
    + rewrite app_nil_r. auto.
    + intros _ M _ _ _. exists M. split; [apply skdiff_refl | apply alltrue_nil].
  - rewrite app_nil_r. exists l, ls. split; auto.
Qed.

Lemma d_nxt old F P Y b new b' : doneh old F P Y b new b' -> nxt b <= nxt b'.
Proof. intros D. apply (s_nxt _ _ _ (d_step _ _ _ _ _ _ _ _ _ D)). Qed.
Lemma from_done old F P Y b new b' : done fsig ecall I F P Y b new b' -> doneh old F P Y b new b'.
Proof. intros D. eapply doneh_more; [exact D | intros c []]. Qed.

Lemma sub_ok_c t (a : expr) st : ty_of a = t ->
  (if ty_eqb (ty_of a) t then trc a st else Panic "assertion failed: expr is not of the type") = trc a st.
Proof. intros ->. now replace (ty_eqb t t) with true by (symmetry; now apply ty_eqb_eq). Qed.

Lemma good_call_c args : Forall goodc args -> forall old st, inv (base st) -> hok old (base st) -> cok old st -> exists ys st' new,
  (fix go l st := match l with
                 | [] => Ok ([], st)
                 | a :: l => let? r := trc a st in let? rs := go l (snd r) in Ok (fst r :: fst rs, snd rs)
                 end) args st = Ok (ys, st') /\ map symb_ty ys = map ty_of args /\ Forall (ybelow (nxt (base st'))) ys /\ (existsb (some eur_quant) args = false -> new = []) /\
  doneh old (fun x => Exists (fv x) args) (existsb (some eur_sub) args = false) (fun M s => Forall2 (enc M) ys (map (fun a => eval I a s) args)) (base st) new (base st') /\
  cok (old ++ new) st' /\ tl (cache st') = tl (cache st).
Proof.
  induction 1 as [|a l Ha _ IH]; intros old st Iv Ho Co.
  - exists [], st, []. split; auto. split; auto. split; auto. split; auto. split; [|rewrite app_nil_r; auto].
    apply from_done. eapply done_weaken; [apply (done_refl isvar fsig ecall I True); auto | | auto | constructor].
    intros x; split; [tauto | intros H; inversion H].
  - destruct (Ha old st Iv Ho Co) as (y & st1 & n1 & E1 & T1 & B1 & Q1 & D1 & C1 & L1).
    destruct (IH (old ++ n1) st1 (d_inv _ _ _ _ _ _ _ _ _ D1) (hok_step _ _ _ _ _ _ _ Ho D1) C1) as (ys & st2 & n2 & E2 & T2 & B2 & Q2 & D2 & C2 & L2).
    exists (y :: ys), st2, (n1 ++ n2). rewrite E1. cbn [rbind fst snd]. rewrite E2. cbn [rbind fst snd]. split; auto.
    split; [simpl; congruence|]. split; [constructor; auto; eapply ybelow_le; [apply (d_nxt _ _ _ _ _ _ _ D2)|]; auto|].
    split; [cbn [existsb]; rewrite orb_false_iff; intros [K1 K2]; now rewrite Q1, Q2|].
    split; [|split; [now rewrite app_assoc | congruence]].
    eapply doneh_weaken; [eapply (doneh_seq _ _ _ _ _ _ _ _ _ _ _ _ _ _ _ (h_below _ _ Ho) D1 D2) | | |].
    + intros x. rewrite Exists_cons. tauto.
    + simpl. rewrite orb_false_iff. auto.
    + simpl. intros _ M s _ [H1 H2]. constructor; auto.
Qed.
Lemma hok_enter xs old b bs b' : hok old b -> inv b -> entered (names xs) b bs b' -> hok old b'.
Proof.
  intros Ho Iv Ent. split; intros c Hc.
  - eapply below_le; [apply (e_nxt _ _ _ _ Ent) | now apply (h_below _ _ Ho)].
  - intros M M' G. rewrite (qb2 xs b b' bs Ent) in G. exact (h_off xs b b' bs Ent old (h_below _ _ Ho) (h_qb _ _ Ho) c Hc M M' G).
Qed.

Lemma good_quant_c op xs a : goodc a -> wt (EQuant op xs a) = true -> some (untranslatable isvar fsig) (EQuant op xs a) = false -> goodc (EQuant op xs a).
Proof.
  intros Ga W U. unfold goodc. cbn [TranslateCache.trc]. apply visit_good. intros old st Iv Ho Co.
  cbn [some] in U. apply orb_false_iff in U. destruct U as [U N]. cbn [untranslatable] in U.
  apply negb_false_iff in U. rewrite forallb_forall in U. cbn [wt] in W. apply andb_prop in W. destruct W as [W Q].
  destruct (free_variables_spec a (some_no_subst isvar fsig _ N)) as (vs & Evs & Hvs).
  set (fs := filter (fun x => negb (mem x (map qname xs))) vs).
  assert (Hfs : forall x, In x fs <-> fv x a /\ ~ In x (names xs)).
  { intros x. unfold fs. rewrite filter_In, Hvs, negb_true_iff. unfold names. rewrite <- mem_iff. destruct (mem x (map qname xs)); intuition congruence. }
  destruct (get_locals_done isvar fsig ecall I fs (base st) Iv) as (b1 & E1 & _ & D1).
  { intros x Hx. apply Hfs in Hx. apply (fv_isvar isvar fsig a x N). tauto. }
  assert (Iv1 := d_inv _ _ _ _ _ _ _ _ _ D1). apply (from_done old) in D1.
  assert (Ho1 : hok old b1). { pose proof (hok_step _ _ _ _ _ _ _ Ho D1) as X. now rewrite app_nil_r in X. }
  destruct (enter_ok isvar xs b1 Iv1 U) as (bs & b2 & E2 & Iv2 & Ent).
  assert (Ho2 : hok old b2) by (eapply hok_enter; eauto).
  assert (E2' : enter_c isvar xs b1 st = Ok (bs, cache_push (with_base b2 st))) by (unfold enter_c; now rewrite E2).
  destruct (Ga old (cache_push (with_base b2 st)) Iv2 Ho2) as (y & st3 & new & E3 & T3 & B3 & Q3 & D3 & C3 & L3).
  { exists [], (cache st). split; auto. intros p y []. }
  cbn [cache_push cache with_base tl base] in L3, D3.
  assert (V1 : forall x, outer xs a x -> exists v, vis b1 x = Some v).
  { intros x Hx. apply (d_vis _ _ _ _ _ _ _ _ _ D1). apply Hfs. exact Hx. }
  assert (E0 : init_quantifier_free_vars isvar a xs (base st) = Ok b1) by (unfold init_quantifier_free_vars; rewrite Evs; exact E1).
  pose proof (leave_ok fsig ecall I xs a y _ b1 b2 (base st3) bs new Iv1 Ent old D3) as E4.
  set (b4 := st4 b1 (base st3) new) in *.
  assert (E4' : leave_c st3 = Ok (mkcst b4 (cache st) (clk st3) (trace st3))).
  { unfold leave_c. rewrite E4. cbn [rbind]. unfold cache_pop, with_base. cbn [base cache clk trace]. now rewrite L3. }
  assert (F : forall x, In x fs \/ outer xs a x <-> fv x (EQuant op xs a)).
  { intros x. rewrite Hfs. unfold outer. simpl. unfold names. tauto. }
  assert (C4 : forall n b k t, step b1 n b -> cok (old ++ n) (mkcst b (cache st) k t)).
  { intros n b k t S. exact (cok_step old ([] ++ n) st (mkcst b (cache st) k t) (step_trans _ _ _ _ _ (d_step _ _ _ _ _ _ _ _ _ D1) S) eq_refl Co). }
  assert (HB := h_below _ _ Ho). assert (HB1 := h_below _ _ Ho1). assert (HO1 := h_qb _ _ Ho1).
  cbn [ty_of].
  destruct (ty_of a) eqn:Ta; try (destruct op; discriminate Q).
  - destruct y as [t| | | | |]; try discriminate T3.
    rewrite E0. cbn [rbind]. rewrite E2'. cbn [rbind fst snd]. rewrite E3. cbn [rbind fst snd]. rewrite E4'. cbn [rbind].
    pose proof (quant_bool isvar fsig ecall I xs a (YBool t) _ b1 b2 (base st3) bs new Iv1 Iv2 Ent old HB1 HO1 D3 V1 t op eq_refl Ta) as D4.
    lapply D4; [clear D4; intros D4 | intros k Hk; eapply below_le; eauto].
    eexists _, _, new. split; [reflexivity|]. split; [cbn [ty_of]; rewrite ?Ta; reflexivity|]. cbn [base cache]. split.
    { cbn [st4 nxt ybelow]. assert (Bs : forall c, In c (scons bs) -> below (nxt (base st3)) c) by (intros c Hc; eapply (bs_below fsig ecall I xs a _ _ b1 b2 (base st3) bs new Iv2 Ent old D3); eauto).
      destruct op; simpl; first [apply scope_forall_below | apply scope_exists_below]; auto. }
    split; [cbn [some]; rewrite orb_false_iff; intros [_ K]; now rewrite Q3|]. split; [|split; auto; apply C4; apply (d_step _ _ _ _ _ _ _ _ _ D4)].
    rewrite <- (app_nil_r old) in D4. eapply doneh_weaken; [eapply (doneh_seq _ _ _ _ _ _ _ _ _ _ _ _ _ _ _ HB D1 D4) | exact F | |].
    + cbn [some eur_sub orb]. auto.
    + intros _ M s _ [_ H]. exact H.
  - destruct y as [| | | | |t]; try discriminate T3.
    rewrite E0. cbn [rbind]. rewrite E2'. cbn [rbind fst snd]. rewrite E3. cbn [rbind fst snd]. rewrite E4'. cbn [rbind base].
    assert (X : forall L le X (RL : represents L pair_ok pair_val le) (Lanti : forall u v, le u v -> le v u -> u = v)
      (Xlb : forall (Q : eur -> Prop) r, Q r -> le (X Q) r) (Xglb : forall (Q : eur -> Prop) u, (forall r, Q r -> le u r) -> le u (X Q)) o,
      (forall s, eval I (EQuant o xs a) s = VEur (X (reach I xs a s))) -> (forall x, fv x (EQuant o xs a) <-> fv x (EQuant op xs a)) ->
      gives (EQuant o xs a) old st (let i := infimum L t bs (skolem_arg_scope b1) b4 in Ok (YEur (fst i), with_base (snd i) (mkcst b4 (cache st) (clk st3) (trace st3))))).
    { intros L le X RL Lanti Xlb Xglb o Hev Hfv. cbv zeta. unfold b4. rewrite (infimum_eq b1 (base st3) bs new L t). cbn [fst snd].
      pose proof (ext_done isvar fsig ecall I xs a (YEur t) _ b1 b2 (base st3) bs new Iv1 Iv2 Ent old HB1 HO1 D3 V1 L le X RL Lanti Xlb Xglb t eq_refl B3) as D4.
      eexists _, _, _. split; [reflexivity|]. split; [cbn [ty_of]; rewrite Ta; reflexivity|]. cbn [with_base base cache]. split; [|split; [|split; [|split]]].
      - cbn [st5 nxt ybelow]. eapply below_le; [|eapply (ext_below fsig ecall I xs a); eauto]. lia.
      - cbn [some eur_quant]; rewrite Ta; discriminate.
      - rewrite <- (app_nil_r old) in D4. eapply doneh_weaken; [eapply (doneh_seq _ _ _ _ _ _ _ _ _ _ _ _ _ _ _ HB D1 D4) | | |].
        + intros x. rewrite Hfv. apply F.
        + cbn [some eur_sub orb]. auto.
        + intros _ M s _ [_ H]. rewrite Hev. exact H.
      - apply C4. apply (d_step _ _ _ _ _ _ _ _ _ D4).
      - reflexivity. }
    destruct op; try discriminate Q.
    + apply (X pair_lattice ele einf pair_represents ele_antisym einf_lb einf_glb); [|reflexivity]. intros s. cbn [eval]. now rewrite Ta.
    + apply (X (Orders.opp pair_lattice) (fun u v => ele v u) esup (opp_represents _ _ _ _ pair_represents) (fun u v H1 H2 => ele_antisym u v H2 H1) esup_ub esup_lub); [|reflexivity].
      intros s. cbn [eval]. now rewrite Ta.
Qed.

Theorem all_good_c e : wt e = true -> some (untranslatable isvar fsig) e = false -> goodc e.
Proof.
  induction e using expr_rect'; intros W U; try (apply good_quant_c; auto; apply IHe; [cbn [wt] in W; now apply andb_prop in W | cbn [some] in U; now apply orb_false_iff in U]);
    unfold goodc; cbn [TranslateCache.trc]; apply visit_good; intros old st Iv Ho Co.
  - cbn [some untranslatable] in U. apply orb_false_iff in U. destruct U as [U _]. apply negb_false_iff in U.
    destruct (get_local_done isvar fsig ecall I x (base st) Iv U) as (v & b & E & V & _ & D).
    unfold get_local_c. rewrite E. cbn [rbind fst snd]. exists (fst v), (with_base b st), []. split; auto.
    destruct v as [y sc]. destruct (inv_vis _ (d_inv _ _ _ _ _ _ _ _ _ D) _ _ _ V) as (n & Ln & En & _).
    assert (y = fst (fresh_sym (ity x) n)) as Ey by now rewrite <- En. cbn [fst with_base base]. split; [subst y; apply fresh_ty|].
    split; [subst y; now apply fresh_below|]. split; auto. apply (from_done old) in D. split; [|split; auto].
    + eapply doneh_weaken; [exact D | | auto | auto]. intros z. simpl. split; congruence.
    + eapply cok_step; [apply (d_step _ _ _ _ _ _ _ _ _ D) | reflexivity | exact Co].
  - cbn [some untranslatable] in U. apply orb_false_iff in U. destruct U as [U N]. cbn [wt] in W. rewrite forallb_forall in W.
    destruct (fsig f) as [[ts r]|] eqn:Ef; [|discriminate U]. apply negb_false_iff, andb_prop in U. destruct U as [U1 U2].
    apply ty_eqb_eq in U1. subst r. apply tys_eqb_eq in U2.
    assert (G : Forall goodc args).
    { rewrite Forall_forall in *. intros a Ha. apply H; auto. destruct (some _ a) eqn:E; auto. rewrite <- N. symmetry. apply existsb_exists. eauto. }
    destruct (good_call_c args G old st Iv Ho Co) as (ys & st' & new & E & T & B & Q & D & C & L).
    destruct (call_term_good fsig ecall I t f ys ts Ef ltac:(congruence)) as (z & Ez & Tz & Bz & Cz).
    exists z, st', new. rewrite E. cbn [rbind fst snd]. rewrite Ez. cbn [rbind]. split; auto. split; auto. split; auto. split; [cbn [some eur_quant orb]; auto|]. split; auto.
    eapply doneh_weaken; [exact D | | |].
    + intros x. now rewrite fv_call.
    + cbn [some eur_sub orb]. auto.
    + intros _ M s Hf H2. cbn [eval]. apply Cz; auto.
  - cbn [some untranslatable] in U. apply orb_false_iff in U. destruct U as [_ N]. rewrite !orb_false_iff in N. destruct N as [[N1 N2] N3].
    cbn [wt] in W. repeat (apply andb_prop in W; destruct W as [W ?]).
    repeat match goal with h : ty_eqb _ _ = true |- _ => apply ty_eqb_eq in h end.
    assert (G1 : goodc e1) by auto. assert (G2 : goodc e2) by auto. assert (G3 : goodc e3) by auto.
    destruct (G1 old st Iv Ho Co) as (y1 & st1 & n1 & E1 & T1 & B1 & Q1 & D1 & C1 & L1). pose proof (hok_step _ _ _ _ _ _ _ Ho D1) as Ho1.
    destruct (G2 _ st1 (d_inv _ _ _ _ _ _ _ _ _ D1) Ho1 C1) as (y2 & st2 & n2 & E2 & T2 & B2 & Q2 & D2 & C2 & L2). pose proof (hok_step _ _ _ _ _ _ _ Ho1 D2) as Ho2.
    destruct (G3 _ st2 (d_inv _ _ _ _ _ _ _ _ _ D2) Ho2 C2) as (y3 & st3 & n3 & E3 & T3 & B3 & Q3 & D3 & C3 & L3).
    destruct (ite_term_good t y1 y2 y3 ltac:(congruence) ltac:(congruence) ltac:(congruence)) as (z & Ez & Tz & Bz & Cz).
    exists z, st3, (n1 ++ n2 ++ n3). rewrite sub_ok_c by auto. rewrite E1. cbn [rbind fst snd].
    rewrite sub_ok_c by auto. rewrite E2. cbn [rbind fst snd]. rewrite sub_ok_c by auto. rewrite E3. cbn [rbind fst snd]. rewrite Ez. cbn [rbind].
    split; auto. split; auto. pose proof (d_nxt _ _ _ _ _ _ _ D2). pose proof (d_nxt _ _ _ _ _ _ _ D3).
    split; [apply Bz; [eapply ybelow_le; [|exact B1]; lia | eapply ybelow_le; [|exact B2]; lia | exact B3]|].
    split; [cbn [some eur_quant orb]; rewrite !orb_false_iff; intros [[K1 K2] K3]; now rewrite Q1, Q2, Q3|].
    split; [|split; [now rewrite !app_assoc | congruence]].
    eapply doneh_weaken; [eapply (doneh_seq _ _ _ _ _ _ _ _ _ _ _ _ _ _ _ (h_below _ _ Ho) D1 (doneh_seq _ _ _ _ _ _ _ _ _ _ _ _ _ _ _ (h_below _ _ Ho1) D2 D3)) | | |].
    + simpl. tauto.
    + cbn [some eur_sub orb]. rewrite !orb_false_iff. tauto.
    + intros _ M s _ (H1' & H2' & H3'). cbn [eval]. pose proof (enc_ty _ _ _ H1') as Hty. rewrite T1 in Hty.
      match goal with h : ty_of e1 = TBool |- _ => rewrite h in Hty end.
      destruct (eval I e1 s) as [b| | | | | |]; try discriminate Hty. specialize (Cz M b _ _ H1' H2' H3'). destruct b; exact Cz.
  - cbn [some] in U. apply orb_false_iff in U. destruct U as [U N]. rewrite !orb_false_iff in N. destruct N as [N1 N2].
    cbn [wt] in W. repeat (apply andb_prop in W; destruct W as [W ?]).
    match goal with h : bin_ok _ _ _ _ = true |- _ => rename h into Hb end.
    assert (G1 : goodc e1) by auto. assert (G2 : goodc e2) by auto. destruct (bin_operand_ok _ _ _ _ Hb) as [O1 O2].
    destruct (G1 old st Iv Ho Co) as (y1 & st1 & n1 & E1 & T1 & B1 & Q1 & D1 & C1 & L1). pose proof (hok_step _ _ _ _ _ _ _ Ho D1) as Ho1.
    destruct (G2 _ st1 (d_inv _ _ _ _ _ _ _ _ _ D1) Ho1 C1) as (y2 & st2 & n2 & E2 & T2 & B2 & Q2 & D2 & C2 & L2).
    destruct (bin_term_good fsig ecall I t op y1 y2) as (z & Ez & Tz & Bz & Cz).
    { now rewrite T1, T2. }
    { intros (-> & Hop & Tb). rewrite T1 in Tb. cbn [untranslatable bool_cmp] in U. rewrite Tb in U. destruct Hop as [->|[->|[->| ->]]]; discriminate U. }
    exists z, st2, (n1 ++ n2). rewrite sub_ok_c by auto. rewrite E1. cbn [rbind fst snd].
    rewrite sub_ok_c by auto. rewrite E2. cbn [rbind fst snd]. rewrite Ez. cbn [rbind].
    split; auto. split; auto. pose proof (d_nxt _ _ _ _ _ _ _ D2).
    split; [apply Bz; [eapply ybelow_le; [|exact B1]; lia | exact B2]|].
    split; [cbn [some eur_quant orb]; rewrite !orb_false_iff; intros [K1 K2]; now rewrite Q1, Q2|].
    split; [|split; [now rewrite !app_assoc | congruence]].
    eapply doneh_weaken; [eapply (doneh_seq _ _ _ _ _ _ _ _ _ _ _ _ _ _ _ (h_below _ _ Ho) D1 D2) | | |].
    + simpl. tauto.
    + cbn [some]. rewrite !orb_false_iff. tauto.
    + intros Hs M s Hf (H1' & H2'). cbn [eval]. apply Cz; auto. intros [-> ->]. cbn [some eur_sub orb] in Hs. discriminate Hs.
  - cbn [some] in U. apply orb_false_iff in U. destruct U as [U N]. cbn [wt] in W. apply andb_prop in W. destruct W as [W Hu].
    destruct (IHe W N old st Iv Ho Co) as (y1 & st1 & n1 & E1 & T1 & B1 & Q1 & D1 & C1 & L1).
    destruct (un_term_good t op y1) as (z & Ez & Tz & Bz & Cz). { now rewrite T1. }
    exists z, st1, n1. rewrite sub_ok_c by now apply un_operand_ok. rewrite E1. cbn [rbind fst snd]. rewrite Ez. cbn [rbind].
    split; auto. split; auto. split; auto. split; [cbn [some eur_quant orb]; auto|]. split; auto. eapply doneh_weaken; [exact D1 | reflexivity | auto | cbn [eval]; auto].
  - cbn [some] in U. apply orb_false_iff in U. destruct U as [U N]. cbn [wt] in W. apply andb_prop in W. destruct W as [W Hu].
    destruct (IHe W N old st Iv Ho Co) as (y1 & st1 & n1 & E1 & T1 & B1 & Q1 & D1 & C1 & L1).
    destruct (cast_term_good t y1) as (z & Ez & Tz & Bz & Cz). { now rewrite T1. }
    exists z, st1, n1. rewrite E1. cbn [rbind fst snd]. rewrite Ez. cbn [rbind].
    split; auto. split; auto. split; auto. split; [cbn [some eur_quant orb]; auto|]. split; auto. eapply doneh_weaken; [exact D1 | reflexivity | auto | cbn [eval]; auto].
  - cbn [some untranslatable orb] in U. discriminate U.
  - destruct (lit_term_good t l W) as (z & Ez & Tz & Bz & Cz).
    exists z, st, []. rewrite Ez. cbn [rbind]. split; auto. split; auto. split; auto. split; auto. split; [|rewrite app_nil_r; auto].
    apply from_done. eapply done_weaken; [apply (done_refl isvar fsig ecall I True); auto | simpl; tauto | auto | cbn [eval]; auto].
Qed.
End Cached.
