(** How often the translator with the cache translates an expression. *)
From Coq Require Import Bool List String Arith ZArith QArith Lia ClassicalEpsilon.
From Verif.Model Require Orders.
From Verif.Model Require Import EurEncodings Syntax AstUtil ScopeMap Translate TranslateCache.
From Verif.Spec Require Import Sem Exprs Translated Cached.
From Verif.Proofs Require Import SemLemmas.
Import ListNotations.
Local Open Scope list_scope.
Local Open Scope nat_scope.

Section Count.
Context {A : Type} (same : A -> A -> bool) (ptr : nat -> expr -> A) (refs : nat -> A -> nat).
Context (isvar : ident -> bool) (fsig : string -> option (list ty * ty)) (ecall : encoding).
Notation trc := (trc same ptr refs isvar fsig ecall).
Notation tr := (tr isvar fsig ecall).

(** * Nothing is shared *)
Section Off.
Context (few : forall n p, refs n p <= 2).
Definition forget {B} (m : res (B * cst A)) : res (B * tst) := rmap (fun r => (fst r, base (snd r))) m.
Lemma forget_bind {B C} (m : res (B * cst A)) m' (k : B * cst A -> res (C * cst A)) k' :
  forget m = m' -> (forall r, forget (k r) = k' (fst r, base (snd r))) -> forget (rbind m k) = rbind m' k'.
Proof. intros <- H. destruct m; cbn; auto. Qed.
Lemma unworthy n p : worth_caching refs n p = false.
Proof. unfold worth_caching. apply Nat.ltb_ge. apply few. Qed.
Lemma visit_off e body st : forget (visit same ptr refs e body st) = forget (body (tick st)).
Proof.
  unfold visit. rewrite unworthy, andb_false_r. cbn [rbind]. destruct (body (tick st)) as [[y st']| |]; cbn [rbind fst snd]; auto.
  rewrite unworthy, andb_false_r. cbn [rbind]. reflexivity.
Qed.
Lemma trc_off e : forall st, forget (trc e st) = tr e (base st).
Proof.
  induction e as [x|t f args IH|t c a b IHc IHa IHb|t op a b IHa IHb|t op a IHa|t a IHa|op xs a IHa|x b a IHb IHa|t l] using expr_rect'; intros st; cbn [trc tr]; rewrite visit_off.
  - unfold get_local_c. cbn [base tick]. destruct (get_local isvar x (base st)) as [[[y k] b]| |]; auto.
  - apply forget_bind with (m' := (fix go l st := match l with
                 | [] => Ok ([], st)
                 | a :: l => let? r := tr a st in let? rs := go l (snd r) in Ok (fst r :: fst rs, snd rs)
                 end) args (base st)).
    + change (base st) with (base (tick st)). generalize (tick st). clear st. induction IH as [|a l Ha _ IH]; intros st; [reflexivity|].
      apply forget_bind; [apply Ha|]. intros [y s]. apply forget_bind; [apply IH|]. intros [ys s']. reflexivity.
    + intros [ys s]. cbn [fst snd]. now destruct (call_term fsig ecall t f ys).
  - repeat (apply forget_bind; [match goal with |- context [ty_eqb ?x ?y] => destruct (ty_eqb x y); [|reflexivity] end; first [rewrite IHc; reflexivity | rewrite IHa; reflexivity | rewrite IHb; reflexivity] | intros [? ?]; cbn [fst snd]]). now destruct (ite_term _ _ _ _).
  - repeat (apply forget_bind; [match goal with |- context [ty_eqb ?x ?y] => destruct (ty_eqb x y); [|reflexivity] end; first [rewrite IHc; reflexivity | rewrite IHa; reflexivity | rewrite IHb; reflexivity] | intros [? ?]; cbn [fst snd]]). now destruct (bin_term _ _ _ _).
  - repeat (apply forget_bind; [match goal with |- context [ty_eqb ?x ?y] => destruct (ty_eqb x y); [|reflexivity] end; first [rewrite IHc; reflexivity | rewrite IHa; reflexivity | rewrite IHb; reflexivity] | intros [? ?]; cbn [fst snd]]). now destruct (un_term _ _ _).
  - apply forget_bind; [rewrite IHa; reflexivity|]. intros [y s]. cbn [fst snd]. now destruct (cast_term _ _).
  - destruct (ty_of a); try reflexivity; cbn [base tick].
    + destruct (init_quantifier_free_vars isvar a xs (base st)) as [b| |]; try reflexivity. cbn [rbind]. unfold enter_c. destruct (enter isvar xs b) as [[sc b1]| |]; try reflexivity. cbn [rbind fst snd].
      apply forget_bind; [rewrite IHa; reflexivity|]. intros [y s]. cbn [fst snd]. unfold leave_c. destruct (leave (base s)) as [b2| |]; try reflexivity. cbn [rbind]. destruct y; try reflexivity.
    + destruct (init_quantifier_free_vars isvar a xs (base st)) as [b| |]; try reflexivity. cbn [rbind]. unfold enter_c. destruct (enter isvar xs b) as [[sc b1]| |]; try reflexivity. cbn [rbind fst snd].
      apply forget_bind; [rewrite IHa; reflexivity|]. intros [y s]. cbn [fst snd]. unfold leave_c. destruct (leave (base s)) as [b2| |]; try reflexivity. cbn [rbind]. destruct y; try reflexivity. now destruct op.
  - reflexivity.
  - cbn [base tick]. now destruct (lit_term t l).
Qed.
Lemma translate_off e : translate_c same ptr refs isvar fsig ecall e = translate isvar fsig ecall e.
Proof.
  unfold translate_c, translate. destruct (ty_eqb (ty_of e) TBool); auto. change tst_new with (base (A := A) cst_new). rewrite <- trc_off.
  destruct (trc e cst_new) as [[y s]| |]; auto.
Qed.
End Off.

(** * Everything is shared *)
Section Once.
Context (heap : A -> expr).
Context (same_spec : forall p q, same p q = true <-> p = q) (heap_ptr : forall n e, heap (ptr n e) = e).
Context (still : forall n e, ptr n e = ptr 0 e) (many : forall n p, 2 < refs n p).
Notation look := (lookup same).
Definition has p l := look p l <> None.

Definition reach (S : list expr) (st st' : cst A) : Prop := forall l ls, cache st = l :: ls ->
  exists l' new, cache st' = l' :: ls /\ trace st' = new ++ trace st /\ (forall p, has p l -> has p l') /\
  (forall p, In p (missed new) -> In p (map (ptr 0) S) /\ ~ has p l /\ has p l') /\ NoDup (missed new).
Lemma missed_app (a b : list (event A)) : missed (a ++ b) = missed a ++ missed b.
Proof. unfold missed. now rewrite flat_map_app. Qed.
Lemma NoDup_app_disj {B} (a b : list B) : NoDup a -> NoDup b -> (forall x, In x a -> In x b -> False) -> NoDup (a ++ b).
Proof. induction 1 as [|x a Hx _ IH]; intros Hb Hd; auto. cbn. constructor; [|apply IH; auto; intros z Hz; apply Hd; now right]. intros H. apply in_app_or in H. destruct H; [auto|]. apply (Hd x); auto. now left. Qed.
Lemma reach_refl st st' : cache st' = cache st -> trace st' = trace st -> reach [] st st'.
Proof. intros E1 E2 l ls El. exists l, []. rewrite E1, E2. split; auto. split; auto. split; auto. split; [intros p []|constructor]. Qed.
Lemma reach_trans S1 S2 a b c : reach S1 a b -> reach S2 b c -> reach (S1 ++ S2) a c.
Proof.
  intros H1 H2 l ls El. destruct (H1 l ls El) as (l1 & n1 & E1 & T1 & M1 & P1 & N1). destruct (H2 l1 ls E1) as (l2 & n2 & E2 & T2 & M2 & P2 & N2).
  exists l2, (n2 ++ n1). split; auto. split; [now rewrite T2, T1, app_assoc|]. split; auto. split.
  - intros p Hp. rewrite missed_app in Hp. apply in_app_or in Hp. rewrite map_app. destruct Hp as [Hp|Hp].
    + destruct (P2 p Hp) as (X & Y & Z). split; [apply in_or_app; now right|]. split; auto.
    + destruct (P1 p Hp) as (X & Y & Z). split; [apply in_or_app; now left|]. split; auto.
  - rewrite missed_app. apply NoDup_app_disj; auto. intros p H H'. destruct (P2 p H) as (_ & Y & _). destruct (P1 p H') as (_ & _ & Z). auto.
Qed.
Lemma reach_from a a' b S : cache a = cache a' -> trace a = trace a' -> reach S a b -> reach S a' b.
Proof. unfold reach. now intros -> ->. Qed.
Lemma reach_more S S' a b : incl S S' -> reach S a b -> reach S' a b.
Proof.
  intros Hi H l ls El. destruct (H l ls El) as (l' & n & E & T & M & P & N). exists l', n. repeat split; auto; destruct (P p H0) as (X & Y & Z); auto.
  apply in_map_iff in X. destruct X as (e & Ee & He). apply in_map_iff. eauto.
Qed.

Lemma visit_once e body st y st' S : keyed e = true -> ~ In e S -> (forall y' s', body (tick st) = Ok (y', s') -> reach S (tick st) s') ->
  visit same ptr refs e body st = Ok (y, st') -> reach (e :: S) st st'.
Proof.
  intros K Hn Hb. unfold visit. rewrite K. assert (W : forall n p, worth_caching refs n p = true) by (intros; apply Nat.ltb_lt, many). rewrite !W. cbn [andb].
  intros H l ls El. unfold cache_get in H. rewrite El in H. cbn [rbind] in H. destruct (look (ptr (clk st) e) l) eqn:L.
  - destruct (ty_eqb (symb_ty s) (ty_of e)); inversion H; subst. exists l, [Hit (ptr (clk st) e)]. cbn. split; auto. split; auto. split; auto. split; [intros p []|constructor].
  - destruct (body (tick st)) as [[y1 s1]| |] eqn:B; try discriminate H. cbn [rbind fst snd] in H. rewrite W in H.
    destruct (Hb _ _ eq_refl l ls El) as (l1 & n1 & E1 & T1 & M1 & P1 & N1). unfold cache_insert in H. rewrite E1 in H. cbn [rbind] in H. inversion H; subst. cbn [note tick cache trace].
    assert (Hp : ~ In (ptr (clk st) e) (missed n1)).
    { intros C. destruct (P1 _ C) as (X & _). apply in_map_iff in X. destruct X as (e' & X & Y). apply (f_equal heap) in X. rewrite !heap_ptr in X. now subst e'. }
    assert (Mo : forall p, has p l1 -> has p ((ptr (clk st) e, y) :: l1)). { unfold has. intros p Hh. cbn. now destruct (same _ p). }
    exists ((ptr (clk st) e, y) :: l1), (Miss (ptr (clk st) e) :: n1). split; auto. split; [cbn; now rewrite T1|]. split; auto. split.
    + cbn. intros p [<-|Hq].
      * split; [left; symmetry; apply still|]. split; [unfold has; now rewrite L|]. unfold has. cbn. now replace (same _ _) with true by (symmetry; now apply same_spec).
      * destruct (P1 p Hq) as (X & Y & Z). auto.
    + cbn. now constructor.
Qed.

Fixpoint esz (e : expr) : nat :=
  S match e with
    | EVar _ | ELit _ _ => 0
    | ECall _ _ args => list_sum (map esz args)
    | EIte _ a b c => esz a + (esz b + esz c)
    | EBin _ _ a b => esz a + esz b
    | EUn _ _ a | ECast _ a | EQuant _ _ a => esz a
    | ESubst _ a b => esz a + esz b
    end.
Lemma esz_args w l : In w l -> esz w <= list_sum (map esz l).
Proof. induction l as [|v l IH]; [easy|]. change (list_sum (map esz (v :: l))) with (esz v + list_sum (map esz l)). intros [->|H]; [lia|]. specialize (IH H). lia. Qed.
Lemma esz_sub e : Forall (fun a => esz a <= esz e) (subexprs e).
Proof.
  induction e as [x|t f args IH|t c a b IHc IHa IHb|t op a b IHa IHb|t op a IHa|t a IHa|op xs a IHa|x b a IHb IHa|t l] using expr_rect'; cbn [subexprs esz]; constructor; auto;
    rewrite ?Forall_app; repeat split; try (match goal with H : Forall _ (subexprs ?a) |- Forall _ (subexprs ?a) => revert H; apply Forall_impl; intros; lia end).
  rewrite Forall_forall. intros z Hz. apply in_flat_map in Hz. destruct Hz as (w & Hw & Hz). rewrite Forall_forall in IH. specialize (IH w Hw). rewrite Forall_forall in IH. specialize (IH z Hz). cbn in IH.
  pose proof (esz_args w args Hw). lia.
Qed.
Lemma esz_out e S : (forall a, In a S -> exists b, In a (subexprs b) /\ esz b < esz e) -> ~ In e S.
Proof. intros H C. destruct (H e C) as (b & B & L). pose proof (esz_sub b) as F. rewrite Forall_forall in F. specialize (F e B). cbn in F. lia. Qed.

Lemma keyed_of e : ty_of e <> TEUReal -> keyed e = true.
Proof. unfold keyed. destruct (ty_eqb (ty_of e) TEUReal) eqn:E; auto. intros N. destruct N. now apply SemLemmas.ty_eqb_eq. Qed.
Lemma trc_once e : forall st y st', Forall plain_at (subexprs e) -> trc e st = Ok (y, st') -> reach (subexprs e) st st'.
Proof.
  induction e as [x|t f args IH|t c a b IHc IHa IHb|t op a b IHa IHb|t op a IHa|t a IHa|op xs a IHa|x b a IHb IHa|t l] using expr_rect'; intros st y st' F; cbn [subexprs] in F |- *;
    inversion F as [|? ? [K Q] F']; subst; rewrite ?Forall_app in F'; cbn [trc]; apply visit_once; auto using keyed_of.
  all: try (apply esz_out; intros z Hz; rewrite ?in_app_iff in Hz; repeat (destruct Hz as [Hz|Hz]); eexists; (split; [exact Hz|]); cbn [esz]; lia).
  all: try (intros y' s' H).
  - unfold get_local_c in H. destruct (get_local isvar x (base (tick st))) as [r| |]; inversion H; subst. now apply reach_refl.
  - apply esz_out. intros z Hz. apply in_flat_map in Hz. destruct Hz as (w & Hw & Hz). exists w. split; auto. cbn [esz].
    pose proof (esz_args w args Hw). lia.
  - match type of H with rbind ?g _ = _ => destruct g as [[ys s1]| |] eqn:G end; try discriminate H. cbn [rbind fst snd] in H. destruct (call_term fsig ecall t f ys); inversion H; subst.
    clear H. revert G. generalize (tick st). clear F Q K. revert ys. induction IH as [|a l Ha _ IH]; intros ys s0 G; [inversion G; subst; now apply reach_refl|].
    cbn [flat_map] in F'. apply Forall_app in F'. destruct F' as [F1 F2]. destruct (trc a s0) as [[ya sa]| |] eqn:Ea; try discriminate G. cbn [rbind fst snd] in G.
    match type of G with rbind ?g _ = _ => destruct g as [[yl sl]| |] eqn:G' end; try discriminate G. inversion G; subst. cbn [flat_map]. eapply reach_trans; eauto.
  - destruct F' as (F1 & F2 & F3). destruct (ty_eqb (ty_of c) TBool); [|discriminate H].
    destruct (trc c (tick st)) as [[y1 s1]| |] eqn:E1; try discriminate H. cbn [rbind fst snd] in H. destruct (ty_eqb (ty_of a) t); [|discriminate H].
    destruct (trc a s1) as [[y2 s2]| |] eqn:E2; try discriminate H. cbn [rbind fst snd] in H. destruct (ty_eqb (ty_of b) t); [|discriminate H].
    destruct (trc b s2) as [[y3 s3]| |] eqn:E3; try discriminate H. cbn [rbind fst snd] in H. destruct (ite_term _ _ _ _); inversion H; subst. eapply reach_trans; [eauto|]. eapply reach_trans; eauto.
  - destruct F' as (F1 & F2). destruct (ty_eqb (ty_of a) _); [|discriminate H].
    destruct (trc a (tick st)) as [[y1 s1]| |] eqn:E1; try discriminate H. cbn [rbind fst snd] in H. destruct (ty_eqb (ty_of b) _); [|discriminate H].
    destruct (trc b s1) as [[y2 s2]| |] eqn:E2; try discriminate H. cbn [rbind fst snd] in H.
    destruct (bin_term _ _ _ _); inversion H; subst. eapply reach_trans; eauto.
  - match type of H with context [ty_eqb ?x ?y] => destruct (ty_eqb x y); [|discriminate H] end. destruct (trc a (tick st)) as [[y1 s1]| |] eqn:E1; try discriminate H. cbn [rbind fst snd] in H.
    destruct (un_term _ _ _); inversion H; subst. eauto.
  - destruct (trc a (tick st)) as [[y1 s1]| |] eqn:E1; try discriminate H. cbn [rbind fst snd] in H. destruct (cast_term _ _); inversion H; subst. eauto.
  - destruct Q.
  - discriminate H.
  - destruct (lit_term t l); inversion H; subst. now apply reach_refl.
Qed.
Lemma once e y st : Forall plain_at (subexprs e) -> trc e cst_new = Ok (y, st) -> NoDup (missed (trace st)) /\ incl (missed (trace st)) (map (ptr 0) (subexprs e)) /\
  forall l, incl (subexprs e) l -> List.length (missed (trace st)) <= List.length l.
Proof.
  intros F E. assert (H : NoDup (missed (trace st)) /\ incl (missed (trace st)) (map (ptr 0) (subexprs e))).
  2: { destruct H as [H1 H2]. split; auto. split; auto. intros l Hl. rewrite <- (map_length (ptr 0) l). apply NoDup_incl_length; auto. intros p Hp. apply H2 in Hp. apply in_map_iff in Hp. destruct Hp as (a & <- & Ha). apply in_map. auto. }
  destruct (trc_once e _ _ _ F E [] [] eq_refl) as (l & n & _ & T & _ & P & N). cbn [trace cst_new] in T. rewrite app_nil_r in T. subst n. split; auto. intros p Hp. now apply P.
Qed.
End Once.
End Count.
