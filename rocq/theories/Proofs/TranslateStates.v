(** The translator's state: what each step preserves, and what a finished translation step guarantees. *)
From Coq Require Import Bool List String ZArith NArith Reals Lia ClassicalEpsilon.
From Verif.Model Require Import EurEncodings Syntax AstUtil ScopeMap Translate.
From Verif.Spec Require Import Eur EncSpec Sem Exprs Translated.
From Verif.Proofs Require Import EurLemmas SemLemmas EncProofs EncProps ScopeProofs SubstProofs TranslateTerms.
Import ListNotations.
Local Open Scope list_scope.
Local Open Scope nat_scope.

Definition vis (st : tst) (x : ident) : option (symb * scope) := sm_get ident_eqb x (locals st).
Definition qb (st : tst) : list bound := flat_map sbounds (qstack st).
Definition qc (st : tst) : list (term bool) := flat_map scons (qstack st).
Definition inside (st : tst) (sc : scope) : Prop := incl (sbounds sc) (qb st) /\ incl (scons sc) (qc st).

Record inv (st : tst) : Prop := {
  inv_loc : exists l ms, locals st = l :: ms;
  inv_lim : limits st <> [];
  inv_vis : forall x y sc, vis st x = Some (y, sc) -> exists n, n < nxt st /\ (y, sc) = fresh_sym (ity x) n /\
    (inside st sc \/ forall b, In b (sbounds sc) -> ~ In b (qb st));
  inv_inj : forall x x' n, vis st x = Some (fresh_sym (ity x) n) -> vis st x' = Some (fresh_sym (ity x') n) -> x = x';
  inv_qb : forall s n, In (s, n) (qb st) -> n < nxt st;
  inv_qc : forall c, In c (qc st) -> below (nxt st) c;
  inv_nd : Forall level_ok (locals st)
}.
Lemma level_insert x (e : entry (symb * scope)) (l : level ident (symb * scope)) : level_ok l -> level_ok (im_insert ident_eqb x e l).
Proof.
  unfold level_ok. intros N.
  induction l as [|[k' e'] l IH]; simpl in *; [constructor; [tauto | constructor]|].
  inversion N; subst. destruct (ident_eqb x k') eqn:E; simpl in *; auto.
  assert (K' : forall k, In k (map fst (im_insert ident_eqb x e l)) -> k = x \/ In k (map fst l)).
  { intros k. clear. induction l as [|[k'' e''] l IH]; simpl; [intuition|]. destruct (ident_eqb x k''); simpl; intuition. }
  constructor; auto. intros Hi. apply K' in Hi. destruct Hi as [->|Hi]; [rewrite ident_eqb_refl in E; discriminate | tauto].
Qed.

Lemma add_outermost_nil ls : add_outermost [] ls = ls.
Proof.
  induction ls as [|l [|l' ls] IH]; auto.
  - simpl. rewrite app_nil_r. now destruct l.
  - change (add_outermost [] (l :: l' :: ls)) with (l :: add_outermost [] (l' :: ls)). now rewrite IH.
Qed.
Lemma add_outermost_app a b ls : add_outermost b (add_outermost a ls) = add_outermost (a ++ b) ls.
Proof.
  induction ls as [|l [|l' ls] IH]; auto.
  - simpl. now rewrite app_assoc.
  - change (add_outermost a (l :: l' :: ls)) with (l :: add_outermost a (l' :: ls)).
    change (add_outermost (a ++ b) (l :: l' :: ls)) with (l :: add_outermost (a ++ b) (l' :: ls)).
    rewrite <- IH. destruct (add_outermost a (l' :: ls)) eqn:E; auto. destruct ls; discriminate.
Qed.
Lemma add_outermost_cons cs l ls : ls <> [] -> add_outermost cs (l :: ls) = l :: add_outermost cs ls.
Proof. destruct ls; [tauto | reflexivity]. Qed.
Lemma add_outermost_ne cs ls : ls <> [] -> add_outermost cs ls <> [].
Proof. destruct ls as [|l [|]]; simpl; try tauto; discriminate. Qed.

Record step (st : tst) (new : list (term bool)) (st' : tst) : Prop := {
  s_nxt : nxt st <= nxt st';
  s_q : qstack st' = qstack st;
  s_lim : limits st' = add_outermost new (limits st);
  s_loc : exists l l' ms, locals st = l :: ms /\ locals st' = l' :: ms;
  s_vis : forall x v, vis st x = Some v -> vis st' x = Some v
}.
Lemma step_refl st : inv st -> step st [] st.
Proof. intros H. destruct (inv_loc _ H) as (l & ms & E). split; auto; [now rewrite add_outermost_nil | eauto]. Qed.
Lemma step_trans a n1 b n2 c : step a n1 b -> step b n2 c -> step a (n1 ++ n2) c.
Proof.
  intros [A1 A2 A3 A4 A5] [B1 B2 B3 B4 B5]. split.
  - lia.
  - congruence.
  - now rewrite B3, A3, add_outermost_app.
  - destruct A4 as (l & l' & ms & E1 & E2), B4 as (k & k' & ms' & E3 & E4). rewrite E2 in E3. injection E3 as <- <-. eauto.
  - auto.
Qed.
Lemma step_qb st new st' : step st new st' -> qb st' = qb st.
Proof. intros H. unfold qb. now rewrite (s_q _ _ _ H). Qed.
Lemma step_qc st new st' : step st new st' -> qc st' = qc st.
Proof. intros H. unfold qc. now rewrite (s_q _ _ _ H). Qed.

Lemma get_put x y (e : entry (symb * scope)) l ms m o : sm_put ident_eqb x e (l :: ms) = Ok (m, o) ->
  sm_get ident_eqb y m = if ident_eqb y x then value_of (Some e) else sm_get ident_eqb y (l :: ms).
Proof.
  intros H. simpl in H. injection H as <- <-. simpl. rewrite (im_get_insert ident_eqb ident_eqb_eq).
  destruct (ident_eqb y x); reflexivity.
Qed.

Section States.
Context (isvar : ident -> bool) (fsig : string -> option (list ty * ty)) (ecall : string -> (string -> list dyn -> dyn) -> list dyn -> dyn) (I : interp).
Notation fits := (fits fsig ecall I).

Definition encs (F : ident -> Prop) (st : tst) (M : strct) (s : env) : Prop :=
  forall x, F x -> exists y sc, vis st x = Some (y, sc) /\ enc M y (s x).
Definition gok (F : ident -> Prop) (st : tst) (M : strct) : Prop :=
  forall x y sc, F x -> vis st x = Some (y, sc) -> inside st sc \/ alltrue (scons sc) M.
Definition skdiff (a b : nat) (M M' : strct) : Prop :=
  cb M' = cb M /\ ci M' = ci M /\ cr M' = cr M /\ ufn M' = ufn M /\ sdiv0 M' = sdiv0 M /\ smod0 M' = smod0 M /\
  forall n, n < a \/ b <= n -> sk M' n = sk M n.
Lemma skdiff_refl a b M : skdiff a b M M. Proof. repeat split. Qed.
Lemma skdiff_agree a b M M' : skdiff a b M M' -> agree a M M'.
Proof.
  intros (H1&H2&H3&H4&H5&H6&H7). refine (conj _ (conj _ (conj _ (conj _ (conj _ (conj _ _)))))); auto; intros; rewrite ?H1, ?H2, ?H3; auto.
Qed.
Lemma skdiff_trans a b c M M' M'' : a <= b -> b <= c -> skdiff a b M M' -> skdiff b c M' M'' -> skdiff a c M M''.
Proof.
  intros L1 L2 (H1&H2&H3&H4&H5&H6&H7) (G1&G2&G3&G4&G5&G6&G7).
  refine (conj _ (conj _ (conj _ (conj _ (conj _ (conj _ _)))))); try congruence. intros n Hn. rewrite G7, H7; auto; lia.
Qed.

(** What a part of the translation leaves behind, given that the constraints [H] hold: it made the variables
    [F] known, its result stands for [Y] in every structure that satisfies [H] and the constraints it added,
    and the constraints can be satisfied. *)
Record doneh (H : list (term bool)) (F : ident -> Prop) (P : Prop) (Y : strct -> env -> Prop) (st : tst) (new : list (term bool)) (st' : tst) : Prop := {
  d_step : step st new st';
  d_inv : inv st';
  d_vis : forall x, F x -> exists v, vis st' x = Some v;
  d_below : forall c, In c new -> below (nxt st') c;
  d_off : forall c, In c new -> forall M M', agree_off (qb st) M M' -> c M' = c M;
  d_corr : P -> forall M s, fits M -> alltrue (H ++ new) M -> alltrue (qc st) M -> encs F st' M s -> Y M s;
  d_exh : P -> forall M, fits M -> alltrue H M -> gok F st' M -> exists M', skdiff (nxt st) (nxt st') M M' /\ alltrue new M'
}.
Arguments d_step {H} _ _ _ _ _ _ _.
Arguments d_inv {H} _ _ _ _ _ _ _.
Arguments d_vis {H} _ _ _ _ _ _ _.
Arguments d_below {H} _ _ _ _ _ _ _.
Arguments d_off {H} _ _ _ _ _ _ _.
Arguments d_corr {H} _ _ _ _ _ _ _.
Arguments d_exh {H} _ _ _ _ _ _ _.
Definition done := doneh [].
Lemma d_ex F P Y st new st' : done F P Y st new st' -> P -> forall M, fits M -> gok F st' M -> exists M', skdiff (nxt st) (nxt st') M M' /\ alltrue new M'.
Proof. intros D p M Hf G. apply (d_exh _ _ _ _ _ _ D); auto using alltrue_nil. Qed.

Lemma encs_step (F : ident -> Prop) st new st' M s : step st new st' -> (forall x, F x -> exists v, vis st x = Some v) -> encs F st' M s -> encs F st M s.
Proof.
  intros S V H x Hx. destruct (V x Hx) as [[y sc] E]. destruct (H x Hx) as (y' & sc' & E' & C).
  rewrite (s_vis _ _ _ S _ _ E) in E'. injection E' as <- <-. eauto.
Qed.
Lemma gok_step (F : ident -> Prop) st new st' M : step st new st' -> gok F st' M -> gok F st M.
Proof.
  intros S H x y sc Hx E. destruct (H x y sc Hx (s_vis _ _ _ S _ _ E)) as [[A B]|]; auto.
  left. rewrite (step_qb _ _ _ S) in A. rewrite (step_qc _ _ _ S) in B. split; auto.
Qed.
Lemma gok_sk (F : ident -> Prop) st a b M M' : inv st -> skdiff a b M M' -> gok F st M -> gok F st M'.
Proof.
  intros Iv (H1&H2&H3&_) G x y sc Hx E. destruct (G x y sc Hx E); auto. right.
  destruct (inv_vis _ Iv x y sc E) as (n & _ & En & _). assert (sc = snd (fresh_sym (ity x) n)) as -> by (now rewrite <- En).
  eapply fresh_cons_consts; eauto.
Qed.

Lemma done_refl (P : Prop) st : inv st -> done (fun _ => False) P (fun _ _ => True) st [] st.
Proof.
  intros H. split; auto.
  - now apply step_refl.
  - tauto.
  - intros c [].
  - intros c [].
  - intros _ M _ _ _. exists M. split; [apply skdiff_refl | apply alltrue_nil].
Qed.
Lemma doneh_seq (H : list (term bool)) (F1 F2 : ident -> Prop) (P1 P2 : Prop) (Y1 Y2 : strct -> env -> Prop) a n1 b n2 c : (forall k, In k H -> below (nxt a) k) ->
  doneh H F1 P1 Y1 a n1 b -> doneh (H ++ n1) F2 P2 Y2 b n2 c ->
  doneh H (fun x => F1 x \/ F2 x) (P1 /\ P2) (fun M s => Y1 M s /\ Y2 M s) a (n1 ++ n2) c.
Proof.
  intros HB [A1 A2 A3 A4 A5 A6 A7] [B1 B2 B3 B4 B5 B6 B7]. split; auto.
  - eapply step_trans; eauto.
  - intros x [Hx|Hx]; auto. destruct (A3 x Hx) as [v E]. exists v. now apply (s_vis _ _ _ B1).
  - intros k Hk. apply in_app_or in Hk. destruct Hk as [Hk|Hk]; auto. eapply below_le; [|apply A4; auto]. apply (s_nxt _ _ _ B1).
  - intros k Hk M M' G. apply in_app_or in Hk. destruct Hk as [Hk|Hk]; [now apply A5|].
    apply B5; auto. now rewrite (step_qb _ _ _ A1).
  - intros [HP1 HP2] M s Hf Hn Hq He. rewrite app_assoc in Hn. pose proof Hn as Hn'. apply alltrue_app in Hn'. destruct Hn' as [Hn1 Hn2]. split.
    + apply A6; auto. eapply encs_step; [exact B1 | auto |]. intros x Hx. apply He. auto.
    + apply B6; auto; [now rewrite (step_qc _ _ _ A1)|]. intros x Hx. apply He. auto.
  - intros [HP1 HP2] M Hf Hh G.
    destruct (A7 HP1 M Hf Hh) as (M1 & D1 & T1). { eapply gok_step; [exact B1|]. intros x y sc Hx E. apply (G x y sc); auto. }
    destruct (B7 HP2 M1) as (M2 & D2 & T2).
    { eapply fits_agree; [|exact Hf]. eapply skdiff_agree; eauto. }
    { apply alltrue_app. split; auto. eapply alltrue_below; [|apply (skdiff_agree _ _ _ _ D1)|exact Hh]. auto. }
    { eapply gok_sk; [exact B2 | exact D1 |]. intros x y sc Hx E. apply (G x y sc); auto. }
    exists M2. split.
    + eapply skdiff_trans; [| |exact D1|exact D2]; [apply (s_nxt _ _ _ A1) | apply (s_nxt _ _ _ B1)].
    + apply alltrue_app. split; auto. eapply alltrue_below; [|apply (skdiff_agree _ _ _ _ D2)|exact T1]. auto.
Qed.
Lemma doneh_more H H' F P Y a n b : doneh H F P Y a n b -> incl H H' -> doneh H' F P Y a n b.
Proof.
  intros [A1 A2 A3 A4 A5 A6 A7] HI. split; auto.
  - intros p M s Hf Hn Hq He. apply A6; auto. apply alltrue_app in Hn. destruct Hn as [Hn1 Hn2]. apply alltrue_app. split; auto. intros c Hc. auto.
  - intros p M Hf Hh G. apply A7; auto. intros c Hc. auto.
Qed.
Lemma done_seq (F1 F2 : ident -> Prop) (P1 P2 : Prop) (Y1 Y2 : strct -> env -> Prop) a n1 b n2 c : done F1 P1 Y1 a n1 b -> done F2 P2 Y2 b n2 c ->
  done (fun x => F1 x \/ F2 x) (P1 /\ P2) (fun M s => Y1 M s /\ Y2 M s) a (n1 ++ n2) c.
Proof. intros D1 D2. apply (doneh_seq [] F1 F2 P1 P2 Y1 Y2 a n1 b n2 c); auto; [intros k [] | eapply doneh_more; [exact D2 | intros k []]]. Qed.
Lemma doneh_weaken H (F F' : ident -> Prop) (P P' : Prop) (Y Y' : strct -> env -> Prop) a n b : doneh H F P Y a n b -> (forall x, F x <-> F' x) -> (P' -> P) ->
  (P' -> forall M s, fits M -> Y M s -> Y' M s) -> doneh H F' P' Y' a n b.
Proof.
  intros [A1 A2 A3 A4 A5 A6 A7] HF HP HY. split; auto.
  - intros x Hx. apply A3, HF, Hx.
  - intros p M s Hf Hn Hq He. apply HY; auto. apply A6; auto. intros x Hx. apply He, HF, Hx.
  - intros p M Hf Hh G. apply A7; auto. intros x y sc Hx. apply G, HF, Hx.
Qed.
Lemma done_weaken (F F' : ident -> Prop) (P P' : Prop) (Y Y' : strct -> env -> Prop) a n b : done F P Y a n b -> (forall x, F x <-> F' x) -> (P' -> P) ->
  (P' -> forall M s, fits M -> Y M s -> Y' M s) -> done F' P' Y' a n b.
Proof. apply doneh_weaken. Qed.

(** * Local variables *)
Lemma inv_new_local x st l ms m o : inv st -> vis st x = None -> locals st = l :: ms ->
  sm_insert ident_eqb x (fresh_sym (ity x) (nxt st)) (l :: ms) = Ok (m, o) ->
  inv (mktst (limits st) m (qstack st) (S (nxt st))).
Proof.
  intros [L1 L2 L3 L4 L5 L6 L7] N El Em.
  assert (Vx : forall y, sm_get ident_eqb y m = if ident_eqb y x then Some (fresh_sym (ity x) (nxt st)) else vis st y).
  { intros y. unfold vis. rewrite El. apply (get_put x y _ _ _ _ _ Em). }
  assert (Vn : forall y n, vis st y = Some (fresh_sym (ity y) n) -> n < nxt st).
  { intros y n E. destruct (fresh_sym (ity y) n) as [a sc] eqn:Ef. destruct (L3 _ _ _ E) as (n' & Ln & Ef' & _).
    rewrite <- Ef in Ef'. apply fresh_inj in Ef'. now subst. }
  split; unfold vis, qb, qc in *; simpl in *.
  - injection Em as <- _. eauto.
  - exact L2.
  - intros y a sc E. rewrite Vx in E. destruct (ident_eqb y x) eqn:Ey.
    + apply ident_eqb_eq in Ey. subst y. exists (nxt st). split; [lia|]. injection E as E. split; [now symmetry|]. right.
      intros [s k] Hb Hq. assert (sc = snd (fresh_sym (ity x) (nxt st))) as -> by now rewrite E. apply fresh_bounds in Hb. subst k. apply L5 in Hq. lia.
    + destruct (L3 _ _ _ E) as (n & Ln & En & C). exists n. split; [lia|]. split; auto.
  - intros y y' n. rewrite !Vx. destruct (ident_eqb y x) eqn:Ey, (ident_eqb y' x) eqn:Ey'; intros E E'.
    + apply ident_eqb_eq in Ey, Ey'. congruence.
    + injection E as E. apply fresh_inj in E. apply Vn in E'. lia.
    + injection E' as E'. apply fresh_inj in E'. apply Vn in E. lia.
    + eapply L4; eauto.
  - intros s n H. apply L5 in H. lia.
  - intros c H. eapply below_le; [|apply L6; auto]. lia.
  - injection Em as <- _. rewrite El in L7. inversion L7; subst. constructor; auto. now apply level_insert.
Qed.

Lemma get_local_done x st : inv st -> isvar x = true -> exists v st', get_local isvar x st = Ok (v, st') /\
  vis st' x = Some v /\ limits st' = limits st /\
  done (eq x) True (fun M s => enc M (fst v) (s x)) st [] st'.
Proof.
  intros Iv Hx.
  assert (Fin : forall v st', vis st' x = Some v -> step st [] st' -> inv st' ->
    done (eq x) True (fun M s => enc M (fst v) (s x)) st [] st').
  { intros v st' V S Iv'. split; auto.
    - intros y <-. eauto.
    - intros c [].
    - intros c [].
    - intros _ M s _ _ _ He. destruct (He x eq_refl) as (y & sc & E & C). rewrite E in V. injection V as <-. exact C.
    - intros _ M _ _ _. exists M. split; [apply skdiff_refl | apply alltrue_nil]. }
  unfold get_local, sm_contains. fold (vis st x). destruct (vis st x) as [v|] eqn:V.
  - cbn [rbind]. unfold vis in V. rewrite V. exists v, st. split; auto. split; auto. split; auto. apply Fin; auto. now apply step_refl.
  - unfold init_local. rewrite Hx. destruct (inv_loc _ Iv) as (l & ms & El). rewrite El. cbn [sm_insert sm_put rbind fst].
    cbn [locals]. pose proof (get_put x x (Value (fresh_sym (ity x) (nxt st))) l ms _ _ eq_refl) as G. rewrite ident_eqb_refl in G. cbn [value_of] in G.
    rewrite G. eexists _, _. split; [reflexivity|]. split; [exact G|]. split; [reflexivity|]. apply Fin.
    + exact G.
    + split; cbn [nxt qstack limits locals]; auto; [now rewrite add_outermost_nil | exists l, (im_insert ident_eqb x (Value (fresh_sym (ity x) (nxt st))) l), ms; auto |].
      intros y v E. assert (y <> x) by congruence. unfold vis in *. cbn [locals]. rewrite (get_put x y (Value (fresh_sym (ity x) (nxt st))) l ms _ _ eq_refl).
      rewrite ident_eqb_neq by auto. now rewrite <- El.
    + eapply inv_new_local; eauto. reflexivity.
Qed.

Lemma get_locals_done xs : forall st, inv st -> (forall x, In x xs -> isvar x = true) -> exists st', get_locals isvar xs st = Ok st' /\
  limits st' = limits st /\ done (fun x => In x xs) True (fun _ _ => True) st [] st'.
Proof.
  induction xs as [|x xs IH]; intros st Iv Hx.
  - exists st. split; auto. split; auto. eapply done_weaken; [apply (done_refl True); auto | simpl; tauto | auto | auto].
  - destruct (get_local_done x st Iv (Hx x (or_introl eq_refl))) as (v & st1 & E & _ & L & D).
    destruct (IH st1 (d_inv _ _ _ _ _ _ D) (fun y Hy => Hx y (or_intror Hy))) as (st2 & E2 & L2 & D2).
    exists st2. simpl. rewrite E. cbn [rbind snd]. split; auto. split; [congruence|].
    eapply done_weaken; [eapply (done_seq _ _ _ _ _ _ _ [] _ [] _ D D2) | simpl; split; intros [H|H]; auto | auto | auto].
Qed.

(** * Entering a quantifier *)
Definition names (xs : list qvar) : list ident := map qname xs.
Definition bnds (st : tst) (xs : list ident) : list bound := flat_map (fun x => match vis st x with Some (_, sc) => sbounds sc | None => [] end) xs.
Definition cons_ (st : tst) (xs : list ident) : list (term bool) := flat_map (fun x => match vis st x with Some (_, sc) => scons sc | None => [] end) xs.

Record entered (xs : list ident) (st : tst) (bs : scope) (st' : tst) : Prop := {
  e_lim : limits st' = scope_new :: limits st;
  e_loc : exists l, locals st' = l :: locals st;
  e_q : qstack st' = bs :: qstack st;
  e_nxt : nxt st <= nxt st';
  e_bound : forall x, In x xs -> exists n, nxt st <= n /\ vis st' x = Some (fresh_sym (ity x) n);
  e_other : forall x, ~ In x xs -> vis st' x = vis st x;
  e_bnds : forall b, In b (sbounds bs) <-> In b (bnds st' xs);
  e_cons : forall c, In c (scons bs) <-> In c (cons_ st' xs)
}.

Lemma fresh_all_ok xs : forall st l ms, locals st = l :: ms -> exists l', fresh_all xs st = Ok (mktst (limits st) (l' :: ms) (qstack st) (nxt st)) /\
  (level_ok l -> level_ok l') /\
  forall y, sm_get ident_eqb y (l' :: ms) = if in_dec ident_dec y (names xs) then None else sm_get ident_eqb y (l :: ms).
Proof.
  induction xs as [|x xs IH]; intros st l ms E.
  - exists l. simpl. rewrite <- E. split; [now destruct st | split; auto].
  - cbn [fresh_all]. unfold tr_fresh. rewrite E. unfold sm_remove. cbn [sm_put rbind fst].
    destruct (IH (mktst (limits st) (im_insert ident_eqb (qname x) Deleted l :: ms) (qstack st) (nxt st)) _ _ eq_refl) as (l' & E' & Nd & G).
    exists l'. split; [exact E'|]. split; [intros Nl; apply Nd; now apply level_insert|]. intros y. rewrite G. cbn [names map].
    pose proof (get_put (qname x) y Deleted l ms _ _ eq_refl) as G2.
    destruct (in_dec ident_dec y (names xs)) as [i|i]; destruct (in_dec ident_dec y (qname x :: map qname xs)) as [j|j]; auto.
    + exfalso. apply j. now right.
    + etransitivity; [exact G2|]. destruct j as [<-|j]; [now rewrite ident_eqb_refl | contradiction].
    + etransitivity; [exact G2|]. destruct (ident_eqb y (qname x)) eqn:Ey; auto. apply ident_eqb_eq in Ey. subst. exfalso. apply j. now left.
Qed.

(** Between [fresh_all] and the end of [mk_scope]. *)
Lemma mk_scope_ok xs : forall acc st k0 l (ms : list (level ident (symb * scope))), inv st -> (forall x, In x xs -> isvar (qname x) = true) ->
  k0 <= nxt st -> locals st = l :: ms ->
  (forall x, In x (names xs) -> vis st x = None \/ exists n, k0 <= n /\ vis st x = Some (fresh_sym (ity x) n)) ->
  exists bs st' l', mk_scope isvar xs acc st = Ok (bs, st') /\ inv st' /\ limits st' = limits st /\ qstack st' = qstack st /\
    nxt st <= nxt st' /\ locals st' = l' :: ms /\
    (forall x v, vis st x = Some v -> vis st' x = Some v) /\
    (forall x, ~ In x (names xs) -> vis st' x = vis st x) /\
    (forall x, In x (names xs) -> exists n, k0 <= n /\ vis st' x = Some (fresh_sym (ity x) n)) /\
    (forall b, In b (sbounds bs) <-> In b (sbounds acc) \/ In b (bnds st' (names xs))) /\
    (forall c, In c (scons bs) <-> In c (scons acc) \/ In c (cons_ st' (names xs))).
Proof.
  induction xs as [|x xs IH]; intros acc st k0 l ms Iv Hx Hn El Hv.
  - exists acc, st, l. cbn. repeat (split; auto); simpl; tauto.
  - cbn [mk_scope].
    assert (Vo : exists v st1 l1, get_local isvar (qname x) st = Ok (v, st1) /\ inv st1 /\ limits st1 = limits st /\ qstack st1 = qstack st /\
       nxt st <= nxt st1 /\ locals st1 = l1 :: ms /\ vis st1 (qname x) = Some v /\
       (forall y w, vis st y = Some w -> vis st1 y = Some w) /\ (forall y, y <> qname x -> vis st1 y = vis st y) /\
       exists n, k0 <= n /\ v = fresh_sym (ity (qname x)) n).
    { assert (Ht : isvar (qname x) = true) by (apply Hx; now left).
      unfold get_local, sm_contains. fold (vis st (qname x)). destruct (vis st (qname x)) as [v|] eqn:V.
      - cbn [rbind]. unfold vis in V. rewrite V. exists v, st, l. repeat (split; auto).
        destruct (Hv (qname x) (or_introl eq_refl)) as [C|(n & Ln & C)]; unfold vis in *; rewrite V in C; [discriminate|].
        injection C as ->. eauto.
      - unfold init_local. rewrite Ht, El. cbn [sm_insert sm_put rbind fst locals].
        pose proof (fun y => get_put (qname x) y (Value (fresh_sym (ity (qname x)) (nxt st))) l (ms) _ _ eq_refl) as G. cbn [value_of] in G.
        rewrite G, ident_eqb_refl. eexists _, _, _. split; [reflexivity|].
        split; [eapply inv_new_local; eauto; reflexivity|]. cbn [limits qstack nxt locals].
        split; auto. split; auto. split; auto. split; [reflexivity|].
        split; [unfold vis; cbn [locals]; now rewrite G, ident_eqb_refl|].
        assert (O : forall y, y <> qname x -> sm_get ident_eqb y (im_insert ident_eqb (qname x) (Value (fresh_sym (ity (qname x)) (nxt st))) l :: ms) = vis st y).
        { intros y N. rewrite G, ident_eqb_neq by auto. unfold vis. now rewrite El. }
        split; [|split; [exact O | eauto]]. intros y w E. rewrite <- E. apply O. congruence. }
    destruct Vo as (v & st1 & l1 & E1 & Iv1 & L1 & Q1 & N1 & El1 & V1 & K1 & O1 & n & Ln & Ev).
    rewrite E1. cbn [rbind fst snd].
    destruct (IH (append_scope acc (snd v)) st1 k0 l1 ms Iv1 (fun y Hy => Hx y (or_intror Hy)) ltac:(lia) El1) as (bs & st' & l' & E' & Iv' & L' & Q' & N' & El' & K' & O' & B' & Bb & Bc).
    { intros y Hy. destruct (ident_dec y (qname x)) as [->|Ne]; [right; exists n; rewrite <- Ev; auto|]. rewrite O1 by auto. apply Hv. now right. }
    exists bs, st', l'. split; [exact E'|]. split; auto. split; [congruence|]. split; [congruence|]. split; [lia|]. split; auto.
    split; auto. split; [|split; [|split]].
    + intros y Hy. rewrite O', O1; auto; intros C; apply Hy; [left; now symmetry | now right].
    + intros y [<-|Hy]; auto. exists n. rewrite <- Ev. split; auto.
    + intros b. rewrite Bb. cbn [append_scope sbounds names map bnds flat_map]. rewrite !in_app_iff.
      rewrite (K' _ _ V1). destruct v. simpl. unfold bnds, names. tauto.
    + intros c. rewrite Bc. cbn [append_scope scons names map cons_ flat_map]. rewrite !in_app_iff.
      rewrite (K' _ _ V1). destruct v. simpl. unfold cons_, names. tauto.
Qed.

Lemma enter_ok xs st : inv st -> (forall x, In x xs -> isvar (qname x) = true) ->
  exists bs st', enter isvar xs st = Ok (bs, st') /\ inv st' /\ entered (names xs) st bs st'.
Proof.
  intros Iv Hx. unfold enter.
  destruct (fresh_all_ok xs (tr_push st) [] (locals st) eq_refl) as (l & E & Nd & G). rewrite E. cbn [rbind limits qstack nxt tr_push].
  set (st1 := mktst (scope_new :: limits st) (l :: locals st) (qstack st) (nxt st)).
  assert (V1 : forall y, vis st1 y = if in_dec ident_dec y (names xs) then None else vis st y).
  { intros y. unfold vis, st1. cbn [locals]. rewrite G. reflexivity. }
  assert (Iv1 : inv st1).
  { destruct Iv as [L1 L2 L3 L4 L5 L6 L7]. split; unfold st1; cbn [locals limits nxt]; auto.
    - eauto.
    - discriminate.
    - intros x y sc. fold st1. rewrite V1. destruct (in_dec _ _ _); [discriminate|]. apply L3.
    - intros x x' n. fold st1. rewrite !V1. destruct (in_dec _ _ _), (in_dec _ _ _); try discriminate. apply L4.
    - constructor; auto. apply Nd. constructor. }
  destruct (mk_scope_ok xs scope_new st1 (nxt st) l (locals st) Iv1 Hx (le_n _) eq_refl) as (bs & st2 & l2 & E2 & Iv2 & Li2 & Q2 & N2 & El2 & K2 & O2 & B2 & Bb & Bc).
  { intros x H. left. rewrite V1. destruct (in_dec _ _ _); [reflexivity | contradiction]. }
  rewrite E2. cbn [rbind fst snd]. exists bs. eexists. split; [reflexivity|].
  set (st3 := mktst (limits st2) (locals st2) (bs :: qstack st2) (nxt st2)).
  assert (V3 : forall x, vis st3 x = vis st2 x) by reflexivity.
  assert (Hb : forall b, In b (sbounds bs) -> In b (bnds st2 (names xs))) by (intros b H; apply Bb in H; destruct H as [[]|]; auto).
  assert (Hc : forall c, In c (scons bs) -> In c (cons_ st2 (names xs))) by (intros c H; apply Bc in H; destruct H as [[]|]; auto).
  assert (Ent : entered (names xs) st bs st3).
  { split; unfold st3; cbn [limits locals qstack nxt]; fold st3; auto.
    - eauto.
    - rewrite Q2. reflexivity.
    - intros x H. rewrite V3, O2, V1 by auto. destruct (in_dec _ _ _); [contradiction | reflexivity].
    - intros b. rewrite Bb. simpl. unfold bnds. split; [intros [[]|H]; exact H | auto].
    - intros c. rewrite Bc. simpl. unfold cons_. split; [intros [[]|H]; exact H | auto]. }
  split; auto.
  assert (Bn : forall s n, In (s, n) (sbounds bs) -> nxt st <= n < nxt st2).
  { intros s n H. apply Hb in H. unfold bnds in H. apply in_flat_map in H. destruct H as (x & Hx' & H).
    destruct (B2 x Hx') as (k & Lk & Ek). rewrite Ek in H. destruct (fresh_sym (ity x) k) as [y sc] eqn:Ef.
    destruct (inv_vis _ Iv2 _ _ _ Ek) as (k' & Lk' & Ef' & _). rewrite <- Ef in Ef'. apply fresh_inj in Ef'. subst k'.
    assert (sc = snd (fresh_sym (ity x) k)) as -> by now rewrite Ef. apply fresh_bounds in H. subst. auto. }
  destruct Iv2 as [L1 L2 L3 L4 L5 L6 L7]. split; unfold st3; cbn [locals limits nxt]; auto; fold st3.
  - intros x y sc. rewrite V3. intros E3. destruct (L3 _ _ _ E3) as (n & Ln & En & C). exists n. split; auto. split; auto.
    destruct (in_dec ident_dec x (names xs)) as [i|i].
    + left. split; unfold qb, qc, st3; cbn [qstack flat_map]; intros b Hb'; apply in_or_app; left.
      * apply Bb. right. unfold bnds. apply in_flat_map. exists x. split; auto. now rewrite E3.
      * apply Bc. right. unfold cons_. apply in_flat_map. exists x. split; auto. now rewrite E3.
    + destruct C as [[C1 C2]|C].
      * left. split; unfold qb, qc, st3; cbn [qstack flat_map]; intros b Hb'; apply in_or_app; right; [apply C1 | apply C2]; auto.
      * right. intros [s k] Hk Hq. unfold qb, st3 in Hq; cbn [qstack flat_map] in Hq. apply in_app_or in Hq. destruct Hq as [Hq|Hq]; [|apply (C _ Hk Hq)].
        assert (sc = snd (fresh_sym (ity x) n)) as -> by now rewrite <- En. apply fresh_bounds in Hk. subst k.
        apply Bn in Hq. assert (n < nxt st); [|lia].
        rewrite O2 in E3 by auto. rewrite V1 in E3. destruct (in_dec _ _ _); [discriminate|].
        destruct (inv_vis _ Iv _ _ _ E3) as (n' & Ln' & En' & _). rewrite En in En'. apply fresh_inj in En'. now subst.
  - intros s n H. unfold qb, st3 in H; cbn [qstack flat_map] in H. apply in_app_or in H. destruct H as [H|H]; [apply Bn in H; lia|].
    apply L5 in H. auto.
  - intros c H. unfold qc, st3 in H; cbn [qstack flat_map] in H. apply in_app_or in H. destruct H as [H|H]; [|apply L6; auto].
    apply Hc in H. unfold cons_ in H. apply in_flat_map in H. destruct H as (x & Hx' & H).
    destruct (B2 x Hx') as (k & Lk & Ek). rewrite Ek in H. destruct (fresh_sym (ity x) k) as [y sc] eqn:Ef.
    destruct (L3 _ _ _ Ek) as (k' & Lk' & Ef' & _). rewrite <- Ef in Ef'. apply fresh_inj in Ef'. subst k'.
    assert (sc = snd (fresh_sym (ity x) k)) as -> by now rewrite Ef. eapply fresh_below; eauto.
Qed.

(** * Values for visible variables *)
Lemma assign st : inv st -> forall xs, (forall x, In x xs -> exists v, vis st x = Some v) ->
  forall (s : env) M, (forall x, In x xs -> has_ty (s x) (ity x)) ->
  exists M', agree_off (bnds st xs) M M' /\ forall x y sc, In x xs -> vis st x = Some (y, sc) -> enc M' y (s x) /\ alltrue (scons sc) M'.
Proof.
  intros Iv. induction xs as [|x xs IH]; intros Hv s M Ht.
  - exists M. split; [apply agree_off_refl|]. intros x y sc [].
  - destruct (IH (fun y Hy => Hv y (or_intror Hy)) s M (fun y Hy => Ht y (or_intror Hy))) as (M1 & A1 & E1).
    destruct (Hv x (or_introl eq_refl)) as [[y sc] V]. destruct (inv_vis _ Iv _ _ _ V) as (n & Ln & En & _).
    pose proof (set_const_spec M1 n (s x) (ity x) (Ht x (or_introl eq_refl))) as (B1 & B2 & B3).
    exists (set_const M1 n (s x)). split.
    + cbn [bnds flat_map]. rewrite V. eapply agree_off_trans.
      * eapply agree_off_incl; [|exact A1]. apply incl_appr, incl_refl.
      * eapply agree_off_incl; [|exact B1]. apply incl_appl. rewrite <- En. simpl. apply incl_refl.
    + intros x' y' sc' Hx' V'.
      destruct (ident_dec x' x) as [->|Ne].
      * rewrite V in V'. injection V' as <- <-. rewrite <- En in B2, B3. auto.
      * destruct Hx' as [->|Hx']; [tauto|]. destruct (E1 _ _ _ Hx' V') as [C1 C2].
        destruct (inv_vis _ Iv _ _ _ V') as (n' & Ln' & En' & _).
        assert (Nn : n' <> n). { intros ->. apply Ne. apply (inv_inj _ Iv x' x n); congruence. }
        assert (D : forall b, In b (sbounds (snd (fresh_sym (ity x') n'))) -> ~ In b (sbounds (snd (fresh_sym (ity x) n)))).
        { intros [r k] H1 H2. apply fresh_bounds in H1, H2. congruence. }
        assert (y' = fst (fresh_sym (ity x') n')) as -> by now rewrite <- En'.
        assert (sc' = snd (fresh_sym (ity x') n')) as -> by now rewrite <- En'.
        split; [eapply fresh_enc_off | eapply fresh_cons_off]; eauto.
Qed.

Lemma decode_env (F : ident -> Prop) st M : inv st -> (forall x, F x -> exists v, vis st x = Some v) ->
  (forall x y sc, F x -> vis st x = Some (y, sc) -> alltrue (scons sc) M) ->
  exists s, (forall x, F x -> has_ty (s x) (ity x)) /\ encs F st M s.
Proof.
  intros Iv Hv Hc.
  assert (D : forall x, F x -> exists v, has_ty v (ity x) /\ exists y sc, vis st x = Some (y, sc) /\ enc M y v).
  { intros x Hx. destruct (Hv x Hx) as [[y sc] V]. specialize (Hc x y sc Hx V). destruct (inv_vis _ Iv _ _ _ V) as (n & Ln & En & _).
    assert (sc = snd (fresh_sym (ity x) n)) as -> by now rewrite <- En.
    destruct (decode _ _ _ Hc) as (v & Tv & Ev). exists v. split; auto. exists y. eexists. split; [exact V|].
    assert (y = fst (fresh_sym (ity x) n)) as -> by now rewrite <- En. exact Ev. }
  exists (fun x => epsilon (inhabits VErr) (fun v => has_ty v (ity x) /\ exists y sc, vis st x = Some (y, sc) /\ enc M y v)).
  split; intros x Hx; pose proof (epsilon_spec (inhabits VErr) _ (D x Hx)) as H; apply H.
Qed.
End States.
Arguments d_step _ _ _ {H} _ _ _ _ _ _ _.
Arguments d_inv _ _ _ {H} _ _ _ _ _ _ _.
Arguments d_vis _ _ _ {H} _ _ _ _ _ _ _.
Arguments d_below _ _ _ {H} _ _ _ _ _ _ _.
Arguments d_off _ _ _ {H} _ _ _ _ _ _ _.
Arguments d_corr _ _ _ {H} _ _ _ _ _ _ _.
Arguments d_exh _ _ _ {H} _ _ _ _ _ _ _.
