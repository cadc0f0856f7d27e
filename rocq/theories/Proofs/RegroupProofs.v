(** Regrouping associative operators changes neither the type nor the meaning of an expression (C45). *)
From Coq Require Import Bool List String ZArith NArith QArith Reals Arith Lia Wf_nat.
From Verif.Model Require Import Syntax Tycheck Precedence.
From Verif.Spec Require Import Eur Sem Wp Typing Reading.
From Verif.Proofs Require Import EurLemmas SemLemmas TycheckBase TycheckProofs GroupingProofs Fingerprints RegroupBase.
Import ListNotations.
Local Open Scope list_scope.
Local Open Scope nat_scope.

Section Regroup.
Variables (S : sigs) (pre : bool) (I : interp).
Hypothesis HI : interp_ok I.
Notation visit := (visit S pre).
Notation visits := (visits S pre).

(** checked expressions of one type and one meaning *)
Definition mean (x x' : expr) : Prop := wt x = true -> wt x' = true -> forall s, env_ok s -> eval I x s = eval I x' s.
Record rel (a a' : rexpr) (t : ty) : Prop := {
  r_ty : rty a = Some (One t); r_ty' : rty a' = Some (One t); r_lit : is_lit a = is_lit a';
  r_tree : exists x x', tree a = Some x /\ tree a' = Some x' /\ ty_of x = t /\ ty_of x' = t /\ mean x x'
}.
Lemma rel_cast a a' t u : rel a a' t -> rel (RCast (Some (One u)) a) (RCast (Some (One u)) a') u.
Proof.
  intros [T T' L (x & x' & E & E' & X & X' & M)]. split; auto. exists (ECast u x), (ECast u x'). cbn. rewrite E, E'.
  repeat (split; [reflexivity|]). intros W W' s Hs. cbn in *. apply andb_true_iff in W as [W _], W' as [W' _]. rewrite M; auto.
Qed.
Lemma rel_the a a' t : rel a a' t -> the_ty a = Ok (One t) /\ the_ty a' = Ok (One t).
Proof. intros R. unfold the_ty. rewrite (r_ty _ _ _ R), (r_ty' _ _ _ R). auto. Qed.
Lemma rel_try u a a' t b b' : rel a a' t -> try_cast (One u) a = Ok b -> try_cast (One u) a' = Ok b' -> rel b b' u.
Proof.
  intros R. unfold try_cast. destruct (rel_the _ _ _ R) as [-> ->]. destruct u, t; cbn; intros E E'; try discriminate; injection E as <-; injection E' as <-; eauto using rel_cast.
Qed.
Lemma rel_unify a a' b b' t u p q w p' q' w' : rel a a' t -> rel b b' u -> try_unify a b = Ok (p, q, w) -> try_unify a' b' = Ok (p', q', w') ->
  exists v, w = One v /\ w' = One v /\ rel p p' v /\ rel q q' v.
Proof.
  intros R Q. unfold try_unify. destruct (rel_the _ _ _ R) as [-> ->], (rel_the _ _ _ Q) as [-> ->].
  destruct t, u; cbn; intros E E'; try discriminate; injection E as <- <- <-; injection E' as <- <- <-; eexists; eauto 8 using rel_cast.
Qed.
Lemma rel_ops ok a a' b b' t u : rel a a' t -> rel b b' u -> ops_check ok a b = ops_check ok a' b'.
Proof. intros R Q. unfold ops_check, op_check. destruct (rel_the _ _ _ R) as [-> ->], (rel_the _ _ _ Q) as [-> ->]. reflexivity. Qed.
Lemma rel_bin op a a' b b' t u p q w p' q' w' : rel a a' t -> rel b b' u -> check_bin op a b = Ok (p, q, w) -> check_bin op a' b' = Ok (p', q', w') ->
  exists v ta tb, w = One v /\ w' = One v /\ rel p p' ta /\ rel q q' tb.
Proof.
  intros R Q. pose proof (rel_ops is_num _ _ _ _ _ _ R Q) as N. pose proof (rel_ops is_whole _ _ _ _ _ _ R Q) as Wh.
  pose proof (rel_ops is_bool _ _ _ _ _ _ R Q) as B. pose proof (rel_ops is_lat _ _ _ _ _ _ R Q) as L.
  assert (U : forall f : res unit, (let? _ := f in try_unify a b) = Ok (p, q, w) -> (let? _ := f in try_unify a' b') = Ok (p', q', w') ->
    exists v ta tb, w = One v /\ w' = One v /\ rel p p' ta /\ rel q q' tb).
  { intros f E E'. destruct f; cbn in *; try discriminate. destruct (rel_unify _ _ _ _ _ _ _ _ _ _ _ _ R Q E E') as (v & -> & -> & P1 & P2). eauto 8. }
  assert (V : forall (f : res unit) z, (let? _ := f in let? (a1, b1, _) := try_unify a b in Ok (a1, b1, One z)) = Ok (p, q, w) ->
     (let? _ := f in let? (a1, b1, _) := try_unify a' b' in Ok (a1, b1, One z)) = Ok (p', q', w') ->
    exists v ta tb, w = One v /\ w' = One v /\ rel p p' ta /\ rel q q' tb).
  { intros f z E E'. destruct f; cbn in *; try discriminate.
    destruct (try_unify a b) as [[[a1 b1] w1]| |] eqn:X; cbn in E; try discriminate. destruct (try_unify a' b') as [[[a1' b1'] w1']| |] eqn:X'; cbn in E'; try discriminate.
    injection E as <- <- <-. injection E' as <- <- <-. destruct (rel_unify _ _ _ _ _ _ _ _ _ _ _ _ R Q X X') as (v & _ & _ & P1 & P2). eauto 8. }
  assert (D : check_bin ODiv a b = Ok (p, q, w) -> check_bin ODiv a' b' = Ok (p', q', w') -> exists v ta tb, w = One v /\ w' = One v /\ rel p p' ta /\ rel q q' tb).
  { unfold check_bin, try_cast. destruct (rel_the _ _ _ R) as [E1 E1'], (rel_the _ _ _ Q) as [E2 E2']. rewrite E1, E1', E2, E2'.
    destruct t, u; cbn; rewrite ?E1, ?E1', ?E2, ?E2'; cbn; intros E E'; try discriminate; injection E as <- <- <-; injection E' as <- <- <-;
      do 3 eexists; eauto 10 using rel_cast. }
  destruct op; cbn [check_bin]; rewrite <- ?N, <- ?Wh, <- ?B, <- ?L; eauto.
  - intros E E'. destruct (ops_check is_bool a b); cbn in *; try discriminate. injection E as <- <- <-. injection E' as <- <- <-. eauto 10.
  - intros E E'. destruct (ops_check is_bool a b); cbn in *; try discriminate. injection E as <- <- <-. injection E' as <- <- <-. eauto 10.
  - apply (V (Ok tt)).
  - apply (V (Ok tt)).
Qed.
Lemma rel_un op a a' t p w p' w' : rel a a' t -> check_un op a = Ok (p, w) -> check_un op a' = Ok (p', w') -> exists v ta, w = One v /\ w' = One v /\ rel p p' ta.
Proof.
  intros R. destruct (rel_the _ _ _ R) as [E1 E1']. unfold check_un, op_check, try_cast. rewrite E1, E1'.
  destruct op, t; cbn; intros E E'; try discriminate; injection E as <- <-; injection E' as <- <-; eauto 8.
Qed.
Lemma rel_args ins : forall l l' m m', Forall2 (fun a a' => exists t, rel a a' t) l l' -> List.length l = List.length ins ->
  check_args ins l = Ok m -> check_args ins l' = Ok m' -> Forall2 (fun a a' => exists t, rel a a' t) m m'.
Proof.
  induction ins as [|[t lo] ins IH]; intros l l' m m' F Le E E'; destruct F as [|a a' l l' (ta & R) F]; try discriminate; cbn in E, E'.
  - injection E as <-. injection E' as <-. constructor.
  - rewrite <- (r_lit _ _ _ R) in E'. destruct (lo && negb (is_lit a)); [discriminate|].
    destruct (try_cast (One t) a) as [a1| |] eqn:X; cbn in E; try discriminate. destruct (try_cast (One t) a') as [a1'| |] eqn:X'; cbn in E'; try discriminate.
    destruct (check_args ins l) as [l1| |] eqn:Y; cbn in E; try discriminate. destruct (check_args ins l') as [l1'| |] eqn:Y'; cbn in E'; try discriminate.
    injection E as <-. injection E' as <-. constructor; [exists t; eapply rel_try; eauto|]. eapply IH; eauto.
Qed.
Lemma rel_call ins l l' m m' : Forall2 (fun a a' => exists t, rel a a' t) l l' ->
  check_call ins l = Ok m -> check_call ins l' = Ok m' -> Forall2 (fun a a' => exists t, rel a a' t) m m'.
Proof.
  intros F. unfold check_call. destruct (Nat.eqb (List.length l) (List.length ins)) eqn:L; [|discriminate]. destruct (Nat.eqb (List.length l') (List.length ins)); [|discriminate].
  apply rel_args; auto. apply Nat.eqb_eq; auto.
Qed.
Lemma rel_trees m m' : Forall2 (fun a a' => exists t, rel a a' t) m m' -> exists xs xs', trees m = Some xs /\ trees m' = Some xs' /\ Forall2 mean xs xs'.
Proof.
  induction 1 as [|a a' m m' (t & R) F (xs & xs' & E & E' & M)]; [exists [], []; cbn; auto|].
  destruct (r_tree _ _ _ R) as (x & x' & X & X' & _ & _ & Mx). exists (x :: xs), (x' :: xs'). cbn. rewrite X, X', E, E'. auto.
Qed.

(** what happens to a chain of an associative operator *)
Lemma assoc_bin op a b ta tb p q w : is_assoc op = true -> good S pre a ta -> good S pre b tb -> check_bin op a b = Ok (p, q, w) ->
  exists t, w = One t /\ joinb ta tb = Some t /\ p = coerce ta t a /\ q = coerce tb t b /\ opat op t = true.
Proof.
  intros A Ga Gb E.
  assert (N : (let? _ := ops_check is_num a b in try_unify a b) = Ok (p, q, w) -> exists t, w = One t /\ joinb ta tb = Some t /\ p = coerce ta t a /\ q = coerce tb t b /\ is_num t = true).
  { rewrite (ops_spec _ _ _ _ _ _ _ Ga Gb). destruct (is_num ta) eqn:Na, (is_num tb) eqn:Nb; cbn [andb rbind]; try discriminate.
    rewrite (unify_spec _ _ _ _ _ _ Ga Gb). destruct (joinb ta tb) as [v|] eqn:J; [|discriminate]. intros X. injection X as <- <- <-. exists v.
    repeat (split; [reflexivity|]). destruct ta, tb; cbn in J, Na, Nb; try discriminate; injection J as <-; reflexivity. }
  assert (B : (let? _ := ops_check is_bool a b in Ok (a, b, One TBool)) = Ok (p, q, w) -> exists t, w = One t /\ joinb ta tb = Some t /\ p = coerce ta t a /\ q = coerce tb t b /\ ty_eqb t TBool = true).
  { rewrite (ops_spec _ _ _ _ _ _ _ Ga Gb). unfold is_bool. destruct (ty_eqb ta TBool) eqn:Na, (ty_eqb tb TBool) eqn:Nb; cbn [andb rbind]; try discriminate.
    apply ty_eqb_eq in Na as ->. apply ty_eqb_eq in Nb as ->. intros X. injection X as <- <- <-. exists TBool. repeat (split; [reflexivity|]). reflexivity. }
  destruct op; try discriminate A; cbn [check_bin] in E; auto.
Qed.
Lemma tree_coerce a x t u : tree a = Some x -> exists y, tree (coerce t u a) = Some y /\ (forall s, eval I y s = cval t u (eval I x s)) /\ (wt y = true -> wt x = true).
Proof.
  intros E. unfold coerce, cval. destruct (ty_eqb t u); [exists x; auto|]. exists (ECast u x). cbn. rewrite E. split; auto. split; auto. intros W. apply andb_true_iff in W as [W _]. auto.
Qed.
Definition piece : Type := rexpr * ty * expr.
Definition cut (a : rexpr) (p : piece) : Prop :=
  let '(a1, t, x) := p in visit false a = Ok a1 /\ rty a1 = Some (One t) /\ tree a1 = Some x /\ ty_of x = t.
Definition pty (p : piece) : ty := snd (fst p).
Definition pval (u : ty) (s : env) (p : piece) : val := cval (pty p) u (eval I (snd p) s).
Lemma chain_spec op e : is_assoc op = true -> forall e1 t x, parsed e = true -> visit false e = Ok e1 -> good S pre e1 t -> tree e1 = Some x ->
  exists l, Forall2 cut (collect op e) l /\ (forall p, In p l -> subb (pty p) t = true) /\ (exists p, In p l /\ pty p = t) /\
    (wt x = true -> (forall p, In p l -> wt (snd p) = true) /\
       forall u s, opat op u = true -> subb t u = true -> env_ok s -> cval t u (eval I x s) = bigop I op u (map (pval u s) l)).
Proof.
  intros A. assert (One_ : forall e, collect op e = [e] -> forall e1 t x, visit false e = Ok e1 -> good S pre e1 t -> tree e1 = Some x ->
    exists l, Forall2 cut (collect op e) l /\ (forall p, In p l -> subb (pty p) t = true) /\ (exists p, In p l /\ pty p = t) /\
    (wt x = true -> (forall p, In p l -> wt (snd p) = true) /\
       forall u s, opat op u = true -> subb t u = true -> env_ok s -> cval t u (eval I x s) = bigop I op u (map (pval u s) l))).
  { clear e. intros e C e1 t x V G T. rewrite C. destruct (g_tree _ _ _ _ G) as (x' & T' & X & _). rewrite T in T'. injection T' as <-.
    exists [(e1, t, x)]. split; [constructor; [|constructor]; cbn; repeat split; auto; apply (g_ty _ _ _ _ G)|].
    split; [intros p [<-|[]]; apply sub_refl|]. split; [eexists; split; [left; reflexivity|reflexivity]|].
    intros W. split; [intros p [<-|[]]; exact W|]. intros u s _ _ _. reflexivity. }
  induction e as [o y|o f args|o g IHg a IHa b IHb|o op' a IHa b IHb|o op' a IHa|o a IHa|o op' xs a IHa|o y v IHv a IHa|o l]; intros e1 t x P V G T; try (apply One_ with e1; auto; fail).
  destruct (binop_eqb op' op) eqn:E; [|apply (One_ (RBin o op' a b)) with e1; auto; cbn; rewrite E; reflexivity].
  apply binop_eqb_eq in E as ->. cbn [collect]. rewrite binop_eqb_refl. destruct o; [discriminate|]. cbn in P. apply andb_true_iff in P as [Pa Pb].
  cbn [Tycheck.visit] in V.
  destruct (visit_spec S pre a Pa) as [(ta & a1 & Va & Da)|(w & Va & _)]; rewrite Va in V; cbn [rbind] in V; [|discriminate].
  destruct (visit_spec S pre b Pb) as [(tb & b1 & Vb & Db)|(w & Vb & _)]; rewrite Vb in V; cbn [rbind] in V; [|discriminate].
  destruct Da as (_ & Ga & _). destruct Db as (_ & Gb & _).
  destruct (check_bin op a1 b1) as [[[p q] w]| |] eqn:C; cbn [rbind] in V; try discriminate.
  destruct (assoc_bin _ _ _ _ _ _ _ _ A Ga Gb C) as (t' & -> & J & -> & -> & Ot). injection V as <-.
  pose proof (g_ty _ _ _ _ G) as Tt. cbn in Tt. injection Tt as ->.
  destruct (g_tree _ _ _ _ Ga) as (xa & Ta & Xa & _). destruct (g_tree _ _ _ _ Gb) as (xb & Tb & Xb & _).
  destruct (tree_coerce a1 xa ta t Ta) as (ya & Ya & Ea & Wa). destruct (tree_coerce b1 xb tb t Tb) as (yb & Yb & Eb & Wb).
  cbn [tree] in T. rewrite Ya, Yb in T. cbn in T. injection T as <-.
  destruct (IHa a1 ta xa Pa Va Ga Ta) as (la & Fa & Sa & (pa & Ia & Ma) & Va'). destruct (IHb b1 tb xb Pb Vb Gb Tb) as (lb & Fb & Sb & (pb & Ib & Mb) & Vb').
  destruct (joinb_sub _ _ _ J) as [Ja Jb]. exists (la ++ lb). split; [apply Forall2_app; auto|]. split; [|split].
  - intros z Hz. apply in_app_iff in Hz as [Hz|Hz]; eapply sub_trans; eauto.
  - assert (K : t = ta \/ t = tb) by (unfold joinb in J; destruct (subb ta tb); [injection J; auto|destruct (subb tb ta); [injection J; auto|discriminate]]).
    destruct K as [->| ->]; [exists pa|exists pb]; split; auto; apply in_app_iff; auto.
  - intros W. cbn [wt] in W. apply andb_true_iff in W as [W _]. apply andb_true_iff in W as [W1 W2]. apply Wa in W1. apply Wb in W2.
    destruct (Va' W1) as [Wla Bla]. destruct (Vb' W2) as [Wlb Blb]. split; [intros z Hz; apply in_app_iff in Hz as [Hz|Hz]; auto|].
    intros u s Ou Su Hs. cbn [eval]. rewrite Ea, Eb.
    pose proof (eval_ty I HI xa W1 s Hs) as Hva. pose proof (eval_ty I HI xb W2 s Hs) as Hvb. rewrite Xa in Hva. rewrite Xb in Hvb.
    rewrite cval_hom by (auto using cval_ty). rewrite !cval_trans by auto.
    assert (Sau : subb ta u = true) by (eapply sub_trans; eauto). assert (Sbu : subb tb u = true) by (eapply sub_trans; eauto).
    rewrite (Bla u s Ou Sau Hs), (Blb u s Ou Sbu Hs). rewrite map_app. symmetry.
    assert (Hp : forall l l0 t0, Forall2 cut l0 l -> (forall p, In p l -> subb (pty p) t0 = true) -> subb t0 u = true -> (forall p, In p l -> wt (snd p) = true) -> forall v, In v (map (pval u s) l) -> has_ty v u).
    { intros l l0 t0 F Sl S0 Wl v Hv. apply in_map_iff in Hv as (z & <- & Hz). unfold pval. apply cval_ty; [eapply sub_trans; eauto|].
      assert (Z : ty_of (snd z) = pty z). { clear -F Hz. induction F as [|c d l0 l K F IH]; [contradiction|]. destruct Hz as [<-|Hz]; auto. destruct d as [[? ?] ?]. cbn in *. tauto. }
      rewrite <- Z. apply eval_ty; auto. }
    apply big_app; auto.
    + intros N. apply map_eq_nil in N. subst. contradiction.
    + intros N. apply map_eq_nil in N. subst. contradiction.
    + apply (Hp la (collect op a) ta); auto.
    + apply (Hp lb (collect op b) tb); auto.
Qed.

Lemma call_inv o f args e1 : visit false (RCall o f args) = Ok e1 -> o = None ->
  exists args1 ins out args2, visits false args = Ok args1 /\ s_call S f = Some (CFunc ins out) /\ check_call ins args1 = Ok args2 /\ e1 = RCall (Some (One out)) f args2.
Proof.
  intros V ->. rewrite visit_call in V. destruct (visits false args) as [args1| |]; cbn [rbind] in V; try discriminate.
  destruct (s_call S f) as [[ins outs|ins out|]|]; cbn [negb] in V; try discriminate.
  destruct (check_call ins args1) as [args2| |] eqn:C; cbn [rbind] in V; try discriminate. injection V as <-. eauto 10.
Qed.
Lemma visits_rel l : forall l' m m', Forall2 (fun a a' => forall a1 a1', visit false a = Ok a1 -> visit false a' = Ok a1' -> exists t, rel a1 a1' t) l l' ->
  visits false l = Ok m -> visits false l' = Ok m' -> Forall2 (fun a a' => exists t, rel a a' t) m m'.
Proof.
  induction l as [|a l IH]; intros l' m m' F V V'; inversion F as [|? a' ? r' R F']; subst; cbn in V, V'.
  - injection V as <-. injection V' as <-. constructor.
  - destruct (visit false a) as [a1| |] eqn:X; cbn in V; try discriminate. destruct (visit false a') as [a1'| |] eqn:X'; cbn in V'; try discriminate.
    destruct (visits false l) as [l1| |] eqn:Y; cbn in V; try discriminate. destruct (visits false r') as [l1'| |] eqn:Y'; cbn in V'; try discriminate.
    injection V as <-. injection V' as <-. constructor; [apply R; auto|]. eapply IH; eauto.
Qed.
Lemma parsed_collect op e : parsed e = true -> forall a, In a (collect op e) -> parsed a = true.
Proof.
  induction e as [o y|o f args|o g IHg a IHa b IHb|o op' a IHa b IHb|o op' a IHa|o a IHa|o op' xs a IHa|o y v IHv a IHa|o l]; cbn [collect]; intros C z Hz; try (destruct Hz as [<-|[]]; exact C).
  destruct (binop_eqb op' op); [|destruct Hz as [<-|[]]; exact C].
  destruct o; [discriminate|]. cbn in C. apply andb_true_iff in C as [C1 C2]. apply in_app_iff in Hz as [Hz|Hz]; auto.
Qed.
Lemma quant_mean op xs x x' : ty_of x = ty_of x' -> mean x x' -> mean (EQuant op xs x) (EQuant op xs x').
Proof.
  intros T M W W' s Hs. cbn [wt] in W, W'. apply andb_true_iff in W as [W _], W' as [W' _].
  assert (R : forall v, (exists s', havocked (map qname xs) s s' /\ eval I x s' = v) <-> (exists s', havocked (map qname xs) s s' /\ eval I x' s' = v)).
  { intros v. split; intros (s' & Hv & E); exists s'; (split; [exact Hv|]); [rewrite <- M|rewrite M]; auto; eapply havocked_ok; eauto. }
  cbn [eval]. rewrite <- T. destruct op, (ty_of x); auto; f_equal.
  - apply dec_ext. split; intros K v Hv; apply K, R, Hv.
  - apply einf_ext. intros r. apply R.
  - apply dec_ext. apply R.
  - apply esup_ext. intros r. apply R.
  - apply dec_ext. split; intros K v Hv; apply K, R, Hv.
  - apply dec_ext. apply R.
Qed.
Lemma mean_args xs xs' : Forall2 mean xs xs' -> forallb wt xs = true -> forallb wt xs' = true -> forall s, env_ok s -> map (fun a => eval I a s) xs = map (fun a => eval I a s) xs'.
Proof.
  induction 1 as [|x x' xs xs' M F IH]; intros W W' s Hs; auto. cbn in *. apply andb_true_iff in W as [W1 W2], W' as [W1' W2']. rewrite M, IH; auto.
Qed.

Theorem sim_rel e : forall e' e1 e1', parsed e = true -> parsed e' = true -> sim e e' -> visit false e = Ok e1 -> visit false e' = Ok e1' -> exists t, rel e1 e1' t.
Proof.
  induction e as [e IH] using (induction_ltof1 _ rsize); unfold ltof in IH. intros e' e1 e1' P P' R V V'.
  assert (K : forall a a' a1 a1', In a (kids e) -> parsed a = true -> parsed a' = true -> sim a a' -> visit false a = Ok a1 -> visit false a' = Ok a1' -> exists t, rel a1 a1' t)
    by (intros a a' a1 a1' Ha; apply IH, rsize_kid; auto).
  assert (L : forall l l', Forall2 sim l l' -> (forall a, In a l -> rsize a < rsize e) -> (forall a, In a l -> parsed a = true) -> (forall a, In a l' -> parsed a = true) ->
     Forall2 (fun a a' => forall a1 a1', visit false a = Ok a1 -> visit false a' = Ok a1' -> exists t, rel a1 a1' t) l l').
  { intros l l' F. induction F; intros; constructor; auto; [intros a1 a1'; apply IH; cbn in *; auto|apply IHF; cbn in *; auto]. }
  inversion R; subst; cbn [parsed] in P, P'; rewrite ?andb_true_iff in P, P'.
  - destruct (visit_spec S pre (RVar None x) P) as [(t & y & Vy & _ & G & _)|(w & X & _)]; [|congruence]. rewrite V' in V. injection V as <-. rewrite V' in Vy. injection Vy as <-.
    exists t. destruct (g_tree _ _ _ _ G) as (z & T & Z & _). split; try apply (g_ty _ _ _ _ G); auto. exists z, z. repeat split; auto.
  - destruct (visit_spec S pre (RLit None l) P) as [(t & y & Vy & _ & G & _)|(w & X & _)]; [|congruence]. rewrite V' in V. injection V as <-. rewrite V' in Vy. injection Vy as <-.
    exists t. destruct (g_tree _ _ _ _ G) as (z & T & Z & _). split; try apply (g_ty _ _ _ _ G); auto. exists z, z. repeat split; auto.
  - destruct (call_inv _ _ _ _ V eq_refl) as (m & ins & out & n & Vm & Sf & Cm & ->). destruct (call_inv _ _ _ _ V' eq_refl) as (m' & ins' & out' & n' & Vm' & Sf' & Cm' & ->).
    rewrite Sf in Sf'. injection Sf' as <- <-.
    assert (F : Forall2 (fun a a' => exists t, rel a a' t) n n').
    { apply (rel_call ins m m' n n'); auto. eapply visits_rel; [|eauto|eauto]. apply L; auto; [intros a Ha; apply rsize_kid; auto|intros a; apply forallb_In; auto|intros a; apply forallb_In; auto]. }
    destruct (rel_trees _ _ F) as (xs & xs' & E & E' & M). exists out. split; auto. exists (ECall out f xs), (ECall out f xs'). rewrite !tree_call, E, E'. cbn. repeat (split; [reflexivity|]).
    intros W W' s Hs. cbn. rewrite (mean_args _ _ M W W' s Hs). reflexivity.
  - destruct P as [[P1 P2] P3], P' as [[P1' P2'] P3']. cbn [Tycheck.visit] in V, V'.
    destruct (visit false c) as [c1| |] eqn:Vc; cbn [rbind] in V; try discriminate. destruct (visit false c') as [c1'| |] eqn:Vc'; cbn [rbind] in V'; try discriminate.
    destruct (visit false a) as [a1| |] eqn:Va; cbn [rbind] in V; try discriminate. destruct (visit false a') as [a1'| |] eqn:Va'; cbn [rbind] in V'; try discriminate.
    destruct (visit false b) as [b1| |] eqn:Vb; cbn [rbind] in V; try discriminate. destruct (visit false b') as [b1'| |] eqn:Vb'; cbn [rbind] in V'; try discriminate.
    destruct (try_cast (One TBool) c1) as [c2| |] eqn:Cc; cbn [rbind] in V; try discriminate. destruct (try_cast (One TBool) c1') as [c2'| |] eqn:Cc'; cbn [rbind] in V'; try discriminate.
    destruct (try_unify a1 b1) as [[[p q] w]| |] eqn:U; cbn [rbind] in V; try discriminate. destruct (try_unify a1' b1') as [[[p' q'] w']| |] eqn:U'; cbn [rbind] in V'; try discriminate.
    injection V as <-. injection V' as <-.
    destruct (K c c' c1 c1') as (tc & Rc); cbn; auto. destruct (K a a' a1 a1') as (ta & Ra); cbn; auto. destruct (K b b' b1 b1') as (tb & Rb); cbn; auto.
    destruct (r_tree _ _ _ (rel_try _ _ _ _ _ _ Rc Cc Cc')) as (xc & xc' & Tc & Tc' & _ & _ & Mc).
    destruct (rel_unify _ _ _ _ _ _ _ _ _ _ _ _ Ra Rb U U') as (v & -> & -> & Rp & Rq).
    destruct (r_tree _ _ _ Rp) as (xp & xp' & Tp & Tp' & Xp & Xp' & Mp). destruct (r_tree _ _ _ Rq) as (xq & xq' & Tq & Tq' & Xq & Xq' & Mq).
    exists v. split; auto. exists (EIte v xc xp xq), (EIte v xc' xp' xq'). cbn [tree]. rewrite Tc, Tc', Tp, Tp', Tq, Tq'. repeat (split; [reflexivity|]).
    intros W W' s Hs. cbn in W, W'. rewrite !andb_true_iff in W, W'. cbn. rewrite (Mc (proj1 (proj1 (proj1 (proj1 (proj1 W))))) (proj1 (proj1 (proj1 (proj1 (proj1 W'))))) s Hs), Mp, Mq; tauto.
  - cbn [Tycheck.visit] in V, V'.
    destruct (visit false a) as [a1| |] eqn:Va; cbn [rbind] in V; try discriminate. destruct (visit false a') as [a1'| |] eqn:Va'; cbn [rbind] in V'; try discriminate.
    destruct (check_un op a1) as [[p w]| |] eqn:C; cbn [rbind] in V; try discriminate. destruct (check_un op a1') as [[p' w']| |] eqn:C'; cbn [rbind] in V'; try discriminate.
    injection V as <-. injection V' as <-. destruct (K a a' a1 a1') as (ta & Ra); cbn; auto.
    destruct (rel_un _ _ _ _ _ _ _ _ Ra C C') as (v & tp & -> & -> & Rp). destruct (r_tree _ _ _ Rp) as (xp & xp' & Tp & Tp' & Xp & Xp' & Mp).
    exists v. split; auto. exists (EUn v op xp), (EUn v op xp'). cbn [tree]. rewrite Tp, Tp'. repeat (split; [reflexivity|]).
    intros W W' s Hs. cbn in W, W'. apply andb_true_iff in W as [W _], W' as [W' _]. cbn. rewrite Mp; auto.
  - cbn [Tycheck.visit] in V, V'.
    destruct (visit false a) as [a1| |] eqn:Va; cbn [rbind] in V; try discriminate. destruct (visit false a') as [a1'| |] eqn:Va'; cbn [rbind] in V'; try discriminate.
    destruct (K a a' a1 a1') as (ta & Ra); cbn; auto. destruct (rel_the _ _ _ Ra) as [E E']. rewrite E in V. rewrite E' in V'. cbn [rbind] in V, V'.
    destruct (op_check _ a1) eqn:C; cbn [rbind] in V; try discriminate. destruct (op_check _ a1') eqn:C'; cbn [rbind] in V'; try discriminate.
    injection V as <-. injection V' as <-. destruct (r_tree _ _ _ Ra) as (xp & xp' & Tp & Tp' & Xp & Xp' & Mp).
    exists ta. split; auto. exists (EQuant op xs xp), (EQuant op xs xp'). cbn [tree]. rewrite Tp, Tp'. repeat (split; [reflexivity|]). split; [exact Xp|]. split; [exact Xp'|].
    apply quant_mean; auto. congruence.
  - destruct P as [P1 P2], P' as [P1' P2']. cbn [Tycheck.visit] in V, V'.
    destruct (visit false v) as [v1| |] eqn:Vv; cbn [rbind] in V; try discriminate. destruct (visit false v') as [v1'| |] eqn:Vv'; cbn [rbind] in V'; try discriminate.
    destruct (K v v' v1 v1') as (tv & Rv); cbn; auto. destruct (rel_the _ _ _ Rv) as [E E']. rewrite E in V. rewrite E' in V'. cbn [rbind] in V, V'.
    destruct (negb _) eqn:N in V; [discriminate|]. destruct (negb _) in V'; [discriminate|]. apply negb_false_iff in N. cbn in N. apply ty_eqb_eq in N.
    destruct (visit false a) as [a1| |] eqn:Va; cbn [rbind] in V; try discriminate. destruct (visit false a') as [a1'| |] eqn:Va'; cbn [rbind] in V'; try discriminate.
    destruct (K a a' a1 a1') as (ta & Ra); cbn; auto. destruct (rel_the _ _ _ Ra) as [F F']. rewrite F in V. rewrite F' in V'. cbn [rbind] in V, V'.
    injection V as <-. injection V' as <-. destruct (r_tree _ _ _ Ra) as (xp & xp' & Tp & Tp' & Xp & Xp' & Mp). destruct (r_tree _ _ _ Rv) as (xv & xv' & Tv & Tv' & Xv & Xv' & Mv).
    exists ta. split; auto. exists (ESubst x xv xp), (ESubst x xv' xp'). cbn [tree]. rewrite Tp, Tp', Tv, Tv'. repeat (split; [reflexivity|]). split; [exact Xp|]. split; [exact Xp'|].
    intros W W' s Hs. cbn in W, W'. rewrite !andb_true_iff in W, W'. cbn. rewrite <- Mv by tauto. apply Mp; try tauto. apply upd_ok; auto. rewrite <- N, <- Xv. apply eval_ty; tauto.
  - destruct P as [P1 P2], P' as [P1' P2']. cbn [Tycheck.visit] in V, V'.
    destruct (visit false a) as [a1| |] eqn:Va; cbn [rbind] in V; try discriminate. destruct (visit false a') as [a1'| |] eqn:Va'; cbn [rbind] in V'; try discriminate.
    destruct (visit false b) as [b1| |] eqn:Vb; cbn [rbind] in V; try discriminate. destruct (visit false b') as [b1'| |] eqn:Vb'; cbn [rbind] in V'; try discriminate.
    destruct (check_bin op a1 b1) as [[[p q] w]| |] eqn:C; cbn [rbind] in V; try discriminate. destruct (check_bin op a1' b1') as [[[p' q'] w']| |] eqn:C'; cbn [rbind] in V'; try discriminate.
    injection V as <-. injection V' as <-. destruct (K a a' a1 a1') as (ta & Ra); cbn; auto. destruct (K b b' b1 b1') as (tb & Rb); cbn; auto.
    destruct (rel_bin _ _ _ _ _ _ _ _ _ _ _ _ _ Ra Rb C C') as (v & tp & tq & -> & -> & Rp & Rq).
    destruct (r_tree _ _ _ Rp) as (xp & xp' & Tp & Tp' & Xp & Xp' & Mp). destruct (r_tree _ _ _ Rq) as (xq & xq' & Tq & Tq' & Xq & Xq' & Mq).
    exists v. split; auto. exists (EBin v op xp xq), (EBin v op xp' xq'). cbn [tree]. rewrite Tp, Tp', Tq, Tq'. repeat (split; [reflexivity|]).
    intros W W' s Hs. cbn in W, W'. rewrite !andb_true_iff in W, W'. cbn. rewrite Mp, Mq; tauto.
  - assert (Px : parsed (RBin None op a b) = true) by (cbn; apply andb_true_iff; auto).
    assert (Py : parsed (RBin None op a' b') = true) by (cbn; apply andb_true_iff; auto).
    destruct (visit_spec S pre _ Px) as [(t & y & Vy & _ & G & _)|(w & X & _)]; [|congruence]. rewrite V in Vy. injection Vy as <-.
    destruct (visit_spec S pre _ Py) as [(t' & y & Vy & _ & G' & _)|(w & X & _)]; [|congruence]. rewrite V' in Vy. injection Vy as <-.
    destruct (g_tree _ _ _ _ G) as (x & T & X & _). destruct (g_tree _ _ _ _ G') as (x' & T' & X' & _).
    destruct (chain_spec op _ H _ _ _ Px V G T) as (l & Fl & Sl & (p & Ip & Tp) & B). destruct (chain_spec op _ H _ _ _ Py V' G' T') as (l' & Fl' & Sl' & (p' & Ip' & Tp') & B').
    assert (Q : Forall2 (fun p p' : piece => pty p = pty p' /\ mean (snd p) (snd p')) l l').
    { assert (Z := L _ _ H0 (fun a0 => collect_smaller _ _ _ _ a0) (parsed_collect _ _ Px) (parsed_collect _ _ Py)).
      clear -Fl Fl' Z. revert l l' Fl Fl'. induction Z as [|c c' m m' Hc F IH]; intros l l' Fl Fl'; inversion Fl as [|? d ? r C Fr]; inversion Fl' as [|? d' ? r' C' Fr']; subst; constructor; auto.
      destruct d as [[d1 td] xd], d' as [[d1' td'] xd']. cbn in C, C'. destruct C as (V & Rt & Tr & Xt), C' as (V' & Rt' & Tr' & Xt').
      destruct (Hc _ _ V V') as (tt & [A1 A2 _ (z & z' & Z1 & Z2 & Z3 & Z4 & M)]). rewrite Tr in Z1. rewrite Tr' in Z2. injection Z1 as <-. injection Z2 as <-. cbn. split; [congruence|exact M]. }
    assert (Et : t = t').
    { apply sub_antisym.
      - clear -Q Ip Tp Sl'. subst t. induction Q as [|c c' m m' [Ht _] F IH]; [contradiction|]. destruct Ip as [<-|Ip]; [rewrite Ht; apply Sl'; left; auto|apply IH; auto; intros z Hz; apply Sl'; right; auto].
      - clear -Q Ip' Tp' Sl. subst t'. induction Q as [|c c' m m' [Ht _] F IH]; [contradiction|]. destruct Ip' as [<-|Ip']; [rewrite <- Ht; apply Sl; left; auto|apply IH; auto; intros z Hz; apply Sl; right; auto]. }
    rewrite <- Et in *. clear Et t'. exists t. split; try apply (g_ty _ _ _ _ G); try apply (g_ty _ _ _ _ G').
    + cbn [Tycheck.visit] in V, V'. destruct (visit false a), (visit false b); cbn [rbind] in V; try discriminate. destruct (check_bin op a0 a1) as [[[? ?] ?]| |]; cbn [rbind] in V; try discriminate.
      destruct (visit false a'), (visit false b'); cbn [rbind] in V'; try discriminate. destruct (check_bin op a2 a3) as [[[? ?] ?]| |]; cbn [rbind] in V'; try discriminate.
      injection V as <-. injection V' as <-. reflexivity.
    + exists x, x'. repeat (split; [assumption|]). intros W W' s Hs.
      assert (Ot : opat op t = true).
      { cbn [Tycheck.visit] in V. destruct (visit_spec S pre a (proj1 P)) as [(ta & a1 & Va & _ & Ga & _)|(w & Va & _)]; rewrite Va in V; cbn [rbind] in V; [|discriminate].
        destruct (visit_spec S pre b (proj2 P)) as [(tb & b1 & Vb & _ & Gb & _)|(w & Vb & _)]; rewrite Vb in V; cbn [rbind] in V; [|discriminate].
        destruct (check_bin op a1 b1) as [[[p0 q0] w0]| |] eqn:C; cbn [rbind] in V; try discriminate. destruct (assoc_bin _ _ _ _ _ _ _ _ H Ga Gb C) as (t' & -> & _ & _ & _ & Ot).
        injection V as <-. pose proof (g_ty _ _ _ _ G) as Y. cbn in Y. congruence. }
      destruct (B W) as [Wl Bl]. destruct (B' W') as [Wl' Bl']. specialize (Bl t s Ot (sub_refl t) Hs). specialize (Bl' t s Ot (sub_refl t) Hs). rewrite cval_refl in Bl, Bl'. rewrite Bl, Bl'. f_equal.
      clear -Q Wl Wl' Hs. induction Q as [|c c' m m' [Ht M] F IH]; auto. cbn [map]. rewrite IH by (intros z Hz; solve [apply Wl; right; exact Hz|apply Wl'; right; exact Hz]). f_equal.
      unfold pval. rewrite Ht, M; auto; [apply Wl|apply Wl']; left; auto.
Qed.
End Regroup.
