(** Lemmas about the state of explanations, and about the identifiers that occur. *)
From Coq Require Import Bool List String NArith QArith.
From Verif.Model Require Import Syntax Builder Lits TyCtx AstUtil Dist VcGen Subst Unfolder Constfold Negations ProofRules Procs Explain.
From Verif.Spec Require Import Eur Sem Wp Folding Exprs Reach Linear Explained.
From Verif.Proofs Require Import EurLemmas SemLemmas WpLemmas TyCtxProofs SubstProofs DistProofs VcGenProofs SimLemmas UnfolderProofs ConstfoldProofs PipelineProofs.
Import ListNotations.
Local Open Scope nat_scope.

(** * Constant folding keeps identifiers *)
Lemma b_zero_ids t z : b_zero t = Ok z -> ids z = [].
Proof. destruct t; simpl; intros H; inversion H; reflexivity. Qed.
Lemma b_one_ids t z : b_one t = Ok z -> ids z = [].
Proof. destruct t; simpl; intros H; inversion H; reflexivity. Qed.
Lemma b_top_ids t z : b_top t = Ok z -> ids z = [].
Proof. destruct t; simpl; intros H; inversion H; reflexivity. Qed.
Lemma b_bot_ids t z : b_bot t = Ok z -> ids z = [].
Proof. destruct t; simpl; intros H; inversion H; reflexivity. Qed.

Lemma const_binop_ids t op a b c : const_binop t op a b = Ok (Some c) -> ids c = [].
Proof.
  unfold const_binop. destruct (const_number a), (const_number b); try discriminate.
  destruct (negb _ || negb _); try discriminate.
  destruct (match op with OAdd => _ | _ => _ end) as [[r|]|]; try discriminate; destruct t; try discriminate;
    try (intros H; inversion H; subst; reflexivity).
  destruct (N.leb _ _); [|discriminate]. intros H; inversion H; subst; reflexivity.
Qed.

Lemma fold_node_ids e e' : fold_node e = Ok e' -> incl (ids e') (ids e).
Proof.
  unfold fold_node. intros H. apply rbind_ok in H as [e1 [E1 H]].
  assert (S1 : incl (ids e1) (ids e)).
  { destruct e; try (injection E1 as <-; apply incl_refl).
    - unfold fold_bin in E1. destruct op;
        repeat match type of E1 with (if ?b then _ else _) = _ => destruct b end;
        try (injection E1 as <-; apply incl_refl);
        try (injection E1 as <-; cbn [ids]; intros x Hx; apply in_or_app; auto; fail);
        first [apply b_zero_ids in E1 | apply b_bot_ids in E1 | apply b_top_ids in E1]; rewrite E1; intros x [].
    - unfold fold_un in E1. destruct op;
        repeat match type of E1 with (if ?b then _ else _) = _ => destruct b end;
        try (injection E1 as <-; apply incl_refl);
        first [apply b_zero_ids in E1 | apply b_bot_ids in E1 | apply b_top_ids in E1 | apply b_one_ids in E1]; rewrite E1; intros x []. }
  destruct e1; try (injection H as <-; exact S1).
  - destruct (deref_cast e1_2); try (injection H as <-; exact S1). destruct (deref_cast e1_3); try (injection H as <-; exact S1).
    destruct (lit_eqb l l0); injection H as <-; auto. eapply incl_tran; [|exact S1]. cbn [ids]. intros x Hx. rewrite !in_app_iff. auto.
  - apply rbind_ok in H as [o [Ho H]]. destruct o as [c|]; injection H as <-; auto. apply const_binop_ids in Ho. rewrite Ho. intros x [].
Qed.

Lemma constfold_ids e : forall e', constfold e = Ok e' -> incl (ids e') (ids e).
Proof.
  induction e using expr_rect'; intros e' HF; cbn [constfold] in HF; apply rbind_ok in HF as [e0 [E1 HF]];
    apply fold_node_ids in HF; eapply incl_tran; try exact HF; clear HF; binv E1; injection E1 as <-; cbn [ids]; try apply incl_refl;
    auto using incl_app_app.
  - match goal with HA : fold_right _ _ _ = Ok _ |- _ => revert HA end. match goal with |- fold_right _ _ _ = Ok ?l -> _ => revert l end.
    induction H as [|x args Hx Hargs IH]; intros l HA; simpl in HA.
    + injection HA as <-. apply incl_refl.
    + binv HA. injection HA as <-. cbn [flat_map]. apply incl_app_app; auto.
  - apply incl_app_app; [apply incl_refl|auto].
  - intros z [<-|Hz]; [now left|right]. revert z Hz. apply incl_app_app; auto.
Qed.

(** * Identifiers of assignments *)
Section GenVars.
Variables (C : tcx) (P : ident -> Prop).
Let okv (e : expr) := forall x, In x (ids e) -> P x.

Lemma from_odds_vars l d : from_odds l = Ok d -> (forall p, In p l -> ids (snd p) = []) ->
  Forall (fun pv => okv (fst pv) /\ okv (snd pv)) d.
Proof.
  intros H HP. apply rbind_ok in H as [tot [_ H]]. eapply mapM_forall; [exact H|]. intros a b Ha E. cbn beta in E.
  destruct (N.eqb tot 0); [discriminate|]. injection E as <-. cbn [fst snd]. specialize (HP a Ha).
  split; [intros x []|]. intros x. rewrite HP. intros [].
Qed.
Lemma apply_dist_vars f args d : apply_dist f args = Ok d -> (forall a, In a args -> okv a) ->
  Forall (fun pv => okv (fst pv) /\ okv (snd pv)) d.
Proof.
  intros H HA. unfold apply_dist, dist_binom, dist_hyper in H.
  assert (BK : forall l (g : N -> res (N * expr)) r, mapM g l = Ok r -> (forall k p, g k = Ok p -> snd p = b_uint k) -> forall p, In p r -> ids (snd p) = []).
  { intros l g r E Hg. assert (F : Forall (fun p => ids (snd p) = []) r).
    { eapply mapM_forall; [exact E|]. intros k p _ Ep. rewrite (Hg k p Ep). reflexivity. }
    rewrite Forall_forall in F. exact F. }
  destruct (String.eqb f "ber"); [|destruct (String.eqb f "flip"); [|destruct (String.eqb f "unif"); [|destruct (String.eqb f "binom"); [|destruct (String.eqb f "hyper"); [|discriminate]]]]].
  - destruct args as [|a [|b [|]]]; try discriminate. apply rbind_ok in H as [x [_ H]]. apply rbind_ok in H as [y [_ H]].
    eapply from_odds_vars; [exact H|]. intros p [<-|[<-|[]]]; reflexivity.
  - destruct args as [|a [|]]; try discriminate. injection H as <-. pose proof (HA a (or_introl eq_refl)) as Q.
    constructor; [|constructor; [|constructor]]; cbn [fst snd]; (split; [|intros x []]); unfold b_cast;
      repeat match goal with |- context [if ?b then _ else _] => destruct b end; auto; intros x Hx; cbn in Hx; auto.
  - destruct args as [|a [|b [|]]]; try discriminate. apply rbind_ok in H as [x [_ H]]. apply rbind_ok in H as [y [_ H]].
    eapply from_odds_vars; [exact H|]. intros p Hp. apply in_map_iff in Hp as [v [<- _]]. reflexivity.
  - destruct args as [|a [|b [|c [|]]]]; try discriminate. apply rbind_ok in H as [x [_ H]]. apply rbind_ok in H as [y [_ H]]. apply rbind_ok in H as [z [_ H]].
    apply rbind_ok in H as [l [E H]]. eapply from_odds_vars; [exact H|]. eapply BK; [exact E|].
    intros k p Ep. repeat (apply rbind_ok in Ep as [? [_ Ep]]). injection Ep as <-. reflexivity.
  - destruct args as [|a [|b [|c [|]]]]; try discriminate. apply rbind_ok in H as [x [_ H]]. apply rbind_ok in H as [y [_ H]]. apply rbind_ok in H as [z [_ H]].
    apply rbind_ok in H as [ds [_ H]]. apply rbind_ok in H as [l [E H]]. eapply from_odds_vars; [exact H|]. eapply BK; [exact E|].
    intros k p Ep. repeat (apply rbind_ok in Ep as [? [_ Ep]]). injection Ep as <-. reflexivity.
Qed.
Lemma subst_vars x b a : P x -> okv b -> okv a -> okv (ESubst x b a).
Proof. intros Hx B A. cbn [ids]. intros y [<-|Hy]; auto. apply in_app_or in Hy as [Hy|Hy]; auto. Qed.
Lemma bin_vars t op a b : okv a -> okv b -> okv (EBin t op a b).
Proof. intros A B. cbn [ids]. intros y Hy. apply in_app_or in Hy as [Hy|Hy]; auto. Qed.
Lemma dist_expectation_vars d x post e : dist_expectation d x post = Ok e -> P x -> okv post ->
  Forall (fun pv => okv (fst pv) /\ okv (snd pv)) d -> okv e.
Proof.
  intros H Px HP HD. unfold dist_expectation in H.
  assert (F : Forall okv (map (fun pv => EBin (ty_of (fst pv)) OMul (fst pv) (b_subst post [(x, snd pv)])) d)).
  { apply Forall_forall. intros q Hq. apply in_map_iff in Hq as [pv [<- Hq]]. rewrite Forall_forall in HD. destruct (HD pv Hq).
    apply bin_vars; auto. apply subst_vars; auto. }
  destruct (map _ d) as [|t ts]; [discriminate|]. injection H as <-. inversion F as [|? ? F1 F2]; subst.
  clear HD F. revert t F1. induction F2 as [|u us Hu F2 IH]; intros t Ht; cbn [fold_left]; auto. apply IH. now apply bin_vars.
Qed.
Lemma generate_assign_vars e xs post r : generate_assign C e xs post = Ok r -> (forall x, In x (xs ++ ids e) -> P x) -> okv post -> okv r.
Proof.
  intros H Hx HP.
  assert (E0 : okv e) by (intros y Hy; apply Hx, in_or_app; auto).
  assert (PL : match xs with [x] => Ok (b_subst post [(x, e)]) | _ => Panic "for vc generation, there must be exactly one lhs in an assignment" end = Ok r -> okv r).
  { destruct xs as [|x [|]]; try discriminate. intros K. injection K as <-. apply subst_vars; auto. apply Hx. now left. }
  destruct e; try (apply PL; exact H). cbn [generate_assign] in H. destruct (C f) as [[]|]; try discriminate; try (apply PL; exact H).
  unfold dist_vcgen in H. destruct xs as [|x [|]]; try discriminate. apply rbind_ok in H as [d [E H]].
  eapply dist_expectation_vars; eauto. { apply Hx. now left. }
  eapply apply_dist_vars; [exact E|]. intros a Ha z Hz. apply Hx. right. cbn [ids]. apply in_flat_map. eauto.
Qed.
End GenVars.

(** * Computations *)
Definition grows {A} (m : X A) : Prop := forall st r st', m st = (r, st') -> exists l, x_folds st' = l ++ x_folds st.
Lemma grows_bind {A B} (m : X A) (f : A -> X B) : grows m -> (forall a, grows (f a)) -> grows (xbind m f).
Proof.
  intros Hm Hf st r st' H. unfold xbind in H. destruct (m st) as [[a|e|e] st1] eqn:E.
  - destruct (Hm _ _ _ E) as [l1 E1]. destruct (Hf a _ _ _ H) as [l2 E2]. exists (l2 ++ l1). rewrite E2, E1. apply app_assoc.
  - injection H as <- <-. eauto.
  - injection H as <- <-. eauto.
Qed.
Lemma grows_lift {A} (m : res A) : grows (xlift m).
Proof. intros st r st' H. injection H as <- <-. now exists []. Qed.
Lemma grows_ret {A} (a : A) : grows (xret a).
Proof. intros st r st' H. injection H as <- <-. now exists []. Qed.
Lemma grows_ignore {A} (m : X A) : grows m -> grows (xignore m).
Proof. intros Hm st r st' H. unfold xignore in H. destruct (m st) as [[a|e|e] st1] eqn:E; injection H as <- <-; eauto. Qed.
Lemma grows_add sp e b : grows (add_expr sp e b).
Proof.
  intros st r st' H. unfold add_expr in H. destruct (x_entries st) as [|l rest].
  - injection H as <- <-. now exists [].
  - destruct (span_eqb _ _); [destruct (ospan_eqb _ _)|]; injection H as <- <-; now exists [].
Qed.
Lemma grows_block sp p m : grows m -> grows (in_block sp p m).
Proof.
  intros Hm st r st' H. unfold in_block in H. destruct (Nat.eqb (send sp) 0); [injection H as <- <-; now exists []|].
  match type of H with (let (_, _) := ?m in _) = _ => destruct m as [r1 st1] eqn:E end.
  assert (G : exists l, x_folds st1 = l ++ x_folds (set_block (Some sp) st)).
  { eapply (grows_bind (add_expr _ _ _) (fun _ => m)); [apply grows_add|intros; exact Hm|exact E]. }
  destruct G as [l G]. exists l. injection H as <- <-. destruct r1; exact G.
Qed.
Lemma grows_subst orc qs sp e : grows (explain_subst orc qs sp e).
Proof.
  apply grows_bind; [apply grows_add|]. intros _ st r st' H.
  destruct (apply_subst qs (x_tcx st) e) as [[e1 T1]| |]; try (injection H as <- <-; now exists []).
  assert (G : grows (fun st => match unfold_expr (orc (List.length (x_folds st))) qs (x_tcx st) e1 with
       | Ok (e2, (T2, _)) => (constfold e2, add_fold e2 (set_tcx T2 st))
       | Err m => (Err m, st) | Panic m => (Panic m, st)
       end)).
  { intros st1 r1 st1' H1. destruct (unfold_expr _ _ _ _) as [[e2 [T2 n]]| |]; injection H1 as <- <-; try (now exists []). now exists [e2]. }
  destruct (grows_bind _ _ (grows_add sp e1 false) (fun _ => G) _ _ _ H) as [l E]. exists l. exact E.
Qed.
Lemma grows_done sp m : grows m -> grows (let! e := m in let! _ := add_expr sp e false in xret e).
Proof. intros Hm. apply grows_bind; auto. intros a. apply grows_bind; [apply grows_add|]. intros _. apply grows_ret. Qed.

Section Grow.
Variables (C : tcx) (procs : string -> option proc) (orc : nat -> oracle) (qs : expr -> nat).

Lemma grows_assign sp e xs p : grows (xassign C procs orc qs sp e xs p).
Proof.
  unfold xassign. assert (G : forall e, grows (let! e := xlift (generate_assign C e xs p) in explain_subst orc qs sp e)).
  { intros e0. apply grows_bind; [apply grows_lift|intros; apply grows_subst]. }
  destruct e; auto. destruct (C f) as [[]|], (procs f); auto. apply grows_subst.
Qed.
Lemma grows_atom sp s p : grows (xatom C procs orc qs sp s p).
Proof.
  unfold xatom. destruct s; try apply grows_done; try apply grows_lift; try apply grows_assign.
  - destruct init; [apply grows_done, grows_assign|apply grows_done, grows_lift].
  - intros st r st' H. destruct (negation_backwards _ _); injection H as <- <-; now exists [].
  - destruct (returns_early d p); [apply grows_lift|apply grows_done, grows_lift].
Qed.

Lemma xgen_stmts_eq b : forall p,
  (fix stmts (b : list xstmt) (post : expr) {struct b} : X expr :=
    match b with [] => xret post | s :: b' => let! p := stmts b' post in xgen C procs orc qs s p end) b p = xgen_stmts C procs orc qs b p.
Proof. reflexivity. Qed.
End Grow.

Section XInd.
  Variable P : xstmt -> Prop.
  Hypothesis HAtom : forall sp s, P (XAtom sp s).
  Hypothesis HSeq : forall sp b, Forall P b -> P (XSeq sp b).
  Hypothesis HChoice : forall sp c sp1 b1 sp2 b2, Forall P b1 -> Forall P b2 -> P (XChoice sp c sp1 b1 sp2 b2).
  Hypothesis HIf : forall sp c sp1 b1 sp2 b2, Forall P b1 -> Forall P b2 -> P (XIf sp c sp1 b1 sp2 b2).
  Hypothesis HWhile : forall sp c sp1 b, Forall P b -> P (XWhile sp c sp1 b).
  Hypothesis HAnn : forall sp a args s, P s -> P (XAnn sp a args s).
  Fixpoint xstmt_rect' (s : xstmt) : P s :=
    let all := fix all l : Forall P l := match l with nil => Forall_nil P | s :: l' => Forall_cons s (xstmt_rect' s) (all l') end in
    match s with
    | XAtom sp s => HAtom sp s
    | XSeq sp b => HSeq sp b (all b)
    | XChoice sp c sp1 b1 sp2 b2 => HChoice sp c sp1 b1 sp2 b2 (all b1) (all b2)
    | XIf sp c sp1 b1 sp2 b2 => HIf sp c sp1 b1 sp2 b2 (all b1) (all b2)
    | XWhile sp c sp1 b => HWhile sp c sp1 b (all b)
    | XAnn sp a args s => HAnn sp a args s (xstmt_rect' s)
    end.
End XInd.

Section Grow2.
Variables (C : tcx) (procs : string -> option proc) (orc : nat -> oracle) (qs : expr -> nat).
Notation gen := (xgen C procs orc qs).
Notation gens := (xgen_stmts C procs orc qs).

Lemma grows_stmts b : Forall (fun s => forall p, grows (gen s p)) b -> forall p, grows (gens b p).
Proof.
  induction 1 as [|s b Hs Hb IH]; intros p; cbn [xgen_stmts]; [apply grows_ret|]. apply grows_bind; auto.
Qed.
Lemma grows_gen s : forall p, grows (gen s p).
Proof.
  assert (HW : forall sp a args spw c spb b, Forall (fun s => forall p, grows (gen s p)) b ->
    forall p, grows (gen (XAnn sp a args (XWhile spw c spb b)) p)).
  { intros sp a args spw c spb b Hb p. cbn [xgen]. rewrite ?(fun p => xgen_stmts_eq C procs orc qs b p).
    assert (D : forall m : X expr, grows m -> grows (let! e := m in let! _ := add_expr sp e false in xret e)) by (intros; now apply grows_done).
    destruct (C a) as [d|]; [|apply D, grows_lift].
    assert (G : grows (let! e := if String.eqb a "invariant" then
                      match args with
                      | inv :: _ => let! _ := xignore (in_block spb inv (gens b inv)) in xret inv
                      | [] => xlift (Panic "index out of bounds")
                      end
                    else if String.eqb a "unroll" then
                      match args with
                      | ke :: t :: _ =>
                          let! k := xlift (lit_u128 ke) in
                          fun st =>
                            let d := x_dir st in
                            (let! _ := match N.to_nat k with
                                       | O => xret tt
                                       | S k' => let! prev := xlift (vcgen_unroll C d c (map erase b) p k' t) in
                                                 xignore (in_block spb prev (gens b prev))
                                       end in
                             let! e := xlift (vcgen_unroll C d c (map erase b) p (N.to_nat k) t) in
                             explain_subst orc qs sp e) st
                      | _ => xlift (Panic "index out of bounds")
                      end
                    else xlift (Err "this statement is not supported in vc generation") in let! _ := add_expr sp e false in xret e)).
    { apply D. destruct (String.eqb a "invariant").
      - destruct args; [apply grows_lift|]. apply grows_bind; [|intros; apply grows_ret]. apply grows_ignore, grows_block, grows_stmts, Hb.
      - destruct (String.eqb a "unroll"); [|apply grows_lift]. destruct args as [|ke [|t args]]; try apply grows_lift.
        apply grows_bind; [apply grows_lift|]. intros n st r st' H. cbv zeta in H. revert H. set (d0 := x_dir st). clearbody d0. revert st r st'.
        match goal with |- forall st r st', ?m st = (r, st') -> _ => change (grows m) end.
        apply grows_bind.
        + destruct (N.to_nat n); [apply grows_ret|]. apply grows_bind; [apply grows_lift|]. intros. apply grows_ignore, grows_block, grows_stmts, Hb.
        + intros _. apply grows_bind; [apply grows_lift|intros; apply grows_subst]. }
    destruct d; try exact G. apply grows_lift. }
  assert (D : forall sp (m : X expr), grows m -> grows (let! e := m in let! _ := add_expr sp e false in xret e)) by (intros; now apply grows_done).
  enough (K : (forall p, grows (gen s p)) /\ match s with XWhile _ _ _ b => Forall (fun s => forall p, grows (gen s p)) b | _ => True end) by apply K.
  assert (F : forall Q b, Forall (fun s => (forall p, grows (gen s p)) /\ Q s) b -> Forall (fun s => forall p, grows (gen s p)) b).
  { intros Q b Hb. eapply Forall_impl; [|exact Hb]. intros ? []; auto. }
  induction s using xstmt_rect'; (split; [intros p|try exact Logic.I]).
  - apply grows_atom.
  - apply F in H. cbn [xgen]. rewrite ?(xgen_stmts_eq C procs orc qs). apply D, grows_stmts, H.
  - apply F in H, H0. cbn [xgen]. rewrite ?(xgen_stmts_eq C procs orc qs). apply D, grows_bind; [apply grows_block, grows_stmts, H|]. intros.
    apply grows_bind; [apply grows_block, grows_stmts, H0|]. intros; apply grows_ret.
  - apply F in H, H0. cbn [xgen]. rewrite ?(xgen_stmts_eq C procs orc qs). apply D, grows_bind; [apply grows_block, grows_stmts, H|]. intros.
    apply grows_bind; [apply grows_block, grows_stmts, H0|]. intros; apply grows_ret.
  - apply grows_lift.
  - apply F in H. exact H.
  - destruct (match s with XWhile _ _ _ b => true | _ => false end) eqn:EW.
    + destruct s; try discriminate. apply HW. apply IHs.
    + cbn [xgen]. destruct (C a) as [[]|]; try apply IHs; destruct s; try discriminate; apply D, grows_lift.
Qed.
End Grow2.
