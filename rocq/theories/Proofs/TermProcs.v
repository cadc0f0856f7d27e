(** What the procedures generated by the termination rules say. *)
From Coq Require Import Bool List String NArith QArith Reals Lra Lia ClassicalEpsilon FunctionalExtensionality.
From Verif.Model Require Import Syntax Builder TyCtx AstUtil Lits ProofRules Procs LoopProcs.
From Verif.Spec Require Import Eur Sem Wp Frame Loops Calls Termination.
From Verif.Proofs Require Import EurLemmas SemLemmas WpLemmas MonoProofs SubstProofs FrameProofs LoopProofs OmegaProofs SpecCallProofs DistProofs TermRules.
Import ListNotations.
Local Open Scope list_scope.

Section Inits.
Variable variant : nat -> nat.
Hypothesis variant_inj : forall a b, variant a = variant b -> a = b.
Notation init := (init_ident variant).
Local Notation inits := (Termination.inits variant).
Local Notation clear_of_inits := (Termination.clear_of_inits variant).

Lemma init_inj x y : init x = init y -> x = y.
Proof.
  destruct x as [a b t], y as [a' b' t']. unfold init_ident. cbn. intros E. injection E as E1 E2 E3.
  apply variant_inj in E2. subst. auto.
Qed.

(** ** The generators *)
Lemma get_init_ok xs : forall T ys T', get_init_idents variant T xs = Ok (ys, T') -> ys = map init xs.
Proof.
  induction xs as [|x xs IH]; intros T ys T' E; cbn [get_init_idents] in E; [injection E as <- <-; auto|].
  destruct (get T x) as [[]|]; try discriminate. apply rbind_ok in E as [T1 [E1 E]]. apply rbind_ok in E as [[zs T2] [E2 E]].
  injection E as <- <-. cbn [map]. f_equal. eauto.
Qed.
Lemma ident_exprs_ok T xs : forall es, ident_exprs T xs = Ok es -> es = map EVar xs.
Proof.
  induction xs as [|x xs IH]; intros es E; cbn [ident_exprs] in E; [injection E as <-; auto|].
  apply rbind_ok in E as [e [E1 E]]. apply rbind_ok in E as [es' [E2 E]]. injection E as <-. cbn [map]. f_equal; auto.
  unfold ident_expr in E1. destruct (get T x) as [[]|]; congruence.
Qed.
Definition init_assigns (xs : list ident) : list stmt := map (fun x => SAssign [x] (EVar (init x))) xs.
Lemma multiple_assign_ok xs b : multiple_assign xs (map EVar (map init xs)) = Ok b -> b = init_assigns xs.
Proof.
  unfold multiple_assign. destruct (Nat.eqb _ _); [|discriminate]. intros E. injection E as <-. unfold init_assigns.
  induction xs as [|x xs IH]; cbn; auto. now f_equal.
Qed.
Definition init_expr (e : expr) (xs : list ident) : expr := b_subst e (combine xs (map EVar (map init xs))).
Lemma to_init_ok T e xs e' T' : to_init_expr variant T e xs = Ok (e', T') -> e' = init_expr e xs.
Proof.
  unfold to_init_expr. intros E. apply rbind_ok in E as [[ys T1] [E1 E]]. apply rbind_ok in E as [es [E2 E]]. injection E as <- <-.
  apply get_init_ok in E1. subst ys. apply ident_exprs_ok in E2. now subst es.
Qed.
Lemma generate_proc_ok dspan T base name d ins outs specs body p T' :
  generate_proc variant dspan T base name d ins outs specs body = Ok (p, T') ->
  pdir p = d /\ pspecs p = specs /\ pbody p = Some body.
Proof.
  unfold generate_proc. intros E. apply rbind_ok in E as [[y T1] [E1 E]]. apply rbind_ok in E as [T2 [E2 E]]. injection E as <- <-.
  cbn. auto.
Qed.

(** ** States in which the initial versions agree with the variables *)
Definition sync (s : env) : env := fun z =>
  match excluded_middle_informative (inits z) with
  | left H => s (proj1_sig (constructive_indefinite_description _ H))
  | right _ => s z
  end.
Lemma sync_init s y : sync s (init y) = s y.
Proof.
  unfold sync. destruct (excluded_middle_informative (inits (init y))) as [H|H].
  - destruct (constructive_indefinite_description _ H) as [z Hz]. cbn. now apply init_inj in Hz as ->.
  - exfalso. apply H. exists y. auto.
Qed.
Lemma sync_other s z : ~ inits z -> sync s z = s z.
Proof. intros Hn. unfold sync. destruct (excluded_middle_informative (inits z)); tauto. Qed.
Lemma sync_ok s : env_ok s -> env_ok (sync s).
Proof.
  intros Hs z. destruct (excluded_middle_informative (inits z)) as [[y ->]|H].
  - fold (init y). rewrite sync_init. apply (Hs y).
  - rewrite sync_other by auto. apply Hs.
Qed.
(** Variables take the value of their initial version. *)
Definition pull (xs : list ident) (s : env) : env := fun z => if mem z xs then s (init z) else s z.
Lemma pull_cons x xs s : ~ inits x -> (forall y, In y xs -> ~ inits y) -> pull (x :: xs) s = pull xs (upd s x (s (init x))).
Proof.
  intros Hx Hxs. apply functional_extensionality. intros z. unfold pull. cbn [mem existsb]. unfold upd at 1 2.
  assert (N : forall w, ident_eqb x (init w) = false).
  { intros w. destruct (ident_eqb_spec x (init w)) as [->|]; auto. exfalso. apply Hx. exists w; auto. }
  rewrite N. fold (mem z xs). destruct (ident_eqb_spec z x) as [->|Hn]; cbn.
  - destruct (mem x xs); auto. destruct (ident_eqb_spec x x); congruence.
  - destruct (mem z xs); auto. destruct (ident_eqb_spec x z); congruence.
Qed.
Lemma pull_last x xs s : ~ inits x -> pull (xs ++ [x]) s = pull xs (upd s x (s (init x))).
Proof.
  intros Hx. apply functional_extensionality. intros z. unfold pull, upd.
  assert (N : forall w, ident_eqb x (init w) = false).
  { intros w. destruct (ident_eqb_spec x (init w)) as [->|]; auto. exfalso. apply Hx. exists w; auto. }
  rewrite N. unfold mem. rewrite existsb_app. cbn. rewrite orb_false_r. destruct (existsb (ident_eqb z) xs); cbn; auto.
  destruct (ident_eqb_spec z x) as [->|Hn]; [destruct (ident_eqb_spec x x); congruence | destruct (ident_eqb_spec x z); congruence].
Qed.
Lemma pull_sync xs s : (forall x, In x xs -> ~ inits x) -> pull xs (sync s) = sync s.
Proof.
  intros Hx. apply functional_extensionality. intros z. unfold pull. destruct (mem z xs) eqn:E; auto.
  apply mem_iff in E. now rewrite sync_init, sync_other by auto.
Qed.
Lemma eval_init_expr I e xs : (forall x, In x xs -> ~ inits x) -> forall s, eval I (init_expr e xs) s = eval I e (pull xs s).
Proof.
  unfold init_expr, b_subst. induction xs as [|x xs IH] using rev_ind; intros Hx s.
  - cbn. f_equal.
  - assert (L : forall (A B : Type) (f : A -> B) (a : A) l, combine (l ++ [a]) (map f (l ++ [a])) = combine l (map f l) ++ [(a, f a)]).
    { clear. induction l as [|b l IH]; cbn; auto. now rewrite IH. }
    rewrite map_map, L, fold_left_app. cbn [fold_left fst snd eval]. rewrite <- (map_map init EVar). rewrite IH.
    + rewrite pull_last; auto. apply Hx, in_app_iff. cbn; auto.
    + intros y Hy. apply Hx, in_app_iff. auto.
Qed.
Lemma ev_init_expr I e xs s : (forall x, In x xs -> ~ inits x) -> ev I (init_expr e xs) s = ev I e (pull xs s).
Proof. intros H. unfold ev. now rewrite eval_init_expr. Qed.
Lemma wp_init_assigns I isd k xs X : (forall x, In x xs -> ~ inits x) -> forall s, wp_block I isd k (init_assigns xs) X s = X (pull xs s).
Proof.
  induction xs as [|x xs IH]; intros Hx s.
  - reflexivity.
  - cbn [init_assigns map]. unfold wp_block. cbn [fold_right wp assign_sem eval]. fold (init_assigns xs).
    change (fold_right (wp I isd k) X (init_assigns xs)) with (wp_block I isd k (init_assigns xs) X).
    rewrite IH by (intros; apply Hx; cbn; auto). rewrite pull_cons; auto; intros; apply Hx; cbn; auto.
Qed.

(** ** The modified variables *)
Lemma modified_spec c body x : In x (modified_vars c body) <-> any (assigns x) body /\ ~ any (declares x) body.
Proof.
  unfold modified_vars, minus. rewrite filter_In, negb_true_iff. destruct (mvc_spec (SWhile c body) x mvc0) as [M1 M2].
  cbn [mmod mdecl mvc0 assigns declares] in M1, M2. cbn [In] in M1, M2. rewrite M1.
  rewrite <- not_true_iff_false, mem_iff, M2. unfold any. tauto.
Qed.
Lemma linear_havocs b x : All (every linear) b -> ~ any (havocs x) b.
Proof.
  assert (H : forall st, every linear st -> ~ havocs x st).
  { assert (HB : forall b, Forall (fun st => every linear st -> ~ havocs x st) b -> All (every linear) b -> ~ any (havocs x) b).
    { induction 1; cbn; tauto. }
    induction st using stmt_rect'; intros P; cbn [every linear havocs] in *; try tauto;
      repeat match goal with Hf : Forall _ ?b |- _ => pose proof (HB _ Hf); clear Hf end; unfold any in *; tauto. }
  induction b as [|s b IH]; cbn; [tauto|]. intros [H1 H2] [H3|H3]; [apply (H s) | apply IH]; auto.
Qed.
Lemma writes_block_cases b x : All (every linear) b -> writes_block x b -> any (assigns x) b \/ any (declares x) b.
Proof.
  induction b as [|s b IH]; cbn [writes_block any All]; [tauto|]. intros [P1 P2] [H|H].
  - apply writes_cases in H. destruct H as [H|[H|H]]; try (cbn; tauto). exfalso.
    apply (linear_havocs [s] x); cbn; auto.
  - specialize (IH P2 H). cbn. unfold any in *. tauto.
Qed.

Section Body.
  Variables (I : interp) (isd isf : string -> bool) (k : fixkind) (c : expr) (body : list stmt) (es : list expr).
  Hypothesis HI : interp_ok I.
  Hypothesis Wb : All (wts isd isf) body.
  Hypothesis Pb : All (every linear) body.
  Hypothesis C : clear_of_inits c body es.
  Let B := wp_block I isd k body.
  Let N := linear_no_negate body Pb.

  Lemma assigns_writes x b : any (assigns x) b -> writes_block x b.
  Proof.
    assert (H : forall st, assigns x st -> writes x st).
    { assert (HB : forall b, Forall (fun st => assigns x st -> writes x st) b -> any (assigns x) b -> any (writes x) b).
      { induction 1; cbn; tauto. }
      induction st using stmt_rect'; cbn [assigns writes]; try tauto;
        repeat match goal with Hf : Forall _ ?b |- _ => pose proof (HB _ Hf); clear Hf end; unfold any in *; tauto. }
    induction b as [|s b' IH]; cbn; auto. intros [A|A]; auto.
  Qed.
  Lemma mv_clear x : In x (modified_vars c body) -> ~ inits x.
  Proof. intros Hx. apply modified_spec in Hx. apply (cl_writes _ _ _ _ C). apply assigns_writes. tauto. Qed.
  Lemma B_blind X : blind inits X -> blind inits (B X).
  Proof. intros HX. apply (scoped_block_blind I isd isf k body HI Wb N); auto. apply (cl_body _ _ _ _ C). Qed.
  Lemma sync_agree s x : ~ inits x -> s x = sync s x.
  Proof. intros H. now rewrite sync_other. Qed.
  Lemma at_sync X s : blind inits X -> env_ok s -> X (sync s) = X s.
  Proof. intros HX Hs. symmetry. apply HX; auto using sync_ok. intros x Hx. now apply sync_agree. Qed.
  Lemma ev_blind e : In e es -> blind inits (ev I e).
  Proof. intros He. apply unread_blind. now apply (cl_exprs _ _ _ _ C). Qed.
  Lemma ev_sync e s : In e es -> env_ok s -> ev I e (sync s) = ev I e s.
  Proof. intros He Hs. apply at_sync; auto using ev_blind. Qed.
  Lemma eval_sync e s : In e es -> eval I e (sync s) = eval I e s.
  Proof.
    intros He. symmetry. apply (unread_eval inits); [now apply (cl_exprs _ _ _ _ C)|]. intros x Hx. now apply sync_agree.
  Qed.
  Lemma guard_sync s : holds I c (sync s) = holds I c s.
  Proof. symmetry. apply (unread_holds inits); [apply (cl_guard _ _ _ _ C)|]. intros x Hx. now apply sync_agree. Qed.
  Lemma pull_mv s : pull (modified_vars c body) (sync s) = sync s.
  Proof. apply pull_sync. apply mv_clear. Qed.
  Lemma vars_clear e xs : In e es -> collect e [] = Ok xs -> forall x, In x xs <-> fv x e.
  Proof.
    intros He E. destruct (collect_spec e [] (collect_no_subst _ _ _ E)) as (ys & E' & S). rewrite E in E'. injection E' as <-.
    intros x. rewrite S. cbn. tauto.
  Qed.
  Lemma vars_fresh e xs : In e es -> collect e [] = Ok xs -> forall x, In x xs -> ~ inits x.
  Proof. intros He E x Hx. apply (vars_clear e xs He E) in Hx. now apply (cl_exprs _ _ _ _ C e He). Qed.
  (** Expectations need only agree where the body can get. *)
  Lemma B_local X Y s : env_ok s -> (forall t, only_changes (fun x => writes_block x body) s t -> X t = Y t) -> B X s = B Y s.
  Proof.
    intros Hs H. apply (frame_eq I isd isf k (fun x => writes_block x body) (SSeq body) HI); auto; cbn [wts every not_negate]; auto.
    intros x Hx. cbn [writes] in Hx. now rewrite writes_block_eq in Hx.
  Qed.
  Lemma inits_kept s t y : only_changes (fun x => writes_block x body) (sync s) t -> t (init y) = s y.
  Proof.
    intros [_ H]. rewrite H; [apply sync_init|]. intros Hw. apply (cl_writes _ _ _ _ C) in Hw. apply Hw. exists y. auto.
  Qed.
  (** The initial version of an expression over the variables [xs] still has its old value. *)
  Lemma init_kept e xs s t : (forall x, In x xs -> ~ inits x) -> unread inits e ->
    (forall x, fv x e -> In x xs \/ ~ writes_block x body) ->
    only_changes (fun x => writes_block x body) (sync s) t -> eval I (init_expr e xs) t = eval I e s.
  Proof.
    intros Hxs Hu Hfv Ht. rewrite eval_init_expr by auto. apply eval_ext. intros x Hx. unfold pull.
    destruct (mem x xs) eqn:E; [apply (inits_kept s t x Ht)|].
    destruct (Hfv x Hx) as [Hin|Hnw]; [apply mem_iff in Hin; congruence|].
    rewrite (proj2 Ht) by auto. rewrite sync_other; auto.
  Qed.
End Body.
End Inits.
