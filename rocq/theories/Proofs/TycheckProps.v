(** Consequences for the passes after the type checker. *)
From Coq Require Import Bool List String ZArith NArith QArith.
From Verif.Model Require Import Syntax Tycheck Translate.
From Verif.Spec Require Import Eur Sem Exprs Wp Typing Translated.
From Verif.Proofs Require Import TycheckBase TycheckProofs TycheckStmts TranslateProps.
Import ListNotations.
Local Open Scope string_scope.

Lemma order_iff t u : (exists o, xty_cmp (One u) (One t) = Some o /\ o <> Lt) <-> included t u.
Proof.
  rewrite included_iff. split.
  - intros (o & E & N). destruct t, u; cbn in *; try reflexivity; try discriminate; injection E as <-; congruence.
  - intros E. destruct t, u; cbn in *; try discriminate; eexists; (split; [reflexivity|discriminate]).
Qed.
Section Props.
Variables (S : sigs) (pre : bool).

Lemma check_cases e imp : parsed e = true ->
  (exists t e', visit S pre imp e = Ok e' /\ types S pre imp e t /\ rty e' = Some t /\ strip e' = e) \/
  (exists w, visit S pre imp e = Err w /\ forall t, ~ types S pre imp e t).
Proof.
  intros P. destruct (visit_top S pre e imp P) as [(t & e' & E & T & G & St & _)|[(-> & outs & e' & E & T & St & Ty & _)|X]].
  - left. exists (One t), e'. repeat split; auto. apply G.
  - left. exists (Tup outs), e'. auto.
  - right. exact X.
Qed.
Theorem no_panic_expr e imp w : parsed e = true -> visit S pre imp e <> Panic w.
Proof. intros P. destruct (check_cases e imp P) as [(t & e' & -> & _)|(w' & -> & _)]; discriminate. Qed.
Theorem accepts_iff e imp t : parsed e = true -> (exists e', visit S pre imp e = Ok e' /\ rty e' = Some t) <-> types S pre imp e t.
Proof.
  intros P. destruct (check_cases e imp P) as [(u & e' & E & T & Ty & _)|(w & E & N)]; rewrite E; split.
  - intros (e1 & [=<-] & T1). congruence.
  - intros T'. rewrite (types_det _ _ _ _ _ _ T' T). eauto.
  - intros (e1 & [=] & _).
  - intros T. destruct (N _ T).
Qed.
Theorem source_kept e imp e' : parsed e = true -> visit S pre imp e = Ok e' -> strip e' = e.
Proof. intros P E. destruct (check_cases e imp P) as [(u & e1 & E1 & _ & _ & St)|(w & E1 & N)]; congruence. Qed.
Theorem checked_again e imp e' : literals_uint S -> parsed e = true -> visit S pre imp e = Ok e' -> visit S pre imp e' = Ok e'.
Proof.
  intros Lu P E. destruct (visit_top S pre e imp P) as [(t & e1 & E1 & T & G & _)|[(-> & outs & e1 & E1 & T & St & Ty & Ag & _)|(w & E1 & _)]]; rewrite E in E1.
  - injection E1 as <-. apply (g_again _ _ _ _ G Lu).
  - injection E1 as <-. exact (Ag Lu).
  - discriminate.
Qed.
Theorem checked_strict e imp e' t : parsed e = true -> visit S pre imp e = Ok e' -> rty e' = Some (One t) ->
  exists x, tree e' = Some x /\ ty_of x = t /\ strict S pre x = true.
Proof.
  intros P E R. destruct (visit_top S pre e imp P) as [(t' & e1 & E1 & T & G & _)|[(-> & outs & e1 & E1 & T & St & Ty & Ag & _)|(w & E1 & _)]]; rewrite E in E1.
  - injection E1 as <-. pose proof (g_ty _ _ _ _ G) as X. rewrite R in X. injection X as <-. apply G.
  - injection E1 as <-. congruence.
  - discriminate.
Qed.
Theorem checked_call e e' outs : parsed e = true -> visit S pre true e = Ok e' -> rty e' = Some (Tup outs) ->
  exists t f ins xs, s_call S f = Some (CProc ins outs) /\ tree e' = Some (ECall t f xs) /\ strict_args S pre ins xs.
Proof.
  intros P E R. destruct (visit_top S pre e true P) as [(t' & e1 & E1 & T & G & _)|[(_ & outs' & e1 & E1 & T & St & Ty & Ag & Tr)|(w & E1 & _)]]; rewrite E in E1.
  - injection E1 as <-. pose proof (g_ty _ _ _ _ G). congruence.
  - injection E1 as <-. rewrite R in Ty. injection Ty as <-. exact Tr.
  - discriminate.
Qed.

(** * The language with explicit conversions *)
Lemma strict_wt x : strict S pre x = true -> some bool_heyting x = false -> wt x = true.
Proof.
  induction x as [y|t f args IH|t c a b IHc IHa IHb|t op a b IHa IHb|t op a IHa|t a IHa|op xs a IHa|y v a IHv IHa|t l] using expr_rect'; cbn [strict some wt]; intros W N;
    repeat match goal with H : _ && _ = true |- _ => apply andb_true_iff in H as [H ?] | H : _ || _ = false |- _ => apply orb_false_iff in H as [H ?] end.
  - reflexivity.
  - apply forallb_forall. intros a Ha. rewrite Forall_forall in IH. rewrite forallb_forall in W. apply IH; auto.
    destruct (some bool_heyting a) eqn:E; [|reflexivity]. exfalso. assert (X : existsb (some bool_heyting) args = true) by (apply existsb_exists; eauto). congruence.
  - rewrite IHc, IHa, IHb by assumption. repeat (apply andb_true_iff; split); auto.
  - rewrite IHa, IHb by assumption. cbn. destruct op; cbn in *; destruct (ty_of a); destruct (ty_of b); try discriminate; destruct t; try discriminate; reflexivity.
  - rewrite IHa by assumption. cbn. assumption.
  - rewrite IHa by assumption. cbn. assumption.
  - destruct op; apply andb_true_iff in W as [W E]; rewrite IHa by assumption; apply ty_eqb_eq in E; rewrite E; reflexivity.
  - rewrite IHv, IHa by assumption. cbn. assumption.
  - apply ty_eqb_eq in W as <-. destruct l; cbn; try reflexivity. assumption.
Qed.
Lemma strict_bool_cmp x : strict S pre x = true -> some bool_cmp x = false.
Proof.
  induction x as [y|t f args IH|t c a b IHc IHa IHb|t op a b IHa IHb|t op a IHa|t a IHa|op xs a IHa|y v a IHv IHa|t l] using expr_rect'; cbn [strict some]; intros W;
    repeat match goal with H : _ && _ = true |- _ => apply andb_true_iff in H as [H ?] end.
  - reflexivity.
  - cbn. destruct (existsb (some bool_cmp) args) eqn:E; [|reflexivity]. apply existsb_exists in E as (a & Ha & E).
    rewrite Forall_forall in IH. rewrite forallb_forall in W. rewrite IH in E; auto.
  - rewrite IHc, IHa, IHb by assumption. reflexivity.
  - rewrite IHa, IHb by assumption. rewrite !orb_false_r. destruct op; cbn in *; try reflexivity;
      destruct (ty_of a); destruct (ty_of b); try discriminate; reflexivity.
  - rewrite IHa by assumption. reflexivity.
  - rewrite IHa by assumption. reflexivity.
  - rewrite IHa; [reflexivity|]. destruct op; apply andb_true_iff in W as [W _]; exact W.
  - rewrite IHv, IHa by assumption. reflexivity.
  - reflexivity.
Qed.
Lemma tys_eqb_same a : forall b, Translated.tys_eqb a b = Tycheck.tys_eqb a b.
Proof. induction a as [|x a IH]; intros [|y b]; cbn; try reflexivity; rewrite IH; reflexivity. Qed.
Lemma strict_translatable isvar fsig x :
  (forall y, s_var S y <> None -> isvar y = true) ->
  (forall f ins out, s_call S f = Some (CFunc ins out) -> fsig f = Some (map fst ins, out)) ->
  strict S pre x = true -> some bool_heyting x = false -> some (free_quant isvar) x = false -> some is_let x = false ->
  translatable isvar fsig x = true.
Proof.
  intros HV HF W N Q L. unfold translatable. rewrite (strict_wt x W N). pose proof (strict_bool_cmp x W) as B. cbn. clear N.
  assert (X : some (untranslatable isvar fsig) x = false); [|rewrite X; reflexivity]. revert W Q L B.
  induction x as [y|t f args IH|t c a b IHc IHa IHb|t op a b IHa IHb|t op a IHa|t a IHa|op xs a IHa|y v a IHv IHa|t l] using expr_rect'; cbn [strict some]; intros W Q L B;
    repeat match goal with H : _ && _ = true |- _ => apply andb_true_iff in H as [H ?] | H : _ || _ = false |- _ => apply orb_false_iff in H as [H ?] end.
  - cbn. rewrite HV; [reflexivity|]. unfold readable in W. destruct (s_var S y); discriminate.
  - cbn. destruct (s_call S f) as [[| |]|] eqn:Ef; try discriminate.
    match goal with X : _ && _ = true |- _ => apply andb_true_iff in X as [X1 X2] end.
    rewrite (HF _ _ _ Ef), X1, tys_eqb_same, X2. cbn.
    destruct (existsb (some (untranslatable isvar fsig)) args) eqn:E; [|reflexivity]. apply existsb_exists in E as (a & Ha & E).
    rewrite Forall_forall in IH. rewrite forallb_forall in W.
    assert (F : forall P, existsb (some P) args = false -> some P a = false).
    { intros P H'. destruct (some P a) eqn:K; [|reflexivity]. assert (existsb (some P) args = true) by (apply existsb_exists; eauto). congruence. }
    rewrite IH in E; auto.
  - cbn [untranslatable bool_cmp]. rewrite IHc, IHa, IHb by assumption. reflexivity.
  - cbn [untranslatable]. rewrite B, IHa, IHb by assumption. reflexivity.
  - cbn [untranslatable bool_cmp]. rewrite IHa by assumption. reflexivity.
  - cbn [untranslatable bool_cmp]. rewrite IHa by assumption. reflexivity.
  - cbn [untranslatable]. cbn in Q. rewrite Q. cbn. apply IHa; auto. destruct op; apply andb_true_iff in W as [W _]; exact W.
  - discriminate.
  - reflexivity.
Qed.
Lemma strict_reads x y : strict S pre x = true -> fv y x -> readable S pre y = true.
Proof.
  induction x as [z|t f args IH|t c a b IHc IHa IHb|t op a b IHa IHb|t op a IHa|t a IHa|op xs a IHa|z v a IHv IHa|t l] using expr_rect'; cbn [strict fv]; intros W F;
    repeat match goal with H : _ && _ = true |- _ => apply andb_true_iff in H as [H ?] end.
  - subst. exact W.
  - assert (X : exists a, In a args /\ fv y a).
    { clear -F. induction args as [|a l IH]; [destruct F|]. destruct F as [F|F]; [exists a; cbn; auto|]. destruct (IH F) as (a' & I & Fa). exists a'. cbn; auto. }
    destruct X as (a & Ha & Fa). rewrite Forall_forall in IH. rewrite forallb_forall in W. eauto.
  - destruct F as [F|[F|F]]; auto.
  - destruct F as [F|F]; auto.
  - auto.
  - auto.
  - destruct F as [F _]. apply IHa; auto. destruct op; apply andb_true_iff in W as [W _]; exact W.
  - destruct F as [F|[F _]]; auto.
  - destruct F.
Qed.
End Props.

Section StmtProps.
Variable S : sigs.
Hypothesis Lu : literals_uint S.

Theorem no_panic_block b w : forallb sparsed b = true -> visit_block S b <> Panic w.
Proof. intros P. destruct (body_spec S Lu b P) as [(b' & -> & _)|(w' & -> & _)]; discriminate. Qed.
Theorem block_iff b : forallb sparsed b = true -> (exists b', visit_block S b = Ok b') <-> types_block S b.
Proof.
  intros P. destruct (body_spec S Lu b P) as [(b' & -> & T & _)|(w & -> & N)]; split; intros X; eauto.
  - destruct X; discriminate.
  - destruct (N X).
Qed.
Theorem block_result b b' : forallb sparsed b = true -> visit_block S b = Ok b' ->
  map sstrip b' = b /\ exists x, btree b' = Some x /\ All (strict_stmt S) x.
Proof. intros P E. destruct (body_spec S Lu b P) as [(b1 & E1 & _ & St & X)|(w & E1 & _)]; [|congruence]. rewrite E in E1. injection E1 as <-. auto. Qed.

(** * Declarations *)
Lemma specs_spec l : forallb (fun s : bool * rexpr => parsed (snd s)) l = true ->
  (exists l', visit_specs S l = Ok l' /\ Forall (fun s => fits_ty S (fst s) false (snd s) TEUReal) l /\
     Forall2 (fun s s' => fst s' = fst s /\ strip (snd s') = snd s /\
       exists x, tree (snd s') = Some x /\ ty_of x = TEUReal /\ strict S (fst s) x = true) l l') \/
  (exists w, visit_specs S l = Err w /\ ~ Forall (fun s => fits_ty S (fst s) false (snd s) TEUReal) l).
Proof.
  induction l as [|[b e] l IH]; cbn; intros P.
  - left. exists []. auto.
  - apply andb_true_iff in P as [Pe Pl]. pose proof (use_spec S b e TEUReal Pe) as X. cbn zeta in X.
    destruct X as [(e' & x & E & F & St & Tr & Ty & W)|(w & E & N)].
    + destruct (visit S b false e) as [e1|w1|w1] eqn:E1; cbn [rbind] in *; try discriminate. rewrite E. cbn [rbind].
      destruct (IH Pl) as [(l' & -> & F' & R)|(w & -> & N)]; cbn [rbind].
      * left. eexists. split; [reflexivity|]. split; [constructor; assumption|]. constructor; [|assumption]. cbn. eauto 10.
      * right. eexists. split; [reflexivity|]. intros X. inversion X; auto.
    + right. exists w. split; [|intros X; inversion X; auto].
      destruct (visit S b false e) as [e1|w1|w1] eqn:E1; cbn [rbind] in *; try discriminate; [|congruence]. rewrite E. reflexivity.
Qed.
Definition proc_result (specs : list (bool * rexpr)) (body : option (list rstmt)) r : Prop :=
  Forall2 (fun s s' => fst s' = fst s /\ strip (snd s') = snd s /\
       exists x, tree (snd s') = Some x /\ ty_of x = TEUReal /\ strict S (fst s) x = true) specs (fst r) /\
  match body, snd r with
  | Some b, Some b' => map sstrip b' = b /\ exists x, btree b' = Some x /\ All (strict_stmt S) x
  | None, None => True
  | _, _ => False
  end.
Lemma proc_spec specs body : parsed_proc specs body = true ->
  (exists r, visit_proc S specs body = Ok r /\ types_proc S specs body /\ proc_result specs body r) \/
  (exists w, visit_proc S specs body = Err w /\ ~ types_proc S specs body).
Proof.
  unfold parsed_proc, visit_proc, types_proc, proc_result. intros P. apply andb_true_iff in P as [Ps Pb].
  destruct (specs_spec specs Ps) as [(l' & -> & F & R)|(w & -> & N)]; cbn [rbind].
  - destruct body as [b|].
    + destruct (body_spec S Lu b Pb) as [(b' & -> & T & St & X)|(w & -> & N)]; cbn [rbind].
      * left. eexists. split; [reflexivity|]. cbn. auto.
      * right. eexists. split; [reflexivity|]. intros [_ X]. auto.
    + left. eexists. split; [reflexivity|]. cbn. auto.
  - right. eexists. split; [reflexivity|]. tauto.
Qed.
Lemma func_spec out body : match body with Some e => parsed e = true | None => True end ->
  (exists r, visit_func S out body = Ok r /\ types_func S out body /\
     match body, r with
     | Some e, Some e' => strip e' = e /\ exists x, tree e' = Some x /\ ty_of x = out /\ strict S false x = true
     | None, None => True
     | _, _ => False
     end) \/
  (exists w, visit_func S out body = Err w /\ ~ types_func S out body).
Proof.
  destruct body as [e|]; cbn; intros P; [|left; eexists; split; [reflexivity|]; auto].
  pose proof (use_spec S false e out P) as X. cbn zeta in X.
  destruct X as [(e' & x & E & F & St & Tr & Ty & W)|(w & E & N)];
    destruct (visit S false false e) as [e1|w1|w1] eqn:E1; cbn [rbind] in *; try discriminate.
  - rewrite E. cbn [rbind]. left. eexists. split; [reflexivity|]. eauto 10.
  - rewrite E. cbn [rbind]. right. eauto.
  - injection E as <-. right. eauto.
Qed.
Lemma axiom_spec e : parsed e = true ->
  (exists e' x, visit_axiom S e = Ok e' /\ types_axiom S e /\ strip e' = e /\ tree e' = Some x /\ ty_of x = TBool /\ strict S false x = true) \/
  (exists w, visit_axiom S e = Err w /\ ~ types_axiom S e).
Proof.
  intros P. pose proof (use_spec S false e TBool P) as X. cbn zeta in X. unfold visit_axiom, types_axiom.
  pose proof (guard_fits S false e) as G. destruct X as [(e' & x & E & F & St & Tr & Ty & W)|(w & E & N)]; rewrite E.
  - left. exists e', x. tauto.
  - right. exists w. tauto.
Qed.

(** * Statements for the verification conditions *)
Lemma strict_assign_ok isd isf x e :
  (forall f ins out, s_call S f = Some (CFunc ins out) -> isf f = true /\ isd f = false) ->
  strict_assign S [x] e -> some bool_heyting e = false -> calls_distributions S isd (SAssign [x] e) -> assign_ok isd isf x e.
Proof.
  intros HF A N C. unfold strict_assign in A.
  assert (Pl : forall e, (exists x', [x] = [x'] /\ strict S false e = true /\ ty_of e = ity x') -> some bool_heyting e = false -> wt e = true /\ ty_of e = ity x).
  { intros e0 (x' & [=<-] & W & T) N0. split; [|exact T]. exact (strict_wt S false e0 W N0). }
  destruct e; cbn [assign_ok]; try (apply Pl; assumption).
  cbn in C. destruct (s_call S f) as [[ins outs|ins out|]|] eqn:Ef.
  - destruct C as [-> C]. exact C.
  - destruct (HF _ _ _ Ef) as [F1 F2]. rewrite F2. split; [exact F1|]. apply (Pl _ A N).
  - destruct A as (x' & _ & W & _). cbn in W. rewrite Ef, andb_false_r in W. discriminate.
  - destruct A as (x' & _ & W & _). cbn in W. rewrite Ef, andb_false_r in W. discriminate.
Qed.
Lemma All_imp (P Q R : stmt -> Prop) b : Forall (fun s => P s -> Q s -> R s) b -> All P b -> All Q b -> All R b.
Proof. induction 1; cbn; tauto. Qed.
Lemma every_and (P Q : stmt -> Prop) s : every P s -> every Q s -> every (fun s => P s /\ Q s) s.
Proof.
  induction s using stmt_rect'; cbn; try tauto; intros [A1 A2] [B1 B2]; (split; [tauto|]);
    repeat match goal with H : _ /\ _ |- _ => destruct H end; try split;
    eauto using All_imp.
Qed.
Theorem strict_wts isd isf s :
  (forall f ins out, s_call S f = Some (CFunc ins out) -> isf f = true /\ isd f = false) ->
  strict_stmt S s -> every no_bool_heyting s -> every (calls_distributions S isd) s -> wts isd isf s.
Proof.
  intros HF W N C. pose proof (every_and _ _ _ N C) as E. clear N C. revert W E.
  assert (G : forall e, no_bool_heyting (SAssert Down e) -> strict S false e = true -> wt e = true).
  { intros e N W. apply (strict_wt S false e W). apply N. cbn; auto. }
  induction s using stmt_rect'; cbn [strict_stmt every wts]; intros W E; destruct E as [[N C] E]; auto;
    repeat match goal with H : _ /\ _ |- _ => destruct H end;
    try (eapply All_imp; eassumption);
    try (split; (eapply All_imp; eassumption));
    try (destruct W; split; [apply G|]; assumption).
  - destruct i as [e|]; [|exact Logic.I]. apply strict_assign_ok; auto. apply N. cbn; auto.
  - destruct xs as [|x [|y xs]].
    + exfalso. unfold strict_assign in *. cbv zeta in *. destruct e as [|t f args| | | | | | |]; try (destruct H as (? & [=] & _)).
      cbn in C. destruct (s_call S f) as [[]|]; try (destruct H as (? & [=] & _)). exact C.
    + apply strict_assign_ok; auto. apply N. cbn; auto.
    + exfalso. unfold strict_assign in *. cbv zeta in *. destruct e as [|t f args| | | | | | |]; try (destruct H as (? & [=] & _)).
      cbn in C. destruct (s_call S f) as [[]|]; try (destruct H as (? & [=] & _)). exact C.
  - split; [|split; (eapply All_imp; eassumption)]. match goal with H : strict_guard _ _ |- _ => destruct H end. split; [apply G|]; assumption.
  - split; [|eapply All_imp; eassumption]. match goal with H : strict_guard _ _ |- _ => destruct H end. split; [apply G|]; assumption.
  - auto.
Qed.
Lemma All_in (P : stmt -> Prop) (Q : stmt -> Prop) b : Forall (fun s => P s -> Q s) b -> All P b -> All Q b.
Proof. induction 1; cbn; tauto. Qed.
Theorem strict_writes s : strict_stmt S s -> every (writes_only (writable_var S)) s.
Proof.
  induction s using stmt_rect'; cbn [strict_stmt every writes_only]; intros W; repeat match goal with H : _ /\ _ |- _ => destruct H end;
    repeat split; auto; try (eapply All_in; eassumption).
Qed.
Theorem accepted_wts isd isf b b' :
  (forall f ins out, s_call S f = Some (CFunc ins out) -> isf f = true /\ isd f = false) ->
  forallb sparsed b = true -> visit_block S b = Ok b' ->
  exists x, btree b' = Some x /\ All (every (writes_only (writable_var S))) x /\
    (All (every no_bool_heyting) x -> All (every (calls_distributions S isd)) x -> All (wts isd isf) x).
Proof.
  intros HF P E. destruct (block_result b b' P E) as (_ & x & Ex & W). exists x. split; [exact Ex|]. split.
  - eapply All_in; [|exact W]. apply Forall_forall. intros s _. apply strict_writes.
  - intros N C. clear Ex. induction x as [|s x IH]; cbn in *; [exact Logic.I|]. destruct W, N, C. split; [|tauto]. eapply strict_wts; eauto.
Qed.
Theorem precondition_reads specs body r i e x y : parsed_proc specs body = true -> visit_proc S specs body = Ok r ->
  nth_error (fst r) i = Some (true, e) -> tree e = Some x -> fv y x -> exists k, s_var S y = Some k /\ k <> KOutput.
Proof.
  intros P E Hi Tr F. destruct (proc_spec specs body P) as [(r' & E' & _ & R & _)|(w & E' & _)]; [|congruence].
  rewrite E in E'. injection E' as <-. clear -R Hi Tr F. revert i Hi. induction R as [|s s' l l' (F1 & _ & z & Ez & _ & W) _ IH]; intros [|i] Hi; try discriminate; eauto.
  injection Hi as Hs. rewrite Hs in *. cbn in *. rewrite <- F1 in W. assert (z = x) by congruence. subst z.
  pose proof (strict_reads S true x y W F) as Rd. unfold readable in Rd. destruct (s_var S y) as [[]|]; try discriminate; eexists; split; try reflexivity; discriminate.
Qed.
(** Accepted axioms can be translated. *)
Theorem axiom_translates isvar fsig ecall e e' :
  (forall y, s_var S y <> None -> isvar y = true) ->
  (forall f ins out, s_call S f = Some (CFunc ins out) -> fsig f = Some (map fst ins, out)) ->
  parsed e = true -> visit_axiom S e = Ok e' ->
  exists x, tree e' = Some x /\
    (some bool_heyting x = false -> some (free_quant isvar) x = false -> some is_let x = false ->
     exists t cs, translate isvar fsig ecall x = Ok (t, cs)).
Proof.
  intros HV HF P E. destruct (axiom_spec e P) as [(e1 & x & E1 & _ & _ & Tr & Ty & W)|(w & E1 & _)]; [|congruence].
  rewrite E in E1. injection E1 as <-. exists x. split; [exact Tr|]. intros N Q L.
  exact (no_panic isvar fsig ecall x (strict_translatable S false isvar fsig x HV HF W N Q L) Ty).
Qed.
End StmtProps.
