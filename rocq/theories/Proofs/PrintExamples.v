(** C48: what is printed wrongly, and examples. *)
From Coq Require Import Bool List String Arith ZArith NArith QArith Reals Lra Classical.
From Verif.Model Require Import Syntax Tycheck Precedence Printing.
From Verif.Spec Require Import Eur Sem Wp Typing Reading Printed.
From Verif.Proofs Require Import SemLemmas GrammarProofs GroupingProofs PrecedenceExamples PrintExprs PrintStmts PrintTypes.
Import ListNotations.
Local Open Scope string_scope.
Local Open Scope list_scope.
Local Open Scope nat_scope.

(** ** What the parser returns *)
Lemma plain_args G t es : (G = new_levels \/ G = old_levels) -> gargs G t es -> forallb plain es = true -> forallb printable es = true.
Proof.
  intros HG. induction 1; cbn; auto; intros H'; rewrite ?andb_true_iff in *; intuition eauto using parsed_printable.
Qed.
Lemma plain_stmts G : G = new_levels \/ G = old_levels ->
  (forall t s, gstmt G t s -> plain_stmt s = true -> printable_stmt s = true) /\ (forall t b, gstmts G t b -> forallb plain_stmt b = true -> forallb printable_stmt b = true).
Proof.
  intros HG. apply stmt_ind2; intros; cbn [plain_stmt printable_stmt forallb nonempty] in *; rewrite ?andb_true_iff in *;
    try (intuition eauto using parsed_printable, plain_args; fail).
  - match goal with H : gids _ _ |- _ => destruct H end; reflexivity.
Qed.
Theorem parsed_proc_printable t p : gproc new_levels t p -> plain_proc p = true -> rp_calculus p = None -> printable_proc p = true.
Proof.
  intros H. destruct H as [c d n ti ins to outs tsp l tb b Hi Ho Hs Hb]. unfold plain_proc, printable_proc. cbn. rewrite !andb_true_iff. intros [H1 H2] ->. split; [split; [reflexivity|]|].
  - clear - Hs H1. induction Hs; cbn in *; auto; apply andb_true_iff in H1 as [? ?]; apply andb_true_iff; (split; [eapply (parsed_printable new_levels); [now left|eassumption|assumption]|auto]).
  - destruct Hb as [|t b Hb]; auto. eapply (proj2 (plain_stmts new_levels (or_introl eq_refl))); eauto.
Qed.
(** Parse, print, parse: the same up to brackets. *)
Theorem reparsed t p t' : gproc new_levels t p -> plain_proc p = true -> rp_calculus p = None -> layout (pproc p) t' ->
  (exists p', gproc new_levels t' p') /\ forall p', gproc new_levels t' p' -> unbr_proc p' = unbr_proc p.
Proof.
  intros H1 H2 H3 L. destruct (printed_proc p t' (parsed_proc_printable _ _ H1 H2 H3) L) as [E0 A]. auto.
Qed.

(** ** Decimal literals *)
Lemma reads_unique t e : writes e t -> bracketed e \/ grouped documented e -> forall e', gexpr new_levels t e' -> e' = e.
Proof. intros H H1 e' H'. eapply new_unique; [exact H'|]. destruct H1; [now apply brackets_help|now apply new_reads]. Qed.
Definition xr : ident := vr "x" TReal.
Definition half : rexpr := RLit None (LFrac (5 # 10)).
Definition xhalf : rexpr := RBin None ODiv (rv xr) half.
Example xhalf_parsed : gexpr new_levels [KId xr; KBin ODiv; KLit (LFrac (5 # 10))] xhalf.
Proof.
  apply new_reads. split; [apply (wr_bin ODiv _ _ [KId xr] [KLit (LFrac (5 # 10))]); auto; constructor|].
  constructor; [cbn; auto|]. intros a [<-|[<-|[]]]; constructor; try exact Logic.I; intros a [].
Qed.
Definition five : rexpr := RLit None (LUInt 5).
Definition ten : rexpr := RLit None (LUInt 10).
Definition xhalf' : rexpr := RUn None OParens (RBin None ODiv (RBin None ODiv (rv xr) five) ten).
Example xhalf_read e' : gexpr new_levels (pexpr xhalf) e' -> e' = xhalf'.
Proof.
  apply reads_unique.
  - apply (wr_parens _ [KId xr; KBin ODiv; KLit (LUInt 5); KBin ODiv; KLit (LUInt 10)]).
    apply (wr_bin ODiv _ _ [KId xr; KBin ODiv; KLit (LUInt 5)] [KLit (LUInt 10)]); auto; [|constructor].
    apply (wr_bin ODiv _ _ [KId xr] [KLit (LUInt 5)]); auto; constructor.
  - right. constructor; [exact Logic.I|]. intros a [<-|[]]. constructor; [cbn; auto|]. intros a [<-|[<-|[]]]; [|constructor; [exact Logic.I|intros a []]].
    constructor; [cbn; auto|]. intros a [<-|[<-|[]]]; constructor; try exact Logic.I; intros a [].
Qed.
Lemma n2r_five : n2r 5 = 5%R. Proof. unfold n2r. cbn. lra. Qed.
Lemma n2r_ten : n2r 10 = 10%R. Proof. unfold n2r. cbn. lra. Qed.
Theorem decimals_refuted : exists t e, gexpr new_levels t e /\ forall e', gexpr new_levels (pexpr e) e' ->
  exists x x', rcheck e = Some x /\ rcheck e' = Some x' /\ wt x = true /\ wt x' = true /\
    forall I, exists s, env_ok s /\ eval I x s <> eval I x' s.
Proof.
  exists [KId xr; KBin ODiv; KLit (LFrac (5 # 10))], xhalf. split; [exact xhalf_parsed|]. intros e' H. rewrite (xhalf_read _ H).
  eexists. eexists. split; [vm_compute; reflexivity|]. split; [vm_compute; reflexivity|]. split; [reflexivity|]. split; [reflexivity|].
  intros I. exists (fun y => match ity y with TBool => VBool true | TInt => VInt 0 | TUInt => VUInt 0 | TReal => VReal 10 | TUReal => VUReal (nnr_of 0) | TEUReal => VEur ebot end). split.
  { intros y. destruct (ity y); reflexivity. }
  cbn -[Q2R n2r]. unfold eval_un. rewrite (dec_true (has_ty _ _)) by reflexivity.
  assert (N : forall r, (0 <= r)%R -> nval (nnr_of r) = r) by (intros r Hr; unfold nnr_of; cbn; now apply Rmax_right).
  assert (Q : Q2R (5 # 10) = (1 / 2)%R) by (unfold Q2R; cbn; lra).
  rewrite n2r_five, n2r_ten, Q, !N by lra.
  rewrite !(proj2 (dec_false (_ = 0)%R)) by lra. intros X. injection X. lra.
Qed.

(** ** Calls without results *)
Definition fy : rexpr := RCall None "f" [rv xr].
Definition fcall : rstmt := RAssign [] fy.
Definition fcall_text : list stok := E (KFun "f") :: E KLpar :: map E [KId xr] ++ [E KRpar].
Lemma one_arg : gargs new_levels [KId xr] [rv xr].
Proof. apply ga_last. apply new_reads. split; [constructor|apply var_grouped]. Qed.
Example fcall_parsed : gstmt new_levels fcall_text fcall.
Proof. apply gs_call. apply one_arg. Qed.
Theorem calls_unreadable f args t s : layout (pstmt (RAssign [] (RCall None f args))) t -> ~ gstmt new_levels t s.
Proof.
  intros L H. cbn in L. inversion L; subst. destruct (stmt_start _ _ _ H) as (k & u & Q & K). injection Q as <- _. discriminate.
Qed.
Theorem calls_refuted : exists t b b' t', gstmts new_levels t b /\ layout (pstmts b) t' /\ gstmts new_levels t' b' /\ List.length b = 2 /\ List.length b' = 1.
Proof.
  pose (y := vr "y" TReal).
  exists ([W WVar; E (KVar y)] ++ [Semi] ++ fcall_text ++ [] ++ []), [RVarDecl y None; fcall], [RVarDecl y (Some fy)], (W WVar :: E (KVar y) :: Equals :: map E (pexpr fy)).
  repeat split.
  - apply gs_cons; [constructor|auto|]. apply gs_cons; [exact fcall_parsed|auto|constructor].
  - cbn. repeat (constructor; try discriminate).
  - rewrite <- (app_nil_r (W WVar :: _)). apply (gs_cons _ _ _ []); [|auto|constructor]. apply gs_init. apply (proj1 (printed_reads fy eq_refl)).
Qed.

(** ** Calculus annotations *)
Theorem calculus_lost p t p' : layout (pproc p) t -> gproc new_levels t p' -> rp_calculus p' = None.
Proof.
  unfold pproc. intros L H. apply layout_tok in L; [|discriminate]. destruct L as (u & -> & _). inversion H as [c]; subst. destruct c; [discriminate|reflexivity].
Qed.
Theorem calculus_refuted : exists t p, gproc new_levels t p /\ forall t' p', layout (pproc p) t' -> gproc new_levels t' p' -> unbr_proc p' <> unbr_proc p.
Proof.
  exists (gcalc (Some "wp") ++ W (WProc Down) :: E (KFun "main") :: E KLpar :: [] ++ E KRpar :: Arrow :: E KLpar :: [] ++ E KRpar :: [] ++ []), (mkrproc Down "main" [] [] [] None (Some "wp")).
  split; [apply gpr; constructor|]. intros t' p' L H Q. apply (f_equal rp_calculus) in Q. cbn in Q. rewrite (calculus_lost _ _ _ L H) in Q. discriminate.
Qed.

(** ** Functions of domains *)
Lemma no_fn_params t xs : gparams t xs -> ~ In (W WFn) t.
Proof. induction 1; cbn; intuition discriminate. Qed.
Lemma no_fn_map t : ~ In (W WFn) (map E t).
Proof. rewrite in_map_iff. intros (x & Q & _). discriminate. Qed.
Lemma no_fn t l : gdspecs new_levels t l -> ~ In (W WFn) t.
Proof.
  induction 1; cbn; repeat (rewrite in_app_iff; cbn); auto.
  - pose proof (no_fn_params _ _ H). destruct c; cbn; intuition discriminate.
  - pose proof (no_fn_params _ _ H). pose proof (no_fn_map t). intuition discriminate.
  - pose proof (no_fn_map t). intuition discriminate.
Qed.
Lemma layout_in t t' k : layout t t' -> k <> Sep -> In k t -> In k t'.
Proof. induction 1; cbn; intuition congruence. Qed.
Theorem functions_unreadable d t d' : (exists n ins o c b, In (RFunc n ins o c b) (rd_body d)) -> layout (pdomain d) t -> ~ gdomain new_levels t d'.
Proof.
  intros (n & ins & o & c & b & HI) L H. assert (K : In (W WFn) t).
  { apply (layout_in _ _ _ L); [discriminate|]. unfold pdomain. cbn. rewrite in_app_iff, in_flat_map. right. right. right. left. exists (RFunc n ins o c b). cbn. auto. }
  destruct H as [m ts l H]. cbn in K. rewrite in_app_iff in K. cbn in K. pose proof (no_fn _ _ H). intuition discriminate.
Qed.
Definition dom : rdomain := mkrdomain "D" [RFunc "f" [vr "n" TUInt] TUReal true None].
Example dom_parsed : exists t, gdomain new_levels t dom.
Proof. eexists. apply gdo. apply (gd_func new_levels "f" [E (KVar (vr "n" TUInt))] _ _ true []); constructor. Qed.
(** The axioms of a domain are printed as they are written. *)
Theorem axioms_readable n l : forallb (fun c => match c with RAxiom _ e => printable e | RFunc _ _ _ _ _ => false end) l = true ->
  exists l', gdomain new_levels (pdomain (mkrdomain n l)) (mkrdomain n l') /\
    map (fun c => match c with RAxiom n e => RAxiom n (unbr e) | c => c end) l' = map (fun c => match c with RAxiom n e => RAxiom n (unbr e) | c => c end) l.
Proof.
  intros H. exists (map (fun c => match c with RAxiom n e => RAxiom n (shown e) | c => c end) l). split.
  - apply gdo. cbn [rd_body]. induction l as [|[|m e] l IH]; cbn in *; [constructor|discriminate|]. apply andb_true_iff in H as [H1 H2]. apply gd_axiom; auto. apply (proj1 (printed_reads e H1)).
  - rewrite map_map. apply map_ext. intros [|m e]; cbn; [reflexivity|]. now rewrite shown_unbr.
Qed.

(** ** let *)
Definition lete : rexpr := RSubst None xr (RLit None (LUInt 1)) (rv xr).
Theorem lets_refuted : exists t e, gexpr new_levels t e /\ forall e', ~ gexpr new_levels (pexpr e) e'.
Proof.
  exists (KLet :: KLpar :: KId xr :: KComma :: [KLit (LUInt 1)] ++ KComma :: [KId xr] ++ [KRpar]), lete. split.
  - apply new_reads. split; [apply wr_let; constructor|]. constructor; [exact Logic.I|]. intros a [<-|[<-|[]]]; constructor; try exact Logic.I; intros a [].
  - intros e' H. pose proof (proj1 (proj2 (proj2 (scan_expr new_levels))) _ _ H []) as K. vm_compute in K. discriminate.
Qed.

(** ** Quantifiers as operands, in trees that are not parsed *)
Definition xe : ident := vr "x" TEUReal.
Definition infx : rexpr := RQuant None QInf [QFresh xe] (rv xe).
Definition qop : rexpr := RBin None OAdd infx (rv xe).
Definition qop' : rexpr := RUn None OParens (RQuant None QInf [QFresh xe] (RBin None OAdd (rv xe) (rv xe))).
Theorem quantifiers_refuted : exists e, rcheck e <> None /\ (exists e', gexpr new_levels (pexpr e) e') /\ forall e', gexpr new_levels (pexpr e) e' -> unbr e' <> unbr e.
Proof.
  exists qop. split; [vm_compute; discriminate|]. assert (H : gexpr new_levels (pexpr qop) qop').
  { apply new_reads. split.
    - apply (wr_parens _ (KQuant QInf :: [KVar xe] ++ KDot :: [KId xe; KBin OAdd; KId xe])). apply wr_quant; [constructor|]. apply (wr_bin OAdd _ _ [KId xe] [KId xe]); auto; constructor.
    - constructor; [exact Logic.I|]. intros a [<-|[]]. constructor; [exact Logic.I|]. intros a [<-|[]]. apply pair_grouped. }
  split; [eauto|]. intros e' H'. rewrite (new_unique _ _ _ H' H). vm_compute. discriminate.
Qed.

(** ** Triggers without terms are accepted by the grammar. *)
Theorem triggers_panic : gargs new_levels [] [] /\ trigger_new [] = Panic "assertion failed: !terms.is_empty()".
Proof. split; [constructor|reflexivity]. Qed.

(** ** An example *)
Definition loop_proc : rproc := mkrproc Up "main" [xr] [vr "r" TEUReal] [(true, RUn None ONot (RBin None OAdd (rv xe) (rv xe))); (false, infx)]
  (Some [RAnn "invariant" [rv xe; rv xe] (RWhile (RBin None OLt (rv xr) five) [RHavoc Up [xr; xe]; RAssign [xr] (RBin None OSub (rv xr) five)]);
         RDemonic [RTick (rv xe)] [RSeq []]; RVarDecl xr (Some five); RLabel xr]) None.
Example loop_printable : printable_proc loop_proc = true /\ (exists t, layout (pproc loop_proc) t /\ In Semi t) /\ unbr_proc (shown_proc loop_proc) <> shown_proc loop_proc.
Proof.
  split; [reflexivity|]. split; [|vm_compute; discriminate].
  assert (L : forall t, exists t', layout t t' /\ (In Sep t -> In Semi t')).
  { induction t as [|k t (t' & L & H)]; [exists []; split; [constructor|auto]|]. destruct (classic (k = Sep)) as [->|N].
    - exists (Semi :: t'). split; [now constructor|cbn; auto].
    - exists (k :: t'). split; [now constructor|]. cbn. intuition. }
  destruct (L (pproc loop_proc)) as (t & L1 & L2). exists t. split; auto. apply L2. vm_compute. tauto.
Qed.
Example half_checked : printable (RUn None ONot (RBin None OAdd (rv xe) (rv xe))) = true /\ untyped (RUn None ONot (RBin None OAdd (rv xe) (rv xe))) = true /\
  rcheck (RUn None ONot (RBin None OAdd (rv xe) (rv xe))) <> None.
Proof. split; [reflexivity|]. split; [reflexivity|]. vm_compute. discriminate. Qed.
