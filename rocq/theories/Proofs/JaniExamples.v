(** The exporter: a procedure that meets all conditions, and what happens without them. *)
From Coq Require Import Bool List String ZArith NArith QArith Qreduction Reals Lia Lra.
From Verif.Model Require Import Syntax Lits Builder Dist Procs Jani.
From Verif.Spec Require Import Eur Sem Wp Frame JaniSem.
From Verif.Proofs Require Import EurLemmas SemLemmas WpLemmas VcGenProofs MonoProofs JaniExpr JaniStep JaniStates JaniFrag JaniHoist JaniProc.
Import ListNotations.
Local Open Scope list_scope.

Definition dflt (t : ty) : val :=
  match t with TBool => VBool false | TInt => VInt 0 | TUInt => VUInt 0 | TReal => VReal 0 | TUReal => VUReal (nnr_of 0) | TEUReal => VEur ebot end.
Definition I0 : interp := {| ifun := fun _ t _ => dflt t; idiv0 := fun r => r; iudiv0 := fun x => x; imod0 := fun z => z; iumod0 := fun n => n |}.
Definition J0 : jint := {| jfun := fun _ _ => JErr; jdiv0 := fun r => r; jmod0 := fun r => r |}.
Definition no_funs : string -> option (list ty * ty) := fun _ => None.
Definition isf0 : string -> bool := fun _ => false.
Lemma dflt_ty t : has_ty (dflt t) t. Proof. destruct t; reflexivity. Qed.
Lemma I0_ok : interp_ok I0. Proof. intros f t vs. apply dflt_ty. Qed.
Lemma same0 : same_interp no_funs I0 J0. Proof. repeat split. intros f ts t vs H. discriminate H. Qed.

Definition mkb n := mkid n 0 TBool.
Definition mku n := mkid n 0 TUInt.
Definition opts0 : mcopts := mkopts false false false.
Definition env_of (l : list (ident * val)) : env :=
  fun x => match find (fun p => ident_eqb (fst p) x) l with Some p => snd p | None => dflt (ity x) end.
Lemma env_of_ok l : Forall (fun p => has_ty (snd p) (ity (fst p))) l -> env_ok (env_of l).
Proof.
  intros H x. unfold env_of. destruct (find _ l) as [p|] eqn:E; [|apply dflt_ty]. apply find_some in E. destruct E as [Hp E].
  apply ident_eqb_eq in E. subst x. rewrite Forall_forall in H. auto.
Qed.

Definition e1 : expr := ECast TEUReal (b_uint 1).
Lemma ev_uint n s : ev I0 (ECast TEUReal (b_uint n)) s = fin (n2r n). Proof. reflexivity. Qed.

(** * A procedure that meets the conditions: sampling, a loop, choices, costs, assertions. *)
Definition vb := mkb "b". Definition vc := mkb "c". Definition vn := mku "n".
Definition geo : proc :=
  mkproc Down "geo" [vb] [vn]
    [Requires (EUn TEUReal OEmbed (EVar vb)); Ensures (ECast TEUReal (EVar vn))]
    (Some [SVar vc (Some (b_bool true));
           SWhile (EVar vc)
             [SAssign [vc] (ECall TBool "flip" [ELit TUReal (LFrac (1 # 2))]);
              SIf (EVar vc) [SAssign [vn] (EBin TUInt OAdd (EVar vn) (b_uint 1))] [];
              SAssert Down (ECast TEUReal (EBin TUInt OAdd (EVar vn) (b_uint 7)));
              STick e1];
           SDemonic [SAssign [vn] (ECall TUInt "unif" [b_uint 1; b_uint 6])] [SAssume Down (EUn TEUReal OEmbed (EVar vb))];
           STick e1]).
Definition geo_env : env := env_of [(vb, VBool true); (vc, VBool true)].
Lemma geo_example : exists m dir block, proc_to_model no_funs opts0 None geo = Ok m /\ encode_proc_verify geo = Some (dir, block) /\
  jproc_ok isf0 no_funs geo /\ env_ok geo_env /\ jinitial J0 m (jstate_of (proc_ids geo) geo_env) /\ m_mdp m = true.
Proof.
  do 3 eexists. split; [vm_compute; reflexivity|]. split; [reflexivity|]. split; [|split; [|split; [|reflexivity]]].
  - split; [|split; [|split]].
    + split; cbn.
      * repeat constructor; cbn; intuition discriminate.
      * unfold reward_var. intuition discriminate.
    + split; [|split].
      * cbn. repeat match goal with |- _ /\ _ => split | |- True => exact Logic.I end; try reflexivity;
          try (split; reflexivity); try (constructor; [lia | unfold u128_limit; lia ..]); try (now constructor).
      * cbn. repeat match goal with |- _ /\ _ => split | |- True => exact Logic.I end; try reflexivity; auto; try discriminate;
          try (intros x [<-|[]]; cbn; auto).
      * cbn. repeat match goal with |- _ /\ _ => split | |- True => exact Logic.I end; try reflexivity; intros x e []; try contradiction.
    + intros e [<-|[]]. repeat split.
    + intros e [<-|[]]. repeat split.
  - apply env_of_ok. repeat constructor.
  - split; [|split].
    + intros x t H. cbn in H. repeat destruct H as [H|H]; try contradiction; injection H as <- <-; cbn; auto. exists 0%Z. split; [reflexivity | lia].
    + intros x t e H. cbn in H. repeat destruct H as [H|H]; try contradiction; injection H as <- <- <-; reflexivity.
    + reflexivity.
Qed.

(** * A declaration in a loop *)
Lemma while_unfold isf I c b X s : interp_ok I -> All (wts is_dist isf) b -> All (every not_negate) b -> env_ok s ->
  wp I is_dist Least (SWhile c b) X s = if holds I c s then wp_block I is_dist Least b (wp I is_dist Least (SWhile c b) X) s else X s.
Proof.
  intros HI Hw Hn Hs. cbn [wp]. pose proof (loop_mono I is_dist Least c b (wp_block_mono I is_dist isf Least b HI Hw Hn) X) as Mo.
  apply ele_antisym; [exact (lfp_postfix _ Mo s Hs) | exact (lfp_prefix _ Mo s Hs)].
Qed.

Definition vd := mkb "d". Definition vstop := mkb "stop".
Definition twice : list stmt :=
  [SVar vc (Some (b_bool false));
   SIf (EVar vc) [STick e1] [];
   SAssign [vc] (b_bool true);
   SIf (EVar vd) [SAssign [vstop] (b_bool true)] [SAssign [vd] (b_bool true)]].
Definition loop_stmt (b : list stmt) : stmt := SWhile (EUn TBool ONot (EVar vstop)) b.
Definition loopdecl : proc :=
  mkproc Down "loopdecl" [] [vd; vstop] [Ensures (ECast TEUReal (b_uint 0))] (Some [loop_stmt twice]).

Lemma twice_steps b X : b = twice \/ b = map strip twice ->
  wp I0 is_dist Least (loop_stmt b) X (env_of []) =
  let s1 := upd (upd (env_of []) vc (VBool true)) vd (VBool true) in
  let s1' := upd (upd (upd (env_of []) vc (VBool false)) vc (VBool true)) vd (VBool true) in
  wp I0 is_dist Least (loop_stmt b) X (if match b with SVar _ _ :: _ => true | _ => false end then s1' else s1).
Proof.
  intros H. unfold loop_stmt at 1. rewrite (while_unfold isf0 I0 _ b X (env_of [])); [| apply I0_ok | | | apply env_of_ok; constructor].
  - destruct H as [-> | ->]; reflexivity.
  - destruct H as [-> | ->]; cbn; intuition; split; reflexivity.
  - destruct H as [-> | ->]; cbn; intuition.
Qed.

Lemma loop_declaration_refuted : exists p m block s,
  proc_to_model no_funs opts0 None p = Ok m /\ encode_proc_verify p = Some (Down, block) /\
  jids_ok (proc_ids p) /\ (exists b, pbody p = Some b /\ All (wts is_dist isf0) b /\ All (every (jstmt_ok (proc_ids p) no_funs)) b) /\
  env_ok s /\ jinitial J0 m (jstate_of (proc_ids p) s) /\
  total_reward J0 m (jstate_of (proc_ids p) s) = eone /\
  wp_block I0 is_dist Least block (fun _ => dir_top Down) s = ebot.
Proof.
  exists loopdecl. do 2 eexists. exists (env_of []). split; [vm_compute; reflexivity|]. split; [reflexivity|].
  assert (Hids : jids_ok (proc_ids loopdecl)).
  { split; cbn; [repeat constructor; cbn; intuition discriminate | unfold reward_var; intuition discriminate]. }
  assert (Hw : All (wts is_dist isf0) [loop_stmt twice]) by (cbn; intuition; split; reflexivity).
  assert (Hj : All (every (jstmt_ok (proc_ids loopdecl) no_funs)) [loop_stmt twice]).
  { cbn. repeat match goal with |- _ /\ _ => split | |- True => exact Logic.I end; try reflexivity; auto; try (intros x [<-|[]]; cbn; auto). }
  split; [exact Hids|]. split; [exists [loop_stmt twice]; split; [reflexivity|]; split; [exact Hw | exact Hj]|]. assert (Hs : env_ok (env_of [])) by (apply env_of_ok; constructor). split; [exact Hs|].
  split; [|split].
  - split; [|split].
    + intros x t H. cbn in H. repeat destruct H as [H|H]; try contradiction; injection H as <- <-; exact Logic.I.
    + intros x t e H. cbn in H. repeat destruct H as [H|H]; try contradiction; injection H as <- <- <-; reflexivity.
    + reflexivity.
  - match goal with |- total_reward J0 ?mm _ = _ => set (m := mm) end.
    rewrite (automaton_total (proc_ids loopdecl) no_funs isf0 I0 J0 I0_ok same0 (proj1 Hids) (proj2 Hids)
       ltac:(intros x Hx; cbn in Hx; intuition (subst; discriminate)) m [loop_stmt twice] (m_start m)
       (mkauto 7 (firstn 10 (m_edges m)) false) (fun _ => ebot) (env_of []) Hs Hw Hj eq_refl eq_refl eq_refl).
    2: { intros s t _ _. cbn [m m_post jeval jnum]. unfold n2r. cbn. reflexivity. }
    cbn [map wp_block fold_right]. change (strip (loop_stmt twice)) with (loop_stmt (map strip twice)).
    rewrite twice_steps by now right. cbn zeta. change (match map strip twice with SVar _ _ :: _ => true | _ => false end) with false. cbv iota.
    unfold loop_stmt at 1. rewrite (while_unfold isf0 I0 _ (map strip twice)); [| apply I0_ok | cbn; intuition; split; reflexivity | cbn; intuition |].
    2: { repeat (apply upd_ok; [|reflexivity]). exact Hs. }
    match goal with |- (if ?c then ?x else _) = _ => change c with true; cbv iota end.
    match goal with |- wp_block _ _ _ _ ?W ?s = _ => set (W0 := W);
      change (wp_block I0 is_dist Least (map strip twice) W0 s) with (eadd (W0 (upd (upd s vc (VBool true)) vstop (VBool true))) (fin (n2r 1))); set (s2 := upd (upd s vc (VBool true)) vstop (VBool true)) end.
    assert (E : W0 s2 = ebot).
    { unfold W0. rewrite (while_unfold isf0 I0 _ (map strip twice)); [| apply I0_ok | cbn; intuition; split; reflexivity | cbn; intuition |].
      2: { unfold s2. repeat (apply upd_ok; [|reflexivity]). exact Hs. }
      reflexivity. }
    rewrite E. apply eadd_0_l.
  - cbn [loopdecl requires ensures pspecs flat_map map app wp_block fold_right pdir].
    match goal with |- wp _ _ _ _ ?X0 _ = _ => set (X := X0) end. fold (loop_stmt twice).
    rewrite twice_steps by now left. cbn zeta. change (match twice with SVar _ _ :: _ => true | _ => false end) with true. cbv iota.
    unfold loop_stmt at 1. rewrite (while_unfold isf0 I0 _ twice); [| apply I0_ok | cbn; intuition; split; reflexivity | cbn; intuition |].
    2: { repeat (apply upd_ok; [|reflexivity]). exact Hs. }
    match goal with |- (if ?c then ?x else _) = _ => change c with true; cbv iota end.
    match goal with |- wp_block _ _ _ _ ?W ?s = _ => set (W0 := W);
      change (wp_block I0 is_dist Least twice W0 s) with (W0 (upd (upd (upd s vc (VBool false)) vc (VBool true)) vstop (VBool true))); set (s2 := upd (upd (upd s vc (VBool false)) vc (VBool true)) vstop (VBool true)) end.
    unfold W0. rewrite (while_unfold isf0 I0 _ twice); [| apply I0_ok | cbn; intuition; split; reflexivity | cbn; intuition |].
    2: { unfold s2. repeat (apply upd_ok; [|reflexivity]). exact Hs. }
    match goal with |- (if ?c then _ else ?x) = _ => change c with false; cbv iota end.
    unfold X. apply le_ebot. exact (emin_l (ev I0 (ECast TEUReal (b_uint 0)) s2) etop).
Qed.

(** * coassert with a condition *)
Definition vx := mkb "x".
Definition coas : proc :=
  mkproc Up "coas" [vx] [] [Ensures (ECast TEUReal (b_uint 0))] (Some [SAssert Up (EUn TEUReal OEmbed (EVar vx)); STick e1]).
Lemma coassert_refuted : exists p m block s,
  proc_to_model no_funs opts0 None p = Ok m /\ encode_proc_verify p = Some (Up, block) /\
  jids_ok (proc_ids p) /\ (exists b, pbody p = Some b /\ All (wts is_dist isf0) b /\ inits_ok_block b) /\
  env_ok s /\ jinitial J0 m (jstate_of (proc_ids p) s) /\
  total_reward J0 m (jstate_of (proc_ids p) s) = ebot /\
  wp_block I0 is_dist Least block (fun _ => dir_top Up) s = etop.
Proof.
  exists coas. do 2 eexists. exists (env_of [(vx, VBool true)]). split; [vm_compute; reflexivity|]. split; [reflexivity|].
  split; [split; cbn; [repeat constructor; cbn; intuition discriminate | unfold reward_var; intuition discriminate]|].
  split; [eexists; split; [reflexivity|]; split; cbn; [intuition; split; reflexivity | intuition]|].
  split; [apply env_of_ok; repeat constructor|]. split; [|split].
  - split; [|split].
    + intros x t H. cbn in H. repeat destruct H as [H|H]; try contradiction; injection H as <- <-; exact Logic.I.
    + intros x t e H. cbn in H. repeat destruct H as [H|H]; try contradiction; injection H as <- <- <-; reflexivity.
    + reflexivity.
  - match goal with |- total_reward J0 ?mm _ = _ => set (m := mm) end. apply le_ebot.
    set (V := fun (l : loc) (t : jstate) =>
      match l with LErr | LSink => ebot | LStmt 1 => match t "x"%string with JB true => ebot | _ => etop end | _ => etop end).
    apply (ele_trans _ (V (m_start m) (jstate_of (proc_ids coas) (env_of [(vx, VBool true)])))); [|apply ele_refl].
    apply total_below. intros [[|[|k]]| | |] t; try (apply ele_top).
    + unfold V at 2. destruct (t "x"%string) as [[|]| |] eqn:Et; try apply ele_top.
      unfold bellman, enabled. cbn [m m_edges filter e_src loc_eqb Nat.eqb andb e_guard jeval]. rewrite Et. cbn [negb].
      match goal with |- ele ?a _ => change a with (eadd ebot (eadd (emul eone (eadd ebot ebot)) ebot)) end.
      rewrite emul_1_l, !eadd_0_l. apply ele_refl.
    + match goal with |- ele ?a _ => change a with (eadd ebot (eadd (emul eone (eadd ebot ebot)) ebot)) end.
      rewrite emul_1_l, !eadd_0_l. apply ele_refl.
    + match goal with |- ele ?a _ => change a with (eadd ebot ebot) end. rewrite eadd_0_l. apply ele_refl.
  - apply top_le. cbn [coas requires ensures pspecs flat_map map app wp_block fold_right pdir]. cbn [wp]. apply emax_l.
Qed.

(** * Skipping preconditions also skips assumptions of the body. *)
Definition skips : proc :=
  mkproc Down "skips" [] [] [Ensures (ECast TEUReal (b_uint 7))] (Some [SAssume Down (ECast TEUReal (b_uint 5)); STick e1]).
Definition opts_skip : mcopts := mkopts true false false.
Lemma skip_refuted : exists p m block s,
  proc_to_model no_funs opts_skip None p = Ok m /\ encode_proc_verify p = Some (Down, block) /\
  jproc_ok isf0 no_funs p /\ requires p = [] /\ env_ok s /\ jinitial J0 m (jstate_of (proc_ids p) s) /\
  total_reward J0 m (jstate_of (proc_ids p) s) <> wp_block I0 is_dist Least block (fun _ => dir_top Down) s.
Proof.
  exists skips. do 2 eexists. exists (env_of []). split; [vm_compute; reflexivity|]. split; [reflexivity|].
  assert (Hok : jproc_ok isf0 no_funs skips).
  { split; [split; cbn; [constructor | intuition]|]. split; [|split].
    - cbn. repeat match goal with |- _ /\ _ => split | |- True => exact Logic.I end; try reflexivity; try (intros x e []). all: split; reflexivity.
    - intros e [].
    - intros e [<-|[]]. repeat split. }
  split; [exact Hok|]. split; [reflexivity|]. assert (Hs : env_ok (env_of [])) by (apply env_of_ok; constructor). split; [exact Hs|].
  assert (Hi : forall m, proc_to_model no_funs opts_skip None skips = Ok m -> jinitial J0 m (jstate_of (proc_ids skips) (env_of []))).
  { intros m H. vm_compute in H. injection H as <-. split; [|split]; [intros x t [] | intros x t e [] | reflexivity]. }
  split; [apply Hi; vm_compute; reflexivity|].
  rewrite (proc_reward no_funs isf0 I0 J0 opts_skip None skips _ Down _ (env_of []) I0_ok same0 Hok ltac:(vm_compute; reflexivity) eq_refl Hs)
    by (apply Hi; vm_compute; reflexivity).
  set (v := emin (ev I0 (ECast TEUReal (b_uint 7)) (env_of [])) etop).
  match goal with |- ?a <> ?b => change a with (eadd v (ev I0 e1 (env_of []))); change b with (assume_sem Down (ev I0 (ECast TEUReal (b_uint 5)) (env_of [])) (eadd v (ev I0 e1 (env_of [])))) end.
  assert (T : v = fin 7).
  { apply ele_antisym; [apply emin_l | apply emin_glb; [apply ele_refl | apply ele_top]]. }
  assert (T1 : ev I0 e1 (env_of []) = fin 1) by reflexivity. assert (T5 : ev I0 (ECast TEUReal (b_uint 5)) (env_of []) = fin 5) by reflexivity.
  rewrite T, T1, T5, eadd_fin by lra. unfold assume_sem.
  rewrite (proj2 (eleb_iff (fin 5) (fin (7 + 1)))) by (apply ele_fin; lra). intros E. discriminate E.
Qed.

(** * Panics *)
Lemma panics : (exists w, proc_to_model no_funs opts0 None (mkproc Down "p" [] [] [] None) = Panic w) /\
  (exists w, jtr no_funs (ELit TUReal (LFrac (inject_Z (2 ^ 64)))) = Panic w) /\
  (exists w x e, jtr no_funs (ESubst x e (EVar x)) = Panic w).
Proof. split; [|split]; [eexists; reflexivity | eexists; vm_compute; reflexivity | exists "not yet implemented"%string, vx, (b_bool true); reflexivity]. Qed.

Lemma jtr_no_panic fbody e : wt e = true -> jtr_safe e = true -> forall w, jtr fbody e <> Panic w.
Proof.
  assert (Bd : forall {A B} (r : res A) (f : A -> res B) w, (forall w, r <> Panic w) -> (forall a w, f a <> Panic w) -> rbind r f <> Panic w).
  { intros A B r f w H1 H2. destruct r; cbn [rbind]; auto; [discriminate|]. intros E. now apply (H1 why). }
  induction e using expr_rect'; cbn [wt jtr_safe jtr]; intros W Hs w.
  - discriminate.
  - destruct (fbody f); [|discriminate]. apply Bd; [|discriminate]. clear w. rename H into IH. induction IH as [|a l Ha Hl IHl]; [discriminate|].
    cbn [wt forallb] in *. apply andb_prop in Hs. destruct Hs as [S1 S2]. apply andb_prop in W. destruct W as [W1 W2]. intros w. apply Bd; auto. intros x w'. apply Bd; [auto | discriminate].
  - apply andb_prop in Hs. destruct Hs as [Hs S3]. apply andb_prop in Hs. destruct Hs as [S1 S2].
    repeat (apply andb_prop in W; destruct W as [W ?]). repeat (apply Bd; [auto | intros ? ?]). discriminate.
  - apply andb_prop in Hs. destruct Hs as [S1 S2]. apply andb_prop in W. destruct W as [W W3]. apply andb_prop in W. destruct W as [W1 W2].
    repeat (apply Bd; [auto | intros ? ?]). destruct op; try (apply Bd; [discriminate | discriminate]); cbn [jbinop rbind]; try discriminate.
    destruct t; cbn [jtr_sub]; try discriminate. 
  - apply andb_prop in W. destruct W as [W _]. destruct op; try discriminate; auto.
    + destruct (ty_eqb t TBool); [|discriminate]. apply Bd; [auto | discriminate].
    + apply Bd; [auto | discriminate].
  - apply andb_prop in W. destruct W as [W _]. auto.
  - discriminate.
  - discriminate.
  - destruct l; cbn [jtr_lit]; try discriminate.
    + destruct (n <? u64_bound)%N; discriminate.
    + assert (E : ((0 <=? Qnum (Qred q)) && (Qnum (Qred q) <? Z.of_N u64_bound) && (Z.pos (Qden (Qred q)) <? Z.of_N u64_bound))%Z = true); [|rewrite E; discriminate].
      apply andb_prop in Hs. destruct Hs as [Hs S3]. apply andb_prop in Hs. destruct Hs as [S1 S2].
      change (Z.of_N u64_bound) with (2 ^ 64)%Z. rewrite S2, S3, !andb_true_r. apply Z.leb_le in S1. apply Z.leb_le.
      pose proof (Qred_correct q) as Q. unfold Qeq in Q. nia.
Qed.

(** * Names *)
Definition same_names : proc :=
  mkproc Down "names" [vx] [] [Ensures e1]
    (Some [SIf (EVar vx) [SVar (mkid "y" 1 TBool) (Some (b_bool true))] [SVar (mkid "y" 2 TUInt) (Some (b_uint 0))]; STick e1]).
Lemma names_refuted : exists p m, proc_to_model no_funs opts0 None p = Ok m /\ NoDup (proc_ids p) /\ ~ NoDup (map fst (jdecls m)).
Proof.
  exists same_names. eexists. split; [vm_compute; reflexivity|]. split; [repeat constructor; cbn; intuition discriminate|].
  cbn. intros H. inversion H as [|? ? _ H1]; subst. inversion H1 as [|? ? H2 _]; subst. apply H2. now left.
Qed.
Lemma reward_refuted : exists p m, proc_to_model no_funs opts0 None p = Ok m /\ NoDup (map iname (proc_ids p)) /\
  In reward_var (map fst (jdecls m)).
Proof.
  exists (mkproc Down "r" [mku "reward"] [] [Ensures e1] (Some [STick (ECast TEUReal (EVar (mku "reward")))])). eexists. split; [vm_compute; reflexivity|].
  split; [cbn; repeat constructor; cbn; intuition|]. now left.
Qed.

(** * Lattice operators on Booleans *)
Lemma bool_min_refuted : exists e j, wt e = true /\ ty_of e = TBool /\ jtr no_funs e = Ok j /\
  forall ids s, env_ok s -> In vb ids -> In vc ids -> NoDup (map iname ids) -> jeval J0 j (jstate_of ids s) = JErr.
Proof.
  exists (EBin TBool OInf (EVar vb) (EVar vc)), (JBin JMin (JId "b") (JId "c")). repeat split.
  intros ids s Hs Hb Hc Hn. cbn [jeval]. pose proof (conc_rep ids Hn s vb Hb) as E1. pose proof (conc_rep ids Hn s vc Hc) as E2. cbn [iname vb vc mkb] in E1, E2.
  rewrite E1, E2. pose proof (Hs vb) as T1. pose proof (Hs vc) as T2. fold vb vc. destruct (s vb); try discriminate T1. destruct (s vc); try discriminate T2. reflexivity.
Qed.

Lemma expr_example : exists j, jtr no_funs (EBin TUInt OSub (EVar vn) (b_uint 1)) = Ok j /\
  wt (EBin TUInt OSub (EVar vn) (b_uint 1)) = true /\ jexp_ok [vn] no_funs (EBin TUInt OSub (EVar vn) (b_uint 1)) = true /\
  env_ok (env_of []) /\ rep [vn] (env_of []) (jstate_of [vn] (env_of [])).
Proof.
  eexists. split; [reflexivity|]. split; [reflexivity|]. split; [reflexivity|]. split; [apply env_of_ok; constructor|].
  apply conc_rep. repeat constructor. cbn. intuition.
Qed.
Lemma dtmc_example : exists m, proc_to_model no_funs opts0 None loopdecl = Ok m /\ m_mdp m = false /\ List.length (m_edges m) = 12%nat.
Proof. eexists. split; [vm_compute; reflexivity|]. split; reflexivity. Qed.
