(** Programs for C19. *)
From Coq Require Import Bool List String NArith QArith Reals Lra Relations.
From Verif.Model Require Import Syntax TyCtx AstUtil Dist Procs Encode Recursion.
From Verif.Spec Require Import Eur Sem Wp Calls Recursion.
From Verif.Proofs Require Import EurLemmas SemLemmas DistProofs SimplifyRefuted CallProofs SpecCallProofs RecProofs CallRefuted CallExamples RecursionProofs UniqueProofs.
Import ListNotations.
Local Open Scope list_scope.
Local Open Scope nat_scope.
Local Arguments eleb : simpl never.

Definition rtable (ps : list cproc) : rtcx := fun f =>
  if String.eqb f "wp" then Some (RCalculus Wp) else if String.eqb f "wlp" then Some (RCalculus Wlp)
  else match find (fun p => String.eqb (pname (cp_proc p)) f) ps with Some p => Some (RProc p) | None => None end.

Lemma table_spec ps : NoDup (map pname ps) -> forall f p, table ps f = Some p <-> In p ps /\ pname p = f.
Proof.
  intros ND f p. unfold table. split.
  - intros H. apply find_some in H. destruct H as [H1 H2]. apply String.eqb_eq in H2. auto.
  - intros [H <-]. induction ps as [|q qs IH]; [destruct H|]. cbn [find]. inversion ND; subst. destruct H as [->|H].
    + now rewrite String.eqb_refl.
    + destruct (String.eqb (pname q) (pname p)) eqn:E; auto. apply String.eqb_eq in E. exfalso. apply H2. rewrite E. now apply in_map.
Qed.
Lemma rtable_declared ps : NoDup (map (fun p => pname (cp_proc p)) ps) ->
  (forall p, In p ps -> pname (cp_proc p) <> "wp"%string /\ pname (cp_proc p) <> "wlp"%string) -> declared (rtable ps) ps.
Proof.
  intros ND HN. split; auto. split.
  - intros p Hp. unfold rtable. destruct (HN p Hp) as [H1 H2]. apply String.eqb_neq in H1, H2. rewrite H1, H2.
    assert (E : find (fun q => String.eqb (pname (cp_proc q)) (pname (cp_proc p))) ps = Some p).
    { clear H1 H2 HN. induction ps as [|q qs IH]; [destruct Hp|]. cbn [find]. inversion ND; subst. destruct Hp as [->|Hp].
      - now rewrite String.eqb_refl.
      - destruct (String.eqb (pname (cp_proc q)) (pname (cp_proc p))) eqn:E; auto. apply String.eqb_eq in E. exfalso. apply H1. rewrite E.
        apply (in_map (fun p => pname (cp_proc p))). exact Hp. }
    now rewrite E.
  - intros f p. unfold rtable. destruct (String.eqb f "wp"); [discriminate|]. destruct (String.eqb f "wlp"); [discriminate|].
    destruct (find _ ps) as [q|] eqn:E; [|discriminate]. intros [= <-]. apply find_some in E. destruct E as [H1 H2]. apply String.eqb_eq in H2. auto.
Qed.

(** ** An annotated procedure that calls an unannotated recursive one *)
(** [proc f() pre 1 post 1 { f() }  @wp proc g() pre 1 post 1 { f() }] *)
Definition loose : list cproc := [mkcproc rec_f None; mkcproc call_f (Some "wp"%string)].
Lemma call_body_ok g : directed [mkcproc rec_f g; mkcproc call_f (Some "wp"%string)] /\ resolved (rtable [mkcproc rec_f g; mkcproc call_f (Some "wp"%string)]) [mkcproc rec_f g; mkcproc call_f (Some "wp"%string)].
Proof.
  split; intros p b [<-|[<-|[]]] [= <-]; cbn; repeat constructor; discriminate.
Qed.
Lemma loose_declared : declared (rtable loose) loose.
Proof.
  apply rtable_declared.
  - repeat constructor; cbn; intuition discriminate.
  - intros p [<-|[<-|[]]]; split; discriminate.
Qed.
Lemma loose_calls f g : calls_proc (map cp_proc loose) f g -> g = "f"%string.
Proof.
  intros ((q & [<-|[<-|[]]] & <-) & p & b & Hp & _ & Hb & Hs); auto. exfalso.
  destruct Hp as [<-|[<-|[]]]; inversion Hb; subst b; apply Exists_exists in Hs; destruct Hs as (s & [<-|[]] & [H|[]]); discriminate H.
Qed.
Theorem unannotated_refuted :
  declared (rtable loose) loose /\ resolved (rtable loose) loose /\ directed loose /\
  (forall sccs, (forall g, call_graph (rtable loose) loose = Ok g -> is_sccs (cg_nodes g) (gedge g) (sccs g)) ->
     check_calculus_rules sccs (rtable loose) loose = Ok Accepted) /\
  In (mkcproc call_f (Some "wp"%string)) loose /\
  (forall p b, In p loose -> pbody (cp_proc p) = Some b -> exists T b' T', sc_block (table (map cp_proc loose)) shift Down b T = Ok (b', T') /\
     forall I, meets I (cp_proc p) (wp_block I is_dist Least b')) /\
  forall I E, ~ satisfies I call_f (least I is_dist Least (table (map cp_proc loose)) E (pname call_f)).
Proof.
  destruct (call_body_ok None) as [HX HR]. split; [exact loose_declared|]. split; [exact HR|]. split; [exact HX|]. split; [|split; [|split]].
  - intros sccs HS. destruct (calculus_checked _ _ sccs HS loose_declared HR HX) as (r & -> & H). f_equal. apply H.
    intros p [<-|[<-|[]]]; cbn; auto. split; [discriminate|]. intros c [= <-]. split.
    + right. intros R. destruct (last_step _ _ _ R) as (z & _ & C). apply loose_calls in C. discriminate C.
    + intros q c' C [<-|[<-|[]]]; [discriminate|]. apply loose_calls in C. discriminate C.
  - now right; left.
  - assert (M : forall I p, requires p = [e_one] -> ensures p = [e_one] -> pdir p = Down -> forall b X s,
        X = spec_exp I Down [e_one] -> b = fst (match sc_block (table (map cp_proc loose)) shift Down [SAssign [] (ECall TBool "f" [])] empty_tcx with Ok r => r | _ => ([], empty_tcx) end) ->
        below (pdir p) (spec_exp I (pdir p) (requires p) s) (wp_block I is_dist Least b X s)).
    { intros I p R0 E0 D0 b X s -> ->. rewrite D0, R0. cbn [below].
      assert (P : forall s, spec_exp I Down [e_one] s = fin 1).
      { intros s0. unfold spec_exp. cbn [map all_of fold_right]. rewrite e_one_ev. apply emin_top_r. }
      rewrite P.
      match goal with |- ele _ (wp_block _ _ _ ?b ?X s) => assert (E : wp_block I is_dist Least b X s =
        emin (ev I e_one s) (havoc_sem Down [] (fun s' => validate_sem Down (assume_sem Down (ev I e_one s') (X s'))) s)) by reflexivity end.
      rewrite E, e_one_ev. apply emin_glb; [apply ele_refl|]. apply einf_glb. intros r (s' & _ & ->). rewrite e_one_ev, P.
      unfold assume_sem. rewrite (proj2 (eleb_iff _ _) (ele_refl _)). apply ele_top. }
    intros p b [<-|[<-|[]]] [= <-]; exists empty_tcx; do 2 eexists; (split; [reflexivity|]); intros I s Hs; apply M; reflexivity.
  - intros I E H. specialize (H [] (st 0 0) ltac:(constructor) (st_ok 0 0)). cbn [pdir call_f below] in H.
    assert (P : forall s, spec_exp I Down [e_one] s = fin 1).
    { intros s0. unfold spec_exp. cbn [map all_of fold_right]. rewrite e_one_ev. apply emin_top_r. }
    change (requires call_f) with [e_one] in H. rewrite P in H.
    assert (K : ele (fin 1) (fin 0)).
    { eapply ele_trans; [exact H|]. apply einf_lb. exists (fun _ _ _ => ebot). split; [intros f p _ v Y Z _ _; apply ele_refl|].
      split; [|reflexivity]. intros f p v Y Hp Tv. unfold unfold_bodies. rewrite Hp. apply table_spec in Hp; [|repeat constructor; cbn; intuition discriminate].
      destruct Hp as [[<-|[<-|[]]] _]; cbn [pbody rec_f call_f cp_proc pdir];
        (eapply ele_trans; [apply einf_lb; exists (st 0 0); split; [apply st_ok | reflexivity]|]);
        cbn [wpc_block fold_right wpc call_sem]; unfold den; change (table (map cp_proc loose) "f") with (Some rec_f); apply ele_refl. }
    apply (proj1 (ele_fin 1 0 ltac:(lra) ltac:(lra))) in K. lra.
Qed.

(** ** Recursion through several procedures *)
Definition even_p : proc := mkproc Down "even" [] [] [] (Some [SDemonic [SAssign [] (ECall TBool "odd" [])] []]).
Definition odd_p : proc := mkproc Down "odd" [] [] [] (Some [SIf (EVar v_b) [SAssign [] (ECall TBool "even" [])] []]).
Definition main_p : proc := mkproc Down "main" [] [] [] (Some [SAssign [] (ECall TBool "even" []); SAssign [v_b] (ECall TBool "flip" [])]).
Definition mutual : list cproc := [mkcproc even_p (Some "wp"%string); mkcproc odd_p None; mkcproc main_p None].
Definition mutual_tcx : rtcx := fun f => if String.eqb f "flip" then Some ROther else rtable mutual f.
Lemma mutual_facts : declared mutual_tcx mutual /\ resolved mutual_tcx mutual /\ directed mutual /\
  recursive (map cp_proc mutual) "even" /\ recursive (map cp_proc mutual) "odd" /\ ~ recursive (map cp_proc mutual) "main".
Proof.
  assert (D : declared mutual_tcx mutual).
  { destruct (rtable_declared mutual) as (D1 & D2 & D3).
    - repeat constructor; cbn; intuition discriminate.
    - intros p [<-|[<-|[<-|[]]]]; split; discriminate.
    - split; auto. split.
      + intros p [<-|[<-|[<-|[]]]]; reflexivity.
      + intros f p. unfold mutual_tcx. destruct (String.eqb f "flip"); [discriminate | auto]. }
  assert (EO : calls_proc (map cp_proc mutual) "even" "odd").
  { split; [exists odd_p; cbn; auto|]. exists even_p. eexists. split; [cbn; auto|]. split; [reflexivity|]. split; [reflexivity|]. apply Exists_exists.
    eexists. split; [left; reflexivity|]. cbn. auto. }
  assert (OE : calls_proc (map cp_proc mutual) "odd" "even").
  { split; [exists even_p; cbn; auto|]. exists odd_p. eexists. split; [cbn; auto|]. split; [reflexivity|]. split; [reflexivity|]. apply Exists_exists.
    eexists. split; [left; reflexivity|]. cbn. auto. }
  split; [exact D|]. split; [|split; [|split; [|split]]].
  - intros p b [<-|[<-|[<-|[]]]] [= <-]; cbn; repeat constructor; discriminate.
  - intros p b [<-|[<-|[<-|[]]]] [= <-]; cbn; repeat constructor; intros f Hf C; cbn in C; exact C.
  - eapply t_trans; apply t_step; eauto.
  - eapply t_trans; apply t_step; eauto.
  - intros R. destruct (last_step _ _ _ R) as (z & _ & _ & p & b & Hp & _ & Hb & Hs).
    destruct Hp as [<-|[<-|[<-|[]]]]; inversion Hb; subst b; apply Exists_exists in Hs; destruct Hs as (s & Hin & Hs); cbn in Hin;
      repeat (destruct Hin as [<-|Hin]; [cbn in Hs; intuition discriminate|]); destruct Hin.
Qed.

(** ** An accepted program *)
Definition one_f : proc := mkproc Down "f" [] [] [Requires e_one; Ensures e_one] (Some []).
Definition strict : list cproc := [mkcproc one_f (Some "wp"%string); mkcproc call_f (Some "wp"%string)].
Lemma strict_calls f g : calls_proc (map cp_proc strict) f g -> f = "g"%string /\ g = "f"%string.
Proof.
  intros ((q & Hq & <-) & p & b & Hp & <- & Hb & Hs).
  destruct Hp as [<-|[<-|[]]]; inversion Hb; subst b; apply Exists_exists in Hs; destruct Hs as (s & Hin & Hs); [destruct Hin|].
  destruct Hin as [<-|[]]. cbn in Hs. destruct Hs as [Hs|[]]. auto.
Qed.
Lemma one_decl n b : decl_ok temps (mkproc Down n [] [] [Requires e_one; Ensures e_one] b).
Proof.
  constructor.
  - constructor.
  - intros x [].
  - intros e [<-|[]]. split; [split; reflexivity|]. intros y [].
  - intros e [<-|[]]. split; [split; reflexivity|]. intros y [].
Qed.
Lemma strict_facts I : interp_ok I -> (forall m n, shift m = shift n -> m = n) /\ (forall x, temps (temp shift x)) /\
  program_ok I is_dist (fun _ => false) Least (table (map cp_proc strict)) shift temps Down (fun _ _ _ => ebot) /\
  (forall f p, table (map cp_proc strict) f = Some p <-> In p (map cp_proc strict) /\ pname p = f) /\
  declared (rtable strict) strict /\ resolved (rtable strict) strict /\ directed strict /\
  (forall p, In p strict -> cp_calculus p = Some "wp"%string) /\ rtable strict "wp"%string = Some (RCalculus Wp) /\
  forall sccs, (forall g, call_graph (rtable strict) strict = Ok g -> is_sccs (cg_nodes g) (gedge g) (sccs g)) ->
    check_calculus_rules sccs (rtable strict) strict = Ok Accepted.
Proof.
  intros HI.
  assert (D : declared (rtable strict) strict).
  { apply rtable_declared; [repeat constructor; cbn; intuition discriminate|]. intros p [<-|[<-|[]]]; split; discriminate. }
  assert (R : resolved (rtable strict) strict).
  { intros p b [<-|[<-|[]]] [= <-]; cbn; repeat constructor; discriminate. }
  assert (X : directed strict).
  { intros p b [<-|[<-|[]]] [= <-]; cbn; repeat constructor. }
  assert (P : forall s, spec_exp I Down [e_one] s = fin 1).
  { intros s0. unfold spec_exp. cbn [map all_of fold_right]. rewrite e_one_ev. apply emin_top_r. }
  split; [intros m n H; injection H; auto|]. split; [intros x; now exists x|]. split; [|split; [|repeat split]].
  - intros f p Hp. apply table_spec in Hp; [|repeat constructor; cbn; intuition discriminate].
    destruct Hp as [[<-|[<-|[]]] _]; (split; [reflexivity|]); (split; [apply one_decl|]); cbn [pbody one_f call_f cp_proc].
    + split; [exact Logic.I|]. split; [exact Logic.I|]. exists empty_tcx. do 2 eexists. split; [reflexivity|]. intros s Hs. cbn [pdir one_f below]. apply ele_refl.
    + split; [|split; [cbn; auto|]].
      * cbn [All every stmt_ok]. split; auto. split; auto. unfold assignc_ok. change (table (map cp_proc strict) "f") with (Some one_f).
        split; [apply one_decl|].
        constructor; [constructor | constructor | constructor | constructor | intros x [] | constructor | discriminate | intros e _; exact Logic.I | intros e _; exact Logic.I].
      * exists empty_tcx. do 2 eexists. split; [reflexivity|]. intros s Hs. cbn [pdir call_f below]. change (requires call_f) with [e_one]. change (ensures call_f) with [e_one]. rewrite P.
        match goal with |- ele _ (wp_block _ _ _ ?b ?X s) => assert (E : wp_block I is_dist Least b X s =
          emin (ev I e_one s) (havoc_sem Down [] (fun s' => validate_sem Down (assume_sem Down (ev I e_one s') (X s'))) s)) by reflexivity end.
        rewrite E, e_one_ev. apply emin_glb; [apply ele_refl|]. apply einf_glb. intros r (s' & _ & ->). rewrite e_one_ev, P.
        unfold assume_sem. rewrite (proj2 (eleb_iff _ _) (ele_refl _)). apply ele_top.
  - apply table_spec. repeat constructor; cbn; intuition discriminate.
  - apply D.
  - apply D.
  - apply (proj2 (proj2 D) _ _ H).
  - apply (proj2 (proj2 D) _ _ H).
  - exact R.
  - exact X.
  - intros p [<-|[<-|[]]]; reflexivity.
  - intros sccs HS. destruct (calculus_checked _ _ sccs HS D R X) as (r & -> & H). f_equal. apply H.
    intros p Hp. assert (Hc : cp_calculus p = Some "wp"%string) by (destruct Hp as [<-|[<-|[]]]; reflexivity). unfold accepts. rewrite Hc. split; [discriminate|].
    intros c [= <-]. split.
    + right. intros C. assert (K : forall a b, reaches (map cp_proc strict) a b -> a = "g"%string /\ b = "f"%string).
      { clear. intros a b H. induction H; [now apply strict_calls|]. destruct IHclos_trans1, IHclos_trans2. subst. discriminate. }
      apply K in C. destruct C as [C1 C2]. rewrite C1 in C2. discriminate.
    + intros q c' _ [<-|[<-|[]]] [= <-]; reflexivity.
Qed.

(** ** Verifying one procedure at a time *)
Lemma acyclic_no_blame g l : (forall x, ~ clos_trans string (gedge g) x x) -> is_sccs (cg_nodes g) (gedge g) l -> fold_left (blame_scc g) l [] = [].
Proof.
  intros A (_ & S2 & S3). assert (K : forall m, (forall c, In c m -> In c l) -> fold_left (blame_scc g) m [] = []); [|now apply K].
  induction m as [|c m IH]; intros H; [reflexivity|]. cbn [fold_left]. assert (Hc : In c l) by (apply H; now left).
  assert (E : cyclic g c = false).
  { unfold cyclic. destruct (S2 c Hc) as [NE ND]. destruct c as [|x c]; [now elim NE|]. apply orb_false_iff. split.
    - destruct c as [|y c]; [reflexivity|]. exfalso. destruct (proj1 (S3 _ x y Hc (or_introl eq_refl)) (or_intror (or_introl eq_refl))) as [->|[H1 H2]].
      + inversion ND as [|? ? N _]. apply N. now left.
      + apply (A x). eapply t_trans; eauto.
    - apply not_true_iff_false. intros X. apply existsb_exists in X as ([a b] & Hin & X). apply andb_prop in X as [X1 X2]. apply String.eqb_eq in X1, X2. cbn in X1, X2. subst.
      apply (A x). now apply t_step. }
  unfold blame_scc at 2. rewrite E. apply IH. intros d Hd. apply H. now right.
Qed.

(** [@wp proc f() pre 1 post 1 { g() }  @wp proc g() pre 1 post 1 { f() }] *)
Definition call_g : proc := mkproc Down "f" [] [] [Requires e_one; Ensures e_one] (Some [SAssign [] (ECall TBool "g" [])]).
Definition pair_ps : list cproc := [mkcproc call_g (Some "wp"%string); mkcproc call_f (Some "wp"%string)].
Lemma pair_declared : declared (rtable pair_ps) pair_ps.
Proof.
  apply rtable_declared.
  - repeat constructor; cbn; intuition discriminate.
  - intros p [<-|[<-|[]]]; split; discriminate.
Qed.
Theorem filter_refuted :
  declared (rtable pair_ps) pair_ps /\ resolved (rtable pair_ps) pair_ps /\ directed pair_ps /\
  (forall sccs, (forall g, call_graph (rtable pair_ps) pair_ps = Ok g -> is_sccs (cg_nodes g) (gedge g) (sccs g)) ->
     check_calculus_rules sccs (rtable pair_ps) pair_ps <> Ok Accepted) /\
  (forall p, In p pair_ps -> cp_calculus p = Some "wp"%string /\
     (forall sccs, (forall g, call_graph (rtable pair_ps) [p] = Ok g -> is_sccs (cg_nodes g) (gedge g) (sccs g)) ->
        check_calculus_rules sccs (rtable pair_ps) [p] = Ok Accepted) /\
     (forall b, pbody (cp_proc p) = Some b -> exists T b' T', sc_block (table (map cp_proc pair_ps)) shift Down b T = Ok (b', T') /\
        forall I, meets I (cp_proc p) (wp_block I is_dist Least b')) /\
     forall I E, ~ satisfies I (cp_proc p) (least I is_dist Least (table (map cp_proc pair_ps)) E (pname (cp_proc p)))).
Proof.
  assert (R : resolved (rtable pair_ps) pair_ps) by (intros p b [<-|[<-|[]]] [= <-]; cbn; repeat constructor; discriminate).
  assert (X : directed pair_ps) by (intros p b [<-|[<-|[]]] [= <-]; cbn; repeat constructor; intros f Hf C; cbn in C; exact C).
  split; [exact pair_declared|]. split; [exact R|]. split; [exact X|]. split.
  - intros sccs HS A. destruct (calculus_checked _ _ sccs HS pair_declared R X) as (r & E & H). rewrite A in E. injection E as <-.
    destruct (proj1 H eq_refl (mkcproc call_f (Some "wp"%string))) as [_ K]; [cbn; auto|]. destruct (K Wp eq_refl) as [[K1|K1] _]; [discriminate|].
    apply K1. cbn [cp_proc call_f pname].
    assert (FG : calls_proc (map cp_proc pair_ps) "f" "g").
    { split; [exists call_f; cbn; auto|]. exists call_g. eexists. split; [cbn; auto|]. split; [reflexivity|]. split; [reflexivity|]. apply Exists_exists.
      eexists. split; [left; reflexivity|]. cbn. auto. }
    assert (GF : calls_proc (map cp_proc pair_ps) "g" "f").
    { split; [exists call_g; cbn; auto|]. exists call_f. eexists. split; [cbn; auto|]. split; [reflexivity|]. split; [reflexivity|]. apply Exists_exists.
      eexists. split; [left; reflexivity|]. cbn. auto. }
    eapply t_trans; apply t_step; eauto.
  - intros p Hp. split; [destruct Hp as [<-|[<-|[]]]; reflexivity|]. split; [|split].
    + assert (A : forall a b x y, a <> b -> clos_trans string (fun u v => In (u, v) [(a, b)]) x y -> x = a /\ y = b).
      { intros a b x y N C. induction C as [x y [H|[]]|x y z C1 IH1 C2 IH2]; [injection H as <- <-; auto|]. destruct IH1, IH2. subst. now elim N. }
      intros sccs HS. unfold check_calculus_rules, find_recursive_procs.
      destruct Hp as [<-|[<-|[]]].
      * specialize (HS (mkcg ["g"; "f"]%string [("g", "f")]%string) eq_refl). change (call_graph _ _) with (Ok (mkcg ["g"; "f"]%string [("g", "f")]%string)). cbn [rbind].
        rewrite (acyclic_no_blame _ _) with (2 := HS); [reflexivity|]. intros x C. destruct (A "g" "f" x x)%string as [H1 H2]; [discriminate|exact C|]. rewrite H1 in H2. discriminate H2.
      * specialize (HS (mkcg ["f"; "g"]%string [("f", "g")]%string) eq_refl). change (call_graph _ _) with (Ok (mkcg ["f"; "g"]%string [("f", "g")]%string)). cbn [rbind].
        rewrite (acyclic_no_blame _ _) with (2 := HS); [reflexivity|]. intros x C. destruct (A "f" "g" x x)%string as [H1 H2]; [discriminate|exact C|]. rewrite H1 in H2. discriminate H2.
    + assert (P : forall I s, spec_exp I Down [e_one] s = fin 1).
      { intros I s0. unfold spec_exp. cbn [map all_of fold_right]. rewrite e_one_ev. apply emin_top_r. }
      intros b Hb. destruct Hp as [<-|[<-|[]]]; injection Hb as <-; exists empty_tcx; do 2 eexists; (split; [reflexivity|]); intros I s Hs; cbn [cp_proc call_g call_f pdir below];
        [change (requires call_g) with [e_one]; change (ensures call_g) with [e_one]|change (requires call_f) with [e_one]; change (ensures call_f) with [e_one]]; rewrite P;
        (match goal with |- ele _ (wp_block _ _ _ ?b ?X s) => assert (E : wp_block I is_dist Least b X s =
          emin (ev I e_one s) (havoc_sem Down [] (fun s' => validate_sem Down (assume_sem Down (ev I e_one s') (X s'))) s)) by reflexivity end);
        rewrite E, e_one_ev; (apply emin_glb; [apply ele_refl|]); apply einf_glb; intros r (s' & _ & ->); rewrite e_one_ev, P;
        unfold assume_sem; rewrite (proj2 (eleb_iff _ _) (ele_refl _)); apply ele_top.
    + intros I E H. specialize (H [] (st 0 0) ltac:(destruct Hp as [<-|[<-|[]]]; constructor) (st_ok 0 0)).
      assert (P : forall s, spec_exp I Down [e_one] s = fin 1).
      { intros s0. unfold spec_exp. cbn [map all_of fold_right]. rewrite e_one_ev. apply emin_top_r. }
      replace (pdir (cp_proc p)) with Down in H by (destruct Hp as [<-|[<-|[]]]; reflexivity). cbn [below] in H.
      replace (requires (cp_proc p)) with [e_one] in H by (destruct Hp as [<-|[<-|[]]]; reflexivity). rewrite P in H.
      assert (K : ele (fin 1) (fin 0)).
      { eapply ele_trans; [exact H|]. apply einf_lb. exists (fun _ _ _ => ebot). split; [intros f q _ v Y Z _ _; apply ele_refl|].
        split; [|reflexivity]. intros f q v Y Hq Tv. unfold unfold_bodies. rewrite Hq. apply table_spec in Hq; [|repeat constructor; cbn; intuition discriminate].
        destruct Hq as [[<-|[<-|[]]] _]; cbn [pbody call_g call_f cp_proc pdir];
          (eapply ele_trans; [apply einf_lb; exists (st 0 0); split; [apply st_ok | reflexivity]|]);
          cbn [wpc_block fold_right wpc call_sem]; unfold den;
          [change (table (map cp_proc pair_ps) "g") with (Some call_f)|change (table (map cp_proc pair_ps) "f") with (Some call_g)]; apply ele_refl. }
      apply (proj1 (ele_fin 1 0 ltac:(lra) ltac:(lra))) in K. lra.
Qed.
