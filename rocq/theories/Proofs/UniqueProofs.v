(** Procedures that do not reach a recursive one have only one possible behaviour. *)
From Coq Require Import Bool List String Arith Lia Relations Classical FunctionalExtensionality.
From Verif.Model Require Import Syntax Procs Encode Recursion.
From Verif.Spec Require Import Eur Sem Wp Calls Recursion.
From Verif.Proofs Require Import EurLemmas SemLemmas SimLemmas WpLemmas MonoProofs CallProofs SpecCallProofs RecProofs RecursionProofs.
Import ListNotations.
Local Open Scope nat_scope.
Local Open Scope list_scope.

Section Agree.
  Variables (I : interp) (isd : string -> bool) (k : fixkind) (Den Den' : string -> option behaviour).
  Definition agree_on (es : list expr) : Prop := forall t f args, In (ECall t f args) es -> Den f = Den' f.
  Lemma call_agree xs e X : agree_on [e] -> call_sem I isd Den xs e X = call_sem I isd Den' xs e X.
  Proof. intros H. destruct e; auto. cbn [call_sem]. now rewrite (H t f args (or_introl eq_refl)). Qed.
  Lemma agree_app l l' : agree_on (l ++ l') -> agree_on l /\ agree_on l'.
  Proof. intros H. split; intros t f args Hi; apply (H t f args); apply in_or_app; auto. Qed.
  Lemma wpc_agree st : agree_on (stmt_exprs st) -> forall X, wpc I isd Den k st X = wpc I isd Den' k st X.
  Proof.
    assert (HB : forall b, Forall (fun st => agree_on (stmt_exprs st) -> forall X, wpc I isd Den k st X = wpc I isd Den' k st X) b ->
      agree_on (flat_map stmt_exprs b) -> forall X, fold_right (wpc I isd Den k) X b = fold_right (wpc I isd Den' k) X b).
    { induction 1 as [|s b Hs Hb IH]; intros A X; auto. cbn [flat_map] in A. apply agree_app in A. destruct A as [A1 A2].
      cbn [fold_right]. rewrite IH by auto. now apply Hs. }
    induction st using stmt_rect'; intros A X; cbn [wpc stmt_exprs] in *; auto.
    - match goal with |- context [match ?o with Some _ => _ | None => _ end] => destruct o end; auto. now apply call_agree.
    - now apply call_agree.
    - apply agree_app in A. destruct A as [A1 A2]. rewrite (HB a) by auto. rewrite (HB b) by auto. reflexivity.
    - apply agree_app in A. destruct A as [A1 A2]. rewrite (HB a) by auto. rewrite (HB b) by auto. reflexivity.
    - apply agree_app in A. destruct A as [A1 A2]. rewrite (HB a) by auto. rewrite (HB b) by auto. reflexivity.
    - change (c :: flat_map stmt_exprs a ++ flat_map stmt_exprs b) with ([c] ++ flat_map stmt_exprs a ++ flat_map stmt_exprs b) in A.
      apply agree_app in A. destruct A as [_ A]. apply agree_app in A. destruct A as [A1 A2]. rewrite (HB a) by auto. rewrite (HB b) by auto. reflexivity.
    - change (c :: flat_map stmt_exprs b) with ([c] ++ flat_map stmt_exprs b) in A. apply agree_app in A. destruct A as [_ A].
      assert (E : (fun (Y : exp) s => if holds I c s then fold_right (wpc I isd Den k) Y b s else X s) =
                  (fun (Y : exp) s => if holds I c s then fold_right (wpc I isd Den' k) Y b s else X s)).
      { apply functional_extensionality. intros Y. rewrite (HB b) by auto. reflexivity. }
      now rewrite E.
    - apply agree_app in A. destruct A. auto.
  Qed.
  Lemma wpc_block_agree b : agree_on (block_exprs b) -> forall X, wpc_block I isd Den k b X = wpc_block I isd Den' k b X.
  Proof.
    induction b as [|s b IH]; intros A X; auto. unfold block_exprs in A. cbn [flat_map] in A. apply agree_app in A. destruct A as [A1 A2].
    unfold wpc_block in *. cbn [fold_right]. rewrite IH by auto. now apply wpc_agree.
  Qed.
End Agree.

Section Unique.
  Variables (I : interp) (isd isf : string -> bool) (k : fixkind) (procs : string -> option proc) (variant : nat -> nat) (Tm : ident -> Prop).
  Hypothesis HI : interp_ok I.
  Hypothesis Hvar : forall m n, variant m = variant n -> m = n.
  Hypothesis HTm : forall x, Tm (temp variant x).
  Variables (d : direction) (E : system) (ps : list proc).
  Hypothesis HP : program_ok I isd isf k procs variant Tm d E.
  Hypothesis Hps : forall f p, procs f = Some p <-> In p ps /\ pname p = f.

  Definition solution (D : system) : Prop := well_behaved procs D /\
    forall f p v Y, procs f = Some p -> typed (pins p) v -> unfold_bodies I isd k procs E D f v Y = D f v Y.
  (** [f] and all it reaches are not recursive. *)
  Definition bounded (f : string) : Prop := ~ recursive ps f /\ forall g, reaches ps f g -> ~ recursive ps g.

  Definition reach_set (f : string) : list string := filter (fun g => dec (reaches ps f g)) (nodup string_dec (map pname ps)).
  Lemma reach_in f g : In g (reach_set f) <-> reaches ps f g.
  Proof.
    unfold reach_set. rewrite filter_In, nodup_In. split.
    - intros [_ H]. now apply dec_iff.
    - intros H. split; [|now apply dec_iff]. destruct (last_step _ _ _ H) as (z & _ & (q & Hq & <-) & _). now apply in_map.
  Qed.
  Lemma reach_nodup f : NoDup (reach_set f).
  Proof. apply NoDup_filter, NoDup_nodup. Qed.

  Theorem unique D D' : solution D -> solution D' -> forall f p v Y, bounded f -> procs f = Some p -> typed (pins p) v -> D f v Y = D' f v Y.
  Proof.
    intros [WD SD] [WD' SD'].
    assert (H : forall n f p v Y, List.length (reach_set f) <= n -> bounded f -> procs f = Some p -> typed (pins p) v -> D f v Y = D' f v Y).
    { induction n as [n IH] using lt_wf_ind. intros f p v Y Hn Hb Hp Tv. rewrite <- (SD f p v Y Hp Tv), <- (SD' f p v Y Hp Tv).
      unfold unfold_bodies. rewrite Hp. destruct (pbody p) as [b|] eqn:EB; auto.
      destruct (proj1 (Hps f p) Hp) as [Hin Hname].
      destruct (HP f p Hp) as (Hd & DO & HBo). rewrite EB in HBo. destruct HBo as (W & _).
      (* callees behave the same *)
      assert (HC : forall t g args q w Z, In (ECall t g args) (block_exprs b) -> procs g = Some q -> typed (pins q) w -> D g w Z = D' g w Z).
      { intros t g args q w Z Hcall Hq Tw.
        assert (Hfg : calls_proc ps f g).
        { split; [exists q; now apply Hps|]. exists p, b. repeat split; auto. apply block_exprs_spec. apply Exists_exists. eexists. split; [exact Hcall|]. cbn [calls]. now left. }
        assert (Hr : reaches ps f g) by (now apply t_step). destruct Hb as [Hb1 Hb2].
        assert (Hlt : List.length (reach_set g) < List.length (reach_set f)).
        { assert (L : List.length (g :: reach_set g) <= List.length (reach_set f)).
          { apply NoDup_incl_length.
            - constructor; [|apply reach_nodup]. rewrite reach_in. exact (Hb2 g Hr).
            - intros z [<-|Hz]; rewrite reach_in in *; auto. eapply t_trans; eauto. }
          cbn [List.length] in L. lia. }
        apply (IH (List.length (reach_set g))) with (p := q); auto; [lia|]. split; [auto|]. intros z Hz. apply Hb2. eapply t_trans; eauto. }
      set (called g := exists t args, In (ECall t g args) (block_exprs b)).
      set (Dm := fun g => if dec (called g) then D' g else D g : behaviour).
      assert (WDm : well_behaved procs Dm) by (intros g q Hq; unfold Dm; destruct (dec (called g)); auto).
      assert (L1 : sys_le procs D Dm /\ sys_le procs Dm D).
      { split; intros g q w Z Hq Tw; unfold Dm; destruct (dec (called g)) eqn:Ed; try apply ele_refl;
          apply (proj1 (dec_iff _)) in Ed; destruct Ed as (t & args & Hc); rewrite (HC t g args q w Z Hc Hq Tw); apply ele_refl. }
      destruct L1 as [L1 L2].
      assert (Q : forall s, env_ok s -> wpc_block I isd (den procs D) k b (fun s' => Y (map s' (pouts p))) (upds s (pins p) v) =
                                        wpc_block I isd (den procs D') k b (fun s' => Y (map s' (pouts p))) (upds s (pins p) v)).
      { intros s Hs. rewrite <- (wpc_block_agree I isd k (den procs Dm) (den procs D') b).
        2: { intros t g args Hc. unfold den. destruct (procs g); auto. unfold Dm. rewrite dec_true by (exists t, args; exact Hc). reflexivity. }
        assert (G : forall D1 D2, well_behaved procs D1 -> sys_le procs D1 D2 -> forall b, All (every (stmt_ok isd isf procs Tm (fun x => In x (pins p)))) b -> forall X Y, exp_le X Y ->
          exp_le (wpc_block I isd (den procs D1) k b X) (wpc_block I isd (den procs D2) k b Y)).
        { intros D1 D2 HW HL. clear - HW HL HI. induction b as [|s0 b0 IHb]; intros W0 X0 Y0 H0; [exact H0|]. destruct W0 as [W1 W2]. cbn [wpc_block fold_right].
          eapply wpc_mono2; eauto. }
        apply ele_antisym; apply G; auto; try (now apply upds_ok); intros s1 _; apply ele_refl. }
      destruct (pdir p); apply ele_antisym.
      - apply einf_glb. intros r (s & Hs & ->). rewrite <- Q by auto. apply einf_lb. eauto.
      - apply einf_glb. intros r (s & Hs & ->). rewrite Q by auto. apply einf_lb. eauto.
      - apply esup_lub. intros r (s & Hs & ->). rewrite Q by auto. apply esup_ub. eauto.
      - apply esup_lub. intros r (s & Hs & ->). rewrite <- Q by auto. apply esup_ub. eauto. }
    intros f p v Y. now apply (H (List.length (reach_set f))).
  Qed.
  Corollary greatest_is_least f p v Y : bounded f -> procs f = Some p -> typed (pins p) v ->
    greatest I isd k procs E f v Y = least I isd k procs E f v Y.
  Proof.
    intros. eapply unique; eauto.
    - split; [eapply greatest_solution; eauto | intros; eapply greatest_solution; eauto].
    - split; [eapply least_solution; eauto | intros; eapply least_solution; eauto].
  Qed.
End Unique.

Section Accepted.
  Variables (I : interp) (isd isf : string -> bool) (k : fixkind) (procs : string -> option proc) (variant : nat -> nat) (Tm : ident -> Prop).
  Hypothesis HI : interp_ok I.
  Hypothesis Hvar : forall m n, variant m = variant n -> m = n.
  Hypothesis HTm : forall x, Tm (temp variant x).
  Variables (d : direction) (E : system) (T : rtcx) (ps : list cproc) (sccs : cgraph -> list (list string)) (a : string) (c : calculus).
  Hypothesis HP : program_ok I isd isf k procs variant Tm d E.
  Hypothesis Hps : forall f p, procs f = Some p <-> In p (map cp_proc ps) /\ pname p = f.
  Hypothesis HS : forall g, call_graph T ps = Ok g -> is_sccs (cg_nodes g) (gedge g) (sccs g).
  Hypothesis HD : declared T ps.
  Hypothesis HR : resolved T ps.
  Hypothesis HX : directed ps.
  Hypothesis HA : forall p, In p ps -> cp_calculus p = Some a.
  Hypothesis HC : T a = Some (RCalculus c).
  (** Verified procedures with one calculus annotation, accepted by the checker, satisfy their specifications in the
      semantics that the calculus stands for. *)
  Theorem accepted_sound f p : check_calculus_rules sccs T ps = Ok Accepted -> procs f = Some p ->
    satisfies I p (match c with Wlp => greatest I isd k procs E f | _ => least I isd k procs E f end).
  Proof.
    intros HK Hp. destruct (calculus_checked T ps sccs HS HD HR HX) as (r & Er & Hr). rewrite HK in Er. inversion Er; subst r. clear Er.
    pose proof (proj1 Hr eq_refl) as Acc. clear Hr.
    assert (Hd : forall q, In q ps -> pdir (cp_proc q) = d).
    { intros q Hq. apply (HP (pname (cp_proc q))). apply Hps. split; auto. now apply in_map. }
    pose proof (recursion_sound I isd isf k procs variant Tm HI Hvar HTm d E f p HP Hp) as RS.
    destruct (is_induction_allowed c d) eqn:Ea; [destruct c, d; try discriminate; exact RS|].
    assert (NR : forall g, ~ recursive (map cp_proc ps) g).
    { intros g Hg. destruct (last_step _ _ _ Hg) as (z & _ & (q & Hq & <-) & _). apply in_map_iff in Hq. destruct Hq as (q0 & <- & Hq).
      pose proof (Acc q0 Hq) as A. unfold accepts in A. rewrite (HA q0 Hq) in A. destruct A as [_ A]. destruct (A c HC) as [[A1|A1] _]; auto.
      rewrite (Hd q0 Hq) in A1. congruence. }
    intros v s Tv Hs. specialize (RS v s Tv Hs).
    assert (GL : forall Y, greatest I isd k procs E f v Y = least I isd k procs E f v Y).
    { intros Y. apply (greatest_is_least I isd isf k procs variant Tm HI d E (map cp_proc ps) HP Hps f p v Y); auto. split; auto. }
    clear - Ea RS GL. destruct c, d; try discriminate; [rewrite <- GL | rewrite GL | rewrite <- GL]; exact RS.
  Qed.
End Accepted.
