(** Boolification keeps types and values; it always terminates without panic. *)
From Coq Require Import Bool List String ZArith NArith QArith Reals Qreals Lia Lra.
From Verif.Model Require Import Syntax Builder Lits Boolify.
From Verif.Spec Require Import Eur Sem Exprs.
From Verif.Proofs Require Import EurLemmas SemLemmas SimLemmas.
Import ListNotations.
Local Arguments eleb : simpl never.
Local Arguments emin : simpl never.
Local Arguments emax : simpl never.
Local Arguments etruth : simpl never.

Definition bval (f : interp -> env -> bool) (e : expr) : Prop :=
  wt e = true /\ ty_of e = TBool /\ forall I s, interp_ok I -> env_ok s -> eval I e s = VBool (f I s).
Definition leq_of (l r : expr) (I : interp) (s : env) : bool := leb (eval I l s) (eval I r s).
Definition top_of (e : expr) (I : interp) (s : env) : bool := istop (eval I e s).
Definition bot_of (e : expr) (I : interp) (s : env) : bool := isbot (eval I e s).

Lemma bval_ext f g e : (forall I s, interp_ok I -> env_ok s -> f I s = g I s) -> bval f e -> bval g e.
Proof. intros H [H1 [H2 H3]]. repeat split; auto. intros. rewrite <- H; auto. Qed.

Lemma bval_true f : (forall I s, interp_ok I -> env_ok s -> f I s = true) -> bval f (b_bool true).
Proof. intros H. repeat split. intros I s HI Hs. rewrite H; auto. Qed.

Lemma bval_bin op f g h a b : bin_ok TBool op TBool TBool = true ->
  (forall I s, interp_ok I -> env_ok s -> eval_bin I TBool op (VBool (f I s)) (VBool (g I s)) = VBool (h I s)) ->
  bval f a -> bval g b -> bval h (EBin TBool op a b).
Proof.
  intros Hok H [H1 [H2 H3]] [H4 [H5 H6]]. repeat split.
  - cbn [wt]. rewrite H1, H4, H2, H5. exact Hok.
  - intros I s HI Hs. cbn [eval]. rewrite H3, H6; auto.
Qed.
Lemma bval_ite (f g h k : interp -> env -> bool) c a b :
  (forall I s, interp_ok I -> env_ok s -> (if f I s then g I s else h I s) = k I s) ->
  bval f c -> bval g a -> bval h b -> bval k (EIte TBool c a b).
Proof.
  intros H [H1 [H2 H3]] [H4 [H5 H6]] [H7 [H8 H9]]. repeat split.
  - cbn [wt]. rewrite H1, H4, H7, H2, H5, H8. reflexivity.
  - intros I s HI Hs. cbn [eval]. rewrite H3, <- H; auto. destruct (f I s); auto.
Qed.

Definition holds' (e : expr) (I : interp) (s : env) : bool := match eval I e s with VBool b => b | _ => false end.
Lemma bval_self e : wt e = true -> ty_of e = TBool -> bval (holds' e) e.
Proof.
  intros Hw Ht. repeat split; auto. intros I s HI Hs. unfold holds'.
  destruct (eval_bool I e s HI Hw Ht Hs) as [b ->]. reflexivity.
Qed.
Lemma bval_sim e e' : ty_of e = TBool -> wt e = true -> sim e' e -> bval (holds' e) e'.
Proof.
  intros Ht Hw [H1 [H2 H3]]. repeat split; auto; try congruence. intros I s HI Hs. rewrite H3; auto.
  unfold holds'. destruct (eval_bool I e s HI Hw Ht Hs) as [b ->]. reflexivity.
Qed.

Lemma b_top_ok t : lattice t = true -> exists e, b_top t = Ok e /\ wt e = true /\ ty_of e = t /\ forall I s, eval I e s = vtop t.
Proof. destruct t; try discriminate; intros _; eexists; repeat split. Qed.
Lemma b_bot_ok t : lattice t = true -> exists e, b_bot t = Ok e /\ wt e = true /\ ty_of e = t /\ forall I s, eval I e s = vbot t.
Proof.
  destruct t; try discriminate; intros _; eexists; repeat split.
Qed.

(** Values of an expression of one of the two lattice types. *)
Lemma lat_val I e s : interp_ok I -> env_ok s -> wt e = true -> lattice (ty_of e) = true ->
  (ty_of e = TBool /\ exists b, eval I e s = VBool b) \/ (ty_of e = TEUReal /\ exists x, eval I e s = VEur x).
Proof.
  intros HI Hs Hw Hl. pose proof (eval_ty I HI e Hw s Hs) as H. destruct (ty_of e); try discriminate; inv_ty H; eauto.
Qed.

Ltac lat e := let b := fresh "b" in
  match goal with HI : interp_ok ?I, Hs : env_ok ?s, Hw : wt e = true |- _ =>
    let H := fresh in pose proof (eval_ty I HI e Hw s Hs) as H;
    destruct (ty_of e); try discriminate; apply has_ty_inv in H; destruct H as [b H]; rewrite H in * end.

Definition vspec (n : nat) : Prop := forall e e', visit n e = Ok e' -> wt e = true -> sim e' e.
Definition lspec (n : nat) : Prop := forall l r e', visit_leq n l r = Ok e' -> wt l = true -> wt r = true ->
  ty_of l = ty_of r -> bval (leq_of l r) e'.
Definition tspec (n : nat) : Prop := forall e e', visit_eq_top n e = Ok e' -> wt e = true -> bval (top_of e) e'.
Definition bspec (n : nat) : Prop := forall e e', visit_eq_bot n e = Ok e' -> wt e = true -> bval (bot_of e) e'.

Lemma sim_bval t op a b f e' : wt (EBin t op a b) = true -> t = TBool -> bval f e' ->
  (forall I s, interp_ok I -> env_ok s -> eval I (EBin t op a b) s = VBool (f I s)) -> sim e' (EBin t op a b).
Proof.
  intros Hw -> [H1 [H2 H3]] H. repeat split; auto. intros I s HI Hs. rewrite H3, H; auto.
Qed.

Lemma leq_top_l l r : wt l = true -> wt r = true -> ty_of l = ty_of r -> is_top_lit l = true ->
  forall I s, interp_ok I -> env_ok s -> top_of r I s = leq_of l r I s.
Proof.
  intros Hl Hr Ht H I s HI Hs. unfold top_of, leq_of, leb. destruct (top_lit_val I l s Hl H) as [Ha ->].
  pose proof (eval_ty I HI r Hr s Hs) as Hv. rewrite <- Ht in Hv. destruct (ty_of l); try discriminate; inv_ty Hv; rewrite Hv; simpl; auto.
Qed.
Lemma leq_bot_r l r : wt l = true -> wt r = true -> ty_of l = ty_of r -> lattice (ty_of r) = true -> is_bot_lit r = true ->
  forall I s, interp_ok I -> env_ok s -> bot_of l I s = leq_of l r I s.
Proof.
  intros Hl Hr Ht Ha H I s HI Hs. unfold bot_of, leq_of, leb. rewrite (bot_lit_val I r s Hr H Ha).
  pose proof (eval_ty I HI l Hl s Hs) as Hv. rewrite Ht in Hv. destruct (ty_of r); try discriminate; inv_ty Hv; rewrite Hv; simpl; auto.
Qed.
Lemma leq_bot_l l r : wt l = true -> wt r = true -> ty_of l = ty_of r -> lattice (ty_of l) = true -> is_bot_lit l = true ->
  forall I s, interp_ok I -> env_ok s -> leq_of l r I s = true.
Proof.
  intros Hl Hr Ht Ha H I s HI Hs. unfold leq_of, leb. rewrite (bot_lit_val I l s Hl H Ha).
  pose proof (eval_ty I HI r Hr s Hs) as Hv. rewrite <- Ht in Hv. destruct (ty_of l); try discriminate; inv_ty Hv; rewrite Hv; [reflexivity | apply eleb_bot].
Qed.
Lemma leq_top_r l r : wt l = true -> wt r = true -> ty_of l = ty_of r -> is_top_lit r = true ->
  forall I s, interp_ok I -> env_ok s -> leq_of l r I s = true.
Proof.
  intros Hl Hr Ht H I s HI Hs. unfold leq_of, leb. destruct (top_lit_val I r s Hr H) as [Ha ->].
  pose proof (eval_ty I HI l Hl s Hs) as Hv. rewrite Ht in Hv. destruct (ty_of r); try discriminate; inv_ty Hv; rewrite Hv; [now destruct b | apply eleb_top].
Qed.

Lemma un_embed_inv t a : wt (EUn t OEmbed a) = true -> t = TEUReal /\ wt a = true /\ ty_of a = TBool.
Proof. cbn [wt]. intros H. apply andb_prop in H as [H1 H2]. destruct t; simpl in H2; try discriminate. apply ty_eqb_eq in H2. auto. Qed.

Lemma wt_bin_inv t op a b : wt (EBin t op a b) = true -> wt a = true /\ wt b = true /\ bin_ok t op (ty_of a) (ty_of b) = true.
Proof. cbn [wt]. intros H. split_andb. auto. Qed.

Lemma leq_sound n : vspec n -> lspec n -> tspec n -> bspec n -> lspec (S n).
Proof.
  intros IHv IHl IHt IHb l r e' E Hl Hr Ht. cbn [visit_leq] in E.
  destruct (lattice (ty_of l)) eqn:L1; [|discriminate]. destruct (lattice (ty_of r)) eqn:L2; [|discriminate]. cbn [negb andb] in E.
  destruct (is_bot_lit l) eqn:B1.
  { inversion E; subst. apply bval_true. apply leq_bot_l; auto. }
  destruct (is_top_lit l) eqn:T1.
  { eapply bval_ext; [|eapply IHt; eauto]. apply leq_top_l; auto. }
  destruct (is_bot_lit r) eqn:B2.
  { eapply bval_ext; [|eapply IHb; eauto]. apply leq_bot_r; auto. }
  destruct (is_top_lit r) eqn:T2.
  { inversion E; subst. apply bval_true. apply leq_top_r; auto. }
  assert (Hno : forall e', (let? l' := visit n l in let? r' := visit n r in Ok (EBin TBool OLe l' r')) = Ok e' -> bval (leq_of l r) e').
  { clear E. intros e0 E. binv E. inversion E; subst. destruct (IHv _ _ Ha Hl) as [H1 [H2 H3]], (IHv _ _ Ha0 Hr) as [H4 [H5 H6]].
    repeat split.
    - cbn [wt]. rewrite H1, H4, H2, H5, Ht. destruct (ty_of r); reflexivity.
    - intros I s HI Hs. cbn [eval]. rewrite H3, H6; auto. unfold leq_of, leb. simpl.
      pose proof (eval_ty I HI l Hl s Hs) as A. pose proof (eval_ty I HI r Hr s Hs) as B. rewrite Ht in A.
      destruct (ty_of r); try discriminate; inv_ty A; inv_ty B; rewrite A, B; reflexivity. }
  set (nm := let? l' := visit n l in let? r' := visit n r in Ok (EBin TBool OLe l' r')) in *.
  assert (Hrhs : forall e', match r with
      | EUn _ OEmbed b => let? x := visit_eq_bot n l in Ok (EBin TBool OOr b x)
      | EBin _ OImpl (EUn _ OEmbed a) b => let? x := visit_leq n l b in Ok (EBin TBool OImpl a x)
      | _ => nm end = Ok e' -> bval (leq_of l r) e').
  { clear E. intros e0 E. destruct r; auto.
    - destruct op; auto. destruct r1; auto. destruct op; auto. clearbody nm.
      apply wt_bin_inv in Hr as [H [H1 H0]]. apply un_embed_inv in H as [-> [H2 H3]]. destruct t; simpl in H0; try discriminate.
      split_andb. apply ty_eqb_eq in H0. binv E. inversion E; subst.
      apply (bval_bin OImpl (holds' r1) (leq_of l r2)); auto.
      + intros I s HI Hs. unfold holds', leq_of, leb. simpl. simpl in Ht.
        destruct (eval_eur I l s HI Hl Ht Hs) as [x Hx], (eval_bool I r1 s HI H2 H3 Hs) as [y Hy], (eval_eur I r2 s HI H1 H0 Hs) as [z Hz].
        rewrite Hx, Hy, Hz. simpl. now rewrite e_le_impl.
      + apply bval_self; auto.
      + apply IHl; auto. simpl in Ht. congruence.
    - destruct op; auto. clearbody nm. apply un_embed_inv in Hr as [-> [H2 H3]]. binv E. inversion E; subst.
      apply (bval_bin OOr (holds' r) (bot_of l)); auto.
      + intros I s HI Hs. unfold holds', leq_of, leb, bot_of. simpl. simpl in Ht.
        destruct (eval_eur I l s HI Hl Ht Hs) as [x Hx], (eval_bool I r s HI H2 H3 Hs) as [y Hy].
        rewrite Hx, Hy. simpl. now rewrite e_le_truth.
      + apply bval_self; auto. }
  set (orhs := match r with EUn _ OEmbed b => _ | _ => _ end) in *. clearbody orhs nm.
  destruct l; auto.
  - destruct op; auto. destruct l1; auto. destruct op; auto. apply wt_bin_inv in Hl as [H [H1 H0]].
    apply un_embed_inv in H as [-> [H2 H3]]. destruct t; simpl in H0; try discriminate.
    apply ty_eqb_eq in H0. binv E. inversion E; subst. simpl in Ht.
    apply (bval_bin OOr (holds' l1) (leq_of l2 r)); auto.
    + intros I s HI Hs. unfold holds', leq_of, leb. simpl.
      destruct (eval_eur I r s HI Hr (eq_sym Ht) Hs) as [x Hx], (eval_bool I l1 s HI H2 H3 Hs) as [y Hy], (eval_eur I l2 s HI H1 H0 Hs) as [z Hz].
      rewrite Hx, Hy, Hz. simpl. now rewrite e_co_le.
    + apply bval_self; auto.
    + apply IHl; auto. congruence.
  - destruct op; auto. apply un_embed_inv in Hl as [-> [H2 H3]]. binv E. inversion E; subst. simpl in Ht.
    apply (bval_bin OImpl (holds' l) (top_of r)); auto.
    + intros I s HI Hs. unfold holds', leq_of, leb, top_of. simpl.
      destruct (eval_eur I r s HI Hr (eq_sym Ht) Hs) as [x Hx], (eval_bool I l s HI H2 H3 Hs) as [y Hy].
      rewrite Hx, Hy. simpl. now rewrite e_truth_le.
    + apply bval_self; auto.
Qed.

Ltac evb e := match goal with HI : interp_ok ?I, Hs : env_ok ?s, Hw : wt e = true, Ht : ty_of e = TBool |- _ =>
  let b := fresh "b" in let E := fresh in destruct (eval_bool I e s HI Hw Ht Hs) as [b E]; rewrite E end.
Ltac eve e := match goal with HI : interp_ok ?I, Hs : env_ok ?s, Hw : wt e = true, Ht : ty_of e = TEUReal |- _ =>
  let b := fresh "x" in let E := fresh in destruct (eval_eur I e s HI Hw Ht Hs) as [b E]; rewrite E end.
Ltac ty2 := repeat match goal with H : ty_eqb _ _ = true |- _ => apply ty_eqb_eq in H end.

Lemma top_sound n : vspec n -> lspec n -> tspec n -> bspec n -> tspec (S n).
Proof.
  intros IHv IHl IHt IHb e e' E Hw. cbn [visit_eq_top] in E.
  destruct (lattice (ty_of e)) eqn:L; [|discriminate]. cbn [negb] in E.
  assert (Hno : forall e', (let? x := visit n e in let? top := b_top (ty_of x) in Ok (EBin TBool OEq top x)) = Ok e' -> bval (top_of e) e').
  { clear E. intros e0 E. binv E. inversion E; subst. destruct (IHv _ _ Ha Hw) as [H1 [H2 H3]]. rewrite H2 in Ha0.
    destruct (b_top_ok _ L) as [tp [E1 [E2 [E3 E4]]]]. rewrite E1 in Ha0. inversion Ha0; subst.
    repeat split.
    - cbn [wt]. rewrite E2, H1, E3, H2. destruct (ty_of e); reflexivity.
    - intros I s HI Hs. cbn [eval]. rewrite E4, H3; auto. cbn [eval_bin]. rewrite veq_top; auto. apply eval_ty; auto. }
  set (nm := let? x := visit n e in let? top := b_top (ty_of x) in Ok (EBin TBool OEq top x)) in *. clearbody nm.
  destruct e; auto.
  - cbn [wt] in Hw. split_andb. ty2. binv E. inversion E; subst.
    apply (bval_ite (holds' e1) (top_of e2) (top_of e3)); auto.
    + intros I s HI Hs. unfold holds', top_of. cbn [eval].
      match goal with H : ty_of e1 = TBool, H' : wt e1 = true |- _ => destruct (eval_bool I e1 s HI H' H Hs) as [b ->] end.
      destruct b; auto.
    + apply bval_sim; auto.
  - cbn [wt] in Hw. split_andb. simpl in L.
    destruct op; auto.
    + (* inf *) destruct t; simpl in H0; try discriminate; split_andb; ty2; binv E; inversion E; subst;
        destruct (IHt _ _ Ha) as [A1 [A2 A3]]; auto; rewrite A2;
        apply (bval_bin OAnd (top_of e1) (top_of e2)); auto; intros I s HI Hs; unfold top_of; simpl.
      * evb e1; evb e2; auto.
      * eve e1; eve e2. simpl. now rewrite e_min_top.
    + (* sup *) destruct t; simpl in H0; try discriminate; split_andb; ty2; binv E; inversion E; subst;
        destruct (IHt _ _ Ha) as [A1 [A2 A3]]; auto; rewrite A2;
        apply (bval_bin OOr (top_of e1) (top_of e2)); auto; intros I s HI Hs; unfold top_of; simpl.
      * evb e1; evb e2; auto.
      * eve e1; eve e2. simpl. now rewrite e_max_top.
    + (* impl *) destruct t; simpl in H0; try discriminate; split_andb; ty2;
        (eapply bval_ext; [|eapply IHl; eauto; congruence]); intros I s HI Hs; unfold top_of, leq_of, leb; simpl.
      * evb e1; evb e2; auto.
      * eve e1; eve e2. simpl. now rewrite e_impl_top.
    + (* compare *) destruct t; simpl in H0; try discriminate; split_andb; ty2;
        (eapply bval_ext; [|eapply IHl; eauto; congruence]); intros I s HI Hs; unfold top_of, leq_of, leb; simpl.
      eve e1; eve e2. simpl. now rewrite e_comp_top.
  - destruct op; auto.
    + (* not *) cbn [wt] in Hw. split_andb. destruct t; simpl in H0; try discriminate; ty2;
        (eapply bval_ext; [|eapply IHb; eauto]); intros I s HI Hs; unfold top_of, bot_of; simpl.
      * evb e; auto.
      * eve e. simpl. now rewrite e_not_top.
    + (* embed *) apply un_embed_inv in Hw as [-> [H2 H3]].
      eapply bval_ext; [|eapply bval_sim; eauto]. intros I s HI Hs; unfold top_of, holds'; simpl.
      evb e; auto. simpl. now rewrite e_truth_top.
Qed.

Lemma bot_sound n : vspec n -> lspec n -> tspec n -> bspec n -> bspec (S n).
Proof.
  intros IHv IHl IHt IHb e e' E Hw. cbn [visit_eq_bot] in E.
  destruct (lattice (ty_of e)) eqn:L; [|discriminate]. cbn [negb] in E.
  assert (Hno : forall e', (let? x := visit n e in let? top := b_bot (ty_of x) in Ok (EBin TBool OEq top x)) = Ok e' -> bval (bot_of e) e').
  { clear E. intros e0 E. binv E. inversion E; subst. destruct (IHv _ _ Ha Hw) as [H1 [H2 H3]]. rewrite H2 in Ha0.
    destruct (b_bot_ok _ L) as [tp [E1 [E2 [E3 E4]]]]. rewrite E1 in Ha0. inversion Ha0; subst.
    repeat split.
    - cbn [wt]. rewrite E2, H1, E3, H2. destruct (ty_of e); reflexivity.
    - intros I s HI Hs. cbn [eval]. rewrite E4, H3; auto. cbn [eval_bin]. rewrite veq_bot; auto. apply eval_ty; auto. }
  set (nm := let? x := visit n e in let? top := b_bot (ty_of x) in Ok (EBin TBool OEq top x)) in *. clearbody nm.
  destruct e; auto.
  - cbn [wt] in Hw. split_andb. ty2. binv E. inversion E; subst.
    apply (bval_ite (holds' e1) (bot_of e2) (bot_of e3)); auto.
    + intros I s HI Hs. unfold holds', bot_of. cbn [eval].
      match goal with H : ty_of e1 = TBool, H' : wt e1 = true |- _ => destruct (eval_bool I e1 s HI H' H Hs) as [b ->] end.
      destruct b; auto.
    + apply bval_sim; auto.
  - cbn [wt] in Hw. split_andb. simpl in L.
    destruct op; auto.
    + (* inf *) destruct t; simpl in H0; try discriminate; split_andb; ty2; binv E; inversion E; subst;
        destruct (IHb _ _ Ha) as [A1 [A2 A3]]; auto; rewrite A2;
        apply (bval_bin OOr (bot_of e1) (bot_of e2)); auto; intros I s HI Hs; unfold bot_of; simpl.
      * evb e1; evb e2; auto. simpl. now rewrite negb_andb.
      * eve e1; eve e2. simpl. now rewrite e_min_bot.
    + (* sup *) destruct t; simpl in H0; try discriminate; split_andb; ty2; binv E; inversion E; subst;
        destruct (IHb _ _ Ha) as [A1 [A2 A3]]; auto; rewrite A2;
        apply (bval_bin OAnd (bot_of e1) (bot_of e2)); auto; intros I s HI Hs; unfold bot_of; simpl.
      * evb e1; evb e2; auto. simpl. now rewrite negb_orb.
      * eve e1; eve e2. simpl. now rewrite e_max_bot.
    + (* coimpl *) destruct t; simpl in H0; try discriminate; split_andb; ty2;
        (eapply bval_ext; [|eapply IHl; eauto; congruence]); intros I s HI Hs; unfold bot_of, leq_of, leb; simpl.
      eve e1; eve e2. simpl. now rewrite e_coimpl_bot.
    + (* cocompare *) destruct t; simpl in H0; try discriminate; split_andb; ty2;
        (eapply bval_ext; [|eapply IHl; eauto; congruence]); intros I s HI Hs; unfold bot_of, leq_of, leb; simpl.
      eve e1; eve e2. simpl. now rewrite e_cocomp_bot.
  - destruct op; auto.
    + (* non *) cbn [wt] in Hw. split_andb. destruct t; simpl in H0; try discriminate; ty2;
        (eapply bval_ext; [|eapply IHt; eauto]); intros I s HI Hs; unfold top_of, bot_of; simpl.
      * evb e; auto. simpl. now rewrite negb_involutive.
      * eve e. simpl. now rewrite e_non_bot.
    + (* embed *) apply un_embed_inv in Hw as [-> [H2 H3]]. binv E. inversion E; subst.
      destruct (IHv _ _ Ha H2) as [A1 [A2 A3]]. repeat split.
      * simpl. rewrite A1, A2, H3. reflexivity.
      * intros I s HI Hs; unfold bot_of; simpl. rewrite A3; auto.
        evb e; auto. simpl. now rewrite e_truth_bot.
Qed.

Lemma eval_eq_top I t l r s : interp_ok I -> env_ok s -> wt r = true -> ty_of l = ty_of r -> lattice (ty_of l) = true ->
  eval I l s = vtop (ty_of l) -> t = TBool -> eval I (EBin t OEq l r) s = VBool (top_of r I s).
Proof.
  intros HI Hs Hr Ht Hl Hv ->. cbn [eval eval_bin]. rewrite Hv, veq_top; auto. rewrite Ht. apply eval_ty; auto.
Qed.
Lemma eval_eq_bot I t l r s : interp_ok I -> env_ok s -> wt r = true -> ty_of l = ty_of r -> lattice (ty_of l) = true ->
  eval I l s = vbot (ty_of l) -> t = TBool -> eval I (EBin t OEq l r) s = VBool (bot_of r I s).
Proof.
  intros HI Hs Hr Ht Hl Hv ->. cbn [eval eval_bin]. rewrite Hv, veq_bot; auto. rewrite Ht. apply eval_ty; auto.
Qed.
Lemma eval_eq_sym I t l r s : eval I (EBin t OEq l r) s = eval I (EBin t OEq r l) s.
Proof. cbn [eval]. destruct t; try reflexivity. cbn [eval_bin]. now rewrite veq_sym. Qed.

Lemma visit_sound n : vspec n -> lspec n -> tspec n -> bspec n -> vspec (S n).
Proof.
  intros IHv IHl IHt IHb e e' E Hw. cbn [visit] in E.
  assert (Hwalk : walk_expr (visit n) e = Ok e' -> sim e' e).
  { intros H. eapply walk_sim; eauto. }
  destruct (lattice (ty_of e)) eqn:L; [|auto]. cbn [negb] in E.
  destruct e; auto. pose proof Hw as Hw0. cbn [wt] in Hw. split_andb. cbn [ty_of] in L.
  destruct (lattice (ty_of e1)) eqn:L1; [|auto].
  destruct op; auto.
  - (* == *)
    destruct t; try discriminate. simpl in H0. ty2.
    assert (L2 : lattice (ty_of e2) = true) by congruence.
    destruct (is_top_lit e1) eqn:T1.
    { eapply sim_bval; [auto| |eapply IHt; eauto|]; auto. intros. apply eval_eq_top; auto. apply top_lit_val; auto. }
    destruct (is_bot_lit e1) eqn:B1.
    { eapply sim_bval; [auto| |eapply IHb; eauto|]; auto. intros. apply eval_eq_bot; auto. apply bot_lit_val; auto. }
    destruct (is_top_lit e2) eqn:T2.
    { eapply sim_bval; [auto| |eapply IHt; eauto|]; auto. intros. rewrite eval_eq_sym. apply eval_eq_top; auto. apply top_lit_val; auto. }
    destruct (is_bot_lit e2) eqn:B2; auto.
    eapply sim_bval; [auto| |eapply IHb; eauto|]; auto. intros. rewrite eval_eq_sym. apply eval_eq_bot; auto. apply bot_lit_val; auto.
  - (* <= *)
    destruct t; try discriminate. simpl in H0. ty2.
    eapply sim_bval; [auto| |eapply IHl; eauto|]; auto. intros. cbn [eval eval_bin]. unfold leq_of, leb.
    pose proof (eval_ty I H2 e1 H s H3) as A. pose proof (eval_ty I H2 e2 H1 s H3) as B. rewrite H0 in A.
    destruct (ty_of e2); inv_ty A; inv_ty B; rewrite A, B; reflexivity.
  - (* >= *)
    destruct t; try discriminate. simpl in H0. ty2.
    eapply sim_bval; [auto| |eapply IHl; eauto|]; auto. intros. cbn [eval eval_bin]. unfold leq_of, leb.
    pose proof (eval_ty I H2 e1 H s H3) as A. pose proof (eval_ty I H2 e2 H1 s H3) as B. rewrite H0 in A.
    destruct (ty_of e2); inv_ty A; inv_ty B; rewrite A, B; reflexivity.
  - (* -> *)
    apply rbind_ok in E as [l' [El E]]. apply rbind_ok in E as [r' [Er E]].
    pose proof (IHv _ _ El H) as Sl. pose proof (IHv _ _ Er H1) as Sr.
    assert (Sb : sim (EBin t OImpl l' r') (EBin t OImpl e1 e2)) by (apply sim_bin; auto).
    assert (Hw2 : walk_expr (visit n) (EBin t OImpl l' r') = Ok e' -> sim e' (EBin t OImpl e1 e2)).
    { intros H5. eapply sim_trans; [|exact Sb]. eapply walk_sim; eauto. apply Sb. }
    destruct l'; auto. destruct op; auto.
    eapply sim_trans; [|exact Sb]. destruct Sb as [Sb1 [Sb2 _]]. apply wt_bin_inv in Sb1 as [Sb1 [Sb4 Sb3]].
    apply un_embed_inv in Sb1 as [-> [A1 A2]]. simpl in E. inversion E; subst. destruct t; simpl in Sb3; try discriminate. ty2.
    repeat split.
    + simpl. rewrite A1, A2, Sb4, Sb3. reflexivity.
    + intros I s HI Hs. simpl. destruct (eval_bool I l' s HI A1 A2 Hs) as [b ->], (eval_eur I r' s HI Sb4 Sb3 Hs) as [x ->]. simpl.
      rewrite e_truth_impl. now destruct b.
  - (* <- *)
    apply rbind_ok in E as [l' [El E]]. apply rbind_ok in E as [r' [Er E]].
    pose proof (IHv _ _ El H) as Sl. pose proof (IHv _ _ Er H1) as Sr.
    assert (Sb : sim (EBin t OCoImpl l' r') (EBin t OCoImpl e1 e2)) by (apply sim_bin; auto).
    assert (Hw2 : walk_expr (visit n) (EBin t OCoImpl l' r') = Ok e' -> sim e' (EBin t OCoImpl e1 e2)).
    { intros H5. eapply sim_trans; [|exact Sb]. eapply walk_sim; eauto. apply Sb. }
    destruct l'; auto. destruct op; auto.
    eapply sim_trans; [|exact Sb]. destruct Sb as [Sb1 [Sb2 _]]. apply wt_bin_inv in Sb1 as [Sb1 [Sb4 Sb3]].
    apply un_embed_inv in Sb1 as [-> [A1 A2]]. simpl in E. inversion E; subst. destruct t; simpl in Sb3; try discriminate. ty2.
    repeat split.
    + simpl. rewrite A1, A2, Sb4, Sb3. reflexivity.
    + intros I s HI Hs. simpl. destruct (eval_bool I l' s HI A1 A2 Hs) as [b ->], (eval_eur I r' s HI Sb4 Sb3 Hs) as [x ->]. simpl.
      rewrite e_truth_coimpl. now destruct b.
Qed.

Lemma all_sound n : vspec n /\ lspec n /\ tspec n /\ bspec n.
Proof.
  induction n as [|n [A [B [C D]]]].
  - repeat split; cbv [vspec lspec tspec bspec]; simpl; intros; discriminate.
  - split; [apply visit_sound | split; [apply leq_sound | split; [apply top_sound | apply bot_sound]]]; auto.
Qed.

(** Whatever the depth at which the recursion is cut off, a result that is produced is right. *)
Theorem boolify_sound e e' : boolify e = Ok e' -> wt e = true -> sim e' e.
Proof. apply all_sound. Qed.

Local Open Scope nat_scope.
(** * More fuel does not change the result *)
Definition lr {A} (a b : res A) : Prop := forall x, a = Ok x -> b = Ok x.
Lemma lr_refl {A} (a : res A) : lr a a.
Proof. intros x H; exact H. Qed.
Lemma lr_bind {A B} (a b : res A) (f g : A -> res B) : lr a b -> (forall x, lr (f x) (g x)) -> lr (rbind a f) (rbind b g).
Proof. intros H1 H2 x E. apply rbind_ok in E as [y [E1 E2]]. rewrite (H1 _ E1). simpl. apply H2, E2. Qed.
Lemma lr_mapr {A B} (f g : A -> res B) l : (forall x, lr (f x) (g x)) -> lr (mapr f l) (mapr g l).
Proof.
  intros H. induction l as [|a l IH]; [apply lr_refl|]. simpl. apply lr_bind; auto. intros x. apply lr_bind; auto. intros y. apply lr_refl.
Qed.
Lemma lr_walk f g e : (forall x, lr (f x) (g x)) -> lr (walk_expr f e) (walk_expr g e).
Proof.
  intros H. destruct e; cbn [walk_expr]; try apply lr_refl;
    repeat (apply lr_bind; [first [apply H | apply lr_mapr, H]|intro]); apply lr_refl.
Qed.
Lemma fuel_step n : (forall e, lr (visit n e) (visit (S n) e)) /\ (forall l r, lr (visit_leq n l r) (visit_leq (S n) l r)) /\
  (forall e, lr (visit_eq_top n e) (visit_eq_top (S n) e)) /\ (forall e, lr (visit_eq_bot n e) (visit_eq_bot (S n) e)).
Proof.
  induction n as [|n [A [B [C D]]]].
  - repeat split; intros; intros x H; discriminate H.
  - assert (S1 : forall m e, visit (S m) e = ltac:(let t := eval cbn [visit] in (visit (S m) e) in exact t)) by reflexivity.
    assert (S2 : forall m l r, visit_leq (S m) l r = ltac:(let t := eval cbn [visit_leq] in (visit_leq (S m) l r) in exact t)) by reflexivity.
    assert (S3 : forall m e, visit_eq_top (S m) e = ltac:(let t := eval cbn [visit_eq_top] in (visit_eq_top (S m) e) in exact t)) by reflexivity.
    assert (S4 : forall m e, visit_eq_bot (S m) e = ltac:(let t := eval cbn [visit_eq_bot] in (visit_eq_bot (S m) e) in exact t)) by reflexivity.
    repeat split; intros.
    + rewrite (S1 (S n)), (S1 n). clear S1 S2 S3 S4.
      repeat first [apply A | apply B | apply C | apply D | apply lr_refl | apply lr_walk; exact A
        | apply lr_bind; [|intro] | match goal with |- lr (match ?x with _ => _ end) _ => destruct x end].
    + rewrite (S2 (S n)), (S2 n). clear S1 S2 S3 S4.
      repeat first [apply A | apply B | apply C | apply D | apply lr_refl | apply lr_walk; exact A
        | apply lr_bind; [|intro] | match goal with |- lr (match ?x with _ => _ end) _ => destruct x end].
    + rewrite (S3 (S n)), (S3 n). clear S1 S2 S3 S4.
      repeat first [apply A | apply B | apply C | apply D | apply lr_refl | apply lr_walk; exact A
        | apply lr_bind; [|intro] | match goal with |- lr (match ?x with _ => _ end) _ => destruct x end].
    + rewrite (S4 (S n)), (S4 n). clear S1 S2 S3 S4.
      repeat first [apply A | apply B | apply C | apply D | apply lr_refl | apply lr_walk; exact A
        | apply lr_bind; [|intro] | match goal with |- lr (match ?x with _ => _ end) _ => destruct x end].
Qed.
Lemma fuel_mono n m e e' : n <= m -> visit n e = Ok e' -> visit m e = Ok e'.
Proof. induction 1; auto. intros H'. apply fuel_step; auto. Qed.

(** * Termination *)
Lemma w_bin t op a b : weight (EBin t op a b) =
  match op with OEq | OLe | OGe => S (2 * (weight a + weight b)) | _ => S (weight a + weight b) end.
Proof. destruct op; reflexivity. Qed.
Definition Tv n := forall e, wt e = true -> 3 * weight e + 3 <= n -> exists e', visit n e = Ok e' /\ weight e' <= weight e.
Definition Tl n := forall l r, wt l = true -> wt r = true -> ty_of l = ty_of r -> lattice (ty_of l) = true ->
  let W := 2 * (weight l + weight r) + 1 in 3 * W + 2 <= n -> exists e', visit_leq n l r = Ok e' /\ weight e' <= W.
Definition Tt n := forall e, wt e = true -> lattice (ty_of e) = true ->
  let W := 2 * weight e + 1 in 3 * W + 1 <= n -> exists e', visit_eq_top n e = Ok e' /\ weight e' <= W.
Definition Tb n := forall e, wt e = true -> lattice (ty_of e) = true ->
  let W := 2 * weight e + 1 in 3 * W + 1 <= n -> exists e', visit_eq_bot n e = Ok e' /\ weight e' <= W.

Lemma w_cast t a : weight (ECast t a) <= S (weight a).
Proof. destruct a; simpl; lia. Qed.
Lemma w_top_lit e : is_top_lit e = true -> weight e = 0.
Proof. destruct e; simpl; auto; discriminate. Qed.
Lemma w_bot_lit e : is_bot_lit e = true -> weight e = 0.
Proof. destruct e; simpl; auto; try discriminate. destruct e; simpl; auto; discriminate. Qed.

Lemma Tv_walk n e : Tv n -> wt e = true -> 3 * weight e + 3 <= S n -> exists e', walk_expr (visit n) e = Ok e' /\ weight e' <= weight e.
Proof.
  intros H Hw Hn. destruct e; cbn [walk_expr].
  - eexists; split; eauto.
  - cbn [wt] in Hw. cbn [weight] in Hn |- *. set (ws := fold_right (fun a m => weight a + m) 0) in *.
    assert (Hl : exists args', mapr (visit n) args = Ok args' /\ ws args' <= ws args).
    { assert (Hb : 3 * ws args + 3 <= n) by lia. clear Hn. induction args as [|a l IH]; simpl.
      - eexists; split; eauto.
      - simpl in Hw, Hb. apply andb_prop in Hw as [H1 H2]. fold (ws l) in *.
        destruct (H a H1) as [a' [E1 E2]]; [lia|]. destruct IH as [l' [E3 E4]]; auto; [lia|].
        rewrite E1. simpl. rewrite E3. simpl. eexists; split; eauto. simpl. fold (ws l'). lia. }
    destruct Hl as [args' [E1 E2]]. rewrite E1. simpl. eexists; split; eauto. simpl. fold (ws args'). lia.
  - cbn [wt] in Hw. cbn [weight] in *. split_andb.
    destruct (H e1) as [c' [E1 E2]]; auto; [lia|]. destruct (H e2) as [a' [E3 E4]]; auto; [lia|]. destruct (H e3) as [b' [E5 E6]]; auto; [lia|].
    rewrite E1. simpl. rewrite E3. simpl. rewrite E5. simpl. eexists; split; eauto. simpl. lia.
  - rewrite w_bin in *. cbn [wt] in Hw. split_andb.
    assert (Hb : 3 * (weight e1 + weight e2) + 3 <= n) by (destruct op; lia).
    destruct (H e1) as [c' [E1 E2]]; auto; [lia|]. destruct (H e2) as [a' [E3 E4]]; auto; [lia|].
    rewrite E1. simpl. rewrite E3. simpl. eexists; split; eauto. rewrite w_bin. destruct op; lia.
  - cbn [wt] in Hw. cbn [weight] in *. split_andb. destruct (H e) as [c' [E1 E2]]; auto; [lia|].
    rewrite E1. simpl. eexists; split; eauto. simpl. lia.
  - cbn [wt] in Hw. split_andb. 
    assert (Hlit : (exists t l, e = ELit t l) \/ weight (ECast t e) = S (weight e)) by (destruct e; eauto).
    destruct Hlit as [[t' [l ->]]|Hl].
    + assert (Hn1 : 1 <= n) by (simpl in Hn; lia). destruct n as [|n]; [lia|]. cbn [visit walk_expr].
      destruct (lattice (ty_of (ELit t' l))); cbn [negb rbind]; eexists; split; eauto.
    + destruct (H e) as [c' [E1 E2]]; auto; [lia|]. rewrite E1. cbn [rbind]. eexists; split; eauto.
      pose proof (w_cast t c'). lia.
  - cbn [wt] in Hw. cbn [weight] in *. split_andb. destruct (H e) as [c' [E1 E2]]; auto; [lia|].
    rewrite E1. simpl. eexists; split; eauto. simpl. lia.
  - cbn [wt] in Hw. cbn [weight] in *. split_andb.
    destruct (H e1) as [c' [E1 E2]]; auto; [lia|]. destruct (H e2) as [a' [E3 E4]]; auto; [lia|].
    rewrite E1. simpl. rewrite E3. simpl. eexists; split; eauto. simpl. lia.
  - eexists; split; eauto.
Qed.

Ltac go H E := let e := fresh "e" in let W := fresh "W" in destruct H as [e [E W]]; [auto.. | rewrite E; cbn [rbind]].

Lemma bin_lat t op a b : wt (EBin t op a b) = true -> lattice t = true -> match op with OInf | OSup | OImpl | OCoImpl | OCompare | OCoCompare => true | _ => false end = true ->
  wt a = true /\ wt b = true /\ ty_of a = t /\ ty_of b = t.
Proof.
  intros Hw Hl Ho. apply wt_bin_inv in Hw as [H1 [H2 H3]]. destruct t; try discriminate; destruct op; try discriminate;
    simpl in H3; try discriminate; split_andb; ty2; auto.
Qed.
Lemma un_lat t op a : wt (EUn t op a) = true -> lattice t = true -> match op with ONot | ONon => true | _ => false end = true -> wt a = true /\ ty_of a = t.
Proof. cbn [wt]. intros H Hl Ho. split_andb. destruct t, op; simpl in *; try discriminate; ty2; auto. Qed.

Lemma Tl_step n : Tv n -> Tl n -> Tt n -> Tb n -> Tl (S n).
Proof.
  intros Iv Il It Ib l r Hl Hr Ht La W Hn. assert (Lb : lattice (ty_of r) = true) by congruence.
  cbn [visit_leq]. rewrite La, Lb. cbn [negb andb].
  destruct (is_bot_lit l) eqn:B1. { eexists; split; eauto. simpl. lia. }
  destruct (is_top_lit l) eqn:T1. { destruct (It r) as [e' [E1 E2]]; auto; [lia|]. exists e'; split; auto; lia. }
  destruct (is_bot_lit r) eqn:B2. { destruct (Ib l) as [e' [E1 E2]]; auto; [lia|]. exists e'; split; auto; lia. }
  destruct (is_top_lit r) eqn:T2. { eexists; split; eauto. simpl. lia. }
  assert (Hno : exists e', (let? l' := visit n l in let? r' := visit n r in Ok (EBin TBool OLe l' r')) = Ok e' /\ weight e' <= W).
  { destruct (Iv l) as [l' [E1 E2]]; auto; [lia|]. destruct (Iv r) as [r' [E3 E4]]; auto; [lia|]. rewrite E1. simpl. rewrite E3. simpl.
    eexists; split; eauto. simpl. lia. }
  set (nm := let? l' := visit n l in let? r' := visit n r in Ok (EBin TBool OLe l' r')) in *.
  assert (Hrhs : exists e', match r with
      | EUn _ OEmbed b => let? x := visit_eq_bot n l in Ok (EBin TBool OOr b x)
      | EBin _ OImpl (EUn _ OEmbed a) b => let? x := visit_leq n l b in Ok (EBin TBool OImpl a x)
      | _ => nm end = Ok e' /\ weight e' <= W).
  { clearbody nm. destruct r; auto.
    - destruct op; auto. destruct r1; auto. destruct op; auto.
      pose proof (bin_lat _ _ _ _ Hr Lb eq_refl) as [_ [H1 [H2 H3]]]. cbn [ty_of] in *. subst W. cbn [weight] in Hn |- *.
      destruct (Il l r2) as [x [E1 E2]]; auto; try congruence; [lia|]. rewrite E1. simpl. eexists; split; eauto. simpl. lia.
    - destruct op; auto. subst W. cbn [weight] in Hn |- *. destruct (Ib l) as [x [E1 E2]]; auto; [lia|]. rewrite E1. simpl.
      eexists; split; eauto. simpl. lia. }
  set (orhs := match r with EUn _ OEmbed b => _ | _ => _ end) in *. clearbody orhs nm.
  destruct l; auto.
  - destruct op; auto. destruct l1; auto. destruct op; auto.
    pose proof (bin_lat _ _ _ _ Hl La eq_refl) as [_ [H1 [H2 H3]]]. cbn [ty_of] in *. subst W. cbn [weight] in Hn |- *.
    destruct (Il l2 r) as [x [E1 E2]]; auto; try congruence; [lia|]. rewrite E1. simpl. eexists; split; eauto. simpl. lia.
  - destruct op; auto. subst W. cbn [weight] in Hn |- *. destruct (It r) as [x [E1 E2]]; auto; [lia|]. rewrite E1. simpl.
    eexists; split; eauto. simpl. lia.
Qed.

Lemma Tt_step n : Tv n -> Tl n -> Tt n -> Tb n -> Tt (S n).
Proof.
  intros Iv Il It Ib e Hw L W Hn. cbn [visit_eq_top]. rewrite L. cbn [negb].
  assert (Hno : exists e', (let? x := visit n e in let? top := b_top (ty_of x) in Ok (EBin TBool OEq top x)) = Ok e' /\ weight e' <= W).
  { destruct (Iv e) as [e' [E1 E2]]; auto; [lia|]. rewrite E1. simpl. destruct (proj1 (all_sound n) e e' E1 Hw) as [_ [H _]]. rewrite H.
    destruct (ty_of e); try discriminate; (eexists; split; [reflexivity | simpl; lia]). }
  set (nm := let? x := visit n e in let? top := b_top (ty_of x) in Ok (EBin TBool OEq top x)) in *. clearbody nm.
  destruct e; auto.
  - cbn [wt] in Hw. split_andb. ty2. cbn [ty_of] in L. subst W. cbn [weight] in Hn |- *.
    destruct (Iv e1) as [c [E1 E2]]; auto; [lia|]. destruct (It e2) as [a [E3 E4]]; auto; try congruence; [lia|].
    destruct (It e3) as [b [E5 E6]]; auto; try congruence; [lia|]. rewrite E1. simpl. rewrite E3. simpl. rewrite E5. simpl.
    eexists; split; eauto. simpl. lia.
  - destruct op; auto; pose proof (bin_lat _ _ _ _ Hw L eq_refl) as [H0 [H1 [H2 H3]]]; cbn [ty_of] in *; subst W; cbn [weight] in Hn |- *.
    + destruct (It e1) as [a [E3 E4]]; auto; try congruence; [lia|].
      destruct (It e2) as [b [E5 E6]]; auto; try congruence; [lia|]. rewrite E3. simpl. rewrite E5. simpl. eexists; split; eauto. simpl. lia.
    + destruct (It e1) as [a [E3 E4]]; auto; try congruence; [lia|].
      destruct (It e2) as [b [E5 E6]]; auto; try congruence; [lia|]. rewrite E3. simpl. rewrite E5. simpl. eexists; split; eauto. simpl. lia.
    + destruct (Il e1 e2) as [x [E1 E2]]; auto; try congruence; [lia|]. exists x. split; auto. lia.
    + destruct (Il e1 e2) as [x [E1 E2]]; auto; try congruence; [lia|]. exists x. split; auto. lia.
  - destruct op; auto; subst W; cbn [weight] in Hn |- *.
    + pose proof (un_lat _ _ _ Hw L eq_refl) as [H0 H1]. cbn [ty_of] in *. destruct (Ib e) as [x [E1 E2]]; auto; try congruence; [lia|].
      exists x. split; auto. lia.
    + apply un_embed_inv in Hw as [_ [H0 H1]]. destruct (Iv e) as [x [E1 E2]]; auto; [lia|]. exists x; split; auto. lia.
Qed.

Lemma Tb_step n : Tv n -> Tl n -> Tt n -> Tb n -> Tb (S n).
Proof.
  intros Iv Il It Ib e Hw L W Hn. cbn [visit_eq_bot]. rewrite L. cbn [negb].
  assert (Hno : exists e', (let? x := visit n e in let? top := b_bot (ty_of x) in Ok (EBin TBool OEq top x)) = Ok e' /\ weight e' <= W).
  { destruct (Iv e) as [e' [E1 E2]]; auto; [lia|]. rewrite E1. simpl. destruct (proj1 (all_sound n) e e' E1 Hw) as [_ [H _]]. rewrite H.
    destruct (ty_of e); try discriminate; (eexists; split; [reflexivity | simpl; lia]). }
  set (nm := let? x := visit n e in let? top := b_bot (ty_of x) in Ok (EBin TBool OEq top x)) in *. clearbody nm.
  destruct e; auto.
  - cbn [wt] in Hw. split_andb. ty2. cbn [ty_of] in L. subst W. cbn [weight] in Hn |- *.
    destruct (Iv e1) as [c [E1 E2]]; auto; [lia|]. destruct (Ib e2) as [a [E3 E4]]; auto; try congruence; [lia|].
    destruct (Ib e3) as [b [E5 E6]]; auto; try congruence; [lia|]. rewrite E1. simpl. rewrite E3. simpl. rewrite E5. simpl.
    eexists; split; eauto. simpl. lia.
  - destruct op; auto; pose proof (bin_lat _ _ _ _ Hw L eq_refl) as [H0 [H1 [H2 H3]]]; cbn [ty_of] in *; subst W; cbn [weight] in Hn |- *.
    + destruct (Ib e1) as [a [E3 E4]]; auto; try congruence; [lia|].
      destruct (Ib e2) as [b [E5 E6]]; auto; try congruence; [lia|]. rewrite E3. simpl. rewrite E5. simpl. eexists; split; eauto. simpl. lia.
    + destruct (Ib e1) as [a [E3 E4]]; auto; try congruence; [lia|].
      destruct (Ib e2) as [b [E5 E6]]; auto; try congruence; [lia|]. rewrite E3. simpl. rewrite E5. simpl. eexists; split; eauto. simpl. lia.
    + destruct (Il e2 e1) as [x [E1 E2]]; auto; try congruence; [lia|]. exists x. split; auto. lia.
    + destruct (Il e2 e1) as [x [E1 E2]]; auto; try congruence; [lia|]. exists x. split; auto. lia.
  - destruct op; auto; subst W; cbn [weight] in Hn |- *.
    + pose proof (un_lat _ _ _ Hw L eq_refl) as [H0 H1]. cbn [ty_of] in *. destruct (It e) as [x [E1 E2]]; auto; try congruence; [lia|].
      exists x. split; auto. lia.
    + apply un_embed_inv in Hw as [_ [H0 H1]]. destruct (Iv e) as [x [E1 E2]]; auto; [lia|]. rewrite E1. simpl. eexists; split; eauto. simpl. lia.
Qed.

Lemma Tv_step n : Tv n -> Tl n -> Tt n -> Tb n -> Tv (S n).
Proof.
  intros Iv Il It Ib e Hw Hn. pose proof (Tv_walk n e Iv Hw Hn) as Hwk. cbn [visit].
  destruct (lattice (ty_of e)) eqn:L; cbn [negb]; auto. destruct e; auto.
  pose proof (wt_bin_inv _ _ _ _ Hw) as [H1 [H2 H3]]. cbn [ty_of] in L.
  destruct (lattice (ty_of e1)) eqn:L1; auto.
  destruct op; auto.
  - destruct t; try discriminate. simpl in H3. ty2. assert (L2 : lattice (ty_of e2) = true) by congruence. cbn [weight] in Hn |- *.
    destruct (is_top_lit e1). { destruct (It e2) as [x [E1 E2]]; auto; [lia|]. exists x; split; auto; lia. }
    destruct (is_bot_lit e1). { destruct (Ib e2) as [x [E1 E2]]; auto; [lia|]. exists x; split; auto; lia. }
    destruct (is_top_lit e2). { destruct (It e1) as [x [E1 E2]]; auto; [lia|]. exists x; split; auto; lia. }
    destruct (is_bot_lit e2); auto. destruct (Ib e1) as [x [E1 E2]]; auto; [lia|]. exists x; split; auto; lia.
  - destruct t; try discriminate. simpl in H3. ty2. cbn [weight] in Hn |- *.
    destruct (Il e1 e2) as [x [E1 E2]]; auto; [lia|]. exists x; split; auto; lia.
  - destruct t; try discriminate. simpl in H3. ty2. cbn [weight] in Hn |- *.
    destruct (Il e2 e1) as [x [E1 E2]]; auto; try congruence; [lia|]. exists x; split; auto; lia.
  - cbn [weight] in Hn |- *. destruct (Iv e1) as [l' [E1 E2]]; auto; [lia|]. destruct (Iv e2) as [r' [E3 E4]]; auto; [lia|].
    rewrite E1. cbn [rbind]. rewrite E3. cbn [rbind].
    pose proof (proj1 (all_sound n) _ _ E1 H1) as S1. pose proof (proj1 (all_sound n) _ _ E3 H2) as S2.
    destruct (sim_bin t OImpl _ _ _ _ Hw S1 S2) as [Sw _].
    assert (Hw2 : exists e', walk_expr (visit n) (EBin t OImpl l' r') = Ok e' /\ weight e' <= S (weight e1 + weight e2)).
    { destruct (Tv_walk n _ Iv Sw) as [e' [E5 E6]]; [cbn [weight]; lia|]. exists e'; split; auto. cbn [weight] in E6. lia. }
    destruct l'; auto. destruct op; auto. apply wt_bin_inv in Sw as [Sw _]. apply un_embed_inv in Sw as [-> _].
    eexists; split; [reflexivity|]. simpl in E2 |- *. lia.
  - cbn [weight] in Hn |- *. destruct (Iv e1) as [l' [E1 E2]]; auto; [lia|]. destruct (Iv e2) as [r' [E3 E4]]; auto; [lia|].
    rewrite E1. cbn [rbind]. rewrite E3. cbn [rbind].
    pose proof (proj1 (all_sound n) _ _ E1 H1) as S1. pose proof (proj1 (all_sound n) _ _ E3 H2) as S2.
    destruct (sim_bin t OCoImpl _ _ _ _ Hw S1 S2) as [Sw _].
    assert (Hw2 : exists e', walk_expr (visit n) (EBin t OCoImpl l' r') = Ok e' /\ weight e' <= S (weight e1 + weight e2)).
    { destruct (Tv_walk n _ Iv Sw) as [e' [E5 E6]]; [cbn [weight]; lia|]. exists e'; split; auto. cbn [weight] in E6. lia. }
    destruct l'; auto. destruct op; auto. apply wt_bin_inv in Sw as [Sw _]. apply un_embed_inv in Sw as [-> _].
    eexists; split; [reflexivity|]. simpl in E2 |- *. lia.
Qed.

Lemma T_all n : Tv n /\ Tl n /\ Tt n /\ Tb n.
Proof.
  induction n as [|n [A [B [C D]]]].
  - split; [|split; [|split]]; cbv [Tv Tl Tt Tb]; intros; exfalso; lia.
  - split; [apply Tv_step | split; [apply Tl_step | split; [apply Tt_step | apply Tb_step]]]; auto.
Qed.

Theorem boolify_total e : wt e = true -> exists e', boolify e = Ok e' /\ forall n, fuel e <= n -> visit n e = Ok e'.
Proof.
  intros Hw. destruct (proj1 (T_all (fuel e)) e Hw (Nat.le_refl _)) as [e' [E _]]. exists e'. split; auto.
  intros n Hn. eapply fuel_mono; eauto.
Qed.

Lemma leq_question : forall n l r e', visit_leq n l r = Ok e' -> wt l = true -> wt r = true -> ty_of l = ty_of r ->
  wt e' = true /\ ty_of e' = TBool /\
  forall I s, interp_ok I -> env_ok s -> eval I e' s = VBool true <-> vle (eval I l s) (eval I r s) = Some true.
Proof.
  intros n l r e' E Hl Hr Ht. destruct (proj1 (proj2 (all_sound n)) l r e' E Hl Hr Ht) as [H1 [H2 H3]]. repeat split; auto.
  - rewrite H3; auto. unfold leq_of, leb. destruct (vle _ _); congruence.
  - rewrite H3; auto. unfold leq_of, leb. intros ->. reflexivity.
Qed.
Lemma top_question : forall n e e', visit_eq_top n e = Ok e' -> wt e = true ->
  wt e' = true /\ ty_of e' = TBool /\
  forall I s, interp_ok I -> env_ok s ->
    eval I e' s = VBool true <-> (eval I e s = VBool true \/ eval I e s = VEur etop).
Proof.
  intros n e e' E Hw. destruct (proj1 (proj2 (proj2 (all_sound n))) e e' E Hw) as [H1 [H2 H3]]. split; [|split]; auto.
  intros I s HI Hs. rewrite H3; auto. unfold top_of, istop. split.
  - destruct (eval I e s); intros H; inversion H; subst; auto. right. f_equal. apply top_le, eleb_iff. auto.
  - intros [-> | ->]; auto.
Qed.
Lemma bot_question : forall n e e', visit_eq_bot n e = Ok e' -> wt e = true ->
  wt e' = true /\ ty_of e' = TBool /\
  forall I s, interp_ok I -> env_ok s ->
    eval I e' s = VBool true <-> (eval I e s = VBool false \/ eval I e s = VEur ebot).
Proof.
  intros n e e' E Hw. destruct (proj2 (proj2 (proj2 (all_sound n))) e e' E Hw) as [H1 [H2 H3]]. split; [|split]; auto.
  intros I s HI Hs. rewrite H3; auto. unfold bot_of, isbot. split.
  - destruct (eval I e s) as [b| | | | | x|]; intros H; inversion H as [H']; subst.
    + left. destruct b; auto; discriminate.
    + right. f_equal. apply le_ebot, eleb_iff. auto.
  - intros [-> | ->]; auto. now rewrite eleb_refl.
Qed.

Lemma bool_comparison_refuted : exists e e', wt e = true /\ some bool_cmp e = false /\
  boolify e = Ok e' /\ some bool_cmp e' = true.
Proof.
  exists (EBin TBool OEq (b_bool true) (EBin TBool OImpl (EVar (mkid "a" 0 TBool)) (EVar (mkid "b" 0 TBool)))).
  eexists. split; [reflexivity|]. split; [reflexivity|]. split; [vm_compute; reflexivity|]. reflexivity.
Qed.
Lemma size_refuted : exists e e', wt e = true /\ boolify e = Ok e' /\ (nodes e < nodes e')%nat.
Proof.
  exists (EBin TBool OLe (EUn TEUReal OEmbed (EVar (mkid "b" 0 TBool))) (EVar (mkid "x" 0 TEUReal))).
  eexists. split; [reflexivity|]. split; [vm_compute; reflexivity|]. simpl. lia.
Qed.
