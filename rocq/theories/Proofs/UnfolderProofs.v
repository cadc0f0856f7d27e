(** The unfolder. *)
From Coq Require Import Bool List String Ascii NArith Arith Lia Reals Lra.
From Verif.Model Require Import Syntax TyCtx Builder Lits AstUtil Subst Unfolder.
From Verif.Spec Require Import Eur Sem Reach.
From Verif.Proofs Require Import EurLemmas SemLemmas DistProofs TyCtxProofs SubstProofs SimLemmas EgraphProofs ConstfoldProofs.
Import ListNotations.
Local Open Scope nat_scope.

Definition good (D : ident -> Prop) (fr : frame) (G : list cond) (e e' : expr) (T T' : tyctx) : Prop :=
  extends T T' /\ no_subst e' /\ (forall z, fv z e' -> declared T' z) /\ ty_of e' = ty_of e /\ wt e' = true /\
  forall I s, interp_ok I -> env_ok s -> sat I G s -> eval I e' s = eval I e (apply_frame I fr s).

Definition unfold_ok (orc : oracle) (D : ident -> Prop) (qs : expr -> nat) (e : expr) : Prop :=
  (forall x, In x (ids e) -> D x) -> wt e = true ->
  forall T n fr G, (forall x, D x -> is_var T x) -> frame_ok D T fr ->
  exists e' T' n', unfold orc qs (T, n) fr G e = Ok (e', (T', n')) /\ good D fr G e e' T T'.

Lemma apply_frame_ok D T fr I s : interp_ok I -> env_ok s -> frame_ok D T fr -> env_ok (apply_frame I fr s).
Proof.
  intros HI Hs Hf x. unfold apply_frame. destruct (lookup (substs fr) x) as [r|] eqn:L; [|apply Hs].
  destruct (Hf x r L) as (_ & (Ht & Hw) & _). rewrite <- Ht. now apply eval_ty.
Qed.

(** What the three reachability tests give. *)
Lemma with_sat_spec orc n G e o n' : sound_oracle orc -> with_sat orc n G e = (o, n') ->
  match o with
  | Some G' => G' = Assume e :: G
  | None => forall I s, interp_ok I -> env_ok s -> sat I G s -> eval I e s <> VBool true
  end.
Proof.
  intros Ho H. unfold with_sat in H. destruct (orc n (Assume e :: G)) eqn:E; inversion H; subst; auto.
  intros I s HI Hs S V. apply (Ho _ _ E I s HI Hs). split; auto.
Qed.
(** [v] is the least / greatest element of the type of [e] *)
Lemma nonbot_spec orc n G e o n' : sound_oracle orc -> wt e = true -> with_nonbot orc n G e = (o, n') ->
  forall I s, interp_ok I -> env_ok s -> sat I G s ->
  match o with Some G' => sat I G' s \/ eval I e s = bv (ty_of e) | None => eval I e s = bv (ty_of e) end.
Proof.
  intros Ho Hw H I s HI Hs S.
  assert (U : forall t op a, (op = OEmbed \/ op = OIverson) -> e = EUn t op a -> with_sat orc n G a = (o, n') ->
    match o with Some G' => sat I G' s \/ eval I e s = bv (ty_of e) | None => eval I e s = bv (ty_of e) end).
  { intros t op a Hop -> W. cbn [wt] in Hw. split_andb. assert (t = TEUReal /\ ty_of a = TBool) as [-> Ta].
    { destruct Hop as [-> | ->]; destruct t; try discriminate; match goal with H : un_ok _ _ _ = true |- _ => apply ty_eqb_eq in H end; auto. }
    pose proof (eval_ty I HI a ltac:(auto) s Hs) as V. rewrite Ta in V. inv_ty V.
    pose proof (with_sat_spec orc n G a o n' Ho W) as P. cbn [eval ty_of]. destruct o as [G'|].
    - subst G'. destruct b; [left; simpl; auto|right]. rewrite V. destruct Hop as [-> | ->]; reflexivity.
    - specialize (P I s HI Hs S). destruct b; [congruence|]. rewrite V. destruct Hop as [-> | ->]; reflexivity. }
  destruct e; try (simpl in H; inversion H; subst; now left).
  - destruct op; try (simpl in H; inversion H; subst; now left); [eapply (U t OEmbed e) | eapply (U t OIverson e)]; auto.
  - unfold with_nonbot in H. destruct (is_bot_lit (ECast t e)) eqn:Z; inversion H; subst; [|now left]. now apply bot_val.
  - unfold with_nonbot in H. destruct (is_bot_lit (ELit t l)) eqn:Z; inversion H; subst; [|now left]. now apply bot_val.
Qed.
Lemma nontop_spec orc n G e o n' : sound_oracle orc -> wt e = true -> with_nontop orc n G e = (o, n') ->
  forall I s, interp_ok I -> env_ok s -> sat I G s ->
  match o with Some G' => sat I G' s \/ eval I e s = vtop (ty_of e) | None => eval I e s = vtop (ty_of e) end.
Proof.
  intros Ho Hw H I s HI Hs S.
  destruct e; try (simpl in H; inversion H; subst; now left).
  - destruct op; try (simpl in H; inversion H; subst; now left). unfold with_nontop in H.
    cbn [wt] in Hw. split_andb. assert (t = TEUReal /\ ty_of e = TBool) as [-> Ta].
    { destruct t; try discriminate; match goal with H : un_ok _ _ _ = true |- _ => apply ty_eqb_eq in H end; auto. }
    pose proof (eval_ty I HI e ltac:(auto) s Hs) as V. rewrite Ta in V. inv_ty V.
    pose proof (with_sat_spec orc n G _ o n' Ho H) as P. cbn [eval ty_of]. destruct o as [G'|].
    + subst G'. destruct b; [right|left; simpl; rewrite V; auto]. rewrite V. reflexivity.
    + specialize (P I s HI Hs S). unfold negate_expr in P. cbn [eval] in P. rewrite V in *. destruct b; [reflexivity|]. simpl in P. congruence.
  - unfold with_nontop in H. destruct (is_top_lit (ELit t l)) eqn:Z; inversion H; subst; [|now left]. now apply top_lit_val.
Qed.

Lemma unfold_go_eq orc qs fr G : forall args st,
  (fix go st l := match l with
                 | [] => Ok ([], st)
                 | a :: l' => let? (a', st1) := unfold orc qs st fr G a in let? (r, st2) := go st1 l' in Ok (a' :: r, st2)
                 end) st args =
  fold_right (fun a k st => let? (a', st1) := unfold orc qs st fr G a in let? (r, st2) := k st1 in Ok (a' :: r, st2)) (fun st => Ok ([], st)) args st.
Proof.
  induction args as [|a l IH]; intros st; cbn [fold_right]; [reflexivity|].
  destruct (unfold orc qs st fr G a) as [[a' st1]| |]; cbn [rbind]; auto. now rewrite IH.
Qed.

(** The two operands of a binary node, the second one possibly visited with more knowledge. *)
Lemma bin_good D fr G G1 t op a b a' b' T T1 T2 : frame_ok D T fr -> wt (EBin t op a b) = true ->
  good D fr G a a' T T1 -> good D fr G1 b b' T1 T2 ->
  (forall I s, interp_ok I -> env_ok s -> sat I G s -> sat I G1 s \/
     forall v w, has_ty v (ty_of b) -> has_ty w (ty_of b) -> eval_bin I t op (eval I a' s) v = eval_bin I t op (eval I a' s) w) ->
  good D fr G (EBin t op a b) (EBin t op a' b') T T2.
Proof.
  intros Hfr Hw (X1 & N1 & F1 & Ty1 & Wt1 & V1) (X2 & N2 & F2 & Ty2 & Wt2 & V2) H. cbn [wt] in Hw. split_andb.
  split; [eapply extends_trans; eauto|]. split; [cbn; auto|]. split; [|split; [reflexivity|split]].
  - intros z [Hz|Hz]; [apply X2, F1 | apply F2]; auto.
  - cbn [wt]. rewrite Wt1, Wt2, Ty1, Ty2. auto.
  - intros I s HI Hs S. cbn [eval]. rewrite <- (V1 I s HI Hs S). destruct (H I s HI Hs S) as [S1|E].
    + now rewrite V2.
    + apply E; [rewrite <- Ty2|]; apply eval_ty; auto. eapply apply_frame_ok; eauto.
Qed.
Lemma const_good D fr G t op a b a' z T T1 : frame_ok D T fr -> wt (EBin t op a b) = true -> good D fr G a a' T T1 ->
  wt z = true -> ty_of z = t -> no_subst z -> (forall x, ~ fv x z) ->
  (forall I s, interp_ok I -> env_ok s -> sat I G s -> forall v, has_ty v (ty_of b) -> eval_bin I t op (eval I a' s) v = eval I z s) ->
  good D fr G (EBin t op a b) z T T1.
Proof.
  intros Hfr Hw (X1 & N1 & F1 & Ty1 & Wt1 & V1) Wz Tz Nz Fz H. cbn [wt] in Hw. split_andb.
  split; [auto|]. split; [auto|]. split; [intros x Hx; destruct (Fz x Hx)|]. split; [auto|]. split; [auto|].
  intros I s HI Hs S. cbn [eval]. rewrite <- (V1 I s HI Hs S). symmetry. apply H; auto. apply eval_ty; auto. eapply apply_frame_ok; eauto.
Qed.

Lemma b_no_fv t z : b_top t = Ok z \/ b_bot t = Ok z -> no_subst z /\ forall x, ~ fv x z.
Proof. destruct t; simpl; intros [H|H]; inversion H; subst; simpl; auto. Qed.

Lemma absorb_mul I t ta tb v : bin_ok t OMul ta tb = true -> mul_ty t = true -> has_ty v tb -> eval_bin I t OMul (bv ta) v = bv t.
Proof.
  intros H M V. destruct t; try discriminate; simpl in H; split_andb;
    repeat match goal with H : ty_eqb _ _ = true |- _ => apply ty_eqb_eq in H; subst end; inv_ty V; subst; cbn [eval_bin bv zv].
  - f_equal. f_equal. rewrite nval0. apply Rmult_0_l.
  - f_equal. apply emul_0_l.
Qed.
Lemma absorb_impl I t op ta tb v : op = OImpl \/ op = OCompare -> bin_ok t op ta tb = true -> lattice t = true -> has_ty v tb -> eval_bin I t op (bv ta) v = vtop t.
Proof.
  intros O H M V. destruct O as [-> | ->]; destruct t; try discriminate; simpl in H; split_andb;
    repeat match goal with H : ty_eqb _ _ = true |- _ => apply ty_eqb_eq in H; subst end; inv_ty V; subst; cbn [eval_bin bv zv vtop];
    try rewrite eleb_bot; reflexivity.
Qed.
Lemma absorb_coimpl I t op ta tb v : op = OCoImpl \/ op = OCoCompare -> bin_ok t op ta tb = true -> has_ty v tb -> eval_bin I t op (vtop ta) v = bv t.
Proof.
  intros O H V. destruct O as [-> | ->]; destruct t; try discriminate; simpl in H; split_andb;
    repeat match goal with H : ty_eqb _ _ = true |- _ => apply ty_eqb_eq in H; subst end; inv_ty V; subst; cbn [eval_bin bv zv vtop];
    rewrite eleb_top; reflexivity.
Qed.

Lemma negate_val I c s : ty_of c = TBool -> has_ty (eval I c s) TBool -> eval I (negate_expr c) s = VBool true <-> eval I c s = VBool false.
Proof. intros _ V. inv_ty V. unfold negate_expr. cbn [eval]. rewrite V. destruct b; simpl; split; congruence. Qed.

Theorem unfold_correct orc D qs e : sound_oracle orc -> unfold_ok orc D qs e.
Proof.
  intros Ho. induction e using expr_rect'; intros HD Hwt T n fr G HT Hfr.
  - cbn [unfold]. destruct (lookup (substs fr) x) as [r|] eqn:L.
    + exists r, T, n. destruct (Hfr x r L) as (H1 & (H2 & H3) & H4). split; [reflexivity|]. split; [apply extends_refl|].
      split; [exact H1|]. split; [intros z Hz; apply H4, Hz|]. split; [exact H2|]. split; [exact H3|].
      intros I s _ _ _. cbn [eval]. unfold apply_frame. now rewrite L.
    + exists (EVar x), T, n. split; [reflexivity|]. split; [apply extends_refl|]. split; [exact Logic.I|]. split.
      * intros z Hz. cbn in Hz. subst z. apply is_var_declared, HT, HD. now left.
      * split; [reflexivity|]. split; [reflexivity|]. intros I s _ _ _. cbn [eval]. unfold apply_frame. now rewrite L.
  - cbn [unfold]. rewrite unfold_go_eq. cbn [ids wt] in *.
    assert (GG : forall T n, (forall x, D x -> is_var T x) -> frame_ok D T fr ->
      exists l T' n', fold_right (fun a k st => let? (a', st1) := unfold orc qs st fr G a in let? (r, st2) := k st1 in Ok (a' :: r, st2)) (fun st => Ok ([], st)) args (T, n) = Ok (l, (T', n')) /\ extends T T' /\ Forall no_subst l /\
        (forall z, Exists (fv z) l -> declared T' z) /\ forallb wt l = true /\
        forall I s, interp_ok I -> env_ok s -> sat I G s -> map (fun a => eval I a s) l = map (fun a => eval I a (apply_frame I fr s)) args).
    { clear T n HT Hfr. revert H HD Hwt. induction args as [|a args IH]; intros H HD Hwt T n HT Hfr; cbn [fold_right].
      - exists [], T, n. split; [reflexivity|]. split; [apply extends_refl|]. split; [constructor|].
        split; [intros z Hz; inversion Hz|]. split; reflexivity.
      - inversion H as [|? ? Ha Hargs]; subst. cbn [forallb flat_map] in *. apply andb_prop in Hwt. destruct Hwt as [W1 W2].
        destruct (Ha (fun x Hx => HD x (in_or_app _ _ _ (or_introl Hx))) W1 T n fr G HT Hfr) as (a' & T1 & n1 & E1 & X1 & N1 & F1 & Ty1 & Wt1 & V1).
        rewrite E1. cbn [rbind].
        destruct (IH Hargs (fun x Hx => HD x (in_or_app _ _ _ (or_intror Hx))) W2 T1 n1 (extends_var D T T1 HT X1) (frame_ok_extends D T T1 fr Hfr X1))
          as (l & T2 & n2 & E2 & X2 & N2 & F2 & Wt2 & V2).
        rewrite E2. cbn [rbind]. exists (a' :: l), T2, n2. split; [reflexivity|]. split; [eapply extends_trans; eauto|].
        split; [constructor; auto|]. split; [|split].
        + intros z Hz. inversion Hz; subst; auto. apply X2. auto.
        + cbn [forallb]. now rewrite Wt1, Wt2.
        + intros I s HI Hs S. cbn [map]. now rewrite V1, V2. }
    destruct (GG T n HT Hfr) as (l & T' & n' & E & X & N & F & Wt & V). rewrite E. cbn [rbind].
    exists (ECall t f l), T', n'. split; [reflexivity|]. split; [exact X|]. split; [now apply no_subst_call|].
    split; [intros z Hz; apply fv_call in Hz; auto|]. split; [reflexivity|]. split; [exact Wt|].
    intros I s HI Hs S. cbn [eval]. now rewrite V.
  - cbn [unfold]. cbn [ids wt] in *. split_andb.
    assert (D1 : forall x, In x (ids e1) -> D x) by (intros; apply HD; rewrite !in_app_iff; auto).
    assert (D2 : forall x, In x (ids e2) -> D x) by (intros; apply HD; rewrite !in_app_iff; auto).
    assert (D3 : forall x, In x (ids e3) -> D x) by (intros; apply HD; rewrite !in_app_iff; auto).
    assert (Tc : ty_of e1 = TBool) by (repeat match goal with H : ty_eqb _ _ = true |- _ => apply ty_eqb_eq in H end; auto).
    assert (Ta : ty_of e2 = t) by (repeat match goal with H : ty_eqb _ _ = true |- _ => apply ty_eqb_eq in H end; auto).
    assert (Tb : ty_of e3 = t) by (repeat match goal with H : ty_eqb _ _ = true |- _ => apply ty_eqb_eq in H end; auto).
    destruct (IHe1 D1 ltac:(assumption) T n fr G HT Hfr) as (c' & T1 & n1 & E1 & X1 & N1 & F1 & Ty1 & Wt1 & V1). rewrite E1. cbn [rbind fst snd].
    pose proof (extends_var D _ _ HT X1) as HT1. pose proof (frame_ok_extends D _ _ fr Hfr X1) as Hfr1.
    assert (Vc : forall I s, interp_ok I -> env_ok s -> has_ty (eval I c' s) TBool).
    { intros I s HI Hs. rewrite <- Tc, <- Ty1. now apply eval_ty. }
    destruct (with_sat orc n1 G c') as [o n1'] eqn:W1. pose proof (with_sat_spec _ _ _ _ _ _ Ho W1) as P1. destruct o as [G1|].
    + subst G1. destruct (IHe2 D2 ltac:(assumption) T1 n1' fr (Assume c' :: G) HT1 Hfr1) as (a' & T2 & n2 & E2 & X2 & N2 & F2 & Ty2 & Wt2 & V2). rewrite E2. cbn [rbind fst snd].
      pose proof (extends_var D _ _ HT1 X2) as HT2. pose proof (frame_ok_extends D _ _ fr Hfr1 X2) as Hfr2.
      destruct (with_sat orc n2 G (negate_expr c')) as [o n2'] eqn:W2. pose proof (with_sat_spec _ _ _ _ _ _ Ho W2) as P2. destruct o as [G2|].
      * subst G2. destruct (IHe3 D3 ltac:(assumption) T2 n2' fr (Assume (negate_expr c') :: G) HT2 Hfr2) as (b' & T3 & n3 & E3 & X3 & N3 & F3 & Ty3 & Wt3 & V3). rewrite E3. cbn [rbind].
        exists (EIte t c' a' b'), T3, n3. split; [reflexivity|]. split; [eapply extends_trans; [exact X1|]; eapply extends_trans; eauto|].
        split; [cbn; auto|]. split; [|split; [reflexivity|split]].
        -- intros z [Hz|[Hz|Hz]]; [apply X3, X2, F1 | apply X3, F2 | apply F3]; auto.
        -- cbn [wt]. rewrite Wt1, Wt2, Wt3, Ty1, Ty2, Ty3. repeat (apply andb_true_intro; split); auto.
        -- intros I s HI Hs S. cbn [eval]. rewrite <- (V1 I s HI Hs S). pose proof (Vc I s HI Hs) as V. pose proof (negate_val I c' s) as NV. rewrite Ty1 in NV.
           specialize (NV Tc V). inv_ty V. rewrite V. destruct b.
           ++ apply V2; auto. split; auto.
           ++ apply V3; auto. split; auto. apply NV; auto.
      * exists a', T2, n2'. split; [reflexivity|]. split; [eapply extends_trans; eauto|]. split; [exact N2|]. split; [exact F2|].
        split; [cbn [ty_of]; congruence|]. split; [exact Wt2|]. intros I s HI Hs S. specialize (P2 I s HI Hs S). cbn [eval]. rewrite <- (V1 I s HI Hs S).
        pose proof (Vc I s HI Hs) as V. pose proof (negate_val I c' s) as NV. rewrite Ty1 in NV. specialize (NV Tc V). inv_ty V. rewrite V. destruct b.
        ++ apply V2; auto. split; auto.
        ++ destruct P2. apply NV; auto.
    + destruct (IHe3 D3 ltac:(assumption) T1 n1' fr G HT1 Hfr1) as (b' & T3 & n3 & E3 & X3 & N3 & F3 & Ty3 & Wt3 & V3). rewrite E3.
      exists b', T3, n3. split; [reflexivity|]. split; [eapply extends_trans; eauto|]. split; [exact N3|]. split; [exact F3|].
      split; [cbn [ty_of]; congruence|]. split; [exact Wt3|]. intros I s HI Hs S. specialize (P1 I s HI Hs S). cbn [eval]. rewrite <- (V1 I s HI Hs S).
      pose proof (Vc I s HI Hs) as V. inv_ty V. rewrite V in *. destruct b; [congruence|]. now apply V3.
  - cbn [ids] in HD. pose proof Hwt as Hwt'. cbn [wt] in Hwt. split_andb.
    assert (D1 : forall x, In x (ids e1) -> D x) by (intros; apply HD; rewrite !in_app_iff; auto).
    assert (D2 : forall x, In x (ids e2) -> D x) by (intros; apply HD; rewrite !in_app_iff; auto).
    assert (BO : bin_ok t op (ty_of e1) (ty_of e2) = true) by auto.
    destruct (IHe1 D1 ltac:(assumption) T n fr G HT Hfr) as (c' & T1 & n1 & E1 & G1).
    pose proof (extends_var D _ _ HT (proj1 G1)) as HT1. pose proof (frame_ok_extends D _ _ fr Hfr (proj1 G1)) as Hfr1.
    assert (Wc : wt c' = true) by apply G1. assert (Tyc : ty_of c' = ty_of e1) by apply G1.
    assert (Plain : exists e' T' n', (let? (a', st1) := unfold orc qs (T, n) fr G e1 in let? (b', st2) := unfold orc qs st1 fr G e2 in Ok (EBin t op a' b', st2)) = Ok (e', (T', n'))
       /\ good D fr G (EBin t op e1 e2) e' T T').
    { rewrite E1. cbn [rbind]. destruct (IHe2 D2 ltac:(assumption) T1 n1 fr G HT1 Hfr1) as (b' & T2 & n2 & E2 & G2). rewrite E2. cbn [rbind].
      exists (EBin t op c' b'), T2, n2. split; [reflexivity|]. eapply bin_good; eauto. }
    assert (Prune : forall o n1' z, op = OMul /\ mul_ty t = true /\ with_nonbot orc n1 G c' = (o, n1') /\ z = b_bot t \/
                               (op = OImpl \/ op = OCompare) /\ lattice t = true /\ with_nonbot orc n1 G c' = (o, n1') /\ z = b_top t \/
                               (op = OCoImpl \/ op = OCoCompare) /\ lattice t = true /\ with_nontop orc n1 G c' = (o, n1') /\ z = b_bot t ->
      exists e' T' n', match o with
                       | Some G1 => let? (b', st2) := unfold orc qs (T1, n1') fr G1 e2 in Ok (EBin t op c' b', st2)
                       | None => let? z := z in Ok (z, (T1, n1'))
                       end = Ok (e', (T', n')) /\ good D fr G (EBin t op e1 e2) e' T T').
    { intros o n1' z HO.
      assert (V : exists zz vz, z = Ok zz /\ wt zz = true /\ ty_of zz = t /\ no_subst zz /\ (forall x, ~ fv x zz) /\ (forall I s, eval I zz s = vz) /\
                 forall I s, interp_ok I -> env_ok s -> sat I G s ->
                   match o with Some G' => sat I G' s | None => False end \/ forall v, has_ty v (ty_of e2) -> eval_bin I t op (eval I c' s) v = vz).
      { destruct HO as [(-> & M & W & ->)|[(O & M & W & ->)|(O & M & W & ->)]].
        - destruct (b_bot t) as [z| |] eqn:B; [|destruct t; discriminate..].
          destruct (bot_ok t z B) as (B1 & B2 & B3). destruct (b_no_fv t z (or_intror B)) as [B4 B5]. exists z, (bv t). repeat (split; [auto; fail|]).
          intros I s HI Hs S. pose proof (nonbot_spec orc n1 G c' o n1' Ho Wc W I s HI Hs S) as P.
          assert (Q : eval I c' s = bv (ty_of c') -> forall v, has_ty v (ty_of e2) -> eval_bin I t OMul (eval I c' s) v = bv t).
          { intros E v Hv. rewrite E, Tyc. eapply absorb_mul; eauto. }
          destruct o; [destruct P|]; auto.
        - destruct (b_top t) as [z| |] eqn:B; [|destruct t; discriminate..].
          destruct (top_ok t z B) as (B1 & B2 & B3). destruct (b_no_fv t z (or_introl B)) as [B4 B5]. exists z, (vtop t). repeat (split; [auto; fail|]).
          intros I s HI Hs S. pose proof (nonbot_spec orc n1 G c' o n1' Ho Wc W I s HI Hs S) as P.
          assert (Q : eval I c' s = bv (ty_of c') -> forall v, has_ty v (ty_of e2) -> eval_bin I t op (eval I c' s) v = vtop t).
          { intros E v Hv. rewrite E, Tyc. eapply absorb_impl; eauto. }
          destruct o; [destruct P|]; auto.
        - destruct (b_bot t) as [z| |] eqn:B; [|destruct t; discriminate..].
          destruct (bot_ok t z B) as (B1 & B2 & B3). destruct (b_no_fv t z (or_intror B)) as [B4 B5]. exists z, (bv t). repeat (split; [auto; fail|]).
          intros I s HI Hs S. pose proof (nontop_spec orc n1 G c' o n1' Ho Wc W I s HI Hs S) as P.
          assert (Q : eval I c' s = vtop (ty_of c') -> forall v, has_ty v (ty_of e2) -> eval_bin I t op (eval I c' s) v = bv t).
          { intros E v Hv. rewrite E, Tyc. eapply absorb_coimpl; eauto. }
          destruct o; [destruct P|]; auto. }
      destruct V as (zz & vz & -> & Z1 & Z2 & Z3 & Z4 & Z5 & Z6). destruct o as [G'|].
      - destruct (IHe2 D2 ltac:(assumption) T1 n1' fr G' HT1 Hfr1) as (b' & T2 & n2 & E2 & G2). rewrite E2. cbn [rbind].
        exists (EBin t op c' b'), T2, n2. split; [reflexivity|]. eapply bin_good; eauto.
        intros I s HI Hs S. destruct (Z6 I s HI Hs S) as [Q|Q]; auto. right. intros v w Hv Hw. now rewrite !Q.
      - cbn [rbind]. exists zz, T1, n1'. split; [reflexivity|]. eapply const_good; eauto.
        intros I s HI Hs S v Hv. rewrite Z5. destruct (Z6 I s HI Hs S) as [[]|Q]; auto. }
    cbn [unfold]. destruct op; try exact Plain.
    + destruct (mul_ty t) eqn:M; [|exact Plain]. rewrite E1. cbn [rbind fst snd]. destruct (with_nonbot orc n1 G c') as [o n1'] eqn:W. apply Prune. left. auto.
    + destruct (lattice t) eqn:M; [|exact Plain]. rewrite E1. cbn [rbind fst snd]. destruct (with_nonbot orc n1 G c') as [o n1'] eqn:W. apply Prune. right; left. auto.
    + destruct (lattice t) eqn:M; [|exact Plain]. rewrite E1. cbn [rbind fst snd]. destruct (with_nontop orc n1 G c') as [o n1'] eqn:W. apply Prune. right; right. auto.
    + destruct (lattice t) eqn:M; [|exact Plain]. rewrite E1. cbn [rbind fst snd]. destruct (with_nonbot orc n1 G c') as [o n1'] eqn:W. apply Prune. right; left. auto.
    + destruct (lattice t) eqn:M; [|exact Plain]. rewrite E1. cbn [rbind fst snd]. destruct (with_nontop orc n1 G c') as [o n1'] eqn:W. apply Prune. right; right. auto.
  - cbn [unfold]. cbn [ids wt] in *. split_andb. destruct (IHe HD ltac:(assumption) T n fr G HT Hfr) as (c' & T1 & n1 & E1 & X1 & N1 & F1 & Ty1 & Wt1 & V1). rewrite E1. cbn [rbind].
    eexists _, T1, n1. split; [reflexivity|]. split; [exact X1|]. split; [exact N1|]. split; [exact F1|]. split; [reflexivity|].
    split; [cbn [wt]; rewrite Wt1, Ty1; auto|]. intros I s HI Hs S. cbn [eval]. now rewrite V1.
  - cbn [unfold]. cbn [ids wt] in *. split_andb. destruct (IHe HD ltac:(assumption) T n fr G HT Hfr) as (c' & T1 & n1 & E1 & X1 & N1 & F1 & Ty1 & Wt1 & V1). rewrite E1. cbn [rbind].
    eexists _, T1, n1. split; [reflexivity|]. split; [exact X1|]. split; [exact N1|]. split; [exact F1|]. split; [reflexivity|].
    split; [cbn [wt]; rewrite Wt1, Ty1; auto|]. intros I s HI Hs S. cbn [eval]. now rewrite V1.
  - cbn [unfold]. cbn [ids wt] in *. split_andb.
    assert (D1 : forall x, In x (ids e) -> D x) by (intros; apply HD; rewrite !in_app_iff; auto).
    assert (D2 : forall v, In v xs -> D (qname v)) by (intros; apply HD; rewrite !in_app_iff; left; now apply in_map).
    cbn [fst snd].
    destruct (push_quant_spec D (qs (EQuant op xs e)) xs T fr HT D2 Hfr) as (vs & fr' & T1 & E1 & X1 & Hfr' & Sp). rewrite E1. cbn [rbind].
    destruct (IHe D1 ltac:(assumption) T1 n fr' (Forget (map qname vs) :: G) (extends_var D _ _ HT X1) Hfr') as (b' & T2 & n2 & E2 & X2 & N2 & F2 & Ty2 & Wt2 & V2). rewrite E2. cbn [rbind].
    exists (EQuant op vs b'), T2, n2. split; [reflexivity|]. split; [eapply extends_trans; eauto|]. split; [exact N2|].
    split; [intros z [Hz _]; auto|]. split; [exact Ty2|]. split; [cbn [wt]; rewrite Wt2, Ty2; auto|].
    intros I s HI Hs S. destruct (Sp I s) as [S1 S2].
    assert (V3 : forall s', havocked (map qname vs) s s' -> eval I b' s' = eval I e (apply_frame I fr' s')).
    { intros s' H'. apply V2; auto; [eapply havocked_ok; eauto|]. exists s. auto. }
    assert (R : forall v, (exists s', havocked (map qname vs) s s' /\ eval I b' s' = v) <->
                          (exists t, havocked (map qname xs) (apply_frame I fr s) t /\ eval I e t = v)).
    { intros v. split.
      - intros (s' & H1 & H2). destruct (S1 s' H1) as (t & Ht & At). exists t. split; auto. rewrite <- H2, V3 by auto.
        apply eval_ext. intros x Hx. symmetry. apply At, D1, fv_ids, Hx.
      - intros (t & Ht & H2). destruct (S2 t Ht) as (s' & Hs' & As). exists s'. split; auto. rewrite <- H2, V3 by auto.
        apply eval_ext. intros x Hx. apply As, D1, fv_ids, Hx. }
    cbn [eval]. rewrite Ty2. destruct op, (ty_of e); auto; f_equal;
      try (apply dec_ext; first [apply R | split; intros Hx v Hv; apply Hx, R, Hv]).
    + apply einf_ext; intros; apply R.
    + apply esup_ext; intros; apply R.
  - cbn [unfold]. cbn [ids wt] in *. split_andb. match goal with H : ty_eqb _ _ = true |- _ => apply ty_eqb_eq in H; rename H into Hty end.
    assert (D1 : forall y, In y (ids e1) -> D y) by (intros; apply HD; right; rewrite !in_app_iff; auto).
    assert (D2 : forall y, In y (ids e2) -> D y) by (intros; apply HD; right; rewrite !in_app_iff; auto).
    destruct (IHe1 D1 ltac:(assumption) T n fr G HT Hfr) as (r & T1 & n1 & E1 & X1 & N1 & F1 & Ty1 & Wt1 & V1). rewrite E1. cbn [rbind].
    unfold push_subst. destruct (free_variables_spec r N1) as (vs & E2 & S2). rewrite E2. cbn [rbind].
    set (fr' := mkframe ((x, r) :: remove_key (substs fr) x) (fold_right insert (free_vars fr) vs)).
    assert (Lk : forall z, lookup (substs fr') z = if ident_eqb x z then Some r else lookup (substs fr) z).
    { intros z. unfold fr'. cbn [substs lookup]. rewrite lookup_remove. destruct (ident_eqb x z); auto. }
    assert (Hfr' : frame_ok D T1 fr').
    { intros z q L. rewrite Lk in L. destruct (ident_eqb_spec x z) as [<-|Nz].
      - inversion L; subst q. split; [exact N1|]. split; [split; [congruence | exact Wt1]|].
        intros u Hu. split; [apply F1, Hu|]. left. unfold fr'. cbn [free_vars]. apply fold_insert_iff. left. now apply S2.
      - destruct (Hfr z q L) as (G1 & G0 & G2). split; auto. split; auto. intros u Hu. destruct (G2 u Hu) as [G3 G4].
        split; [now apply X1|]. destruct G4 as [G4|G4]; auto. left. unfold fr'. cbn [free_vars]. apply fold_insert_iff. now right. }
    destruct (IHe2 D2 ltac:(assumption) T1 n1 fr' G (extends_var D _ _ HT X1) Hfr') as (b' & T2 & n2 & E3 & X2 & N2 & F2 & Ty2 & Wt2 & V2). rewrite E3. cbn [rbind].
    exists b', T2, n2. split; [reflexivity|]. split; [eapply extends_trans; eauto|]. split; [exact N2|]. split; [exact F2|].
    split; [exact Ty2|]. split; [exact Wt2|]. intros I s HI Hs S. rewrite V2 by auto. cbn [eval]. apply eval_ext. intros z _.
    unfold apply_frame at 1. rewrite Lk. unfold upd. destruct (ident_eqb x z); [now apply V1 | reflexivity].
  - cbn [unfold]. exists (ELit t l), T, n. split; [reflexivity|]. split; [apply extends_refl|]. split; [exact Logic.I|].
    split; [intros z []|]. split; [reflexivity|]. split; [exact Hwt|]. reflexivity.
Qed.

Theorem unfold_expr_correct orc qs T e : sound_oracle orc -> wt e = true -> (forall x, In x (ids e) -> is_var T x) ->
  exists e' T' n', unfold_expr orc qs T e = Ok (e', (T', n')) /\ no_subst e' /\ wt e' = true /\ ty_of e' = ty_of e /\
    forall I s, interp_ok I -> env_ok s -> eval I e' s = eval I e s.
Proof.
  intros Ho Hw HT.
  destruct (unfold_correct orc (fun x => In x (ids e)) qs e Ho (fun x H => H) Hw T 0 empty_frame [] HT) as (e' & T' & n' & E & X & N & F & Ty & Wt & V).
  { intros x r L. discriminate. }
  exists e', T', n'. split; [exact E|]. repeat (split; [auto; fail|]). intros I s HI Hs. rewrite V by (auto; exact Logic.I). reflexivity.
Qed.
