(** Free-variable collection and strict substitution. *)
From Coq Require Import Bool List String Ascii NArith Arith Lia.
From Verif.Model Require Import Syntax TyCtx AstUtil Subst.
From Verif.Spec Require Import Eur Sem.
From Verif.Proofs Require Import EurLemmas SemLemmas DistProofs TyCtxProofs.
Import ListNotations.

(** * Sets of identifiers *)
Lemma mem_iff x l : mem x l = true <-> In x l.
Proof.
  unfold mem. rewrite existsb_exists. split.
  - intros (y & H & E). apply ident_eqb_eq in E. now subst.
  - intros H. exists x. split; auto. apply ident_eqb_refl.
Qed.
Lemma insert_iff x y l : In x (insert y l) <-> x = y \/ In x l.
Proof.
  unfold insert. destruct (mem y l) eqn:E; simpl; [|intuition].
  apply mem_iff in E. split; auto. intros [->|]; auto.
Qed.
Lemma remove_iff x y l : In x (remove_id y l) <-> In x l /\ x <> y.
Proof.
  unfold remove_id. rewrite filter_In. split; intros [H1 H2]; split; auto.
  - intros ->. rewrite ident_eqb_refl in H2. discriminate.
  - rewrite ident_eqb_neq; auto.
Qed.
Lemma fold_remove_iff x vs : forall l, In x (fold_left (fun a v => remove_id v a) vs l) <-> In x l /\ ~ In x vs.
Proof.
  induction vs as [|v vs IH]; intros l; simpl; [tauto|]. rewrite IH, remove_iff. intuition.
Qed.
Lemma fold_insert_iff x vs l : In x (fold_right insert l vs) <-> In x vs \/ In x l.
Proof. induction vs as [|v vs IH]; simpl; [tauto|]. rewrite insert_iff, IH. intuition. Qed.

(** No [ESubst] anywhere. *)
Fixpoint no_subst (e : expr) : Prop :=
  match e with
  | EVar _ | ELit _ _ => True
  | ECall _ _ args => (fix go l := match l with [] => True | a :: l' => no_subst a /\ go l' end) args
  | EIte _ c a b => no_subst c /\ no_subst a /\ no_subst b
  | EBin _ _ a b => no_subst a /\ no_subst b
  | EUn _ _ a | ECast _ a => no_subst a
  | EQuant _ _ a => no_subst a
  | ESubst _ _ _ => False
  end.
Lemma no_subst_call t f args : no_subst (ECall t f args) <-> Forall no_subst args.
Proof.
  simpl. induction args as [|a l IH]; split; intros H; auto.
  - constructor; [apply H | apply IH, H].
  - inversion H; subst. split; [assumption | apply IH; assumption].
Qed.

Lemma collect_all_eq args : forall acc,
  (fix go l acc := match l with [] => Ok acc | a :: l' => let? acc' := collect a acc in go l' acc' end) args acc
  = collect_all args acc.
Proof. induction args; intros; cbn [collect_all]; [reflexivity|]. destruct (collect a acc); cbn [rbind]; auto. Qed.

Lemma collect_spec e : forall acc, no_subst e ->
  exists vs, collect e acc = Ok vs /\ forall x, In x vs <-> In x acc \/ fv x e.
Proof.
  induction e using expr_rect'; intros acc Hn; cbn [collect].
  - eexists; split; [reflexivity|]. intros y. rewrite insert_iff. simpl. tauto.
  - rewrite collect_all_eq. apply no_subst_call in Hn.
    assert (G : forall acc, exists vs, collect_all args acc = Ok vs /\ forall x, In x vs <-> In x acc \/ Exists (fv x) args).
    { clear acc. induction args as [|a args IH]; intros acc; cbn [collect_all].
      - eexists; split; [reflexivity|]. intros x. rewrite Exists_nil. tauto.
      - inversion H; subst. inversion Hn; subst. destruct (H2 acc) as (v1 & E1 & S1); auto. rewrite E1. cbn [rbind].
        destruct (IH H3 H5 v1) as (v2 & E2 & S2). exists v2. split; auto. intros x. rewrite S2, S1, Exists_cons. tauto. }
    destruct (G acc) as (vs & E & S). exists vs. split; auto. intros x. now rewrite S, fv_call.
  - destruct Hn as (N1 & N2 & N3). destruct (IHe1 acc N1) as (v1 & E1 & S1). rewrite E1; cbn [rbind].
    destruct (IHe2 v1 N2) as (v2 & E2 & S2). rewrite E2; cbn [rbind].
    destruct (IHe3 v2 N3) as (v3 & E3 & S3). exists v3. split; auto. intros x. rewrite S3, S2, S1. simpl. tauto.
  - destruct Hn as (N1 & N2). destruct (IHe1 acc N1) as (v1 & E1 & S1). rewrite E1; cbn [rbind].
    destruct (IHe2 v1 N2) as (v2 & E2 & S2). exists v2. split; auto. intros x. rewrite S2, S1. simpl. tauto.
  - apply IHe, Hn.
  - apply IHe, Hn.
  - destruct (IHe acc Hn) as (v1 & E1 & S1). rewrite E1; cbn [rbind]. eexists; split; [reflexivity|].
    intros x. rewrite fold_remove_iff, S1, filter_In. simpl.
    destruct (mem x acc) eqn:M; simpl.
    + apply mem_iff in M. split; [tauto|]. intros _. split; [tauto|]. intros [_ D]. discriminate.
    + assert (~ In x acc) by (rewrite <- mem_iff; congruence). tauto.
  - destruct Hn.
  - eexists; split; [reflexivity|]. simpl. tauto.
Qed.

Lemma free_variables_spec e : no_subst e -> exists vs, free_variables e = Ok vs /\ forall x, In x vs <-> fv x e.
Proof.
  intros H. destruct (collect_spec e [] H) as (vs & E & S). exists vs. split; [exact E|]. intros x. rewrite S. simpl. tauto.
Qed.

(** * Identifiers of an expression, free or bound *)
Fixpoint ids (e : expr) : list ident :=
  match e with
  | EVar x => [x]
  | ELit _ _ => []
  | ECall _ _ args => flat_map ids args
  | EIte _ c a b => ids c ++ ids a ++ ids b
  | EBin _ _ a b => ids a ++ ids b
  | EUn _ _ a | ECast _ a => ids a
  | EQuant _ xs a => map qname xs ++ ids a
  | ESubst x a b => x :: ids a ++ ids b
  end.

Lemma fv_ids x e : fv x e -> In x (ids e).
Proof.
  induction e using expr_rect'; intros Hx.
  - simpl in *. auto.
  - apply fv_call in Hx. simpl. apply in_flat_map. apply Exists_exists in Hx. destruct Hx as (a & H1 & H2).
    exists a. split; auto. rewrite Forall_forall in H. auto.
  - simpl in *. rewrite !in_app_iff. tauto.
  - simpl in *. rewrite !in_app_iff. tauto.
  - simpl in *. tauto.
  - simpl in *. tauto.
  - simpl in *. rewrite !in_app_iff. tauto.
  - simpl in *. rewrite !in_app_iff. tauto.
  - simpl in *. tauto.
Qed.

Definition is_var (T : tyctx) (x : ident) : Prop := get T x = Some true.
Lemma is_var_declared T x : is_var T x -> declared T x.
Proof. intros H. apply get_declared. rewrite H. discriminate. Qed.

(** [T'] extends [T] by fresh variables. *)
Definition extends (T T' : tyctx) : Prop :=
  (forall x, is_var T x -> is_var T' x) /\ (forall x, declared T x -> declared T' x).
Lemma extends_refl T : extends T T.
Proof. split; auto. Qed.
Lemma extends_trans A B C : extends A B -> extends B C -> extends A C.
Proof. intros [H1 H2] [H3 H4]. split; auto. Qed.

Lemma clone_extends T x span : is_var T x -> exists y T', clone_var T x span = Ok (y, T') /\ extends T T' /\
  ~ declared T y /\ is_var T' y /\ ity y = ity x.
Proof.
  intros H. destruct (clone_var_ok T x span H) as (y & T' & E1 & E2 & E3 & E4 & E5). exists y, T'.
  split; auto. split; [|split; [auto|split; [|auto]]].
  - split.
    + intros z Hz. unfold is_var, get in *. rewrite E2. cbn [find].
      destruct (same_id (fst (y, true)) z) eqn:S; [|exact Hz]. apply same_id_iff in S. cbn [fst] in S.
      exfalso. apply E3. assert (D : declared T z) by (apply is_var_declared; exact Hz).
      destruct D as (d & D1 & D2 & D3). exists d. destruct S as [S1 S2]. rewrite S1, S2. auto.
    + intros z (d & D1 & D2). exists d. rewrite E2. split; [right|]; auto.
  - unfold is_var, get. rewrite E2. cbn [find fst]. now rewrite same_id_refl.
Qed.

(** * Frames *)
Definition apply_frame (I : interp) (fr : frame) (s : env) : env :=
  fun x => match lookup (substs fr) x with Some r => eval I r s | None => s x end.

Lemma lookup_remove l x y : lookup (remove_key l x) y = if ident_eqb x y then None else lookup l y.
Proof.
  induction l as [|[z r] l IH]; cbn [remove_key filter lookup].
  - now destruct (ident_eqb x y).
  - cbn [fst]. destruct (ident_eqb_spec z x) as [->|N]; cbn [negb].
    + change (filter (fun p => negb (ident_eqb (fst p) x)) l) with (remove_key l x). rewrite IH.
      destruct (ident_eqb_spec x y); auto.
    + cbn [lookup]. change (filter (fun p => negb (ident_eqb (fst p) x)) l) with (remove_key l x). rewrite IH.
      destruct (ident_eqb_spec z y) as [->|]; auto. destruct (ident_eqb_spec x y); congruence.
Qed.

(** [D]: the identifiers of the original expression. *)
Definition frame_ok (D : ident -> Prop) (T : tyctx) (fr : frame) : Prop :=
  forall x r, lookup (substs fr) x = Some r -> no_subst r /\ (ty_of r = ity x /\ wt r = true) /\
    forall z, fv z r -> declared T z /\ (In z (free_vars fr) \/ ~ D z).

Lemma frame_ok_extends D T T' fr : frame_ok D T fr -> extends T T' -> frame_ok D T' fr.
Proof. intros H [_ E] x r L. destruct (H x r L) as (H1 & H0 & H2). split; auto. split; auto. intros z Hz. destruct (H2 z Hz); auto. Qed.

Definition agree (D : ident -> Prop) (s s' : env) : Prop := forall x, D x -> s x = s' x.

Lemma havocked_cons x xs s s' : havocked (x :: xs) s s' <->
  exists v, has_ty v (ity x) /\ havocked xs (upd s x v) s'.
Proof.
  split.
  - intros [H1 H2]. exists (s' x). split; [apply H2; left; auto|]. split.
    + intros y Hy. unfold upd. destruct (ident_eqb_spec x y); [now subst|]. apply H1. simpl. intuition.
    + intros y Hy. apply H2. now right.
  - intros (v & Hv & H1 & H2). split.
    + intros y Hy. rewrite H1 by (simpl in Hy; tauto). apply upd_other. simpl in Hy. intuition.
    + intros y Hy. destruct (in_dec ident_dec y xs) as [i|n]; [auto|]. destruct Hy as [<-|Hy]; [|contradiction].
      rewrite H1 by auto. now rewrite upd_same.
Qed.

(** Pushing a quantifier: the reachable states after applying the new frame are,
    on the identifiers of the original expression, exactly the havocked ones. *)
Lemma push_quant_spec (D : ident -> Prop) span xs : forall T fr,
  (forall x, D x -> is_var T x) -> (forall v, In v xs -> D (qname v)) -> frame_ok D T fr ->
  exists vs fr' T', push_quant span T fr xs = Ok (vs, fr', T') /\ extends T T' /\ frame_ok D T' fr' /\
    forall I s,
      (forall s', havocked (map qname vs) s s' ->
         exists t, havocked (map qname xs) (apply_frame I fr s) t /\ agree D (apply_frame I fr' s') t) /\
      (forall t, havocked (map qname xs) (apply_frame I fr s) t ->
         exists s', havocked (map qname vs) s s' /\ agree D (apply_frame I fr' s') t).
Proof.
  induction xs as [|v xs IH]; intros T fr HT Hxs Hfr; cbn [push_quant].
  - exists [], fr, T. split; [reflexivity|]. split; [apply extends_refl|]. split; [exact Hfr|].
    intros I s. split; intros s' H; cbn [map] in *; rewrite havocked_nil in H.
    + exists (apply_frame I fr s). split; [apply havocked_nil; auto|].
      intros x _. unfold apply_frame. destruct (lookup (substs fr) x); [|auto].
      apply eval_ext. auto.
    + exists s. split; [apply havocked_nil; auto|]. intros x _. symmetry. apply H.
  - set (x := qname v) in *. assert (Dx : D x) by (apply Hxs; left; reflexivity).
    (* one step *)
    assert (Step : forall y T1 fr1, extends T T1 -> ity y = ity x ->
        (y = x \/ ~ declared T y) -> (forall z r, lookup (substs fr) z = Some r -> z <> x -> ~ fv y r) ->
        (forall z, lookup (substs fr1) z = if ident_eqb x z then (if ident_eqb x y then None else Some (EVar y)) else lookup (substs fr) z) ->
        frame_ok D T1 fr1 ->
        exists vs fr' T', push_quant span T1 fr1 xs = Ok (vs, fr', T') /\ extends T T' /\ frame_ok D T' fr' /\
        forall I s,
          (forall s', havocked (y :: map qname vs) s s' ->
             exists t, havocked (x :: map qname xs) (apply_frame I fr s) t /\ agree D (apply_frame I fr' s') t) /\
          (forall t, havocked (x :: map qname xs) (apply_frame I fr s) t ->
             exists s', havocked (y :: map qname vs) s s' /\ agree D (apply_frame I fr' s') t)).
    { intros y T1 fr1 HE Hty Hy Hcap Hlk Hok1.
      destruct (IH T1 fr1) as (vs & fr' & T' & E1 & E2 & E3 & E4).
      - intros z Hz. apply HE, HT, Hz.
      - intros w Hw. apply Hxs. now right.
      - exact Hok1.
      - exists vs, fr', T'. split; [exact E1|]. split; [eapply extends_trans; eauto|]. split; [exact E3|].
        intros I s.
        assert (A : forall w, agree D (apply_frame I fr1 (upd s y w)) (upd (apply_frame I fr s) x w)).
        { intros w z Dz. unfold apply_frame at 1. rewrite Hlk.
          destruct (ident_eqb_spec x z) as [<-|Nz].
          - rewrite (upd_same (apply_frame I fr s)). destruct (ident_eqb_spec x y) as [<-|Ny]; cbn [eval]; now rewrite upd_same.
          - rewrite (upd_other (apply_frame I fr s)) by auto. unfold apply_frame. destruct (lookup (substs fr) z) as [r|] eqn:L.
            + apply eval_ext. intros u Hu. apply upd_other. intros ->. eapply Hcap; eauto.
            + apply upd_other. intros ->. destruct Hy as [->|Hy]; [congruence|].
              apply Hy, is_var_declared, HT, Dz. }
        assert (Hav : forall (ys : list ident) a b t, (forall z, In z ys -> D z) -> agree D a b -> havocked ys a t ->
           havocked ys b (splice ys b t) /\ agree D t (splice ys b t)).
        { intros ys a b t Hys Hab [H1 H2]. split; [apply splice_havocked; auto|].
          intros z Dz. unfold splice. destruct (in_dec ident_dec z ys); auto. rewrite H1; auto. }
        assert (Hxs' : forall z, In z (map qname xs) -> D z).
        { intros z Hz. apply in_map_iff in Hz. destruct Hz as (w & <- & Hw). apply Hxs. now right. }
        split.
        + intros s' H. apply havocked_cons in H. destruct H as (w & Hw & H).
          destruct (E4 I (upd s y w)) as [F1 _]. destruct (F1 s' H) as (t & Ht & At).
          destruct (Hav _ _ _ t Hxs' (A w) Ht) as [Ht' At'].
          eexists. split.
          * apply havocked_cons. exists w. split; [congruence|]. exact Ht'.
          * intros z Dz. rewrite At by auto. now apply At'.
        + intros t H. apply havocked_cons in H. destruct H as (w & Hw & H).
          destruct (E4 I (upd s y w)) as [_ F2].
          destruct (Hav _ _ (apply_frame I fr1 (upd s y w)) t Hxs' (fun z Dz => eq_sym (A w z Dz)) H) as [Ht' At'].
          destruct (F2 _ Ht') as (s' & Hs' & As'). exists s'. split.
          * apply havocked_cons. exists w. split; [congruence|]. exact Hs'.
          * intros z Dz. rewrite As' by auto. symmetry. now apply At'. }
    destruct (mem x (free_vars fr)) eqn:M.
    + destruct (clone_extends T x span (HT x Dx)) as (y & T1 & C1 & C2 & C3 & C4 & C5). rewrite C1. cbn [rbind].
      assert (Nxy : x <> y) by (intros E; apply C3; rewrite <- E; apply is_var_declared, HT, Dx).
      destruct (Step y T1 (mkframe ((x, EVar y) :: remove_key (substs fr) x) (free_vars fr)))
        as (vs & fr' & T' & E1 & E2 & E3 & E4).
      * exact C2.
      * exact C5.
      * auto.
      * intros z r L _ F. apply C3. apply (Hfr z r L); auto.
      * intros z. cbn [substs lookup]. rewrite lookup_remove. rewrite (ident_eqb_neq x y) by auto.
        destruct (ident_eqb x z); auto.
      * intros z r. cbn [substs lookup free_vars]. rewrite lookup_remove. destruct (ident_eqb_spec x z) as [<-|_].
        -- intros E; inversion E; subst r. split; [exact Logic.I|]. split; [split; [exact C5 | reflexivity]|]. intros u Hu. cbn in Hu. subst u. split.
           ++ apply is_var_declared, C4.
           ++ right. intros Dy. apply C3, is_var_declared, HT, Dy.
        -- intros L. destruct (Hfr z r L) as (H1 & H0 & H2). split; auto. split; auto. intros u Hu. destruct (H2 u Hu). split; auto.
           now apply C2.
      * rewrite E1. cbn [rbind]. exists (QShadow y :: vs), fr', T'. split; [reflexivity|]. auto.
    + assert (NM : ~ In x (free_vars fr)) by (rewrite <- mem_iff; congruence).
      destruct (Step x T (mkframe (remove_key (substs fr) x) (free_vars fr))) as (vs & fr' & T' & E1 & E2 & E3 & E4).
      * apply extends_refl.
      * reflexivity.
      * auto.
      * intros z r L _ F. destruct (Hfr z r L) as (_ & _ & H2). destruct (H2 x F) as [_ [H|H]]; auto.
      * intros z. cbn [substs]. rewrite lookup_remove, ident_eqb_refl. destruct (ident_eqb x z); auto.
      * intros z r. cbn [substs free_vars]. rewrite lookup_remove. destruct (ident_eqb x z); [discriminate|]. apply Hfr.
      * rewrite E1. cbn [rbind]. exists (v :: vs), fr', T'. split; [reflexivity|]. auto.
Qed.

Lemma visit_all_eq qs fr : forall args T,
  (fix go T l := match l with
                 | [] => Ok ([], T)
                 | a :: l' => let? (a', T1) := visit qs T fr a in let? (r, T2) := go T1 l' in Ok (a' :: r, T2)
                 end) T args = visit_all qs T fr args.
Proof.
  induction args as [|a l IH]; intros T; cbn [visit_all]; [reflexivity|].
  destruct (visit qs T fr a) as [[a' T1]| |]; cbn [rbind]; auto. now rewrite IH.
Qed.


Definition visit_ok (D : ident -> Prop) (qs : expr -> nat) (e : expr) : Prop :=
  (forall x, In x (ids e) -> D x) -> wt e = true ->
  forall T fr, (forall x, D x -> is_var T x) -> frame_ok D T fr ->
  exists e' T', visit qs T fr e = Ok (e', T') /\ extends T T' /\ no_subst e' /\
    (forall z, fv z e' -> declared T' z) /\ ty_of e' = ty_of e /\ wt e' = true /\
    forall I s, eval I e' s = eval I e (apply_frame I fr s).

Lemma extends_var (D : ident -> Prop) T T' : (forall x, D x -> is_var T x) -> extends T T' -> forall x, D x -> is_var T' x.
Proof. intros H [E _] x Dx. auto. Qed.

Lemma visit_correct D qs e : visit_ok D qs e.
Proof.
  induction e using expr_rect'; intros HD Hwt T fr HT Hfr; cbn [visit ids wt] in *.
  - destruct (lookup (substs fr) x) as [r|] eqn:L.
    + exists r, T. destruct (Hfr x r L) as (H1 & (H2 & H3) & H4). split; [reflexivity|]. split; [apply extends_refl|].
      split; [exact H1|]. split; [intros z Hz; apply H4, Hz|]. split; [exact H2|]. split; [exact H3|].
      intros I s. cbn [eval]. unfold apply_frame. now rewrite L.
    + exists (EVar x), T. split; [reflexivity|]. split; [apply extends_refl|]. split; [exact Logic.I|]. split.
      * intros z Hz. cbn in Hz. subst z. apply is_var_declared, HT, HD. now left.
      * split; [reflexivity|]. split; [reflexivity|]. intros I s. cbn [eval]. unfold apply_frame. now rewrite L.
  - rewrite visit_all_eq.
    assert (G : forall T, (forall x, D x -> is_var T x) -> frame_ok D T fr ->
      exists l T', visit_all qs T fr args = Ok (l, T') /\ extends T T' /\ Forall no_subst l /\
        (forall z, Exists (fv z) l -> declared T' z) /\ forallb wt l = true /\
        forall I s, map (fun a => eval I a s) l = map (fun a => eval I a (apply_frame I fr s)) args).
    { clear T HT Hfr. revert H HD Hwt. induction args as [|a args IH]; intros H HD Hwt T HT Hfr; cbn [visit_all].
      - exists [], T. split; [reflexivity|]. split; [apply extends_refl|]. split; [constructor|].
        split; [intros z Hz; inversion Hz|]. split; reflexivity.
      - inversion H as [|? ? Ha Hargs]; subst. cbn [forallb flat_map] in *. apply andb_prop in Hwt. destruct Hwt as [W1 W2].
        destruct (Ha (fun x Hx => HD x (in_or_app _ _ _ (or_introl Hx))) W1 T fr HT Hfr) as (a' & T1 & E1 & X1 & N1 & F1 & Ty1 & Wt1 & V1).
        rewrite E1. cbn [rbind].
        destruct (IH Hargs (fun x Hx => HD x (in_or_app _ _ _ (or_intror Hx))) W2 T1 (extends_var D T T1 HT X1) (frame_ok_extends D T T1 fr Hfr X1))
          as (l & T2 & E2 & X2 & N2 & F2 & Wt2 & V2).
        rewrite E2. cbn [rbind]. exists (a' :: l), T2. split; [reflexivity|]. split; [eapply extends_trans; eauto|].
        split; [constructor; auto|]. split; [|split].
        + intros z Hz. inversion Hz; subst; auto. apply X2. auto.
        + cbn [forallb]. now rewrite Wt1, Wt2.
        + intros I s. cbn [map]. now rewrite V1, V2. }
    destruct (G T HT Hfr) as (l & T' & E & X & N & F & Wt & V). rewrite E. cbn [rbind].
    exists (ECall t f l), T'. split; [reflexivity|]. split; [exact X|]. split; [now apply no_subst_call|].
    split; [intros z Hz; apply fv_call in Hz; auto|]. split; [reflexivity|]. split; [exact Wt|].
    intros I s. cbn [eval]. now rewrite V.
  - split_andb.
    assert (D1 : forall x, In x (ids e1) -> D x) by (intros; apply HD; rewrite !in_app_iff; auto).
    assert (D2 : forall x, In x (ids e2) -> D x) by (intros; apply HD; rewrite !in_app_iff; auto).
    assert (D3 : forall x, In x (ids e3) -> D x) by (intros; apply HD; rewrite !in_app_iff; auto).
    destruct (IHe1 D1 ltac:(assumption) T fr HT Hfr) as (c' & T1 & E1 & X1 & N1 & F1 & Ty1 & Wt1 & V1). rewrite E1. cbn [rbind].
    pose proof (extends_var D _ _ HT X1) as HT1. pose proof (frame_ok_extends D _ _ fr Hfr X1) as Hfr1.
    destruct (IHe2 D2 ltac:(assumption) T1 fr HT1 Hfr1) as (a' & T2 & E2 & X2 & N2 & F2 & Ty2 & Wt2 & V2). rewrite E2. cbn [rbind].
    pose proof (extends_var D _ _ HT1 X2) as HT2. pose proof (frame_ok_extends D _ _ fr Hfr1 X2) as Hfr2.
    destruct (IHe3 D3 ltac:(assumption) T2 fr HT2 Hfr2) as (b' & T3 & E3 & X3 & N3 & F3 & Ty3 & Wt3 & V3). rewrite E3. cbn [rbind].
    exists (EIte t c' a' b'), T3. split; [reflexivity|]. split; [eapply extends_trans; [exact X1|]; eapply extends_trans; eauto|].
    split; [cbn; auto|]. split; [|split; [reflexivity|split]].
    + intros z [Hz|[Hz|Hz]]; [apply X3, X2, F1 | apply X3, F2 | apply F3]; auto.
    + cbn [wt]. rewrite Wt1, Wt2, Wt3, Ty1, Ty2, Ty3. repeat (apply andb_true_intro; split); auto.
    + intros I s. cbn [eval]. now rewrite V1, V2, V3.
  - split_andb.
    assert (D1 : forall x, In x (ids e1) -> D x) by (intros; apply HD; rewrite !in_app_iff; auto).
    assert (D2 : forall x, In x (ids e2) -> D x) by (intros; apply HD; rewrite !in_app_iff; auto).
    destruct (IHe1 D1 ltac:(assumption) T fr HT Hfr) as (c' & T1 & E1 & X1 & N1 & F1 & Ty1 & Wt1 & V1). rewrite E1. cbn [rbind].
    pose proof (extends_var D _ _ HT X1) as HT1. pose proof (frame_ok_extends D _ _ fr Hfr X1) as Hfr1.
    destruct (IHe2 D2 ltac:(assumption) T1 fr HT1 Hfr1) as (a' & T2 & E2 & X2 & N2 & F2 & Ty2 & Wt2 & V2). rewrite E2. cbn [rbind].
    eexists _, T2. split; [reflexivity|]. split; [eapply extends_trans; eauto|].
    split; [cbn; auto|]. split; [|split; [reflexivity|split]].
    + intros z [Hz|Hz]; [apply X2, F1 | apply F2]; auto.
    + cbn [wt]. rewrite Wt1, Wt2, Ty1, Ty2. auto.
    + intros I s. cbn [eval]. now rewrite V1, V2.
  - split_andb. destruct (IHe HD ltac:(assumption) T fr HT Hfr) as (c' & T1 & E1 & X1 & N1 & F1 & Ty1 & Wt1 & V1). rewrite E1. cbn [rbind].
    eexists _, T1. split; [reflexivity|]. split; [exact X1|]. split; [exact N1|]. split; [exact F1|]. split; [reflexivity|].
    split; [cbn [wt]; rewrite Wt1, Ty1; auto|]. intros I s. cbn [eval]. now rewrite V1.
  - split_andb. destruct (IHe HD ltac:(assumption) T fr HT Hfr) as (c' & T1 & E1 & X1 & N1 & F1 & Ty1 & Wt1 & V1). rewrite E1. cbn [rbind].
    eexists _, T1. split; [reflexivity|]. split; [exact X1|]. split; [exact N1|]. split; [exact F1|]. split; [reflexivity|].
    split; [cbn [wt]; rewrite Wt1, Ty1; auto|]. intros I s. cbn [eval]. now rewrite V1.
  - split_andb.
    assert (D1 : forall x, In x (ids e) -> D x) by (intros; apply HD; rewrite !in_app_iff; auto).
    assert (D2 : forall v, In v xs -> D (qname v)) by (intros; apply HD; rewrite !in_app_iff; left; now apply in_map).
    destruct (push_quant_spec D (qs (EQuant op xs e)) xs T fr HT D2 Hfr) as (vs & fr' & T1 & E1 & X1 & Hfr' & Sp). rewrite E1. cbn [rbind].
    destruct (IHe D1 ltac:(assumption) T1 fr' (extends_var D _ _ HT X1) Hfr') as (b' & T2 & E2 & X2 & N2 & F2 & Ty2 & Wt2 & V2). rewrite E2. cbn [rbind].
    exists (EQuant op vs b'), T2. split; [reflexivity|]. split; [eapply extends_trans; eauto|]. split; [exact N2|].
    split; [intros z [Hz _]; auto|]. split; [exact Ty2|]. split; [cbn [wt]; rewrite Wt2, Ty2; auto|].
    intros I s. destruct (Sp I s) as [S1 S2].
    assert (R : forall v, (exists s', havocked (map qname vs) s s' /\ eval I b' s' = v) <->
                          (exists t, havocked (map qname xs) (apply_frame I fr s) t /\ eval I e t = v)).
    { intros v. split.
      - intros (s' & H1 & H2). destruct (S1 s' H1) as (t & Ht & At). exists t. split; auto. rewrite <- H2, V2.
        apply eval_ext. intros x Hx. symmetry. apply At, D1, fv_ids, Hx.
      - intros (t & Ht & H2). destruct (S2 t Ht) as (s' & Hs & As). exists s'. split; auto. rewrite <- H2, V2.
        apply eval_ext. intros x Hx. apply As, D1, fv_ids, Hx. }
    cbn [eval]. rewrite Ty2. destruct op, (ty_of e); auto; f_equal;
      try (apply dec_ext; first [apply R | split; intros Hx v Hv; apply Hx, R, Hv]).
    + apply einf_ext; intros; apply R.
    + apply esup_ext; intros; apply R.
  - split_andb. match goal with H : ty_eqb _ _ = true |- _ => apply ty_eqb_eq in H; rename H into Hty end.
    assert (D1 : forall y, In y (ids e1) -> D y) by (intros; apply HD; right; rewrite !in_app_iff; auto).
    assert (D2 : forall y, In y (ids e2) -> D y) by (intros; apply HD; right; rewrite !in_app_iff; auto).
    destruct (IHe1 D1 ltac:(assumption) T fr HT Hfr) as (r & T1 & E1 & X1 & N1 & F1 & Ty1 & Wt1 & V1). rewrite E1. cbn [rbind].
    unfold push_subst. destruct (free_variables_spec r N1) as (vs & E2 & S2). rewrite E2. cbn [rbind].
    set (fr' := mkframe ((x, r) :: remove_key (substs fr) x) (fold_right insert (free_vars fr) vs)).
    assert (Lk : forall z, lookup (substs fr') z = if ident_eqb x z then Some r else lookup (substs fr) z).
    { intros z. unfold fr'. cbn [substs lookup]. rewrite lookup_remove. destruct (ident_eqb x z); auto. }
    assert (Hfr' : frame_ok D T1 fr').
    { intros z q L. rewrite Lk in L. destruct (ident_eqb_spec x z) as [<-|Nz].
      - inversion L; subst q. split; [exact N1|]. split; [split; [congruence | exact Wt1]|].
        intros u Hu. split; [apply F1, Hu|]. left. unfold fr'. cbn [free_vars]. apply fold_insert_iff. left. now apply S2.
      - destruct (Hfr z q L) as (G1 & G0 & G2). split; auto. split; auto. intros u Hu. destruct (G2 u Hu) as [G3 G4].
        split; [now apply X1|]. destruct G4 as [G4|G4]; auto. left. unfold fr'. cbn [free_vars]. apply fold_insert_iff. now right. }
    destruct (IHe2 D2 ltac:(assumption) T1 fr' (extends_var D _ _ HT X1) Hfr') as (b' & T2 & E3 & X2 & N2 & F2 & Ty2 & Wt2 & V2). rewrite E3. cbn [rbind].
    exists b', T2. split; [reflexivity|]. split; [eapply extends_trans; eauto|]. split; [exact N2|]. split; [exact F2|].
    split; [exact Ty2|]. split; [exact Wt2|]. intros I s. rewrite V2. cbn [eval]. apply eval_ext. intros z _.
    unfold apply_frame at 1. rewrite Lk. unfold upd. destruct (ident_eqb x z); [apply V1 | reflexivity].
  - exists (ELit t l), T. split; [reflexivity|]. split; [apply extends_refl|]. split; [exact Logic.I|].
    split; [intros z []|]. split; [reflexivity|]. split; [exact Hwt|]. reflexivity.
Qed.

Theorem apply_subst_correct qs T e : wt e = true -> (forall x, In x (ids e) -> is_var T x) ->
  exists e' T', apply_subst qs T e = Ok (e', T') /\ no_subst e' /\ wt e' = true /\ ty_of e' = ty_of e /\
    forall I s, eval I e' s = eval I e s.
Proof.
  intros Hw HT.
  destruct (visit_correct (fun x => In x (ids e)) qs e (fun x H => H) Hw T empty_frame HT) as (e' & T' & E & X & N & F & Ty & Wt & V).
  { intros x r L. discriminate. }
  exists e', T'. split; [exact E|]. repeat split; auto.
Qed.
