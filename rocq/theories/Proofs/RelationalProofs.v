(** Relational rewriting of comparisons. *)
From Coq Require Import Bool List String NArith ZArith QArith Qreals Reals Lra Lia.
From Verif.Model Require Import Syntax Builder Lits Relational.
From Verif.Spec Require Import Eur Sem Exprs Folding.
From Verif.Proofs Require Import EurLemmas SemLemmas SimLemmas UnrollProofs EgraphProofs ConstfoldProofs.
Import ListNotations.
Local Open Scope nat_scope.
Local Arguments eleb : simpl never.
Local Arguments emin : simpl never.
Local Arguments emax : simpl never.

(** The non-negative numbers as elements of [0,oo]. *)
Definition num (v : val) : eur := match v with VUInt n => fin (n2r n) | VUReal x => Fin x | VEur x => x | _ => ebot end.
Lemma n2r_nonneg n : (0 <= n2r n)%R.
Proof. unfold n2r. apply IZR_le. lia. Qed.
Lemma n2r_le m n : (m <= n)%N <-> (n2r m <= n2r n)%R.
Proof. unfold n2r. split; intros H. apply IZR_le; lia. apply le_IZR in H; lia. Qed.
Lemma num_le t v w : nonneg_ty t = true -> has_ty v t -> has_ty w t -> vle v w = Some (eleb (num v) (num w)).
Proof.
  intros Ht Hv Hw. destruct t; try discriminate; inv_ty Hv; inv_ty Hw; subst; simpl; f_equal; apply eb; rewrite eleb_iff.
  - rewrite N.leb_le, ele_fin by apply n2r_nonneg. apply n2r_le.
  - rewrite dec_iff. reflexivity.
Qed.
Lemma num_min t v w I : nonneg_ty t = true -> has_ty v t -> has_ty w t -> num (eval_bin I t OInf v w) = emin (num v) (num w).
Proof.
  intros Ht Hv Hw. destruct t; try discriminate; inv_ty Hv; inv_ty Hw; subst; simpl; auto.
  - rewrite fin_min by apply n2r_nonneg. f_equal. apply (nop_rop OInf).
  - rewrite !(Fin_fin (_ : nnr)). rewrite nval_of by (apply Rmin_glb; apply nval_nonneg). now rewrite fin_min by apply nval_nonneg.
Qed.
Lemma num_max t v w I : nonneg_ty t = true -> has_ty v t -> has_ty w t -> num (eval_bin I t OSup v w) = emax (num v) (num w).
Proof.
  intros Ht Hv Hw. destruct t; try discriminate; inv_ty Hv; inv_ty Hw; subst; simpl; auto.
  - rewrite fin_max by apply n2r_nonneg. f_equal. apply (nop_rop OSup).
  - rewrite !(Fin_fin (_ : nnr)). rewrite nval_of by (eapply Rle_trans; [|apply Rmax_l]; apply nval_nonneg). now rewrite fin_max by apply nval_nonneg.
Qed.

(** [e] stands for the comparison of two expressions of a type with least element 0. *)
Definition leq (e l u : expr) : Prop :=
  wt e = true /\ ty_of e = TBool /\
  forall I s, interp_ok I -> env_ok s -> eval I e s = VBool (eleb (num (eval I l s)) (num (eval I u s))).
Definition pair_ok (l u : expr) : Prop := wt l = true /\ wt u = true /\ ty_of l = ty_of u /\ nonneg_ty (ty_of u) = true.

Lemma leq_default l u : pair_ok l u -> leq (bbin OLe l u) l u.
Proof.
  intros (W1 & W2 & T & N). split; [|split; auto].
  - simpl. rewrite W1, W2, T. simpl. now destruct (ty_of u).
  - intros I s HI Hs. unfold bbin. cbn [eval eval_bin]. rewrite (num_le (ty_of u)); auto; [rewrite <- T|]; apply eval_ty; auto.
Qed.
Lemma leq_and e1 e2 l1 u1 l2 u2 l u : leq e1 l1 u1 -> leq e2 l2 u2 ->
  (forall I s, interp_ok I -> env_ok s -> eleb (num (eval I l s)) (num (eval I u s)) =
     eleb (num (eval I l1 s)) (num (eval I u1 s)) && eleb (num (eval I l2 s)) (num (eval I u2 s))) -> leq (bbin OAnd e1 e2) l u.
Proof.
  intros (W1 & T1 & V1) (W2 & T2 & V2) H. split; [|split; auto].
  - simpl. now rewrite W1, W2, T1, T2.
  - intros I s HI Hs. unfold bbin. cbn [eval]. rewrite V1, V2, H; auto.
Qed.
Lemma leq_or e1 e2 l1 u1 l2 u2 l u : leq e1 l1 u1 -> leq e2 l2 u2 ->
  (forall I s, interp_ok I -> env_ok s -> eleb (num (eval I l s)) (num (eval I u s)) =
     eleb (num (eval I l1 s)) (num (eval I u1 s)) || eleb (num (eval I l2 s)) (num (eval I u2 s))) -> leq (bbin OOr e1 e2) l u.
Proof.
  intros (W1 & T1 & V1) (W2 & T2 & V2) H. split; [|split; auto].
  - simpl. now rewrite W1, W2, T1, T2.
  - intros I s HI Hs. unfold bbin. cbn [eval]. rewrite V1, V2, H; auto.
Qed.
Lemma leq_true l u : (forall I s, interp_ok I -> env_ok s -> eleb (num (eval I l s)) (num (eval I u s)) = true) -> leq (b_bool true) l u.
Proof. intros H. split; auto. split; auto. intros I s HI Hs. rewrite H; auto. Qed.

Lemma bin_wt t op a b : wt (EBin t op a b) = true -> (op = OInf \/ op = OSup \/ op = OImpl \/ op = OCoImpl \/ op = OCoCompare) ->
  wt a = true /\ wt b = true /\ ty_of a = t /\ ty_of b = t.
Proof.
  intros H Ho. cbn [wt] in H. split_andb. destruct Ho as [->|[->|[->|[->| ->]]]]; destruct t; try discriminate; simpl in *; split_andb;
    repeat match goal with H : ty_eqb _ _ = true |- _ => apply ty_eqb_eq in H end; auto.
Qed.
Lemma eur_eval I e s : interp_ok I -> env_ok s -> wt e = true -> ty_of e = TEUReal -> exists x, eval I e s = VEur x.
Proof. intros HI Hs Hw Ht. pose proof (eval_ty I HI e Hw s Hs) as V. rewrite Ht in V. inv_ty V. eauto. Qed.
Lemma top_num I e s : wt e = true -> is_top_lit e = true -> nonneg_ty (ty_of e) = true -> ty_of e = TEUReal /\ num (eval I e s) = etop.
Proof. intros W T N. destruct (top_lit_val I e s W T) as [L ->]. destruct (ty_of e); try discriminate. auto. Qed.
Lemma bot_num I e s : wt e = true -> is_bot_lit e = true -> nonneg_ty (ty_of e) = true -> num (eval I e s) = ebot.
Proof. intros W T N. rewrite (bot_val I s e W T). destruct (ty_of e); try discriminate; simpl; auto. Qed.

Lemma e_le_imp a b l : eleb l (if eleb a b then etop else b) = eleb l b || eleb a b.
Proof. destruct (eleb a b) eqn:E; rewrite ?eleb_top, ?orb_true_r, ?orb_false_r; auto. Qed.
Lemma e_coimp_le a b u : eleb (if eleb b a then ebot else b) u = eleb b u || eleb b a.
Proof. destruct (eleb b a) eqn:E; rewrite ?eleb_bot, ?orb_true_r, ?orb_false_r; auto. Qed.
Lemma e_cocomp_le a b u : eleb (if eleb b a then ebot else etop) u = eleb b a || eleb etop u.
Proof. destruct (eleb b a) eqn:E; rewrite ?eleb_bot; auto. Qed.

Lemma upper_leq (rec : expr -> expr -> expr) l u e : (forall l' u', pair_ok l' u' -> leq (rec l' u') l' u') ->
  pair_ok l u -> leq_upper rec l u = Some e -> leq e l u.
Proof.
  intros Hr (W1 & W2 & T & N) H. unfold leq_upper in H. destruct (is_top_lit u) eqn:Z.
  { inversion H; subst. apply leq_true. intros I s HI Hs. destruct (top_num I u s W2 Z N) as [_ ->]. apply eleb_top. }
  destruct u; try discriminate.
  - destruct op; try discriminate; injection H as <-; clear Z; simpl in T, N.
    + destruct (bin_wt _ _ _ _ W2) as (Wa & Wb & Ta & Tb); [auto|].
      eapply leq_and; [apply Hr; repeat split; auto; congruence|apply Hr; repeat split; auto; congruence|]. intros I s HI Hs. cbn [eval]. rewrite num_min, leb_min; auto.
      * rewrite <- Ta. apply eval_ty; auto.
      * rewrite <- Tb. apply eval_ty; auto.
    + destruct (bin_wt _ _ _ _ W2) as (Wa & Wb & Ta & Tb); [auto|].
      eapply leq_or; [apply Hr; repeat split; auto; congruence|apply Hr; repeat split; auto; congruence|]. intros I s HI Hs. cbn [eval]. rewrite num_max, leb_max; auto.
      * rewrite <- Ta. apply eval_ty; auto.
      * rewrite <- Tb. apply eval_ty; auto.
    + destruct (bin_wt _ _ _ _ W2) as (Wa & Wb & Ta & Tb); [auto|].
      eapply leq_or; [apply Hr; repeat split; auto; congruence|apply Hr; repeat split; auto; congruence|]. intros I s HI Hs. cbn [eval].
      assert (TE : t = TEUReal) by (cbn [wt] in W2; split_andb; destruct t; try discriminate; auto). rewrite TE in *.
      destruct (eur_eval I u1 s HI Hs Wa Ta) as [x ->]. destruct (eur_eval I u2 s HI Hs Wb Tb) as [y ->]. cbn [eval_bin num]. apply e_le_imp.
  - destruct op; try discriminate. destruct l as [| | | | | | | |tl ll]; try discriminate. destruct (lit_is_top ll) eqn:L; [|discriminate]. injection H as <-; clear Z.
    simpl in T, N. subst tl. cbn [wt] in W2. split_andb. destruct t; try discriminate. match goal with H : un_ok _ _ _ = true |- _ => simpl in H; apply ty_eqb_eq in H end.
    destruct (Hr u (b_frac 0)) as (W & Tr & V); [repeat split; auto|]. split; [auto|split; [auto|]]. intros I s HI Hs. rewrite V; auto. cbn [eval].
    destruct (eur_eval I u s HI Hs) as [x ->]; auto. destruct ll; try discriminate. cbn [num eval_un eval_lit b_frac eval]. rewrite fin_q0. now rewrite e_not_top.
Qed.
Lemma lower_leq (rec : expr -> expr -> expr) l u e : (forall l' u', pair_ok l' u' -> leq (rec l' u') l' u') ->
  pair_ok l u -> leq_lower rec l u = Some e -> leq e l u.
Proof.
  intros Hr (W1 & W2 & T & N) H. unfold leq_lower in H. destruct (is_bot_lit l) eqn:Z.
  { inversion H; subst. apply leq_true. intros I s HI Hs. rewrite (bot_num I l s W1 Z) by congruence. apply eleb_bot. }
  destruct l; try discriminate. rewrite <- T in N.
  destruct op; try discriminate; injection H as <-; clear Z; simpl in T, N;
    (destruct (bin_wt _ _ _ _ W1) as (Wa & Wb & Ta & Tb); [auto 6|]).
  - eapply leq_or; [apply Hr; repeat split; auto; congruence|apply Hr; repeat split; auto; congruence|]. intros I s HI Hs. cbn [eval]. rewrite num_min, min_leb; auto.
    + rewrite <- Ta. apply eval_ty; auto.
    + rewrite <- Tb. apply eval_ty; auto.
  - eapply leq_and; [apply Hr; repeat split; auto; congruence|apply Hr; repeat split; auto; congruence|]. intros I s HI Hs. cbn [eval]. rewrite num_max, max_leb; auto.
    + rewrite <- Ta. apply eval_ty; auto.
    + rewrite <- Tb. apply eval_ty; auto.
  - eapply leq_or; [apply Hr; repeat split; auto; congruence|apply Hr; repeat split; auto; congruence|]. intros I s HI Hs. cbn [eval].
    assert (TE : t = TEUReal) by (cbn [wt] in W1; split_andb; destruct t; try discriminate; auto). rewrite TE in *.
    destruct (eur_eval I l1 s HI Hs Wa Ta) as [x ->]. destruct (eur_eval I l2 s HI Hs Wb Tb) as [y ->]. cbn [eval_bin num]. apply e_coimp_le.
  - assert (TE : t = TEUReal) by (cbn [wt] in W1; split_andb; destruct t; try discriminate; auto). rewrite TE in *.
    eapply leq_or; [apply Hr; repeat split; auto; congruence|apply Hr; repeat split; auto; congruence|]. intros I s HI Hs. cbn [eval].
    destruct (eur_eval I l1 s HI Hs Wa Ta) as [x ->]. destruct (eur_eval I l2 s HI Hs Wb Tb) as [y ->]. cbn [eval_bin num eval b_inf eval_lit]. apply e_cocomp_le.
Qed.
Lemma fuel_leq n : forall l u, pair_ok l u -> leq (relational_leq_fuel n l u) l u.
Proof.
  induction n as [|n IH]; intros l u P; simpl; [now apply leq_default|].
  destruct (leq_upper _ l u) eqn:E; [eapply upper_leq; eauto|]. destruct (leq_lower _ l u) eqn:E'; [eapply lower_leq; eauto|now apply leq_default].
Qed.
Lemma leq_sim e l u : pair_ok l u -> leq e l u -> sim e (bbin OLe l u).
Proof.
  intros P (W & T & V). destruct (leq_default l u P) as (W' & T' & V'). split; [auto|split; [auto|]]. intros I s HI Hs. rewrite V, V'; auto.
Qed.

(** The fuel is enough: more of it changes nothing. *)
Lemma upper_ext r r' l u : (forall l' u', nodes l' + nodes u' < nodes l + nodes u -> r l' u' = r' l' u') -> leq_upper r l u = leq_upper r' l u.
Proof.
  intros H. unfold leq_upper. destruct (is_top_lit u); auto. destruct u; auto.
  - destruct op; auto; simpl in H; rewrite !H by (try lia; destruct l; simpl; lia); reflexivity.
  - destruct op; auto. destruct l; auto. destruct (lit_is_top l); auto. simpl in H. rewrite H; auto. simpl; lia.
Qed.
Lemma lower_ext r r' l u : (forall l' u', nodes l' + nodes u' < nodes l + nodes u -> r l' u' = r' l' u') -> leq_lower r l u = leq_lower r' l u.
Proof.
  intros H. unfold leq_lower. destruct (is_bot_lit l); auto. destruct l; auto.
  assert (P : forall e, 0 < nodes e) by (intros e; destruct e; simpl; lia).
  destruct op; auto; simpl in H; rewrite !H; auto; simpl; pose proof (P l1); pose proof (P l2); pose proof (P u); lia.
Qed.
Lemma fuel_enough n : forall m l u, nodes l + nodes u <= n -> n <= m -> relational_leq_fuel m l u = relational_leq_fuel n l u.
Proof.
  induction n as [|n IH]; intros m l u H1 H2.
  - destruct l; simpl in H1; lia.
  - destruct m as [|m]; [lia|]. simpl.
    rewrite (upper_ext (relational_leq_fuel m) (relational_leq_fuel n)), (lower_ext (relational_leq_fuel m) (relational_leq_fuel n)); auto;
      intros l' u' H; apply IH; lia.
Qed.

Lemma cmp_pair t op a b : wt (EBin t op a b) = true -> (op = OLe \/ op = OGe \/ op = OEq) -> t = TBool /\ wt a = true /\ wt b = true /\ ty_of a = ty_of b.
Proof.
  intros H Ho. cbn [wt] in H. split_andb. destruct Ho as [->|[->| ->]]; destruct t; try discriminate; simpl in *; apply ty_eqb_eq in H0; auto.
Qed.

Theorem relational_sim e : wt e = true -> comparable e -> sim (relational e) e.
Proof.
  induction e using expr_rect'; intros Hw Hc; pose proof Hw as Hw0; cbn [comparable] in Hc; cbn [relational].
  - now apply sim_refl.
  - apply sim_call; auto. cbn [wt] in Hw. clear Hw0. induction args as [|x args IH]; simpl; constructor; inversion H; subst; simpl in Hw, Hc; split_andb; destruct Hc; auto.
  - cbn [wt] in Hw. split_andb. destruct Hc as (? & ? & ?). apply sim_ite; auto.
  - cbn [wt] in Hw. split_andb. destruct Hc as (C1 & C2 & C3).
    assert (S1 : sim (relational e1) e1) by auto. assert (S2 : sim (relational e2) e2) by auto. clear IHe1 IHe2.
    assert (D : sim (EBin t op (relational e1) (relational e2)) (EBin t op e1 e2)) by (apply sim_bin; auto).
    destruct S1 as (W1 & T1 & V1), S2 as (W2 & T2 & V2).
    destruct op; auto.
    + (* eq *) destruct (cmp_pair _ _ _ _ Hw0) as (-> & Wa & Wb & T); [auto|].
      assert (LIT : is_top_lit e1 = true \/ is_bot_lit e1 = true -> literal e1 = true).
      { intros [L|L]; destruct e1; try discriminate; auto. destruct e1; try discriminate; auto. }
      destruct (is_top_lit e1) eqn:Z1; [|destruct (is_bot_lit e1) eqn:Z2; auto].
      * specialize (C3 (LIT (or_introl eq_refl))).
        assert (P : pair_ok (relational e1) (relational e2)) by (repeat split; auto; congruence).
        destruct (fuel_leq (nodes (relational e1) + nodes (relational e2)) _ _ P) as (W & TT & V). split; [exact W|split; [exact TT|]].
        intros I s HI Hs. unfold relational_leq. rewrite V, V1, V2; auto. cbn [eval].
        destruct (top_lit_val I e1 s Wa Z1) as [L E]. assert (T1' : ty_of e1 = TEUReal) by (destruct (ty_of e1); try discriminate; auto).
        rewrite E, T1'. destruct (eur_eval I e2 s HI Hs Wb) as [x ->]; [congruence|]. cbn [num eval_bin vtop]. unfold veq. simpl. now rewrite eq_top_dec.
      * specialize (C3 (LIT (or_intror eq_refl))).
        assert (P : pair_ok (relational e2) (relational e1)) by (repeat split; auto; congruence).
        destruct (fuel_leq (nodes (relational e2) + nodes (relational e1)) _ _ P) as (W & TT & V). split; [exact W|split; [exact TT|]].
        intros I s HI Hs. unfold relational_leq. rewrite V, V1, V2; auto. cbn [eval].
        pose proof (eval_ty I HI e2 Wb s Hs) as Ty2. rewrite <- T in Ty2. rewrite (bot_num I e1 s Wa Z2 C3), (bot_val I s e1 Wa Z2).
        destruct (ty_of e1); try discriminate; inv_ty Ty2; rewrite Ty2; cbn [bv zv num eval_bin]; unfold veq; simpl; f_equal; apply eb; rewrite eleb_iff, dec_iff.
        -- unfold ebot. rewrite ele_fin by (try apply n2r_nonneg; lra). split; intros K.
           ++ f_equal. unfold n2r in K. apply le_IZR in K. lia.
           ++ inversion K. unfold n2r. simpl. lra.
        -- unfold ebot. rewrite Fin_fin, ele_fin by (try apply nval_nonneg; lra). split; intros K.
           ++ f_equal. apply nnr_eq. rewrite nval0. apply Rle_antisym; auto. apply nval_nonneg.
           ++ inversion K. rewrite nval0. lra.
        -- split; intros K; [apply le_ebot in K; congruence|inversion K; apply ele_refl].
    + (* le *) destruct (cmp_pair _ _ _ _ Hw0) as (-> & Wa & Wb & T); [auto|].
      eapply sim_trans; [|exact D]. assert (P : pair_ok (relational e1) (relational e2)) by (repeat split; auto; congruence).
      apply leq_sim; auto. now apply fuel_leq.
    + (* ge *) destruct (cmp_pair _ _ _ _ Hw0) as (-> & Wa & Wb & T); [auto|].
      eapply sim_trans; [|exact D]. assert (P : pair_ok (relational e2) (relational e1)) by (repeat split; auto; congruence).
      eapply sim_trans; [apply leq_sim; [exact P|now apply fuel_leq]|]. split; [|split; [reflexivity|]].
      * apply (leq_default _ _ P).
      * intros I s HI Hs. reflexivity.
  - cbn [wt] in Hw. split_andb. apply sim_un; auto.
  - cbn [wt] in Hw. split_andb. apply sim_cast; auto.
  - cbn [wt] in Hw. split_andb. apply sim_quant; auto.
  - cbn [wt] in Hw. split_andb. destruct Hc. apply sim_subst; auto.
  - now apply sim_refl.
Qed.
