(** SMT terms: which symbols they depend on, what quantified scopes mean, and that the operators of
    the translation compute the operators of the language. *)
From Coq Require Import Bool List String ZArith NArith QArith Reals Qreals Lra Lia FunctionalExtensionality ClassicalEpsilon.
From Verif.Model Require Orders.
From Verif.Model Require Import EurEncodings Syntax AstUtil ScopeMap Translate.
From Verif.Spec Require Import Eur EncSpec Sem Exprs Translated.
From Verif.Proofs Require Import EurLemmas SemLemmas EncProofs EncProps.
Import ListNotations.
Local Open Scope list_scope.
Local Open Scope nat_scope.

Lemma holds_iff P : holds P = true <-> P.
Proof. unfold holds. destruct (excluded_middle_informative P); split; auto; discriminate. Qed.

(** * Agreement of structures *)
Definition agree (k : nat) (M M' : strct) : Prop :=
  (forall n, n < k -> cb M' n = cb M n) /\ (forall n, n < k -> ci M' n = ci M n) /\
  (forall n, n < k -> cr M' n = cr M n) /\ (forall n, n < k -> sk M' n = sk M n) /\
  ufn M' = ufn M /\ sdiv0 M' = sdiv0 M /\ smod0 M' = smod0 M.
Lemma agree_refl k M : agree k M M.
Proof. repeat split. Qed.
Lemma agree_sym k M M' : agree k M M' -> agree k M' M.
Proof. intros (H1&H2&H3&H4&H5&H6&H7). refine (conj _ (conj _ (conj _ (conj _ (conj _ (conj _ _)))))); auto; intros; symmetry; auto. Qed.
Lemma agree_trans k A B C : agree k A B -> agree k B C -> agree k A C.
Proof.
  intros (H1&H2&H3&H4&H5&H6&H7) (G1&G2&G3&G4&G5&G6&G7).
  refine (conj _ (conj _ (conj _ (conj _ (conj _ (conj _ _)))))); intros; try congruence.
  - rewrite G1, H1; auto. - rewrite G2, H2; auto. - rewrite G3, H3; auto. - rewrite G4, H4; auto.
Qed.
Lemma agree_le k k' M M' : k <= k' -> agree k' M M' -> agree k M M'.
Proof.
  intros L (H1&H2&H3&H4&H5&H6&H7). refine (conj _ (conj _ (conj _ (conj _ (conj _ (conj _ _)))))); auto; intros n Hn.
  - apply H1; lia. - apply H2; lia. - apply H3; lia. - apply H4; lia.
Qed.
Lemma agree_off_refl bs M : agree_off bs M M.
Proof. repeat split. Qed.
Lemma agree_off_sym bs M M' : agree_off bs M M' -> agree_off bs M' M.
Proof. intros (H1&H2&H3&H4&H5&H6&H7). refine (conj _ (conj _ (conj _ (conj _ (conj _ (conj _ _)))))); auto; intros; symmetry; auto. Qed.
Lemma agree_off_trans bs A B C : agree_off bs A B -> agree_off bs B C -> agree_off bs A C.
Proof.
  intros (H1&H2&H3&H4&H5&H6&H7) (G1&G2&G3&G4&G5&G6&G7).
  refine (conj _ (conj _ (conj _ (conj _ (conj _ (conj _ _)))))); intros; try congruence.
  - rewrite G1, H1; auto. - rewrite G2, H2; auto. - rewrite G3, H3; auto.
Qed.
Lemma agree_off_incl bs bs' M M' : incl bs bs' -> agree_off bs M M' -> agree_off bs' M M'.
Proof. intros L (H1&H2&H3&H4&H5&H6&H7). refine (conj _ (conj _ (conj _ (conj _ (conj _ (conj _ _)))))); auto. Qed.
Lemma agree_off_nil M M' : agree_off [] M M' -> M' = M.
Proof.
  intros (H1&H2&H3&H4&H5&H6&H7). destruct M, M'; simpl in *. subst.
  f_equal; apply functional_extensionality; auto.
Qed.
Lemma agree_off_above bs k M M' : (forall s n, In (s, n) bs -> k <= n) -> agree_off bs M M' -> agree k M M'.
Proof.
  intros Hb (H1&H2&H3&H4&H5&H6&H7). refine (conj _ (conj _ (conj _ (conj _ (conj _ (conj _ _)))))); auto.
  - intros n Hn. apply H1. intros Hi. apply Hb in Hi. lia.
  - intros n Hn. apply H2. intros Hi. apply Hb in Hi. lia.
  - intros n Hn. apply H3. intros Hi. apply Hb in Hi. lia.
  - intros n Hn. now rewrite H4.
Qed.

Lemma bound_dec (a b : bound) : {a = b} + {a <> b}.
Proof. repeat decide equality. Defined.
(** [N] on [bs] and [M] elsewhere. *)
Definition over (bs : list bound) (M N : strct) : strct :=
  mkstr (fun n => if in_dec bound_dec (SB, n) bs then cb N n else cb M n)
        (fun n => if in_dec bound_dec (SI, n) bs then ci N n else ci M n)
        (fun n => if in_dec bound_dec (SR, n) bs then cr N n else cr M n)
        (sk M) (ufn M) (sdiv0 M) (smod0 M).
Lemma over_agree_off bs M N : agree_off bs M (over bs M N).
Proof. repeat split; simpl; intros n Hn; destruct (in_dec _ _ _); tauto. Qed.
Lemma over_bval bs M N b : In b bs -> bval (over bs M N) b = bval N b.
Proof. destruct b as [[] n]; simpl; intros H; destruct (in_dec _ _ _); tauto. Qed.
Lemma over_agree bs k M M' N : agree k M M' -> agree_off bs M N -> agree k N (over bs M' N).
Proof.
  intros (H1&H2&H3&H4&H5&H6&H7) (G1&G2&G3&G4&G5&G6&G7).
  refine (conj _ (conj _ (conj _ (conj _ (conj _ (conj _ _)))))); simpl; try congruence; intros n Hn.
  - destruct (in_dec _ _ _); auto. rewrite G1 by auto. auto.
  - destruct (in_dec _ _ _); auto. rewrite G2 by auto. auto.
  - destruct (in_dec _ _ _); auto. rewrite G3 by auto. auto.
  - rewrite H4 by auto. now rewrite G4.
Qed.
Lemma bval_off bs M M' b : agree_off bs M M' -> ~ In b bs -> bval M' b = bval M b.
Proof. intros (H1&H2&H3&_). destruct b as [[] n]; simpl; intros H; f_equal; auto. Qed.
Lemma bval_agree k M M' s n : agree k M M' -> n < k -> bval M' (s, n) = bval M (s, n).
Proof. intros (H1&H2&H3&_) H. destruct s; simpl; f_equal; auto. Qed.
(** Structures that agree on the constants [bs] and otherwise below [k]. *)
Lemma agree_by_values bs k M M' : (forall b, In b bs -> bval M' b = bval M b) ->
  agree k M (over bs M' M) -> agree k M M'.
Proof.
  intros Hv (H1&H2&H3&H4&H5&H6&H7). simpl in *.
  refine (conj _ (conj _ (conj _ (conj _ (conj _ (conj _ _)))))); auto; intros n Hn.
  - specialize (H1 n Hn). destruct (in_dec _ _ _) as [i|]; auto. specialize (Hv _ i). simpl in Hv. congruence.
  - specialize (H2 n Hn). destruct (in_dec _ _ _) as [i|]; auto. specialize (Hv _ i). simpl in Hv. congruence.
  - specialize (H3 n Hn). destruct (in_dec _ _ _) as [i|]; auto. specialize (Hv _ i). simpl in Hv. congruence.
Qed.

(** * Terms that depend only on symbols below [k] *)
Definition below {A} (k : nat) (t : term A) : Prop := forall M M', agree k M M' -> t M' = t M.
Definition ybelow (k : nat) (y : symb) : Prop :=
  match y with
  | YBool t => below k t | YInt t | YUInt t => below k t
  | YReal t | YUReal t => below k t | YEur t => below k t
  end.
Lemma below_le {A} k k' (t : term A) : k <= k' -> below k t -> below k' t.
Proof. intros L H M M' G. apply H. eapply agree_le; eauto. Qed.
Lemma ybelow_le k k' y : k <= k' -> ybelow k y -> ybelow k' y.
Proof. intros L. destruct y; simpl; apply below_le; auto. Qed.

Definition alltrue (cs : list (term bool)) (M : strct) : Prop := forall c, In c cs -> c M = true.
Lemma alltrue_app a b M : alltrue (a ++ b) M <-> alltrue a M /\ alltrue b M.
Proof. unfold alltrue. split; [intros H; split; intros; apply H, in_or_app; auto | intros [H1 H2] c Hc; apply in_app_or in Hc; destruct Hc; auto]. Qed.
Lemma alltrue_nil M : alltrue [] M.
Proof. intros c []. Qed.
Lemma all_constraints_iff s M : all_constraints s M = true <-> alltrue (scons s) M.
Proof. unfold all_constraints, alltrue. apply forallb_forall. Qed.
Lemma alltrue_below k cs M M' : (forall c, In c cs -> below k c) -> agree k M M' -> alltrue cs M -> alltrue cs M'.
Proof. intros H G A c Hc. rewrite (H c Hc M M' G). auto. Qed.

Lemma scope_forall_iff s t M : scope_forall s t M = true <->
  forall M', agree_off (sbounds s) M M' -> alltrue (scons s) M' -> t M' = true.
Proof.
  assert (E : forall M', (match scons s with [] => t | _ => fun M => implb (all_constraints s M) (t M) end) M' = true
                         <-> (alltrue (scons s) M' -> t M' = true)).
  { intros M'. destruct (scons s) eqn:Es.
    - split; auto. intros H. apply H, alltrue_nil.
    - rewrite <- Es, <- all_constraints_iff. destruct (all_constraints s M'); simpl; split; auto; intros; try discriminate. }
  unfold scope_forall. destruct (sbounds s) as [|b bs] eqn:Eb.
  - rewrite E. split.
    + intros H M' G. apply agree_off_nil in G. now subst.
    + intros H. apply H, agree_off_refl.
  - rewrite holds_iff. split; intros H M' G; [rewrite <- E | rewrite E]; auto.
Qed.
Lemma scope_exists_iff s t M : scope_exists s t M = true <->
  exists M', agree_off (sbounds s) M M' /\ alltrue (scons s) M' /\ t M' = true.
Proof.
  assert (E : forall M', (match scons s with [] => t | _ => fun M => andb (all_constraints s M) (t M) end) M' = true
                         <-> (alltrue (scons s) M' /\ t M' = true)).
  { intros M'. destruct (scons s) eqn:Es.
    - split; [|tauto]. split; auto. apply alltrue_nil.
    - rewrite <- Es, <- all_constraints_iff. apply andb_true_iff. }
  unfold scope_exists. destruct (sbounds s) as [|b bs] eqn:Eb.
  - rewrite E. split.
    + intros H. exists M. split; auto. apply agree_off_refl.
    + intros (M' & G & H). apply agree_off_nil in G. now subst.
  - rewrite holds_iff. split; intros (M' & G & H); exists M'; split; auto; apply E; auto.
Qed.
Lemma scope_forall_below s t k : (forall c, In c (scons s) -> below k c) -> below k t -> below k (scope_forall s t).
Proof.
  intros Hc Ht.
  assert (D : forall M M', agree k M M' -> scope_forall s t M = true -> scope_forall s t M' = true).
  { intros M M' G H. rewrite scope_forall_iff in *. intros N' A C.
    pose proof (over_agree _ _ _ _ _ (agree_sym _ _ _ G) A) as B.
    rewrite <- (Ht _ _ B). apply H; [apply over_agree_off|]. eapply alltrue_below; eauto. }
  intros M M' G. apply eq_true_iff_eq. split; eauto using agree_sym.
Qed.
Lemma scope_exists_below s t k : (forall c, In c (scons s) -> below k c) -> below k t -> below k (scope_exists s t).
Proof.
  intros Hc Ht.
  assert (D : forall M M', agree k M M' -> scope_exists s t M = true -> scope_exists s t M' = true).
  { intros M M' G H. rewrite scope_exists_iff in *. destruct H as (N & A & C & E).
    pose proof (over_agree _ _ _ _ _ G A) as B.
    exists (over (sbounds s) M' N). split; [apply over_agree_off|]. split; [eapply alltrue_below; eauto|].
    now rewrite (Ht _ _ B). }
  intros M M' G. apply eq_true_iff_eq. split; eauto using agree_sym.
Qed.
Lemma scope_forall_off s t bs M M' : incl bs (sbounds s) -> agree_off bs M M' -> scope_forall s t M' = scope_forall s t M.
Proof.
  intros Hi G. apply (agree_off_incl _ _ _ _ Hi) in G.
  apply eq_true_iff_eq. rewrite !scope_forall_iff. split; intros H N A; apply H.
  - eapply agree_off_trans; [apply agree_off_sym, G | exact A].
  - eapply agree_off_trans; eauto.
Qed.

Lemma extend_scope_bounds l : forall s, sbounds (extend_scope s l) = sbounds s ++ flat_map sbounds l.
Proof. induction l as [|a l IH]; intros s; simpl; [now rewrite app_nil_r|]. unfold extend_scope in *. simpl. rewrite IH. simpl. now rewrite app_assoc. Qed.
Lemma extend_scope_cons l : forall s, scons (extend_scope s l) = scons s ++ flat_map scons l.
Proof. induction l as [|a l IH]; intros s; simpl; [now rewrite app_nil_r|]. unfold extend_scope in *. simpl. rewrite IH. simpl. now rewrite app_assoc. Qed.

(** * Terms that stand for values *)
Definition enc (M : strct) (y : symb) (v : val) : Prop :=
  match y, v with
  | YBool t, VBool b => t M = b
  | YInt t, VInt z => t M = z
  | YUInt t, VUInt n => t M = Z.of_N n
  | YReal t, VReal r => t M = r
  | YUReal t, VUReal x => t M = nval x
  | YEur t, VEur e => pair_ok (t M) /\ pair_val (t M) = e
  | _, _ => False
  end.
Lemma enc_ty M y v : enc M y v -> has_ty v (symb_ty y).
Proof. destruct y, v; simpl; tauto || reflexivity. Qed.
Lemma enc_agree k M M' y v : ybelow k y -> agree k M M' -> enc M y v -> enc M' y v.
Proof. destruct y, v; simpl; intros H G; auto; rewrite (H _ _ G); auto. Qed.
Lemma fits_ufn fsig ecall I M M' : ufn M' = ufn M -> sdiv0 M' = sdiv0 M -> smod0 M' = smod0 M -> fits fsig ecall I M -> fits fsig ecall I M'.
Proof. intros E1 E2 E3 []. split; rewrite ?E1, ?E2, ?E3; auto. Qed.
Lemma fits_agree fsig ecall I k M M' : agree k M M' -> fits fsig ecall I M -> fits fsig ecall I M'.
Proof. intros (_&_&_&_&E1&E2&E3). now apply fits_ufn. Qed.
Lemma fits_off fsig ecall I bs M M' : agree_off bs M M' -> fits fsig ecall I M -> fits fsig ecall I M'.
Proof. intros (_&_&_&_&E1&E2&E3). now apply fits_ufn. Qed.

(** * Fresh symbols *)
Lemma fresh_bounds t n s k : In (s, k) (sbounds (snd (fresh_sym t n))) -> k = n.
Proof. destruct t; simpl; intros H; decompose [or] H; try tauto; congruence. Qed.
Lemma fresh_bound_in t n : exists s, In (s, n) (sbounds (snd (fresh_sym t n))).
Proof. destruct t; simpl; eauto. Qed.
Lemma fresh_inj t n t' n' : fresh_sym t n = fresh_sym t' n' -> n = n'.
Proof. intros E. destruct (fresh_bound_in t n) as [s H]. rewrite E in H. now apply fresh_bounds in H. Qed.
Lemma fresh_ty t n : symb_ty (fst (fresh_sym t n)) = t.
Proof. destruct t; reflexivity. Qed.
Lemma fresh_below t n k : n < k -> ybelow k (fst (fresh_sym t n)) /\ forall c, In c (scons (snd (fresh_sym t n))) -> below k c.
Proof.
  intros L. split.
  - destruct t; intros M M' (H1&H2&H3&_); auto. now rewrite H1, H3.
  - destruct t; simpl; intros c Hc; decompose [or] Hc; try tauto; subst; intros M M' (H1&H2&H3&_); rewrite ?H1, ?H2, ?H3; auto.
Qed.
(** Only the bound constants matter. *)
Lemma fresh_cons_off t n bs M M' : agree_off bs M M' -> (forall b, In b (sbounds (snd (fresh_sym t n))) -> ~ In b bs) ->
  alltrue (scons (snd (fresh_sym t n))) M -> alltrue (scons (snd (fresh_sym t n))) M'.
Proof.
  intros (H1&H2&H3&_) D A c Hc. specialize (A c Hc).
  destruct t; simpl in *; decompose [or] Hc; try tauto; subst; simpl in *; rewrite ?H1, ?H2, ?H3; auto.
Qed.
Lemma fresh_enc_off t n bs M M' v : agree_off bs M M' -> (forall b, In b (sbounds (snd (fresh_sym t n))) -> ~ In b bs) ->
  enc M (fst (fresh_sym t n)) v -> enc M' (fst (fresh_sym t n)) v.
Proof. intros (H1&H2&H3&_) D. destruct t, v; simpl in *; auto; rewrite ?H1, ?H2, ?H3; auto. Qed.
Lemma fresh_cons_consts t n M M' : cb M' = cb M -> ci M' = ci M -> cr M' = cr M ->
  alltrue (scons (snd (fresh_sym t n))) M -> alltrue (scons (snd (fresh_sym t n))) M'.
Proof.
  intros H1 H2 H3 A c Hc. specialize (A c Hc).
  destruct t; simpl in *; decompose [or] Hc; try tauto; subst; simpl in *; rewrite ?H1, ?H2, ?H3; auto.
Qed.

Lemma decode t n M : alltrue (scons (snd (fresh_sym t n))) M -> exists v, has_ty v t /\ enc M (fst (fresh_sym t n)) v.
Proof.
  intros A. destruct t; simpl in *.
  - exists (VBool (cb M n)); split; reflexivity.
  - exists (VInt (ci M n)); split; reflexivity.
  - specialize (A _ (or_introl eq_refl)). simpl in A. exists (VUInt (Z.to_N (ci M n))). split; [reflexivity|]. simpl.
    rewrite Z2N.id; auto. rewrite Z.geb_leb in A. now apply Z.leb_le.
  - exists (VReal (cr M n)); split; reflexivity.
  - specialize (A _ (or_introl eq_refl)). simpl in A. apply Rleb_iff in A.
    exists (VUReal (nnr_of (cr M n))). split; [reflexivity|]. simpl. now rewrite nval_of.
  - specialize (A _ (or_introl eq_refl)). simpl in A. apply pair_invariant_ok in A.
    eexists (VEur _). split; [reflexivity|]. simpl. eauto.
Qed.

(** Give the constants of one symbol a value. *)
Definition set_const (M : strct) (n : nat) (v : val) : strct :=
  let fb b := mkstr (fun k => if Nat.eqb k n then b else cb M k) (ci M) (cr M) (sk M) (ufn M) (sdiv0 M) (smod0 M) in
  let fi z := mkstr (cb M) (fun k => if Nat.eqb k n then z else ci M k) (cr M) (sk M) (ufn M) (sdiv0 M) (smod0 M) in
  let fr M r := mkstr (cb M) (ci M) (fun k => if Nat.eqb k n then r else cr M k) (sk M) (ufn M) (sdiv0 M) (smod0 M) in
  match v with
  | VBool b => fb b | VInt z => fi z | VUInt k => fi (Z.of_N k)
  | VReal r => fr M r | VUReal x => fr M (nval x)
  | VEur e => let p := proj1_sig (canonical_choice e) in fr (fb (p_inf p)) (p_num p)
  | VErr => M
  end.
Lemma set_const_spec M n v t : has_ty v t -> let M' := set_const M n v in
  agree_off (sbounds (snd (fresh_sym t n))) M M' /\ enc M' (fst (fresh_sym t n)) v /\ alltrue (scons (snd (fresh_sym t n))) M'.
Proof.
  intros H. destruct v, t; try discriminate; simpl.
  - repeat split; simpl; auto using alltrue_nil; try (rewrite Nat.eqb_refl; auto).
    intros k Hk. destruct (Nat.eqb_spec k n); auto. subst. tauto.
  - repeat split; simpl; auto using alltrue_nil; try (rewrite Nat.eqb_refl; auto).
    intros k Hk. destruct (Nat.eqb_spec k n); auto. subst. tauto.
  - repeat split; simpl; auto; try (rewrite Nat.eqb_refl; auto).
    + intros k Hk. destruct (Nat.eqb_spec k n); auto. subst. tauto.
    + intros c [<-|[]]. simpl. rewrite Nat.eqb_refl. destruct n0; reflexivity.
  - repeat split; simpl; auto using alltrue_nil; try (rewrite Nat.eqb_refl; auto).
    intros k Hk. destruct (Nat.eqb_spec k n); auto. subst. tauto.
  - repeat split; simpl; auto; try (rewrite Nat.eqb_refl; auto).
    + intros k Hk. destruct (Nat.eqb_spec k n); auto. subst. tauto.
    + intros c [<-|[]]. simpl. rewrite Nat.eqb_refl. apply Rleb_iff, nval_nonneg.
  - destruct (canonical_choice e) as [p [P1 P2]]. simpl. rewrite Nat.eqb_refl.
    assert (E : {| p_inf := p_inf p; p_num := p_num p |} = p) by (destruct p; reflexivity). rewrite E.
    repeat split; simpl; auto using pair_invariant_ok.
    + intros k Hk. destruct (Nat.eqb_spec k n); auto. subst. tauto.
    + intros k Hk. destruct (Nat.eqb_spec k n); auto. subst. tauto.
    + intros c [<-|[]]. simpl. rewrite Nat.eqb_refl, E. auto.
Qed.

(** * Operators *)
Lemma Rleb_dec a b : Rleb a b = dec (a <= b)%R.
Proof. apply eq_true_iff_eq. now rewrite Rleb_iff, dec_iff. Qed.
Lemma Reqb_dec a b : Reqb a b = dec (a = b).
Proof. apply eq_true_iff_eq. now rewrite Reqb_iff, dec_iff. Qed.
Lemma Rltb_negb a b : Rltb a b = negb (Rleb b a).
Proof. unfold Rltb, Rleb. destruct (Rlt_dec a b), (Rle_dec b a); auto; lra. Qed.

Section Ops.
Context (fsig : string -> option (list ty * ty)) (ecall : string -> (string -> list dyn -> dyn) -> list dyn -> dyn) (I : interp).
Notation fits := (fits fsig ecall I).

Lemma int_min_eq a b : int_min a b = Z.min a b.
Proof. unfold int_min, Orders.smt_min_with, ite; simpl. destruct (Z.leb_spec a b); lia. Qed.
Lemma int_max_eq a b : int_max a b = Z.max a b.
Proof. unfold int_max, Orders.smt_max_with, ite; simpl. rewrite Z.geb_leb. destruct (Z.leb_spec b a); lia. Qed.
Lemma real_min_eq a b : real_min a b = Rmin a b.
Proof. unfold real_min, Orders.smt_min_with, ite, Rmin; simpl. unfold Rleb. destruct (Rle_dec a b); auto. Qed.
Lemma real_max_eq a b : real_max a b = Rmax a b.
Proof. unfold real_max, Orders.smt_max_with, ite, Rmax; simpl. unfold Rleb. destruct (Rle_dec b a), (Rle_dec a b); auto; lra. Qed.

Lemma veq_enc M x y v w b : sym_eq x y = Ok b -> enc M x v -> enc M y w -> veq v w = Some (b M).
Proof.
  intros E Hx Hy. pose proof (enc_ty _ _ _ Hx) as Tx. pose proof (enc_ty _ _ _ Hy) as Ty. unfold veq. rewrite Tx, Ty.
  destruct x, y; simpl in E; try discriminate; injection E as <-; simpl; f_equal; symmetry; apply eq_true_iff_eq;
    rewrite dec_iff; unfold lift2; destruct v, w; simpl in *; try contradiction; subst.
  - rewrite Bool.eqb_true_iff. split; congruence.
  - rewrite Z.eqb_eq. split; congruence.
  - rewrite Z.eqb_eq, Hx, Hy. split; [intros H; f_equal; lia | congruence].
  - rewrite Reqb_iff. split; congruence.
  - rewrite Reqb_iff, Hx, Hy. split; [intros H; f_equal; now apply nnr_eq | congruence].
  - destruct Hx as [O1 <-], Hy as [O2 <-]. rewrite pair_cmp_eq by auto. split; congruence.
Qed.
Definition vcmp (o : Orders.ordering) (v w : val) : option bool :=
  match o with
  | Orders.OLe => vle v w | Orders.OGe => vle w v | Orders.OLt => option_map negb (vle w v)
  | Orders.OGt => option_map negb (vle v w) | Orders.OEq => None
  end.
Lemma pair_le_eleb a b : pair_ok a -> pair_ok b -> pair_le a b = eleb (pair_val a) (pair_val b).
Proof. intros. apply eq_true_iff_eq. now rewrite pair_cmp_le, eleb_iff. Qed.
Lemma vcmp_enc o M x y v w b : o <> Orders.OEq -> sym_cmp o x y = Ok b -> enc M x v -> enc M y w -> vcmp o v w = Some (b M).
Proof.
  intros No E Hx Hy.
  destruct x, y; simpl in E; try discriminate; injection E as <-; destruct v, w; simpl in Hx, Hy; try contradiction; unfold lift2; subst.
  - destruct o; simpl; try tauto; f_equal; rewrite ?Z.geb_leb, ?Z.gtb_ltb, ?Z.ltb_antisym; reflexivity.
  - rewrite Hx, Hy. assert (L : forall a b, N.leb a b = Z.leb (Z.of_N a) (Z.of_N b)).
    { intros a b. apply eq_true_iff_eq. rewrite N.leb_le, Z.leb_le. lia. }
    destruct o; simpl; try tauto; f_equal; rewrite ?Z.geb_leb, ?Z.gtb_ltb, ?Z.ltb_antisym, ?L; reflexivity.
  - destruct o; simpl; try tauto; f_equal; rewrite ?Rltb_negb, ?Rleb_dec; reflexivity.
  - rewrite Hx, Hy. destruct o; simpl; try tauto; f_equal; rewrite ?Rltb_negb, ?Rleb_dec; reflexivity.
  - destruct Hx as [O1 <-], Hy as [O2 <-]. destruct o; simpl; try tauto; f_equal; rewrite !pair_le_eleb by auto; reflexivity.
Qed.
Lemma sym_eq_ok x y : symb_ty x = symb_ty y -> exists b, sym_eq x y = Ok b /\ forall k, ybelow k x -> ybelow k y -> below k b.
Proof.
  destruct x, y; simpl; intros E; try discriminate; eexists; (split; [reflexivity|]); intros k H1 H2 M M' G; unfold lift2;
    rewrite (H1 _ _ G), (H2 _ _ G); reflexivity.
Qed.
Lemma sym_cmp_ok o x y : symb_ty x = symb_ty y -> symb_ty x <> TBool -> exists b, sym_cmp o x y = Ok b /\ forall k, ybelow k x -> ybelow k y -> below k b.
Proof.
  destruct x, y; simpl; intros E N; try discriminate; try tauto; eexists; (split; [reflexivity|]); intros k H1 H2 M M' G; unfold lift2;
    rewrite (H1 _ _ G), (H2 _ _ G); reflexivity.
Qed.

Definition bin_good (t : ty) (op : binop) (x y z : symb) : Prop :=
  symb_ty z = t /\ (forall k, ybelow k x -> ybelow k y -> ybelow k z) /\
  (~ (t = TEUReal /\ op = OSub) -> forall M v w, fits M -> enc M x v -> enc M y w -> enc M z (eval_bin I t op v w)).

Lemma lift2_below {A B C} (f : A -> B -> C) a b k : below k a -> below k b -> below k (lift2 f a b).
Proof. intros H1 H2 M M' G. unfold lift2. now rewrite (H1 _ _ G), (H2 _ _ G). Qed.
Lemma smt_mod_below a b k : below k a -> below k b -> below k (liftM2 smt_mod a b).
Proof. intros H1 H2 M M' G. unfold liftM2, smt_mod. rewrite (H1 _ _ G), (H2 _ _ G). destruct G as (_&_&_&_&_&_&E). now rewrite E. Qed.
Lemma smt_div_below a b k : below k a -> below k b -> below k (liftM2 smt_div a b).
Proof. intros H1 H2 M M' G. unfold liftM2, smt_div. rewrite (H1 _ _ G), (H2 _ _ G). destruct G as (_&_&_&_&_&E&_). now rewrite E. Qed.

Lemma eq_good (op : binop) x y : op = OEq \/ op = ONe -> symb_ty x = symb_ty y ->
  exists z, bin_term TBool op x y = Ok z /\ bin_good TBool op x y z.
Proof.
  intros Ho T. destruct (sym_eq_ok x y T) as (b & Eb & Bb).
  assert (E1 : rmap YBool (sym_eq x y) = Ok (YBool b)) by (unfold rmap; rewrite Eb; reflexivity).
  assert (E2 : rmap (fun t => YBool (fun M => negb (t M))) (sym_eq x y) = Ok (YBool (fun M => negb (b M)))) by (unfold rmap; rewrite Eb; reflexivity).
  destruct Ho as [-> | ->]; eexists; (split; [destruct x, y; first [exact E1 | exact E2]|]); (split; [reflexivity|]); split.
  - exact Bb.
  - intros _ M v w _ Hx Hy. simpl. rewrite (veq_enc M x y v w b Eb Hx Hy). reflexivity.
  - intros k H1 H2 M M' G. now rewrite (Bb k H1 H2 M M' G).
  - intros _ M v w _ Hx Hy. simpl. rewrite (veq_enc M x y v w b Eb Hx Hy). reflexivity.
Qed.
Lemma cmp_good (op : binop) x y : op = OLe \/ op = OLt \/ op = OGe \/ op = OGt -> symb_ty x = symb_ty y -> symb_ty x <> TBool ->
  exists z, bin_term TBool op x y = Ok z /\ bin_good TBool op x y z.
Proof.
  intros Ho T NB.
  assert (C : forall o, exists b, sym_cmp o x y = Ok b /\ (forall k, ybelow k x -> ybelow k y -> below k b) /\ rmap YBool (sym_cmp o x y) = Ok (YBool b)).
  { intros o. destruct (sym_cmp_ok o x y T NB) as (b & Eb & Bb). exists b. unfold rmap. rewrite Eb. auto. }
  destruct Ho as [-> | [-> | [-> | ->]]].
  - destruct (C Orders.OLe) as (b & Eb & Bb & Er). exists (YBool b). split; [destruct x, y; exact Er|]. split; [reflexivity|]. split; [exact Bb|].
    intros _ M v w _ Hx Hy. assert (V : vcmp Orders.OLe v w = Some (b M)) by (eapply vcmp_enc; eauto; discriminate). simpl in *. now rewrite V.
  - destruct (C Orders.OLt) as (b & Eb & Bb & Er). exists (YBool b). split; [destruct x, y; exact Er|]. split; [reflexivity|]. split; [exact Bb|].
    intros _ M v w _ Hx Hy. assert (V : vcmp Orders.OLt v w = Some (b M)) by (eapply vcmp_enc; eauto; discriminate). simpl in *. now rewrite V.
  - destruct (C Orders.OGe) as (b & Eb & Bb & Er). exists (YBool b). split; [destruct x, y; exact Er|]. split; [reflexivity|]. split; [exact Bb|].
    intros _ M v w _ Hx Hy. assert (V : vcmp Orders.OGe v w = Some (b M)) by (eapply vcmp_enc; eauto; discriminate). simpl in *. now rewrite V.
  - destruct (C Orders.OGt) as (b & Eb & Bb & Er). exists (YBool b). split; [destruct x, y; exact Er|]. split; [reflexivity|]. split; [exact Bb|].
    intros _ M v w _ Hx Hy. assert (V : vcmp Orders.OGt v w = Some (b M)) by (eapply vcmp_enc; eauto; discriminate). simpl in *. now rewrite V.
Qed.

Lemma pair_inf_ok a b : pair_ok a -> pair_ok b -> pair_ok (Orders.inf pair_lattice a b) /\ pair_ok (Orders.sup pair_lattice a b).
Proof. intros. split; [apply (rep_inf _ _ _ _ pair_represents) | apply (rep_sup _ _ _ _ pair_represents)]; auto. Qed.
Lemma branch_ok c a b : pair_ok a -> pair_ok b -> pair_ok (pair_branch c a b).
Proof. rewrite pair_branch_ite. destruct c; auto. Qed.
Lemma branch_val c a b : pair_val (pair_branch c a b) = if c then pair_val a else pair_val b.
Proof. rewrite pair_branch_ite. destruct c; auto. Qed.
Lemma inf_ok : pair_ok pair_infinity. Proof. unfold pair_ok; simpl; lra. Qed.
Lemma ureal_ok r : (0 <= r)%R -> pair_ok (pair_from_ureal r). Proof. auto. Qed.
Lemma bot_ok : pair_ok (pair_from_ureal 0). Proof. unfold pair_ok; simpl; lra. Qed.

Lemma smt_mod_nonneg M (a b : N) : fits M ->
  smt_mod M (Z.of_N a) (Z.of_N b) = Z.of_N (if N.eqb b 0 then iumod0 I a else N.modulo a b).
Proof.
  intros F. unfold smt_mod. destruct (N.eqb_spec b 0) as [->|nz]; simpl.
  - apply (fits_umod _ _ _ _ F).
  - destruct (Z.eqb_spec (Z.of_N b) 0); [lia|]. rewrite N2Z.inj_mod by auto. f_equal. lia.
Qed.

Ltac split_enc := match goal with H : _ /\ _ |- _ => destruct H end.
Lemma bin_term_good t op x y : bin_ok t op (symb_ty x) (symb_ty y) = true ->
  ~ (t = TBool /\ (op = OLe \/ op = OLt \/ op = OGe \/ op = OGt) /\ symb_ty x = TBool) ->
  exists z, bin_term t op x y = Ok z /\ bin_good t op x y z.
Proof.
  intros B NB.
  destruct t, op; simpl in B; try discriminate B;
    try (apply eq_good; [tauto | now apply ty_eqb_eq]);
    try (apply cmp_good; [tauto | now apply ty_eqb_eq | intros E; apply NB; tauto]);
    apply andb_true_iff in B; destruct B as [B1 B2]; apply ty_eqb_eq in B1, B2; clear NB;
    destruct x; try discriminate B1; destruct y; try discriminate B2; clear B1 B2;
    (eexists; split; [reflexivity|]); (split; [reflexivity|]);
    (split; [intros k; simpl; first [apply lift2_below | apply smt_mod_below | apply smt_div_below]|]);
    intros NS M v w F Hx Hy; destruct v; simpl in Hx; try contradiction; destruct w; simpl in Hy; try contradiction;
    unfold lift2, liftM2; simpl; rewrite ?Hx, ?Hy.
  all: try reflexivity.
  all: try (apply int_min_eq). all: try (apply int_max_eq). all: try (apply real_min_eq). all: try (apply real_max_eq).
  all: try (rewrite ?int_min_eq, ?int_max_eq; lia).
  all: try (unfold lift2; rewrite ?real_min_eq, ?real_max_eq, nval_of; auto; first [apply Rmin_glb; apply nval_nonneg | eapply Rle_trans; [apply nval_nonneg | apply Rmax_l]]).
  all: repeat split_enc; subst; simpl in *.
  (* EUReal *)
  all: try match goal with H : pair_ok (?a ?N), H' : pair_ok (?b ?N) |- _ =>
        pose proof (pair_arith_correct (a N) (b N) H H') as (A1 & A2 & A3 & A4 & A5);
        pose proof (pair_inf_ok (a N) (b N) H H') as [J1 J2];
        first [exact A1 | exact A2 | exact (conj J1 A4) | exact (conj J2 A5) | clear A1 A2 A3 A4 A5 J1 J2]
      end.
  all: try match goal with H : ~ (TEUReal = TEUReal /\ OSub = OSub) |- _ => exfalso; apply H; split; reflexivity end.
  (* integers *)
  all: try match goal with F : Translated.fits _ _ _ _ |- smt_mod _ _ _ = (if _ then imod0 _ _ else _) =>
        unfold smt_mod; destruct (Z.eqb _ 0); [apply (fits_mod _ _ _ _ F) | reflexivity] end.
  all: try match goal with |- int_monus _ _ = _ =>
        unfold int_monus; rewrite Z.geb_leb; match goal with |- context [Z.leb ?a ?b] => destruct (Z.leb_spec a b) end; lia end.
  all: try match goal with F : Translated.fits _ _ _ _ |- smt_mod _ (Z.of_N _) _ = _ => apply smt_mod_nonneg; exact F end.
  (* reals *)
  all: try match goal with F : Translated.fits _ _ _ _ |- smt_div _ _ _ = (if _ then _ else _) =>
        unfold smt_div; rewrite Reqb_dec; destruct (dec _); [apply (fits_div _ _ _ _ F) | reflexivity] end.
  all: try match goal with |- real_monus _ _ = _ => rewrite real_monus_max, nval_of_max; reflexivity end.
  all: try match goal with |- (nval ?x + nval ?y)%R = _ =>
        rewrite nval_of; auto; pose proof (nval_nonneg x); pose proof (nval_nonneg y); lra end.
  all: try match goal with |- (nval ?x * nval ?y)%R = _ =>
        rewrite nval_of; auto; pose proof (nval_nonneg x); pose proof (nval_nonneg y); now apply Rmult_le_pos end.
  all: try match goal with F : Translated.fits _ _ _ _ |- smt_div _ (nval ?x) (nval ?y) = _ =>
     unfold smt_div; rewrite Reqb_dec; destruct (dec (nval y = 0)%R) eqn:Ez; [apply (fits_udiv _ _ _ _ F)|];
     apply dec_false in Ez; rewrite nval_of; auto; pose proof (nval_nonneg x); pose proof (nval_nonneg y);
     apply Rmult_le_pos; auto; apply Rlt_le, Rinv_0_lt_compat; lra end.
  all: unfold Orders.implication, Orders.coimplication, Orders.compare, Orders.cocompare, Orders.implication, Orders.compare; simpl;
       (split; [apply branch_ok; auto using inf_ok, bot_ok |]); rewrite branch_val, pair_le_eleb by auto; reflexivity.
Qed.

Lemma un_term_good t op x : un_ok t op (symb_ty x) = true ->
  exists z, un_term t op x = Ok z /\ symb_ty z = t /\ (forall k, ybelow k x -> ybelow k z) /\
    (forall M v, enc M x v -> enc M z (eval_un t op v)).
Proof.
  intros U.
  assert (P : op = OParens -> exists z, un_term t op x = Ok z /\ symb_ty z = t /\ (forall k, ybelow k x -> ybelow k z) /\
    (forall M v, enc M x v -> enc M z (eval_un t op v))).
  { intros ->. assert (E : symb_ty x = t) by (destruct t; now apply ty_eqb_eq in U).
    exists x. split; [destruct t; reflexivity|]. split; auto. split; auto.
    intros M v Hv. pose proof (enc_ty _ _ _ Hv) as T. rewrite E in T. apply dec_iff in T.
    destruct t; simpl; rewrite T; exact Hv. }
  destruct op; try (apply P; reflexivity); clear P;
    destruct t; simpl in U; try discriminate U; apply ty_eqb_eq in U; destruct x; try discriminate U;
    (eexists; split; [reflexivity|]); (split; [reflexivity|]);
    (split; [intros k H M M' G; simpl; now rewrite (H M M' G)|]);
    intros M v Hv; destruct v; simpl in Hv; try contradiction; simpl.
  - now rewrite Hv.
  - destruct Hv as [O <-]. unfold Orders.negate; simpl. split; [apply branch_ok; auto using inf_ok, bot_ok|].
    rewrite branch_val, pair_le_eleb by auto using bot_ok. reflexivity.
  - now rewrite Hv.
  - destruct Hv as [O <-]. unfold Orders.conegate, Orders.negate; simpl. split; [apply branch_ok; auto using inf_ok, bot_ok|].
    rewrite branch_val, pair_le_eleb by auto using inf_ok. reflexivity.
  - rewrite Hv. split; [apply branch_ok; auto using inf_ok, bot_ok|]. destruct b; reflexivity.
  - rewrite Hv. split; [apply branch_ok; unfold pair_ok; simpl; lra|]. destruct b; reflexivity.
Qed.

Lemma cast_term_good t x : cast_ok t (symb_ty x) = true ->
  exists z, cast_term t x = Ok z /\ symb_ty z = t /\ (forall k, ybelow k x -> ybelow k z) /\
    (forall M v, enc M x v -> enc M z (eval_cast t v)).
Proof.
  intros U.
  assert (P : forall n : N, (0 <= n2r n)%R) by (intros n; apply IZR_le; lia).
  destruct t; simpl in U; try discriminate U; destruct x; simpl in U; try discriminate U;
    (eexists; split; [reflexivity|]); (split; [reflexivity|]);
    (split; [intros k H M M' G; simpl; now rewrite (H M M' G)|]);
    intros M v Hv; destruct v; simpl in Hv; try contradiction; simpl; rewrite ?Hv; auto.
  - rewrite nval_of by apply P. reflexivity.
  - split; [apply ureal_ok, P | reflexivity].
  - split; [apply ureal_ok, nval_nonneg | rewrite Fin_fin; reflexivity].
Qed.

Lemma Q2R_nonneg q : Qle_bool 0 q = true -> (0 <= Q2R q)%R.
Proof. intros H. apply Qle_bool_iff in H. apply Qle_Rle in H. now rewrite RMicromega.Q2R_0 in H. Qed.
Lemma lit_term_good t l : lit_ok t l = true ->
  exists z, lit_term t l = Ok z /\ symb_ty z = t /\ (forall k, ybelow k z) /\ (forall M, enc M z (eval_lit t l)).
Proof.
  intros U. destruct t, l; simpl in U; try discriminate U; (eexists; split; [reflexivity|]);
    (split; [reflexivity|]); (split; [intros k M M' G; reflexivity|]); intros M; simpl; auto.
  - rewrite nval_of; auto using Q2R_nonneg.
  - split; [apply ureal_ok, Q2R_nonneg; auto | reflexivity].
  - split; [apply inf_ok | reflexivity].
Qed.

Lemma ite_term_good t c x y : symb_ty c = TBool -> symb_ty x = t -> symb_ty y = t ->
  exists z, ite_term t c x y = Ok z /\ symb_ty z = t /\ (forall k, ybelow k c -> ybelow k x -> ybelow k y -> ybelow k z) /\
    (forall M b v w, enc M c (VBool b) -> enc M x v -> enc M y w -> enc M z (if b then v else w)).
Proof.
  intros C <- Y. destruct c; try discriminate C.
  destruct x, y; try discriminate Y; (eexists; split; [reflexivity|]); (split; [reflexivity|]);
    (split; [intros k H1 H2 H3 M M' G; simpl; now rewrite (H1 M M' G), (H2 M M' G), (H3 M M' G)|]);
    intros M b v w Hc Hx Hy; simpl in Hc; subst; unfold ite; destruct v; simpl in Hx; try contradiction; destruct w; simpl in Hy; try contradiction;
    destruct (t M) eqn:E; simpl; rewrite ?E; auto; rewrite pair_branch_ite; auto.
Qed.

Lemma into_dynamic_below k y : ybelow k y -> below k (into_dynamic y).
Proof. destruct y; simpl; intros H M M' G; now rewrite (H M M' G). Qed.
Lemma into_dynamic_val M y v : enc M y v -> val_dyn v (into_dynamic y M).
Proof.
  destruct y, v; simpl; intros H; try contradiction; auto. destruct H as [O <-].
  unfold pair_to_datatype, dt_branch, pair_val. destruct (p_inf (t M)); split; auto. exact Logic.I.
Qed.
Lemma from_dynamic_enc M t d v : has_ty v t -> val_dyn v (d M) -> enc M (from_dynamic t d) v.
Proof.
  intros T. destruct v; simpl in T; try discriminate T; injection T as <-; simpl; destruct (d M); try contradiction; auto.
  intros [O <-]. unfold datatype_to_pair. rewrite pair_branch_ite. destruct d0; simpl; split; auto using inf_ok.
Qed.
Lemma from_dynamic_below k t d : below k d -> ybelow k (from_dynamic t d).
Proof. intros H. destruct t; intros M M' G; simpl; now rewrite (H M M' G). Qed.
Lemma from_dynamic_ty t d : symb_ty (from_dynamic t d) = t.
Proof. destruct t; reflexivity. Qed.

Lemma call_term_good t f ys ts : fsig f = Some (ts, t) -> map symb_ty ys = ts ->
  exists z, call_term fsig ecall t f ys = Ok z /\ symb_ty z = t /\ (forall k, Forall (ybelow k) ys -> ybelow k z) /\
    (interp_ok I -> forall M vs, fits M -> Forall2 (enc M) ys vs -> enc M z (ifun I f t vs)).
Proof.
  intros Hf Hts. unfold call_term. rewrite Hf. replace (ty_eqb t t) with true by (symmetry; now apply ty_eqb_eq).
  eexists. split; [reflexivity|]. split; [apply from_dynamic_ty|]. split.
  - intros k Hk. apply from_dynamic_below. intros M M' G.
    assert (E : ufn M' = ufn M) by apply G. rewrite E. f_equal. apply map_ext_in. intros y Hy.
    rewrite Forall_forall in Hk. exact (into_dynamic_below k y (Hk y Hy) M M' G).
  - intros HI M vs F H2. apply from_dynamic_enc; [apply HI|]. apply (fits_fun _ _ _ _ F f ts t); auto.
    + subst ts. clear Hf. induction H2; simpl; constructor; auto. eapply enc_ty; eauto.
    + clear Hts Hf. induction H2; simpl; constructor; auto using into_dynamic_val.
Qed.
End Ops.
