(** Proofs about Model/Lists.v: what the encoding of lists means. *)
From Coq Require Import Bool List ZArith Reals Lra Lia Classical ClassicalEpsilon.
From Verif.Model Require Import Syntax Translate Lists.
From Verif.Spec Require Import ListVals.
Import ListNotations.
Local Open Scope list_scope.

Lemma holds_true P : holds P = true <-> P.
Proof. unfold holds. destruct (excluded_middle_informative P); split; intros; try easy; congruence. Qed.
Lemma holds_false P : holds P = false <-> ~ P.
Proof. unfold holds. destruct (excluded_middle_informative P); split; intros; try easy; congruence. Qed.
Lemma holds_iff P Q : (P <-> Q) -> holds P = holds Q.
Proof. intros H. destruct (holds Q) eqn:E; [apply holds_true, H, holds_true, E|apply holds_false; rewrite H; now apply holds_false]. Qed.

Lemma lty_eqb_eq a : forall b, lty_eqb a b = true <-> a = b.
Proof.
  induction a; intros b; destruct b; cbn; split; intros H; try easy; try congruence.
  - apply IHa in H. congruence.
  - apply IHa. congruence.
  - apply Nat.eqb_eq in H. congruence.
  - apply Nat.eqb_eq. congruence.
Qed.

(** * Representation *)
Lemma inhabited t : exists s v, rep t s v.
Proof.
  induction t as [| | | | | |t (s & v & H)|d].
  - exists (SB true), (VB true). reflexivity.
  - exists (SI 0), (VI 0). reflexivity.
  - exists (SI 0), (VI 0). cbn. lia.
  - exists (SR 0), (VR 0). reflexivity.
  - exists (SR 0), (VR 0). cbn. split; [reflexivity|lra].
  - exists (SE None), (VE None). cbn. tauto.
  - exists (SL 0 (fun _ => s)), (VL []). cbn. split; [reflexivity|]. split; [intros; exists v; exact H|].
    intros [|k] w; discriminate.
  - exists (SU d 0), (VU d 0). cbn. tauto.
Qed.

Lemma rep_good t : forall s v, rep t s v -> in_sort t s /\ smt_invariant t s /\ vty t v.
Proof.
  induction t as [| | | | | |t IH|d]; intros s v H; destruct s, v; cbn in *; try easy.
  - intuition lia.
  - destruct H as [-> H]. tauto.
  - destruct H as [-> H]. destruct e0; tauto.
  - destruct H as (-> & H & H'). split; [|split].
    + intros i. destruct (H i) as (w & Hw). apply (IH _ _ Hw).
    + lia.
    + apply Forall_forall. intros w Hw. destruct (In_nth_error _ _ Hw) as (k & Hk). apply (IH _ _ (H' _ _ Hk)).
Qed.

Lemma rep_total t : forall v, vty t v -> exists s, rep t s v.
Proof.
  induction t as [| | | | | |t IH|d]; intros v H; destruct v; cbn in *; try easy.
  - now exists (SB b).
  - now exists (SI z).
  - now exists (SI z).
  - now exists (SR r).
  - now exists (SR r).
  - exists (SE e). now destruct e.
  - assert (exists ss, length ss = length l /\ forall k w, nth_error l k = Some w -> exists s, nth_error ss k = Some s /\ rep t s w) as (ss & Hn & Hs).
    { induction H as [|w l Hw Hl (ss & Hn & Hs)].
      - exists []. split; [reflexivity|]. intros [|k] w; discriminate.
      - destruct (IH w Hw) as (s & S1). exists (s :: ss). split; [cbn; congruence|].
        intros [|k] u Hu; cbn in Hu; [injection Hu as <-; exists s; split; [reflexivity|exact S1]|apply Hs, Hu]. }
    destruct (inhabited t) as (d & dv & Hd).
    exists (SL (Z.of_nat (length l)) (fun i => nth (Z.to_nat i) ss d)). cbn. split; [reflexivity|]. split.
    + intros i. destruct (nth_error l (Z.to_nat i)) as [w|] eqn:E.
      * destruct (Hs _ _ E) as (s & S1 & S2). exists w. now rewrite (nth_error_nth _ _ d S1).
      * exists dv. rewrite nth_overflow; [exact Hd|]. apply nth_error_None in E. lia.
    + intros k w E. rewrite Nat2Z.id. destruct (Hs _ _ E) as (s & S1 & S2). now rewrite (nth_error_nth _ _ d S1).
  - subst. now exists (SU d0 k).
Qed.

Lemma list_ext {A} (l m : list A) : length l = length m ->
  (forall k a b, nth_error l k = Some a -> nth_error m k = Some b -> a = b) -> l = m.
Proof.
  revert m; induction l as [|a l IH]; intros [|b m] Hn H; try discriminate; [reflexivity|].
  f_equal; [exact (H 0%nat a b eq_refl eq_refl)|]. apply IH; [cbn in Hn; congruence|]. intros k. exact (H (S k)).
Qed.
Lemma rep_fun t : forall s v w, rep t s v -> rep t s w -> v = w.
Proof.
  induction t as [| | | | | |t IH|d]; intros s v w H H'; destruct s, v, w; cbn in *; try easy; try (intuition congruence).
  destruct H as (-> & _ & H), H' as (E & _ & H'). f_equal. apply list_ext; [lia|].
  intros k a b A B. exact (IH _ _ _ (H _ _ A) (H' _ _ B)).
Qed.
Lemma rep_inj t : (forall u, t <> LList u) -> forall s s' v, rep t s v -> rep t s' v -> s = s'.
Proof.
  destruct t; intros N s s' v H H'; try (now destruct (N t)); destruct s, s', v; cbn in *; try easy; intuition congruence.
Qed.

Lemma free_rep u x : free_ty u -> in_sort u x -> exists v, rep u x v.
Proof.
  intros Hu Hx. destruct u, x; cbn in Hu, Hx; try contradiction; subst; cbn;
    [now exists (VB b)|now exists (VI z)|now exists (VR r)|now exists (VU d0 k)].
Qed.
Lemma exact_rep t s : exact_ty t -> in_sort t s -> smt_invariant t s -> exists v, rep t s v.
Proof.
  intros E S1 I. destruct t as [| | | | | |t|d]; try (now apply free_rep); destruct s; cbn in S1, I; try contradiction; cbn.
  - now exists (VI z).
  - now exists (VR r).
  - exists (VE e). now destruct e.
  - assert (forall k : nat, exists v, rep t (elements (Z.of_nat k)) v) as H by (intros k; now apply free_rep).
    set (val := fun k : nat => proj1_sig (constructive_indefinite_description _ (H k))).
    exists (VL (map val (seq 0 (Z.to_nat len)))). split; [rewrite map_length, seq_length; lia|].
    split; [intros i; now apply free_rep|].
    intros k w Hk. rewrite nth_error_map in Hk.
    destruct (nth_error (seq 0 (Z.to_nat len)) k) as [j|] eqn:Ej; [|discriminate]. injection Hk as <-.
    assert (j = k) as ->.
    { assert (k < length (seq 0 (Z.to_nat len))) by (apply nth_error_Some; congruence).
      rewrite seq_length in *. rewrite (nth_error_nth' _ 0%nat) in Ej by (rewrite seq_length; lia).
      rewrite seq_nth in Ej by lia. injection Ej. lia. }
    unfold val. now destruct (constructive_indefinite_description _ (H k)).
Qed.
Lemma in_sort_inhabited t : exists s, in_sort t s.
Proof. destruct (inhabited t) as (s & v & H). exists s. apply (rep_good _ _ _ H). Qed.
Lemma exact_only t : (forall s, in_sort (LList t) s -> smt_invariant (LList t) s -> exists v, rep (LList t) s v) -> free_ty t.
Proof.
  intros H. destruct t as [| | | | | |t|d]; cbn; try exact Logic.I.
  - destruct (H (SL 1 (fun _ => SI (-1)))) as ([] & W); cbn in *; try easy; try lia; try lra; destruct W as (_ & W & _).
    destruct (W 0%Z) as ([] & W'); try easy; lia.
  - destruct (H (SL 1 (fun _ => SR (-1)))) as ([] & W); cbn in *; try easy; try lia; try lra; destruct W as (_ & W & _).
    destruct (W 0%Z) as ([] & W'); try easy; lra.
  - destruct (H (SL 1 (fun _ => SE (Some (-1)%R)))) as ([] & W); cbn in *; try easy; try lia; try lra; destruct W as (_ & W & _).
    destruct (W 0%Z) as ([] & W'); try easy; lra.
  - destruct (in_sort_inhabited t) as (s & Hs).
    destruct (H (SL 1 (fun _ => SL (-1) (fun _ => s)))) as ([] & W); cbn in *; try easy; try lia; try lra; destruct W as (_ & W & _).
    destruct (W 0%Z) as ([] & W'); try easy; lia.
Qed.
(** Even for elements that are in bounds *)
Lemma exact_only_in t :
  (forall n f, in_sort (LList t) (SL n f) -> smt_invariant (LList t) (SL n f) -> forall i, (0 <= i < n)%Z -> exists v, rep t (f i) v) -> free_ty t.
Proof.
  intros H. apply exact_only. intros s S1 I. destruct s as [| | | | |n f]; cbn in S1; try contradiction.
  assert (forall x, in_sort t x -> exists v, rep t x v) as A.
  { intros x Hx. apply (H 1%Z (fun _ => x)) with (i := 0%Z); [intros i; exact Hx|cbn; lia|lia]. }
  destruct t as [| | | | | |t|d]; try (now apply exact_rep).
  - destruct (A (SI (-1)) Logic.I) as ([] & W); cbn in W; try easy; lia.
  - destruct (A (SR (-1)) Logic.I) as ([] & W); cbn in W; try easy; lra.
  - destruct (A (SE (Some (-1)%R)) Logic.I) as ([] & W); cbn in W; try easy; lra.
  - destruct (in_sort_inhabited t) as (s & Hs).
    destruct (A (SL (-1) (fun _ => s))) as ([] & W); [intros i; exact Hs| | | | | |]; cbn in W; try easy; lia.
Qed.

(** * Operations *)
Lemma put_length l : forall k v, length (put l k v) = length l.
Proof. induction l as [|a l IH]; intros [|k] v; cbn; [reflexivity..|]. now rewrite IH. Qed.
Lemma put_nth l : forall k v j, nth_error (put l k v) j = if Nat.eqb j k then (if Nat.ltb k (length l) then Some v else None) else nth_error l j.
Proof.
  induction l as [|a l IH]; intros [|k] v [|j]; cbn; try reflexivity.
  - now destruct (Nat.eqb j k).
  - rewrite IH. now destruct (Nat.eqb j k).
Qed.
Lemma put_oob l : forall k v, length l <= k -> put l k v = l.
Proof. induction l as [|a l IH]; intros [|k] v H; cbn in *; [reflexivity..|lia|]. now rewrite IH by lia. Qed.

Lemma get_rep t n f l k w : rep (LList t) (SL n f) (VL l) -> nth_error l k = Some w -> rep t (l_get n f (Z.of_nat k)) w.
Proof. intros (_ & _ & H) E. exact (H _ _ E). Qed.
Lemma set_rep t n f l k s w : rep (LList t) (SL n f) (VL l) -> rep t s w -> rep (LList t) (l_set n f (Z.of_nat k) s) (VL (put l k w)).
Proof.
  intros (-> & H1 & H2) Hs. cbn. rewrite put_length. split; [reflexivity|]. split.
  - intros i. destruct (Z.eqb_spec i (Z.of_nat k)); [exists w; exact Hs|apply H1].
  - intros j u E. rewrite put_nth in E. destruct (Z.eqb_spec (Z.of_nat j) (Z.of_nat k)) as [E'|E'].
    + apply Nat2Z.inj in E'. subst j. rewrite Nat.eqb_refl in E. destruct (Nat.ltb k (length l)); congruence.
    + destruct (Nat.eqb_spec j k); [congruence|]. apply H2, E.
Qed.

Lemma l_eq_refl n f : l_eq n f n f.
Proof. split; reflexivity. Qed.
Lemma l_eq_sym n f m g : l_eq n f m g -> l_eq m g n f.
Proof. intros (-> & H). split; [reflexivity|]. intros i I V. symmetry. now apply H. Qed.
Lemma l_eq_trans n f m g p h : l_eq n f m g -> l_eq m g p h -> l_eq n f p h.
Proof. intros (-> & H) (-> & H'). split; [reflexivity|]. intros i I V. unfold l_get in *. rewrite H by assumption. now apply H'. Qed.
Lemma l_eq_sound t n f m g l k : rep (LList t) (SL n f) (VL l) -> rep (LList t) (SL m g) (VL k) -> l_eq n f m g -> l = k.
Proof.
  intros (-> & _ & H) (-> & _ & H') (E & Q). apply list_ext; [lia|]. intros i a b A B.
  refine (rep_fun t _ _ _ (H _ _ A) _). unfold l_get in Q. rewrite (Q (Z.of_nat i)); [exact (H' _ _ B)|cbn; lia|].
  unfold l_valid_index. apply Nat2Z.inj_lt. apply nth_error_Some. congruence.
Qed.
Lemma l_eq_complete t n f m g l : (forall u, t <> LList u) ->
  rep (LList t) (SL n f) (VL l) -> rep (LList t) (SL m g) (VL l) -> l_eq n f m g.
Proof.
  intros N (-> & _ & H) (-> & _ & H'). split; [reflexivity|]. intros i I V. cbn in I. unfold l_valid_index in V. unfold l_get.
  rewrite <- (Z2Nat.id i) by exact I.
  destruct (nth_error l (Z.to_nat i)) as [w|] eqn:E; [|apply nth_error_None in E; lia].
  exact (rep_inj t N _ _ _ (H _ _ E) (H' _ _ E)).
Qed.
Lemma l_eq_get n f m g i : (0 <= i < n)%Z -> l_eq n f m g -> l_get n f i = l_get m g i.
Proof. intros [H0 H1] (_ & H). apply H; [exact H0|exact H1]. Qed.

(** * The type check *)
Fixpoint wt (G : nat -> lty) (e : tx) : Prop :=
  match e with
  | TVar t x => t = G x
  | TNum _ => True
  | TBin t op a b =>
      wt G a /\ wt G b /\ tx_ty a = tx_ty b /\
      match op with
      | OpAdd => l_num (tx_ty a) = true /\ t = tx_ty a
      | OpLt => l_num (tx_ty a) = true /\ t = LBool
      | OpEq => t = LBool
      | OpAnd | OpImp => tx_ty a = LBool /\ t = LBool
      end
  | TIte t c a b => wt G c /\ wt G a /\ wt G b /\ tx_ty c = LBool /\ tx_ty a = t /\ tx_ty b = t
  | TQuant _ t x e => t = G x /\ wt G e /\ tx_ty e = LBool
  | TSelect t l i => wt G l /\ wt G i /\ tx_ty l = LList t /\ tx_ty i = LUInt
  | TStore t l i v => wt G l /\ wt G i /\ wt G v /\ tx_ty i = LUInt /\ tx_ty l = t /\ t = LList (tx_ty v)
  | TLen l => wt G l
  | TCast t a => wt G a /\ lty_less (tx_ty a) t = true
  end.

Lemma bind_ok {A B} (m : res A) (f : A -> res B) b : rbind m f = Ok b -> exists a, m = Ok a /\ f a = Ok b.
Proof. destruct m; cbn; try discriminate. eauto. Qed.
Lemma want_ok c : l_want c = Ok tt -> c = true.
Proof. destruct c; [reflexivity|discriminate]. Qed.

Lemma cast_wt G t e e' : wt G e -> l_cast t e = Ok e' -> wt G e' /\ tx_ty e' = t.
Proof.
  unfold l_cast. intros W. destruct (lty_eqb t (tx_ty e)) eqn:E.
  - intros [= <-]. split; [exact W|]. symmetry. now apply lty_eqb_eq.
  - destruct (lty_less (tx_ty e) t) eqn:L; [|discriminate]. intros [= <-]. cbn. tauto.
Qed.
Lemma unify_wt G a b a' b' t : wt G a -> wt G b -> l_unify a b = Ok (a', b', t) ->
  wt G a' /\ wt G b' /\ tx_ty a' = t /\ tx_ty b' = t /\ (t = tx_ty a \/ t = tx_ty b).
Proof.
  unfold l_unify. intros Wa Wb. destruct (lty_eqb (tx_ty a) (tx_ty b)) eqn:E.
  - apply lty_eqb_eq in E. intros [= <- <- <-]. intuition congruence.
  - destruct (lty_less (tx_ty a) (tx_ty b)) eqn:L; [intros [= <- <- <-]; cbn; tauto|].
    destruct (lty_less (tx_ty b) (tx_ty a)) eqn:L'; [intros [= <- <- <-]; cbn; tauto|discriminate].
Qed.
Lemma bin_wt G op a b e : wt G a -> wt G b -> l_bin op a b = Ok e -> wt G e.
Proof.
  intros Wa Wb. destruct op; cbn [l_bin]; intros H.
  - apply bind_ok in H as ([] & H1 & H). apply bind_ok in H as ([] & H2 & H). apply bind_ok in H as ([[a' b'] t] & H3 & H).
    injection H as <-. apply want_ok in H1, H2.
    destruct (unify_wt _ _ _ _ _ _ Wa Wb H3) as (A & B & Ta & Tb & D). cbn. rewrite Ta, Tb. repeat split; try assumption.
    destruct D as [-> | ->]; assumption.
  - apply bind_ok in H as ([] & H1 & H). apply bind_ok in H as ([] & H2 & H). apply bind_ok in H as ([[a' b'] t] & H3 & H).
    injection H as <-. apply want_ok in H1, H2.
    destruct (unify_wt _ _ _ _ _ _ Wa Wb H3) as (A & B & Ta & Tb & D). cbn. rewrite Ta, Tb. repeat split; try assumption.
    destruct D as [-> | ->]; assumption.
  - apply bind_ok in H as ([] & H1 & H). apply bind_ok in H as ([] & H2 & H). apply want_ok in H1, H2. injection H as <-.
    apply lty_eqb_eq in H1, H2. cbn. rewrite H1, H2. tauto.
  - apply bind_ok in H as ([] & H1 & H). apply bind_ok in H as ([] & H2 & H). apply want_ok in H1, H2. injection H as <-.
    apply lty_eqb_eq in H1, H2. cbn. rewrite H1, H2. tauto.
  - apply bind_ok in H as ([[a' b'] t] & H3 & H). injection H as <-.
    destruct (unify_wt _ _ _ _ _ _ Wa Wb H3) as (A & B & Ta & Tb & D). cbn. rewrite Ta, Tb. tauto.
Qed.
Lemma call_wt G f args e : Forall (wt G) args -> l_call f args = Ok e -> wt G e.
Proof.
  intros W. destruct f; cbn [l_call]; intros H.
  - destruct args as [|l [|i [|]]]; try discriminate. inversion W as [|? ? Wl W']; subst. inversion W' as [|? ? Wi _]; subst.
    destruct (tx_ty l) eqn:E; try discriminate. apply bind_ok in H as (i' & H1 & H). injection H as <-.
    destruct (cast_wt _ _ _ _ Wi H1). cbn. tauto.
  - destruct args as [|l [|i [|v [|]]]]; try discriminate. inversion W as [|? ? Wl W']; subst.
    inversion W' as [|? ? Wi W'']; subst. inversion W'' as [|? ? Wv _]; subst.
    destruct (tx_ty l) eqn:E; try discriminate. apply bind_ok in H as (i' & H1 & H). apply bind_ok in H as (v' & H2 & H). injection H as <-.
    destruct (cast_wt _ _ _ _ Wi H1), (cast_wt _ _ _ _ Wv H2) as [? Ev]. cbn. rewrite Ev. tauto.
  - destruct args as [|l [|]]; try discriminate. injection H as <-. inversion W; subst. cbn. assumption.
Qed.
Lemma check_wt G : forall e e', check G e = Ok e' -> wt G e'.
Proof.
  fix IH 1. intros e e' H. destruct e as [x|n|op a b|c a b|all x e|f args]; cbn in H.
  - injection H as <-. reflexivity.
  - injection H as <-. exact Logic.I.
  - apply bind_ok in H as (a' & Ha & H). apply bind_ok in H as (b' & Hb & H).
    exact (bin_wt _ _ _ _ _ (IH _ _ Ha) (IH _ _ Hb) H).
  - apply bind_ok in H as (c' & Hc & H). apply bind_ok in H as (a' & Ha & H). apply bind_ok in H as (b' & Hb & H).
    apply bind_ok in H as (c'' & Hc' & H). apply bind_ok in H as ([[a'' b''] t] & Hu & H). injection H as <-.
    destruct (cast_wt _ _ _ _ (IH _ _ Hc) Hc'), (unify_wt _ _ _ _ _ _ (IH _ _ Ha) (IH _ _ Hb) Hu) as (? & ? & ? & ? & _).
    cbn. tauto.
  - apply bind_ok in H as (e1 & He & H). apply bind_ok in H as ([] & H1 & H). apply want_ok, lty_eqb_eq in H1. injection H as <-.
    cbn. pose proof (IH _ _ He). tauto.
  - apply bind_ok in H as (targs & Ha & H). refine (call_wt _ _ _ _ _ H). clear H. revert targs Ha.
    induction args as [|a args IHa]; intros targs Ha.
    + injection Ha as <-. constructor.
    + apply bind_ok in Ha as (a' & H1 & Ha). apply bind_ok in Ha as (l' & H2 & Ha). injection Ha as <-.
      constructor; [exact (IH _ _ H1)|exact (IHa _ H2)].
Qed.

(** * Translation *)
Lemma less_not_list a t : lty_less a t = true -> forall u, t <> LList u.
Proof. destruct a, t; cbn; intros H u; congruence. Qed.
Lemma list_typed_kind G e t : wt G e -> tx_ty e = LList t -> list_kind e = true.
Proof.
  destruct e as [| |t' op a b| | | | | |t' a]; cbn; intros W E; try reflexivity; try discriminate.
  - exfalso. destruct W as (_ & _ & _ & W). destruct op; [destruct W as [W W']; rewrite <- W', E in W; discriminate|destruct W; congruence..|congruence].
  - exfalso. destruct W as [_ W]. exact (less_not_list _ _ W t E).
Qed.

Lemma upd_sort (G : nat -> lty) r x s : (forall y, in_sort (G y) (r y)) -> in_sort (G x) s -> forall y, in_sort (G y) (upd_s r x s y).
Proof. intros H Hs y. unfold upd_s. destruct (Nat.eqb_spec y x); [now subst|apply H]. Qed.

Lemma add_sort t a b : l_num t = true -> in_sort t a -> in_sort t b -> exists s, s_add a b = Ok s /\ in_sort t s.
Proof.
  intros N A B. destruct t; try discriminate; destruct a, b; cbn in A, B; try contradiction; cbn; try (eexists; split; [reflexivity|exact Logic.I]).
  destruct e, e0; eexists; split; try reflexivity; exact Logic.I.
Qed.
Lemma lt_sort t a b : l_num t = true -> in_sort t a -> in_sort t b -> exists s, s_lt a b = Ok (SB s).
Proof.
  intros N A B. destruct t; try discriminate; destruct a, b; cbn in A, B; try contradiction; cbn; try (eexists; reflexivity).
  destruct e, e0; eexists; reflexivity.
Qed.
Lemma eq_sort t a b : in_sort t a -> in_sort t b -> exists s, s_eq a b = Ok (SB s).
Proof. intros A B. destruct t; destruct a, b; cbn in A, B; try contradiction; cbn; eexists; reflexivity. Qed.
Lemma cast_sort u t a : lty_less u t = true -> in_sort u a -> exists s, s_cast t a = Ok s /\ in_sort t s.
Proof. intros L A. destruct u, t; try discriminate; destruct a; cbn in A; try contradiction; cbn; eexists; (split; [reflexivity|exact Logic.I]). Qed.
Lemma bool_sort s : in_sort LBool s -> exists b, s = SB b.
Proof. destruct s; try contradiction. eauto. Qed.
Lemma uint_sort s : in_sort LUInt s -> exists z, s = SI z.
Proof. destruct s; try contradiction. eauto. Qed.
Lemma list_sort t s : in_sort (LList t) s -> exists n f, s = SL n f /\ forall i, in_sort t (f i).
Proof. destruct s; try contradiction. cbn. eauto. Qed.

Lemma t_list_ok G e t s : wt G e -> tx_ty e = LList t -> in_sort (LList t) s -> exists n f, s = SL n f /\ t_list e (Ok s) = Ok (n, f).
Proof. intros W E S1. destruct (list_sort _ _ S1) as (n & f & -> & _). exists n, f. split; [reflexivity|]. unfold t_list. now rewrite (list_typed_kind _ _ _ W E). Qed.
Lemma t_uint_ok e s : tx_ty e = LUInt -> in_sort LUInt s -> exists z, s = SI z /\ t_uint e (Ok s) = Ok z.
Proof. intros E S1. destruct (uint_sort _ S1) as (z & ->). exists z. split; [reflexivity|]. unfold t_uint. now rewrite E. Qed.

Lemma quant_ok all t body : (forall s, in_sort t s -> exists b, body s = Ok (SB b)) ->
  s_quant all t body = Ok (SB (holds (if all then forall s, in_sort t s -> smt_invariant t s -> body s = Ok (SB true)
                                      else exists s, in_sort t s /\ smt_invariant t s /\ body s = Ok (SB true)))).
Proof.
  intros H. unfold s_quant. destruct (holds (exists s w, in_sort t s /\ body s = Panic w)) eqn:E; [|reflexivity].
  apply holds_true in E as (s & w & S1 & E). destruct (H s S1) as (b & E'). congruence.
Qed.

Lemma tr_ok G e : wt G e -> len_of_lists e -> forall r, (forall x, in_sort (G x) (r x)) -> exists s, tr r e = Ok s /\ in_sort (tx_ty e) s.
Proof.
  induction e as [t x|n|t op a IHa b IHb|t c IHc a IHa b IHb|all t x e IHe|t l IHl i IHi|t l IHl i IHi v IHv|l IHl|t a IHa];
    intros W L r R; cbn [wt len_of_lists tx_ty] in *; cbn [tr].
  - subst. eexists; split; [reflexivity|apply R].
  - eexists; split; [reflexivity|exact Logic.I].
  - destruct W as (Wa & Wb & E & W), L as [La Lb].
    destruct (IHa Wa La r R) as (sa & Ea & Sa), (IHb Wb Lb r R) as (sb & Eb & Sb). rewrite Ea, Eb. cbn [rbind]. rewrite <- E in Sb.
    destruct op; cbn [s_bin].
    + destruct W as [N ->]. exact (add_sort _ _ _ N Sa Sb).
    + destruct W as [N ->]. destruct (lt_sort _ _ _ N Sa Sb) as (s & ->). eexists; split; [reflexivity|exact Logic.I].
    + destruct W as [T ->]. rewrite T in *. destruct (bool_sort _ Sa) as (? & ->), (bool_sort _ Sb) as (? & ->).
      eexists; split; [reflexivity|exact Logic.I].
    + destruct W as [T ->]. rewrite T in *. destruct (bool_sort _ Sa) as (? & ->), (bool_sort _ Sb) as (? & ->).
      eexists; split; [reflexivity|exact Logic.I].
    + subst t. destruct (eq_sort _ _ _ Sa Sb) as (s & ->). eexists; split; [reflexivity|exact Logic.I].
  - destruct W as (Wc & Wa & Wb & Tc & Ta & Tb), L as (Lc & La & Lb).
    destruct (IHc Wc Lc r R) as (sc & Ec & Sc), (IHa Wa La r R) as (sa & Ea & Sa), (IHb Wb Lb r R) as (sb & Eb & Sb).
    rewrite Tc in Sc. destruct (bool_sort _ Sc) as (c' & ->). rewrite Ec, Ea, Eb. cbn [rbind].
    eexists; split; [reflexivity|]. destruct c'; congruence.
  - destruct W as (-> & We & Te). rewrite quant_ok; [eexists; split; [reflexivity|exact Logic.I]|].
    intros s Hs. destruct (IHe We L (upd_s r x s) (upd_sort G r x s R Hs)) as (s' & E & S'). rewrite Te in S'.
    destruct (bool_sort _ S') as (b & ->). eauto.
  - destruct W as (Wl & Wi & Tl & Ti), L as [Ll Li].
    destruct (IHl Wl Ll r R) as (sl & El & Sl), (IHi Wi Li r R) as (si & Ei & Si). rewrite Tl in Sl. rewrite Ti in Si. rewrite El, Ei.
    destruct (t_list_ok _ _ _ _ Wl Tl Sl) as (n & f & -> & ->), (t_uint_ok _ _ Ti Si) as (z & -> & ->). cbn [rbind].
    eexists; split; [reflexivity|]. apply Sl.
  - destruct W as (Wl & Wi & Wv & Ti & Tl & ->), L as (Ll & Li & Lv).
    destruct (IHl Wl Ll r R) as (sl & El & Sl), (IHi Wi Li r R) as (si & Ei & Si), (IHv Wv Lv r R) as (sv & Ev & Sv).
    rewrite Tl in Sl. rewrite Ti in Si. rewrite El, Ei, Ev.
    destruct (t_list_ok _ _ _ _ Wl Tl Sl) as (n & f & -> & ->), (t_uint_ok _ _ Ti Si) as (z & -> & ->). cbn [rbind].
    eexists; split; [reflexivity|]. cbn. intros j. destruct (j =? z)%Z; [exact Sv|apply Sl].
  - destruct L as [[t Tl] Ll]. destruct (IHl W Ll r R) as (sl & El & Sl). rewrite Tl in Sl. rewrite El.
    destruct (t_list_ok _ _ _ _ W Tl Sl) as (n & f & -> & ->). cbn [rbind]. eexists; split; [reflexivity|exact Logic.I].
  - destruct W as [Wa Lt]. destruct (IHa Wa L r R) as (sa & Ea & Sa). rewrite Ea. cbn [rbind]. exact (cast_sort _ _ _ Lt Sa).
Qed.

(** * Meaning *)
Lemma add_rep t a b va vb : l_num t = true -> rep t a va -> rep t b vb -> exists s v, s_add a b = Ok s /\ rep t s v /\ v_bin OpAdd va vb v.
Proof.
  intros N A B. destruct t; try discriminate; destruct a, va; cbn in A; try contradiction; destruct b, vb; cbn in B; try contradiction; cbn.
  - subst. do 2 eexists. repeat split; [|constructor]. reflexivity.
  - destruct A as [-> A], B as [-> B]. do 2 eexists. split; [reflexivity|]. split; [|constructor]. cbn. lia.
  - subst. do 2 eexists. repeat split; [|constructor]. reflexivity.
  - destruct A as [-> A], B as [-> B]. do 2 eexists. split; [reflexivity|]. split; [|constructor]. cbn. split; [reflexivity|lra].
  - destruct A as [-> A], B as [-> B]. destruct e0, e2; do 2 eexists; (split; [reflexivity|]).
    + split; [|constructor]. cbn. split; [reflexivity|lra].
    + split; [|apply b_addT; tauto]. cbn. tauto.
    + split; [|apply b_addT; tauto]. cbn. tauto.
    + split; [|apply b_addT; tauto]. cbn. tauto.
Qed.
Lemma lt_rep t a b va vb : l_num t = true -> rep t a va -> rep t b vb -> exists s, s_lt a b = Ok (SB s) /\ v_bin OpLt va vb (VB s).
Proof.
  intros N A B. destruct t; try discriminate; destruct a, va; cbn in A; try contradiction; destruct b, vb; cbn in B; try contradiction; cbn.
  - subst. eexists; split; [reflexivity|constructor].
  - destruct A as [-> A], B as [-> B]. eexists; split; [reflexivity|constructor].
  - subst. eexists; split; [reflexivity|constructor].
  - destruct A as [-> A], B as [-> B]. eexists; split; [reflexivity|constructor].
  - destruct A as [-> A], B as [-> B]. destruct e0, e2; eexists; (split; [reflexivity|constructor]).
Qed.
Lemma eq_rep t a b va vb : flat_ty t -> rep t a va -> rep t b vb -> s_eq a b = Ok (SB (holds (va = vb))).
Proof.
  intros Fl A B. destruct t as [| | | | | |t|d].
  1-6: assert (a = b <-> va = vb) as X by (split; intros ->; [exact (rep_fun _ _ _ _ A B)|refine (rep_inj _ _ _ _ _ A B); discriminate]);
    rewrite <- (holds_iff _ _ X); destruct a, va; cbn in A; try contradiction; destruct b, vb; cbn in B; try contradiction; reflexivity.
  - destruct a as [| | | | |n f], va as [| | | | |l]; cbn in A; try contradiction. destruct b as [| | | | |m g], vb as [| | | | |l']; cbn in B; try contradiction.
    cbn [s_eq]. f_equal. f_equal. apply holds_iff. split.
    + intros E. f_equal. exact (l_eq_sound t _ _ _ _ _ _ A B E).
    + intros [= ->]. refine (l_eq_complete t _ _ _ _ _ _ A B). intros u ->. exact Fl.
  - assert (a = b <-> va = vb) as X by (split; intros ->; [exact (rep_fun _ _ _ _ A B)|refine (rep_inj _ _ _ _ _ A B); discriminate]).
    rewrite <- (holds_iff _ _ X); destruct a, va; cbn in A; try contradiction; destruct b, vb; cbn in B; try contradiction; reflexivity.
Qed.
Lemma cast_rep u t a va : lty_less u t = true -> rep u a va -> exists s v, s_cast t a = Ok s /\ rep t s v /\ v_cast t va v.
Proof.
  intros L A. destruct u, t; try discriminate; destruct a, va; cbn in A; try contradiction; cbn; try (destruct A as [-> A]); subst;
    do 2 eexists; (split; [reflexivity|]); (split; [|constructor; tauto]); cbn; try (split; [reflexivity|]); try reflexivity; try assumption;
    now apply IZR_le.
Qed.
Lemma bool_rep s v : rep LBool s v -> exists b, s = SB b /\ v = VB b.
Proof. destruct s, v; cbn; try easy. intros ->. eauto. Qed.
Lemma uint_rep s v : rep LUInt s v -> exists k, s = SI (Z.of_nat k) /\ v = VI (Z.of_nat k).
Proof. destruct s, v; cbn; try easy. intros [-> H]. exists (Z.to_nat z0). now rewrite Z2Nat.id. Qed.
Lemma list_rep t s v : rep (LList t) s v -> exists n f l, s = SL n f /\ v = VL l.
Proof. destruct s, v; cbn; try easy. eauto. Qed.

Lemma upd_related G r g x s w : related G r g -> rep (G x) s w -> related G (upd_s r x s) (upd_s g x w).
Proof. intros H Hs y. unfold upd_s. destruct (Nat.eqb_spec y x); [now subst|apply H]. Qed.

Lemma tr_means G e : wt G e -> len_of_lists e -> plain e ->
  forall r g, related G r g -> exists s v, tr r e = Ok s /\ rep (tx_ty e) s v /\ means g e v.
Proof.
  induction e as [t x|n|t op a IHa b IHb|t c IHc a IHa b IHb|all t x e IHe|t l IHl i IHi|t l IHl i IHi v IHv|l IHl|t a IHa];
    intros W L P r g R; cbn [wt len_of_lists plain tx_ty] in *; cbn [tr means].
  - subst. do 2 eexists; split; [reflexivity|]. split; [apply R|reflexivity].
  - do 2 eexists; split; [reflexivity|]. split; [|reflexivity]. cbn. lia.
  - destruct W as (Wa & Wb & E & W), L as [La Lb], P as (Pe & Pa & Pb).
    destruct (IHa Wa La Pa r g R) as (sa & va & Ea & Sa & Ma), (IHb Wb Lb Pb r g R) as (sb & vb & Eb & Sb & Mb).
    rewrite Ea, Eb. cbn [rbind]. rewrite <- E in Sb. destruct op; cbn [s_bin].
    + destruct W as [N ->]. destruct (add_rep _ _ _ _ _ N Sa Sb) as (s & v & X & Y & Z). eauto 10.
    + destruct W as [N ->]. destruct (lt_rep _ _ _ _ _ N Sa Sb) as (s & X & Y). exists (SB s), (VB s). cbn. eauto 10.
    + destruct W as [T ->]. rewrite T in *. destruct (bool_rep _ _ Sa) as (x & -> & ->), (bool_rep _ _ Sb) as (y & -> & ->).
      exists (SB (x && y)), (VB (x && y)). repeat split. do 2 eexists. repeat split; [exact Ma|exact Mb|constructor].
    + destruct W as [T ->]. rewrite T in *. destruct (bool_rep _ _ Sa) as (x & -> & ->), (bool_rep _ _ Sb) as (y & -> & ->).
      exists (SB (implb x y)), (VB (implb x y)). repeat split. do 2 eexists. repeat split; [exact Ma|exact Mb|constructor].
    + subst t. rewrite (eq_rep _ _ _ _ _ (Pe eq_refl) Sa Sb). exists (SB (holds (va = vb))), (VB (holds (va = vb))).
      repeat split. do 2 eexists. repeat split; [exact Ma|exact Mb|constructor].
  - destruct W as (Wc & Wa & Wb & Tc & Ta & Tb), L as (Lc & La & Lb), P as (Pc & Pa & Pb).
    destruct (IHc Wc Lc Pc r g R) as (sc & vc & Ec & Sc & Mc), (IHa Wa La Pa r g R) as (sa & va & Ea & Sa & Ma),
      (IHb Wb Lb Pb r g R) as (sb & vb & Eb & Sb & Mb).
    rewrite Tc in Sc. destruct (bool_rep _ _ Sc) as (c' & -> & ->). rewrite Ec, Ea, Eb. cbn [rbind].
    exists (if c' then sa else sb), (if c' then va else vb). split; [reflexivity|]. split; [destruct c'; congruence|].
    exists c'. split; [exact Mc|]. now destruct c'.
  - destruct W as (-> & We & Te), P as (X & Pe).
    assert (forall s w, rep (G x) s w -> exists b, tr (upd_s r x s) e = Ok (SB b) /\ means (upd_s g x w) e (VB b)) as H.
    { intros s w Hs. destruct (IHe We L Pe _ _ (upd_related G r g x s w R Hs)) as (s' & v' & E & S' & M). rewrite Te in S'.
      destruct (bool_rep _ _ S') as (b & -> & ->). eauto. }
    rewrite quant_ok.
    2:{ intros s Hs. destruct (tr_ok G e We L (upd_s r x s)) as (s' & E & S').
        { apply upd_sort; [|exact Hs]. intros y. apply (rep_good _ _ _ (R y)). }
        rewrite Te in S'. destruct (bool_sort _ S') as (b & ->). eauto. }
    destruct all.
    + exists (SB (holds (forall s, in_sort (G x) s -> smt_invariant (G x) s -> tr (upd_s r x s) e = Ok (SB true)))).
      exists (VB (holds (forall s, in_sort (G x) s -> smt_invariant (G x) s -> tr (upd_s r x s) e = Ok (SB true)))).
      split; [reflexivity|]. split; [reflexivity|].
      exists (fun w => holds (forall s, rep (G x) s w -> tr (upd_s r x s) e = Ok (SB true))). split.
      * intros w Hw. destruct (holds _) eqn:E.
        -- destruct (rep_total _ _ Hw) as (s & Hs). destruct (H s w Hs) as (b & Eb & M). rewrite (proj1 (holds_true _) E s Hs) in Eb.
           injection Eb as <-. exact M.
        -- apply holds_false in E. apply Classical_Pred_Type.not_all_ex_not in E as (s & E). apply Classical_Prop.imply_to_and in E as (Hs & E).
           destruct (H s w Hs) as (b & Eb & M). destruct b; [now rewrite Eb in E|exact M].
      * f_equal. apply holds_iff. split.
        -- intros A w Hw. apply holds_true. intros s Hs. destruct (rep_good _ _ _ Hs) as (S1 & S2 & _). exact (A s S1 S2).
        -- intros A s S1 S2. destruct (exact_rep _ _ X S1 S2) as (w & Hw). destruct (rep_good _ _ _ Hw) as (_ & _ & Tw).
           exact (proj1 (holds_true _) (A w Tw) s Hw).
    + exists (SB (holds (exists s, in_sort (G x) s /\ smt_invariant (G x) s /\ tr (upd_s r x s) e = Ok (SB true)))).
      exists (VB (holds (exists s, in_sort (G x) s /\ smt_invariant (G x) s /\ tr (upd_s r x s) e = Ok (SB true)))).
      split; [reflexivity|]. split; [reflexivity|].
      exists (fun w => holds (exists s, rep (G x) s w /\ tr (upd_s r x s) e = Ok (SB true))). split.
      * intros w Hw. destruct (holds _) eqn:E.
        -- apply holds_true in E as (s & Hs & E). destruct (H s w Hs) as (b & Eb & M). rewrite E in Eb. injection Eb as <-. exact M.
        -- apply holds_false in E. destruct (rep_total _ _ Hw) as (s & Hs). destruct (H s w Hs) as (b & Eb & M).
           destruct b; [|exact M]. destruct E. eauto.
      * f_equal. apply holds_iff. split.
        -- intros (s & S1 & S2 & E). destruct (exact_rep _ _ X S1 S2) as (w & Hw). destruct (rep_good _ _ _ Hw) as (_ & _ & Tw).
           exists w. split; [exact Tw|]. apply holds_true. eauto.
        -- intros (w & Tw & E). apply holds_true in E as (s & Hs & E). destruct (rep_good _ _ _ Hs) as (S1 & S2 & _). eauto.
  - destruct W as (Wl & Wi & Tl & Ti), L as [Ll Li], P as [Pl Pi].
    destruct (IHl Wl Ll Pl r g R) as (sl & vl & El & Sl & Ml), (IHi Wi Li Pi r g R) as (si & vi & Ei & Si & Mi).
    rewrite Tl in Sl. rewrite Ti in Si. rewrite El, Ei. destruct (uint_rep _ _ Si) as (k & -> & ->).
    destruct (list_rep _ _ _ Sl) as (n & f & lv & -> & ->).
    unfold t_list, t_uint. rewrite (list_typed_kind _ _ _ Wl Tl), Ti. cbn [rbind lty_eqb].
    destruct (nth_error lv k) as [w|] eqn:Ek.
    + exists (f (Z.of_nat k)), w. split; [reflexivity|]. split; [exact (get_rep _ _ _ _ _ _ Sl Ek)|].
      exists lv, k. rewrite Ek. tauto.
    + destruct Sl as (Hn & Ho & Hb). destruct (Ho (Z.of_nat k)) as (w & Hw). exists (f (Z.of_nat k)), w.
      split; [reflexivity|]. split; [exact Hw|]. exists lv, k. rewrite Ek. split; [exact Ml|]. split; [exact Mi|apply (rep_good _ _ _ Hw)].
  - destruct W as (Wl & Wi & Wv & Ti & Tl & ->), L as (Ll & Li & Lv), P as (Pl & Pi & Pv).
    destruct (IHl Wl Ll Pl r g R) as (sl & vl & El & Sl & Ml), (IHi Wi Li Pi r g R) as (si & vi & Ei & Si & Mi),
      (IHv Wv Lv Pv r g R) as (sv & vv & Ev & Sv & Mv).
    rewrite Tl in Sl. rewrite Ti in Si. rewrite El, Ei, Ev. destruct (uint_rep _ _ Si) as (k & -> & ->).
    destruct (list_rep _ _ _ Sl) as (n & f & lv & -> & ->).
    unfold t_list, t_uint. rewrite (list_typed_kind _ _ _ Wl Tl), Ti. cbn [rbind lty_eqb].
    pose proof (set_rep _ _ _ _ k _ _ Sl Sv) as Z1.
    eexists _, _. split; [reflexivity|]. split; [exact Z1|].
    exists lv, k, vv, (put lv k vv). split; [exact Ml|]. split; [exact Mi|]. split; [exact Mv|]. split; [reflexivity|].
    destruct (Nat.ltb k (length lv)); [reflexivity|]. split; [apply put_length|apply (rep_good _ _ _ Z1)].
  - destruct L as [[t Tl] Ll]. destruct (IHl W Ll P r g R) as (sl & vl & El & Sl & Ml). rewrite Tl in Sl. rewrite El.
    destruct (list_rep _ _ _ Sl) as (n & f & lv & -> & ->). unfold t_list. rewrite (list_typed_kind _ _ _ W Tl). cbn [rbind].
    destruct Sl as (-> & _). eexists _, (VI (Z.of_nat (length lv))). split; [reflexivity|]. split; [cbn; lia|]. eauto.
  - destruct W as [Wa Lt]. destruct (IHa Wa L P r g R) as (sa & va & Ea & Sa & Ma). rewrite Ea. cbn [rbind].
    destruct (cast_rep _ _ _ _ Lt Sa) as (s & v & X & Y & Z). eauto 10.
Qed.
