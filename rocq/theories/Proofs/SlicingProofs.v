(** The slicing transformation: its result behaves like the slice that the toggles select, and the effects it
    ascribes to statements are right. *)
From Coq Require Import Bool List String ZArith NArith QArith Qreals Reals Lia Lra FunctionalExtensionality.
From Verif.Model Require Import Syntax Builder VcGen Negations TyCtx Subsets Slicing.
From Verif.Spec Require Import Eur Sem Wp Frame Sliced.
From Verif.Proofs Require Import EurLemmas SemLemmas WpLemmas DistProofs VcGenProofs MonoProofs FrameProofs TyCtxProofs.
Import ListNotations.
Local Open Scope nat_scope.
Local Open Scope list_scope.
Local Arguments eleb : simpl never.

Lemma app_wp I isd k a b X : wp_block I isd k (a ++ b) X = wp_block I isd k a (wp_block I isd k b X).
Proof. unfold wp_block. apply fold_right_app. Qed.

(** * Places *)
Definition below (p : place) (x : place) : Prop := exists l, x = l ++ p.
Definition inblock (q : place) (i : nat) (x : place) : Prop := exists l j, i <= j /\ x = l ++ j :: q.

Lemma ext_step (l l' : place) i j p : l ++ i :: p = l' ++ j :: p -> i = j.
Proof.
  intros H. change (i :: p) with ([i] ++ p) in H. change (j :: p) with ([j] ++ p) in H. rewrite !app_assoc in H.
  apply app_inv_tail in H. apply app_inj_tail in H. tauto.
Qed.
Lemma below_neq p x i : below (i :: p) x -> x <> p.
Proof. intros [l ->] H. apply (f_equal (@List.length nat)) in H. rewrite app_length in H. cbn in H. lia. Qed.
Lemma below_disj p i j x : below (i :: p) x -> below (j :: p) x -> i = j.
Proof. intros [l ->] [l' H]. eapply ext_step; eauto. Qed.
Lemma below_up p i x : below (i :: p) x -> below p x.
Proof. intros [l ->]. exists (l ++ [i]). now rewrite <- app_assoc. Qed.
Lemma inblock_below q i x : inblock q i x -> below q x.
Proof. intros (l & j & _ & ->). exists (l ++ [j]). now rewrite <- app_assoc. Qed.
Lemma inblock_neq q i x : inblock q i x -> x <> q.
Proof. intros (l & j & _ & ->) H. apply (f_equal (@List.length nat)) in H. rewrite app_length in H. cbn in H. lia. Qed.
Lemma below_inblock q i x : below (i :: q) x -> inblock q i x.
Proof. intros [l ->]. exists l, i. auto. Qed.
Lemma inblock_S q i x : inblock q (S i) x -> inblock q i x.
Proof. intros (l & j & H & ->). exists l, j. split; [lia | auto]. Qed.
Lemma head_disj q i x : below (i :: q) x -> inblock q (S i) x -> False.
Proof. intros [l ->] (l' & j & H & E). apply ext_step in E. lia. Qed.
Lemma place_eqb_iff p : forall q, place_eqb p q = true <-> p = q.
Proof.
  induction p as [|i p IH]; intros [|j q]; cbn; try (split; congruence).
  rewrite andb_true_iff, Nat.eqb_eq, IH. split; [intros [-> ->]; auto | intros H; inversion H; auto].
Qed.

(** * Slices *)
Lemma slice_eqs off :
  (forall q b i, (fix block (q : place) (i : nat) (b : list stmt) {struct b} : list stmt :=
     match b with [] => [] | s :: b' => slice off (i :: q) s ++ block q (S i) b' end) q i b = slice_from off q i b).
Proof. intros q. induction b as [|s b IH]; intros i; cbn; [auto | now rewrite IH]. Qed.

Lemma slice_eq off p st : slice off p st =
  if off p then [] else
  match st with
  | SSeq b => [SSeq (slice_from off (0 :: p) 0 b)]
  | SWhile c b => [SWhile c (slice_from off (0 :: p) 0 b)]
  | SDemonic a b => if off (0 :: p) then slice_from off (1 :: p) 0 b else if off (1 :: p) then slice_from off (0 :: p) 0 a
                    else [SDemonic (slice_from off (0 :: p) 0 a) (slice_from off (1 :: p) 0 b)]
  | SAngelic a b => if off (0 :: p) then slice_from off (1 :: p) 0 b else if off (1 :: p) then slice_from off (0 :: p) 0 a
                    else [SAngelic (slice_from off (0 :: p) 0 a) (slice_from off (1 :: p) 0 b)]
  | SAdditive a b => [SAdditive (slice_from off (0 :: p) 0 a) (slice_from off (1 :: p) 0 b)]
  | SIf c a b => [SIf c (slice_from off (0 :: p) 0 a) (slice_from off (1 :: p) 0 b)]
  | SAnn n args s => match slice off (0 :: p) s with [s'] => [SAnn n args s'] | l => [SAnn n args (SSeq l)] end
  | _ => [st]
  end.
Proof.
  destruct st; try reflexivity; cbn [slice]; rewrite ?(slice_eqs off (0 :: p)), ?(slice_eqs off (1 :: p)); reflexivity.
Qed.

Lemma slice_all_on off : (forall st p, (forall x, below p x -> off x = false) -> slice off p st = [st]) /\
  (forall b q i, (forall x, inblock q i x -> off x = false) -> slice_from off q i b = b).
Proof.
  assert (HB : forall b, Forall (fun st => forall p, (forall x, below p x -> off x = false) -> slice off p st = [st]) b ->
    forall q i, (forall x, inblock q i x -> off x = false) -> slice_from off q i b = b).
  { induction 1 as [|s b Hs Hb IH]; intros q i H; cbn [slice_from]; [auto|].
    rewrite Hs, IH; auto; intros x Hx; apply H; auto using inblock_S, below_inblock. }
  assert (HS : forall st p, (forall x, below p x -> off x = false) -> slice off p st = [st]).
  { induction st using stmt_rect'; intros p Hp; rewrite slice_eq; rewrite (Hp p) by (exists []; auto);
      rewrite ?(Hp (0 :: p)), ?(Hp (1 :: p)) by (exists [0]; reflexivity) || (exists [1]; reflexivity); auto;
      try (rewrite ?(HB a), ?(HB b); auto; intros x Hx; apply Hp; eapply below_up, inblock_below, Hx).
    rewrite IHst; auto. intros x Hx. apply Hp. eapply below_up; eauto. }
  split; [exact HS|]. intros b. apply HB. apply Forall_forall. intros; apply HS; auto.
Qed.

(** * Agreement on toggles *)
Definition agree (G : ident -> Prop) (s0 s : env) : Prop := forall x, G x -> s x = s0 x.
Lemma agree_upd (G : ident -> Prop) s0 s x v : ~ G x -> agree G s0 s -> agree G s0 (upd s x v).
Proof. intros H A y Hy. unfold upd. destruct (ident_eqb x y) eqn:E; [|auto]. apply ident_eqb_eq in E. subst. contradiction. Qed.
Lemma agree_havoc (G : ident -> Prop) s0 s s' xs : (forall x, In x xs -> ~ G x) -> agree G s0 s -> havocked xs s s' -> agree G s0 s'.
Proof. intros H A [E _] y Hy. rewrite E; auto. intros Hin. eapply H; eauto. Qed.

Lemma assign_agree I isd (G : ident -> Prop) s0 x e X Y s : ~ G x -> (forall s, agree G s0 s -> X s = Y s) -> agree G s0 s ->
  assign_sem I isd [x] e X s = assign_sem I isd [x] e Y s.
Proof.
  intros Hx E A. unfold assign_sem. assert (U : forall v, X (upd s x v) = Y (upd s x v)) by (intros; apply E, agree_upd; auto).
  destruct e; auto. destruct (isd f); auto. destruct (dist_sem _ _) as [d|]; auto.
  induction d as [|[p v] d IH]; cbn [expected]; auto. now rewrite U, IH.
Qed.
Lemma havoc_agree d (G : ident -> Prop) s0 xs X Y s : (forall x, In x xs -> ~ G x) -> (forall s, agree G s0 s -> X s = Y s) -> agree G s0 s ->
  havoc_sem d xs X s = havoc_sem d xs Y s.
Proof.
  intros Hx E A. unfold havoc_sem.
  assert (P : forall s', havocked xs s s' -> X s' = Y s') by (intros; apply E; eapply agree_havoc; eauto).
  destruct d; apply ele_antisym; (apply einf_glb || apply esup_lub); intros r (s' & H & ->);
    [rewrite <- P by auto | rewrite P by auto | rewrite P by auto | rewrite <- P by auto]; (apply einf_lb || apply esup_ub); eauto.
Qed.

Lemma wp_agree I isd isf k (G : ident -> Prop) s0 : forall st, wts isd isf st -> every not_while st -> (forall x, G x -> ~ writes x st) ->
  forall X Y, (forall s, agree G s0 s -> X s = Y s) -> forall s, agree G s0 s -> wp I isd k st X s = wp I isd k st Y s.
Proof.
  assert (HB : forall b, Forall (fun st => wts isd isf st -> every not_while st -> (forall x, G x -> ~ writes x st) ->
      forall X Y, (forall s, agree G s0 s -> X s = Y s) -> forall s, agree G s0 s -> wp I isd k st X s = wp I isd k st Y s) b ->
    All (wts isd isf) b -> All (every not_while) b -> (forall x, G x -> ~ writes_block x b) ->
    forall X Y, (forall s, agree G s0 s -> X s = Y s) -> forall s, agree G s0 s -> wp_block I isd k b X s = wp_block I isd k b Y s).
  { induction 1 as [|st b Hst Hb IH]; intros H1 H2 H3 X Y E s A; [now apply E|].
    cbn [wp_block fold_right]. apply Hst; try tauto.
    - apply H1.
    - apply H2.
    - intros x Hx W. eapply H3; [exact Hx | left; exact W].
    - intros s' A'. apply IH; auto; try apply H1; try apply H2. intros x Hx W. eapply H3; [exact Hx | right; exact W]. }
  unfold wp_block in HB.
  induction st using stmt_rect'; intros Hw Hn HG X Y E s A; cbn [wts every] in Hw, Hn; cbn [writes] in HG; cbn [wp];
    try (rewrite E by auto; reflexivity); setoid_rewrite writes_block_eq in HG || idtac.
  - apply HB; auto. apply Hn.
  - destruct i as [e|]; [|now apply E]. eapply assign_agree; eauto. intros Hx. eapply HG; eauto.
  - destruct xs as [|x [|y ys]]; try contradiction. eapply assign_agree; eauto. intros Hx. eapply HG; [exact Hx|left; auto].
  - eapply havoc_agree; eauto. intros x H1 H2. eapply HG; eauto.
  - destruct d; rewrite E by auto; reflexivity.
  - destruct Hn as (_ & N1 & N2). f_equal; apply HB; auto; try tauto; intros x Hx W; eapply HG; eauto.
  - destruct Hn as (_ & N1 & N2). f_equal; apply HB; auto; try tauto; intros x Hx W; eapply HG; eauto.
  - destruct Hn as (_ & N1 & N2). f_equal; apply HB; auto; try tauto; intros x Hx W; eapply HG; eauto.
  - destruct Hn as (_ & N1 & N2), Hw as (_ & W1 & W2). destruct (holds I c s); apply HB; auto; intros x Hx W; eapply HG; eauto.
  - destruct Hn as [[] _].
  - apply IHst; auto; tauto.
Qed.
Lemma wp_block_agree I isd isf k (G : ident -> Prop) s0 b : All (wts isd isf) b -> All (every not_while) b -> (forall x, G x -> ~ writes_block x b) ->
  forall X Y, (forall s, agree G s0 s -> X s = Y s) -> forall s, agree G s0 s -> wp_block I isd k b X s = wp_block I isd k b Y s.
Proof.
  intros H1 H2 H3 X Y E s A. apply (wp_agree I isd isf k G s0 (SSeq b)); auto.
  - split; [exact Logic.I | exact H2].
  - cbn [writes]. intros x. rewrite writes_block_eq. auto.
Qed.
