(** From statements to the question asked of the solver. *)
From Coq Require Import Bool List String NArith QArith.
From Verif.Model Require Import Syntax Builder Lits TyCtx AstUtil Dist VcGen Subst Unfolder Qelim Boolify Relational Pipeline.
From Verif.Spec Require Import Eur Sem Wp Linear Valid Reach Exprs Folding.
From Verif.Proofs Require Import EurLemmas SemLemmas WpLemmas TyCtxProofs SubstProofs DistProofs VcGenProofs ValidateProofs SimLemmas BoolifyProofs QelimProofs
  RelationalProofs UnfolderProofs SimplifyRefuted.
Import ListNotations.
Local Open Scope nat_scope.

(** * Identifiers stay declared *)
Definition fr_vars (T : tyctx) (fr : frame) : Prop := forall z r, lookup (substs fr) z = Some r -> forall x, In x (ids r) -> is_var T x.
Lemma fr_vars_extends T T' fr : fr_vars T fr -> extends T T' -> fr_vars T' fr.
Proof. intros H [X _] z r L x Hx. apply X. eapply H; eauto. Qed.

Lemma push_quant_vars span xs : forall T fr vs fr' T', push_quant span T fr xs = Ok (vs, fr', T') ->
  (forall x, In x (map qname xs) -> is_var T x) -> fr_vars T fr ->
  extends T T' /\ (forall x, In x (map qname vs) -> is_var T' x) /\ fr_vars T' fr'.
Proof.
  induction xs as [|v xs IH]; intros T fr vs fr' T' H Hx Hf; cbn [push_quant] in H.
  - injection H as <- <- <-. split; [apply extends_refl|]. split; [intros x []|auto].
  - assert (Hv : is_var T (qname v)) by (apply Hx; now left).
    destruct (mem (qname v) (free_vars fr)).
    + destruct (clone_extends T (qname v) span Hv) as (y & T1 & C1 & C2 & C3 & C4 & C5). rewrite C1 in H. cbn [rbind] in H.
      apply rbind_ok in H as [[[vs1 fr1] T2] [E H]]. injection H as <- <- <-.
      apply IH in E as (X & V & F).
      * split; [eapply extends_trans; eauto|]. split; auto. intros x [<-|H]; auto. apply X, C4.
      * intros x H. apply C2, Hx. now right.
      * intros z r. cbn [substs lookup]. rewrite lookup_remove. destruct (ident_eqb (qname v) z).
        -- intros E1 x H. injection E1 as <-. destruct H as [<-|[]]. exact C4.
        -- intros L x H. apply C2. eapply Hf; eauto.
    + apply rbind_ok in H as [[[vs1 fr1] T2] [E H]]. injection H as <- <- <-.
      apply IH in E as (X & V & F).
      * split; auto. split; auto. intros x [<-|H]; auto. apply X, Hv.
      * intros x H. apply Hx. now right.
      * intros z r. cbn [substs]. rewrite lookup_remove. destruct (ident_eqb (qname v) z); [discriminate|]. apply Hf.
Qed.
Lemma push_subst_vars T fr x e fr' : push_subst fr x e = Ok fr' -> fr_vars T fr -> (forall y, In y (ids e) -> is_var T y) -> fr_vars T fr'.
Proof.
  intros H Hf He. apply rbind_ok in H as [vs [_ H]]. injection H as <-. intros z r. cbn [substs lookup]. rewrite lookup_remove.
  destruct (ident_eqb x z); [intros E; injection E as <-; exact He | apply Hf].
Qed.

Definition vars_ok (e : expr) (T : tyctx) (fr : frame) (e' : expr) (T' : tyctx) : Prop :=
  (forall x, In x (ids e) -> is_var T x) -> fr_vars T fr -> extends T T' /\ forall x, In x (ids e') -> is_var T' x.

Lemma visit_vars qs e : forall T fr e' T', Subst.visit qs T fr e = Ok (e', T') -> vars_ok e T fr e' T'.
Proof.
  induction e using expr_rect'; intros T fr e' T' E HD Hf; cbn [Subst.visit ids] in *.
  - destruct (lookup (substs fr) x) as [r|] eqn:L; injection E as <- <-; (split; [apply extends_refl|]); eauto.
  - rewrite visit_all_eq in E. apply rbind_ok in E as [[l T1] [E1 E]]. injection E as <- <-.
    assert (G : forall T T1 l, visit_all qs T fr args = Ok (l, T1) -> (forall x, In x (flat_map ids args) -> is_var T x) -> fr_vars T fr ->
      extends T T1 /\ forall x, In x (flat_map ids l) -> is_var T1 x).
    { clear T T1 l E1 HD Hf. induction H as [|a args Ha Hargs IH]; intros T T1 l E HD Hf; cbn [visit_all] in E.
      - injection E as <- <-. split; [apply extends_refl|]. intros x [].
      - apply rbind_ok in E as [[a' T2] [E1 E]]. apply rbind_ok in E as [[r T3] [E2 E]]. injection E as <- <-.
        destruct (Ha T fr a' T2 E1) as [X1 V1]; [intros; apply HD; cbn [flat_map]; apply in_or_app; auto | auto |].
        destruct (IH T2 T3 r E2) as [X2 V2]; [intros; apply X1, HD; cbn [flat_map]; apply in_or_app; auto | eauto using fr_vars_extends |].
        split; [eapply extends_trans; eauto|]. cbn [flat_map]. intros x Hx. apply in_app_iff in Hx as [Hx|Hx]; auto. apply X2. auto. }
    eapply G; eauto.
  - apply rbind_ok in E as [[c' T1] [E1 E]]. apply rbind_ok in E as [[a' T2] [E2 E]]. apply rbind_ok in E as [[b' T3] [E3 E]]. injection E as <- <-.
    destruct (IHe1 _ _ _ _ E1) as [X1 V1]; [intros; apply HD; rewrite !in_app_iff; auto | auto |].
    destruct (IHe2 _ _ _ _ E2) as [X2 V2]; [intros; apply X1, HD; rewrite !in_app_iff; auto | eauto using fr_vars_extends |].
    destruct (IHe3 _ _ _ _ E3) as [X3 V3]; [intros; apply X2, X1, HD; rewrite !in_app_iff; auto | eauto using fr_vars_extends |].
    split; [repeat (eassumption || eapply extends_trans)|]. cbn [ids]. intros x Hx. rewrite !in_app_iff in Hx. destruct Hx as [Hx|[Hx|Hx]]; auto; [apply X3, X2 | apply X3]; auto.
  - apply rbind_ok in E as [[a' T2] [E2 E]]. apply rbind_ok in E as [[b' T3] [E3 E]]. injection E as <- <-.
    destruct (IHe1 _ _ _ _ E2) as [X2 V2]; [intros; apply HD; rewrite !in_app_iff; auto | auto |].
    destruct (IHe2 _ _ _ _ E3) as [X3 V3]; [intros; apply X2, HD; rewrite !in_app_iff; auto | eauto using fr_vars_extends |].
    split; [repeat (eassumption || eapply extends_trans)|]. cbn [ids]. intros x Hx. rewrite !in_app_iff in Hx. destruct Hx as [Hx|Hx]; auto. apply X3; auto.
  - apply rbind_ok in E as [[a' T2] [E2 E]]. injection E as <- <-. exact (IHe _ _ _ _ E2 HD Hf).
  - apply rbind_ok in E as [[a' T2] [E2 E]]. injection E as <- <-. exact (IHe _ _ _ _ E2 HD Hf).
  - apply rbind_ok in E as [[[vs fr'] T1] [E1 E]]. apply rbind_ok in E as [[a' T2] [E2 E]]. injection E as <- <-.
    apply push_quant_vars in E1 as (X1 & V1 & F1); [|intros; apply HD; rewrite in_app_iff; auto | auto].
    destruct (IHe _ _ _ _ E2) as [X2 V2]; [intros; apply X1, HD; rewrite in_app_iff; auto | auto |].
    split; [repeat (eassumption || eapply extends_trans)|]. cbn [ids]. intros x Hx. rewrite in_app_iff in Hx. destruct Hx as [Hx|Hx]; auto. apply X2; auto.
  - apply rbind_ok in E as [[b' T1] [E1 E]]. apply rbind_ok in E as [fr' [E2 E]]. apply rbind_ok in E as [[a' T2] [E3 E]]. injection E as <- <-.
    destruct (IHe1 _ _ _ _ E1) as [X1 V1]; [intros; apply HD; right; rewrite in_app_iff; auto | auto |].
    eapply (push_subst_vars T1) in E2; eauto using fr_vars_extends.
    destruct (IHe2 _ _ _ _ E3) as [X2 V2]; [intros; apply X1, HD; right; rewrite in_app_iff; auto | auto |].
    split; [repeat (eassumption || eapply extends_trans)|]. auto.
  - injection E as <- <-. split; [apply extends_refl|]. intros x [].
Qed.

Lemma b_lit_ids t z : b_top t = Ok z \/ b_bot t = Ok z -> ids z = [] /\ forall d, guarded d z.
Proof. destruct t; simpl; intros [H|H]; inversion H; subst; simpl; auto. Qed.

Lemma unfold_vars orc qs e : forall T n fr G e' T' n', unfold orc qs (T, n) fr G e = Ok (e', (T', n')) -> vars_ok e T fr e' T'.
Proof.
  induction e using expr_rect'; intros T n fr G e' T' n' E HD Hf; cbn [unfold ids fst snd] in *.
  - destruct (lookup (substs fr) x) as [r|] eqn:L; injection E as <- <- <-; (split; [apply extends_refl|]); eauto.
  - rewrite unfold_go_eq in E. apply rbind_ok in E as [[l [T1 n1]] [E1 E]]. injection E as <- <- <-.
    assert (GG : forall T n T1 n1 l, fold_right (fun a k st => let? (a', st1) := unfold orc qs st fr G a in let? (r, st2) := k st1 in Ok (a' :: r, st2)) (fun st => Ok ([], st)) args (T, n) = Ok (l, (T1, n1)) ->
      (forall x, In x (flat_map ids args) -> is_var T x) -> fr_vars T fr ->
      extends T T1 /\ forall x, In x (flat_map ids l) -> is_var T1 x).
    { clear T n T1 n1 l E1 HD Hf. induction H as [|a args Ha Hargs IH]; intros T n T1 n1 l E HD Hf; cbn [fold_right] in E.
      - injection E as <- <- <-. split; [apply extends_refl|]. intros x [].
      - apply rbind_ok in E as [[a' [T2 n2]] [E1 E]]. apply rbind_ok in E as [[r [T3 n3]] [E2 E]]. injection E as <- <- <-.
        destruct (Ha _ _ _ _ _ _ _ E1) as [X1 V1]; [intros; apply HD; cbn [flat_map]; apply in_or_app; auto | auto |].
        destruct (IH _ _ _ _ _ E2) as [X2 V2]; [intros; apply X1, HD; cbn [flat_map]; apply in_or_app; auto | eauto using fr_vars_extends |].
        split; [eapply extends_trans; eauto|]. cbn [flat_map]. intros x Hx. apply in_app_iff in Hx as [Hx|Hx]; auto. apply X2. auto. }
    eapply GG; eauto.
  - apply rbind_ok in E as [[c' [T1 n1]] [E1 E]]. cbn [fst snd] in E.
    destruct (IHe1 _ _ _ _ _ _ _ E1) as [X1 V1]; [intros; apply HD; rewrite !in_app_iff; auto | auto |].
    destruct (with_sat orc n1 G c') as [[G1|] n1'].
    + apply rbind_ok in E as [[a' [T2 n2]] [E2 E]]. cbn [fst snd] in E.
      destruct (IHe2 _ _ _ _ _ _ _ E2) as [X2 V2]; [intros; apply X1, HD; rewrite !in_app_iff; auto | eauto using fr_vars_extends |].
      destruct (with_sat orc n2 G (negate_expr c')) as [[G2|] n2'].
      * apply rbind_ok in E as [[b' [T3 n3]] [E3 E]]. injection E as <- <- <-.
        destruct (IHe3 _ _ _ _ _ _ _ E3) as [X3 V3]; [intros; apply X2, X1, HD; rewrite !in_app_iff; auto | eauto using fr_vars_extends |].
        split; [repeat (eassumption || eapply extends_trans)|]. cbn [ids]. intros x Hx. rewrite !in_app_iff in Hx. destruct Hx as [Hx|[Hx|Hx]]; auto; [apply X3, X2 | apply X3]; auto.
      * injection E as <- <- <-. split; [repeat (eassumption || eapply extends_trans)|]. auto.
    + destruct (IHe3 _ _ _ _ _ _ _ E) as [X3 V3]; [intros; apply X1, HD; rewrite !in_app_iff; auto | eauto using fr_vars_extends |].
      split; [repeat (eassumption || eapply extends_trans)|]. auto.
  - assert (P : forall T1 n1 a' G1 T2 n2 b', unfold orc qs (T, n) fr G e1 = Ok (a', (T1, n1)) -> (exists m, unfold orc qs (T1, m) fr G1 e2 = Ok (b', (T2, n2))) ->
       extends T T2 /\ forall x, In x (ids (EBin t op a' b')) -> is_var T2 x).
    { intros T1 n1 a' G1 T2 n2 b' E1 [m E2].
      destruct (IHe1 _ _ _ _ _ _ _ E1) as [X2 V2]; [intros; apply HD; rewrite !in_app_iff; auto | auto |].
      destruct (IHe2 _ _ _ _ _ _ _ E2) as [X3 V3]; [intros; apply X2, HD; rewrite !in_app_iff; auto | eauto using fr_vars_extends |].
      split; [repeat (eassumption || eapply extends_trans)|]. cbn [ids]. intros x Hx. rewrite !in_app_iff in Hx. destruct Hx as [Hx|Hx]; auto. apply X3; auto. }
    assert (PL : (let? (a', st1) := unfold orc qs (T, n) fr G e1 in let? (b', st2) := unfold orc qs st1 fr G e2 in Ok (EBin t op a' b', st2)) = Ok (e', (T', n')) ->
       extends T T' /\ forall x, In x (ids e') -> is_var T' x).
    { intros K. apply rbind_ok in K as [[a' [T1 n1]] [E1 K]]. apply rbind_ok in K as [[b' [T2 n2]] [E2 K]]. injection K as <- <- <-. eauto. }
    assert (PR : forall (w : oracle -> nat -> list cond -> expr -> option (list cond) * nat) z,
       (z = b_top t \/ z = b_bot t) ->
       (let? (a', st1) := unfold orc qs (T, n) fr G e1 in
        let (o, n1) := w orc (snd st1) G a' in
        match o with
        | Some G1 => let? (b', st2) := unfold orc qs (fst st1, n1) fr G1 e2 in Ok (EBin t op a' b', st2)
        | None => let? z := z in Ok (z, (fst st1, n1))
        end) = Ok (e', (T', n')) -> extends T T' /\ forall x, In x (ids e') -> is_var T' x).
    { intros w z Hz K. apply rbind_ok in K as [[a' [T1 n1]] [E1 K]]. cbn [fst snd] in K. destruct (w orc n1 G a') as [[G1|] n1'].
      - apply rbind_ok in K as [[b' [T2 n2]] [E2 K]]. injection K as <- <- <-. eapply P; eauto.
      - apply rbind_ok in K as [z' [E2 K]]. injection K as <- <- <-.
        destruct (IHe1 _ _ _ _ _ _ _ E1) as [X2 V2]; [intros; apply HD; rewrite !in_app_iff; auto | auto |].
        split; auto. assert (Z : ids z' = []) by (eapply b_lit_ids; destruct Hz as [<-|<-]; eauto). rewrite Z. intros x []. }
    destruct op; auto; try (destruct (mul_ty t); auto; eapply PR; [|exact E]; auto; fail); try (destruct (lattice t); auto; eapply PR; [|exact E]; auto; fail).
  - apply rbind_ok in E as [[a' [T2 n2]] [E2 E]]. injection E as <- <- <-. exact (IHe _ _ _ _ _ _ _ E2 HD Hf).
  - apply rbind_ok in E as [[a' [T2 n2]] [E2 E]]. injection E as <- <- <-. exact (IHe _ _ _ _ _ _ _ E2 HD Hf).
  - apply rbind_ok in E as [[[vs fr'] T1] [E1 E]]. apply rbind_ok in E as [[a' [T2 n2]] [E2 E]]. injection E as <- <- <-.
    apply push_quant_vars in E1 as (X1 & V1 & F1); [|intros; apply HD; rewrite in_app_iff; auto | auto].
    destruct (IHe _ _ _ _ _ _ _ E2) as [X2 V2]; [intros; apply X1, HD; rewrite in_app_iff; auto | auto |].
    split; [repeat (eassumption || eapply extends_trans)|]. cbn [ids]. intros x Hx. rewrite in_app_iff in Hx. destruct Hx as [Hx|Hx]; auto. apply X2; auto.
  - apply rbind_ok in E as [[b' [T1 n1]] [E1 E]]. apply rbind_ok in E as [fr' [E2 E]].
    destruct (IHe1 _ _ _ _ _ _ _ E1) as [X1 V1]; [intros; apply HD; right; rewrite in_app_iff; auto | auto |].
    eapply (push_subst_vars T1) in E2; eauto using fr_vars_extends.
    destruct (IHe2 _ _ _ _ _ _ _ E) as [X2 V2]; [intros; apply X1, HD; right; rewrite in_app_iff; auto | auto |].
    split; [repeat (eassumption || eapply extends_trans)|]. auto.
  - injection E as <- <- <-. split; [apply extends_refl|]. intros x [].
Qed.

(** * Quantifiers stay guarded *)
Definition fr_guarded (fr : frame) : Prop := forall z r, lookup (substs fr) z = Some r -> forall d, guarded d r.
Lemma push_quant_guarded span xs : forall T fr vs fr' T', push_quant span T fr xs = Ok (vs, fr', T') -> fr_guarded fr ->
  fr_guarded fr' /\ (fresh_names xs = [] -> fresh_names vs = []).
Proof.
  induction xs as [|v xs IH]; intros T fr vs fr' T' H Hf; cbn [push_quant] in H.
  - injection H as <- <- <-. auto.
  - destruct (mem (qname v) (free_vars fr)).
    + apply rbind_ok in H as [[y T1] [_ H]]. apply rbind_ok in H as [[[vs1 fr1] T2] [E H]]. injection H as <- <- <-.
      apply IH in E as (F & N).
      * split; auto. cbn. intros H. apply app_eq_nil in H as [_ H]. auto.
      * intros z r. cbn [substs lookup]. rewrite lookup_remove. destruct (ident_eqb (qname v) z); [|apply Hf].
        intros E1 d. injection E1 as <-. exact Logic.I.
    + apply rbind_ok in H as [[[vs1 fr1] T2] [E H]]. injection H as <- <- <-.
      apply IH in E as (F & N).
      * split; auto. cbn. intros H. apply app_eq_nil in H as [-> H]. auto.
      * intros z r. cbn [substs]. rewrite lookup_remove. destruct (ident_eqb (qname v) z); [discriminate|]. apply Hf.
Qed.
Lemma push_subst_guarded fr x e fr' : push_subst fr x e = Ok fr' -> fr_guarded fr -> (forall d, guarded d e) -> fr_guarded fr'.
Proof.
  intros H Hf He. apply rbind_ok in H as [vs [_ H]]. injection H as <-. intros z r. cbn [substs lookup]. rewrite lookup_remove.
  destruct (ident_eqb x z); [intros E; injection E as <-; exact He | apply Hf].
Qed.

Lemma both (P : direction -> Prop) : P Down /\ P Up -> forall d, P d.
Proof. intros [H1 H2] []; auto. Qed.

Lemma visit_guarded qs e : forall T fr e' T' d, Subst.visit qs T fr e = Ok (e', T') -> fr_guarded fr -> guarded d e -> guarded d e'.
Proof.
  induction e using expr_rect'; intros T fr e' T' d E Hf HG; cbn [Subst.visit guarded] in *.
  - destruct (lookup (substs fr) x) as [r|] eqn:L; injection E as <- <-; eauto.
  - apply rbind_ok in E as [[l T1] [E1 E]]. injection E as <- <-. exact Logic.I.
  - apply rbind_ok in E as [[c' T1] [E1 E]]. apply rbind_ok in E as [[a' T2] [E2 E]]. apply rbind_ok in E as [[b' T3] [E3 E]]. injection E as <- <-.
    destruct HG as [H1 H2]. split; eauto.
  - apply rbind_ok in E as [[a' T2] [E2 E]]. apply rbind_ok in E as [[b' T3] [E3 E]]. injection E as <- <-.
    cbn [guarded]. destruct (pull2 d op) as [[da db]|]; auto. destruct HG as [H1 H2]. split; eauto.
  - apply rbind_ok in E as [[a' T2] [E2 E]]. injection E as <- <-. cbn [guarded]. destruct (pull1 d op); eauto.
  - apply rbind_ok in E as [[a' T2] [E2 E]]. injection E as <- <-. exact Logic.I.
  - apply rbind_ok in E as [[[vs fr'] T1] [E1 E]]. apply rbind_ok in E as [[a' T2] [E2 E]]. injection E as <- <-.
    apply push_quant_guarded in E1 as (F1 & N1); auto. cbn [guarded]. intros Q. destruct (HG Q) as [H1 H2]. split; eauto.
  - apply rbind_ok in E as [[b' T1] [E1 E]]. apply rbind_ok in E as [fr' [E2 E]]. apply rbind_ok in E as [[a' T2] [E3 E]]. injection E as <- <-.
    destruct HG as [H1 H2]. pose proof (both (fun d => guarded d e1) H1) as H1'. cbn beta in H1'. eapply push_subst_guarded in E2; eauto.
  - injection E as <- <-. exact Logic.I.
Qed.

Lemma unfold_guarded orc qs e : forall T n fr G e' T' n' d, unfold orc qs (T, n) fr G e = Ok (e', (T', n')) -> fr_guarded fr -> guarded d e -> guarded d e'.
Proof.
  induction e using expr_rect'; intros T n fr G e' T' n' d E Hf HG; cbn [unfold guarded fst snd] in *.
  - destruct (lookup (substs fr) x) as [r|] eqn:L; injection E as <- <- <-; eauto.
  - apply rbind_ok in E as [[l [T1 n1]] [E1 E]]. injection E as <- <- <-. exact Logic.I.
  - apply rbind_ok in E as [[c' [T1 n1]] [E1 E]]. cbn [fst snd] in E. destruct HG as [H1 H2].
    destruct (with_sat orc n1 G c') as [[G1|] n1'].
    + apply rbind_ok in E as [[a' [T2 n2]] [E2 E]]. cbn [fst snd] in E.
      destruct (with_sat orc n2 G (negate_expr c')) as [[G2|] n2'].
      * apply rbind_ok in E as [[b' [T3 n3]] [E3 E]]. injection E as <- <- <-. split; eauto.
      * injection E as <- <- <-. eauto.
    + eauto.
  - assert (P : forall T1 n1 a' G1 T2 n2 b', unfold orc qs (T, n) fr G e1 = Ok (a', (T1, n1)) -> (exists m, unfold orc qs (T1, m) fr G1 e2 = Ok (b', (T2, n2))) ->
       guarded d (EBin t op a' b')).
    { intros T1 n1 a' G1 T2 n2 b' E1 [m E2]. cbn [guarded]. destruct (pull2 d op) as [[da db]|]; auto. destruct HG as [H1 H2]. split; eauto. }
    assert (PL : (let? (a', st1) := unfold orc qs (T, n) fr G e1 in let? (b', st2) := unfold orc qs st1 fr G e2 in Ok (EBin t op a' b', st2)) = Ok (e', (T', n')) ->
       guarded d e').
    { intros K. apply rbind_ok in K as [[a' [T1 n1]] [E1 K]]. apply rbind_ok in K as [[b' [T2 n2]] [E2 K]]. injection K as <- <- <-. eauto. }
    assert (PR : forall (w : oracle -> nat -> list cond -> expr -> option (list cond) * nat) z,
       (z = b_top t \/ z = b_bot t) ->
       (let? (a', st1) := unfold orc qs (T, n) fr G e1 in
        let (o, n1) := w orc (snd st1) G a' in
        match o with
        | Some G1 => let? (b', st2) := unfold orc qs (fst st1, n1) fr G1 e2 in Ok (EBin t op a' b', st2)
        | None => let? z := z in Ok (z, (fst st1, n1))
        end) = Ok (e', (T', n')) -> guarded d e').
    { intros w z Hz K. apply rbind_ok in K as [[a' [T1 n1]] [E1 K]]. cbn [fst snd] in K. destruct (w orc n1 G a') as [[G1|] n1'].
      - apply rbind_ok in K as [[b' [T2 n2]] [E2 K]]. injection K as <- <- <-. eapply P; eauto.
      - apply rbind_ok in K as [z' [E2 K]]. injection K as <- <- <-. eapply b_lit_ids. destruct Hz as [<-|<-]; eauto. }
    destruct op; auto; try (destruct (mul_ty t); auto; eapply PR; [|exact E]; auto; fail); try (destruct (lattice t); auto; eapply PR; [|exact E]; auto; fail).
  - apply rbind_ok in E as [[a' [T2 n2]] [E2 E]]. injection E as <- <- <-. cbn [guarded]. destruct (pull1 d op); eauto.
  - apply rbind_ok in E as [[a' [T2 n2]] [E2 E]]. injection E as <- <- <-. exact Logic.I.
  - apply rbind_ok in E as [[[vs fr'] T1] [E1 E]]. apply rbind_ok in E as [[a' [T2 n2]] [E2 E]]. injection E as <- <- <-.
    apply push_quant_guarded in E1 as (F1 & N1); auto. cbn [guarded]. intros Q. destruct (HG Q) as [H1 H2]. split; eauto.
  - apply rbind_ok in E as [[b' [T1 n1]] [E1 E]]. apply rbind_ok in E as [fr' [E2 E]].
    destruct HG as [H1 H2]. pose proof (both (fun d => guarded d e1) H1) as H1'. cbn beta in H1'. eapply push_subst_guarded in E2; eauto.
  - injection E as <- <- <-. exact Logic.I.
Qed.

Lemma guarded_elim e : forall d, no_subst e -> guarded d e -> elim_bound d e = [].
Proof.
  induction e using expr_rect'; intros d N HG; cbn [no_subst guarded elim_bound] in *; auto.
  - destruct N as (N1 & N2 & N3), HG as [H1 H2]. now rewrite IHe2, IHe3.
  - destruct N as (N1 & N2). destruct (pull2 d op) as [[da db]|]; auto. destruct HG as [H1 H2]. now rewrite IHe1, IHe2.
  - destruct (pull1 d op); auto.
  - destruct (pullq d op); auto. destruct (HG eq_refl) as [-> H]. now rewrite IHe.
Qed.
Lemma disjoint_nil l : disjoint [] l.
Proof. intros x []. Qed.
Lemma guarded_linear e : forall d, no_subst e -> guarded d e -> linear d e.
Proof.
  induction e using expr_rect'; intros d N HG; cbn [no_subst guarded linear] in *; auto.
  - destruct N as (N1 & N2 & N3), HG as [H1 H2]. rewrite !guarded_elim by auto. repeat split; auto using disjoint_nil.
  - destruct N as (N1 & N2). destruct (pull2 d op) as [[da db]|]; auto. destruct HG as [H1 H2]. rewrite !guarded_elim by auto.
    repeat split; auto using disjoint_nil.
  - destruct (pull1 d op); auto.
  - intros Q. destruct (HG Q) as [_ H]. rewrite guarded_elim by auto. auto using disjoint_nil.
Qed.

(** * Removing parentheses *)
Lemma sim_parens t a a' : wt (EUn t OParens a) = true -> sim a' a -> sim a' (EUn t OParens a).
Proof.
  intros Hw (W & Y & V). cbn [wt] in Hw. split_andb. assert (Ty : ty_of a = t) by (destruct t; match goal with H : un_ok _ _ _ = true |- _ => apply ty_eqb_eq in H end; auto).
  split; [auto|]. split; [cbn; congruence|]. intros I s HI Hs. cbn [eval]. rewrite <- V by auto.
  pose proof (eval_ty I HI a' W s Hs) as T. rewrite Y, Ty in T. destruct t; inv_ty T; rewrite T; simpl; rewrite dec_true by reflexivity; reflexivity.
Qed.
Lemma remove_parens_sim e : wt e = true -> forall b, sim (remove_parens_at b e) e.
Proof.
  induction e using expr_rect'; intros Hw b0; cbn [remove_parens_at].
  - now apply sim_refl.
  - apply sim_call; auto. cbn [wt] in Hw. induction H as [|a l Ha Hl IH]; cbn in *; constructor; split_andb; auto.
  - apply sim_ite; auto; cbn [wt] in Hw; split_andb; auto.
  - apply sim_bin; auto; cbn [wt] in Hw; split_andb; auto.
  - assert (We : wt e = true) by (cbn [wt] in Hw; split_andb; auto).
    destruct op; try (apply sim_un; auto; fail). destruct b0; [apply sim_un; auto | apply sim_parens; auto].
  - apply sim_cast; auto; cbn [wt] in Hw; split_andb; auto.
  - apply sim_quant; auto; cbn [wt] in Hw; split_andb; auto.
  - apply sim_subst; auto; cbn [wt] in Hw; split_andb; auto.
  - now apply sim_refl.
Qed.

(** * The question *)
Local Arguments eleb : simpl never.
Lemma bool_vc d e : wt e = true -> lattice (ty_of e) = true -> exists q, into_bool_vc d e = Ok q /\ wt q = true /\ ty_of q = TBool /\
  forall I s, interp_ok I -> env_ok s -> (eval I q s = VBool true <-> verified_value d (eval I e s)).
Proof.
  intros W Hl. pose (top := ELit (ty_of e) (match ty_of e with TBool => LBool true | _ => LInf end)).
  assert (HT : b_top (ty_of e) = Ok top) by (unfold top; destruct (ty_of e); try discriminate; reflexivity).
  exists (EBin TBool OEq top (match d with Down => e | Up => EUn (ty_of e) ONot e end)).
  split; [unfold into_bool_vc; rewrite HT; reflexivity|].
  split; [unfold top; destruct d; simpl; rewrite W; destruct (ty_of e) eqn:K; try discriminate; simpl; rewrite ?K; reflexivity|].
  split; [reflexivity|]. intros I s HI Hs. assert (V := eval_ty I HI e W s Hs). unfold top. pose proof ebot_neq_etop as NE.
  destruct (ty_of e) eqn:K; try discriminate; inv_ty V; destruct d; simpl; rewrite V; simpl; unfold veq; simpl.
  - rewrite bool_dec_eq. destruct b; simpl; split; intros H; auto; destruct H as [H|H]; discriminate || inversion H.
  - rewrite bool_dec_eq. destruct b; simpl; split; intros H; auto; destruct H as [H|H]; discriminate || inversion H.
  - rewrite eq_top_dec. split.
    + intros H. inversion H as [H']. apply eleb_iff in H'. apply top_le in H'. subst. auto.
    + intros [H|H]; [discriminate|]. inversion H; subst. now rewrite eleb_refl.
  - rewrite eq_top_dec, e_not_top. split.
    + intros H. inversion H as [H']. apply eleb_iff in H'. apply le_ebot in H'. subst. auto.
    + intros [H|H]; [discriminate|]. inversion H; subst. now rewrite eleb_refl.
Qed.

(** The stages after unfolding and quantifier elimination. *)
Definition finish (o : opt_options) (d : direction) (e : expr) : res expr :=
  let? q := into_bool_vc d e in
  let q1 := if negb (no_boolify o) || opt_rel o then remove_parens q else q in
  let? q2 := if no_boolify o then Ok q1 else boolify q1 in
  Ok (if opt_rel o then relational q2 else q2).
Lemma finish_spec o d e : wt e = true -> lattice (ty_of e) = true -> opt_rel o = false -> exists q, finish o d e = Ok q /\ wt q = true /\ ty_of q = TBool /\
  forall I s, interp_ok I -> env_ok s -> (eval I q s = VBool true <-> verified_value d (eval I e s)).
Proof.
  intros W Hl R. destruct (bool_vc d e W Hl) as (q & E & W1 & T1 & V). unfold finish. rewrite E, R. cbn [rbind].
  set (q1 := if negb (no_boolify o) || false then remove_parens q else q).
  assert (S1 : sim q1 q) by (unfold q1, remove_parens; destruct (negb (no_boolify o) || false); [now apply remove_parens_sim | now apply sim_refl]).
  destruct (no_boolify o).
  - cbn [rbind]. exists q1. split; [reflexivity|]. destruct S1 as (A & B & C). split; [assumption|]. split; [congruence|]. intros I s HI Hs. rewrite C; auto.
  - destruct (boolify_total q1 (proj1 S1)) as (q2 & E2 & _). rewrite E2. cbn [rbind]. exists q2. split; [reflexivity|].
    assert (S2 : sim q2 q) by (eapply sim_trans; [exact (proj1 (all_sound (fuel q1)) _ _ E2 (proj1 S1)) | exact S1]).
    destruct S2 as (A & B & C). split; [assumption|]. split; [congruence|]. intros I s HI Hs. rewrite C; auto.
Qed.

Theorem lower_spec o orc qs d T e : (strict o = false -> sound_oracle orc) -> opt_rel o = false ->
  wt e = true -> lattice (ty_of e) = true -> (forall x, In x (ids e) -> is_var T x) -> (no_qelim o = false -> guarded d e) ->
  exists q, lower o orc qs d T e = Ok q /\ wt q = true /\ ty_of q = TBool /\
    forall I, interp_ok I -> ((forall s, env_ok s -> eval I q s = VBool true) <-> verified I d e).
Proof.
  intros Ho R W Hl HD HG.
  assert (U : exists e1 T1, (if strict o then apply_subst qs T e else let? (e1, (T1, _)) := unfold_expr orc qs T e in Ok (e1, T1)) = Ok (e1, T1) /\
    no_subst e1 /\ wt e1 = true /\ ty_of e1 = ty_of e /\ (forall x, In x (ids e1) -> is_var T1 x) /\ (guarded d e -> guarded d e1) /\
    forall I s, interp_ok I -> env_ok s -> eval I e1 s = eval I e s).
  { assert (F0 : fr_vars T empty_frame) by (intros z r L; discriminate). assert (F1 : fr_guarded empty_frame) by (intros z r L; discriminate).
    destruct (strict o).
    - destruct (apply_subst_correct qs T e W HD) as (e1 & T1 & E & N & W1 & Y & V). exists e1, T1. repeat (split; [auto; fail|]).
      split; [apply (visit_vars qs e _ _ _ _ E HD F0)|]. split; [intros; eapply visit_guarded; eauto|]. auto.
    - destruct (unfold_expr_correct orc qs T e (Ho eq_refl) W HD) as (e1 & T1 & n & E & N & W1 & Y & V). exists e1, T1. rewrite E. cbn [rbind].
      repeat (split; [auto; fail|]). split; [apply (unfold_vars orc qs e _ _ _ _ _ _ _ E HD F0)|]. split; [intros; eapply unfold_guarded; eauto|]. auto. }
  destruct U as (e1 & T1 & E1 & N1 & W1 & Y1 & D1 & G1 & V1).
  assert (Hl1 : lattice (ty_of e1) = true) by congruence.
  assert (V1' : forall I, interp_ok I -> verified I d e1 <-> verified I d e).
  { intros I HI. unfold verified. split; intros A s Hs; specialize (A s Hs); rewrite V1 in * by auto; auto. }
  assert (QE : exists e2 T2, (if no_qelim o then Ok (e1, T1) else let? (e2, T2) := qelim qs d T1 e1 in apply_subst qs T2 e2) = Ok (e2, T2) /\
    wt e2 = true /\ ty_of e2 = ty_of e1 /\ forall I, interp_ok I -> verified I d e2 <-> verified I d e1).
  { destruct (no_qelim o) eqn:NQ.
    - exists e1, T1. repeat split; auto.
    - destruct (qelim_spec qs e1 d T1 W1 (guarded_linear e1 d N1 (G1 (HG eq_refl))) D1) as (e2 & T2 & F & E & S).
      destruct (apply_subst_correct qs T2 e2 (sp_wt _ _ _ _ _ _ S) (sp_ids _ _ _ _ _ _ S)) as (e3 & T3 & E3 & N & W3 & Ty & EV).
      exists e3, T3. rewrite E. cbn [rbind]. rewrite E3. split; [reflexivity|]. split; auto. split; [rewrite Ty; apply S|].
      intros I HI. rewrite (spec_verified d T1 e1 e2 T2 F I S HI W1 Hl1). unfold verified. split; intros A s Hs; specialize (A s Hs); rewrite EV in *; auto. }
  destruct QE as (e2 & T2 & E2 & W2 & Y2 & V2).
  destruct (finish_spec o d e2 W2 ltac:(congruence) R) as (q & E3 & W3 & Y3 & V3).
  exists q. split; [unfold lower; rewrite E1; cbn [rbind]; rewrite E2; exact E3|]. split; auto. split; auto.
  intros I HI. rewrite <- (V1' I HI), <- (V2 I HI). unfold verified. split; intros A s Hs; [apply V3 | apply V3]; auto.
Qed.

(** * What the generator puts into the condition *)
Definition vc_ids_ok (P : ident -> Prop) (e : expr) : Prop := (forall x, In x (ids e) -> P x) /\ forall d, guarded d e.
Lemma mapM_forall {A B} (f : A -> res B) (P : B -> Prop) l : forall r, mapM f l = Ok r -> (forall a b, In a l -> f a = Ok b -> P b) -> Forall P r.
Proof.
  induction l as [|a l IH]; intros r H HP; cbn [mapM] in H.
  - injection H as <-. constructor.
  - apply rbind_ok in H as [b [E1 H]]. apply rbind_ok in H as [bs [E2 H]]. injection H as <-. constructor.
    + eapply HP; eauto. now left.
    + apply IH; auto. intros. eapply HP; eauto. now right.
Qed.
Lemma from_odds_closed P l d : from_odds l = Ok d -> (forall p, In p l -> ids (snd p) = [] /\ forall dd, guarded dd (snd p)) ->
  Forall (fun pv => vc_ids_ok P (fst pv) /\ vc_ids_ok P (snd pv)) d.
Proof.
  intros H HP. apply rbind_ok in H as [tot [_ H]]. eapply mapM_forall; [exact H|]. intros a b Ha E. cbn beta in E.
  destruct (N.eqb tot 0); [discriminate|]. injection E as <-. cbn [fst snd]. destruct (HP a Ha) as [Q1 Q2].
  split; (split; [|auto; fail || (intros; exact Logic.I)]); cbn; [intros x []|]. rewrite Q1. intros x [].
Qed.
Lemma apply_dist_ids P f args d : apply_dist f args = Ok d -> (forall a, In a args -> vc_ids_ok P a) ->
  Forall (fun pv => vc_ids_ok P (fst pv) /\ vc_ids_ok P (snd pv)) d.
Proof.
  intros H HA. unfold apply_dist, dist_binom, dist_hyper in H.
  assert (BK : forall l (g : N -> res (N * expr)) r, mapM g l = Ok r -> (forall k p, g k = Ok p -> snd p = b_uint k) -> forall p, In p r -> ids (snd p) = [] /\ forall dd, guarded dd (snd p)).
  { intros l g r E Hg. assert (F : Forall (fun p => ids (snd p) = [] /\ forall dd, guarded dd (snd p)) r).
    { eapply mapM_forall; [exact E|]. intros k p _ Ep. rewrite (Hg k p Ep). cbn. auto. }
    rewrite Forall_forall in F. exact F. }
  destruct (String.eqb f "ber"); [|destruct (String.eqb f "flip"); [|destruct (String.eqb f "unif"); [|destruct (String.eqb f "binom"); [|destruct (String.eqb f "hyper"); [|discriminate]]]]].
  - destruct args as [|a [|b [|]]]; try discriminate. apply rbind_ok in H as [x [_ H]]. apply rbind_ok in H as [y [_ H]].
    eapply from_odds_closed; [exact H|]. intros p [<-|[<-|[]]]; cbn; auto.
  - destruct args as [|a [|]]; try discriminate. injection H as <-. destruct (HA a (or_introl eq_refl)) as [Q1 Q2].
    assert (B : forall t e, vc_ids_ok P e -> vc_ids_ok P (b_cast t e)).
    { intros t e [B1 B2]. unfold b_cast. destruct (ty_eqb (ty_of e) t); split; auto; intros; exact Logic.I. }
    assert (L1 : vc_ids_ok P (b_uint 1)) by (split; [intros x []|intros; exact Logic.I]).
    assert (L2 : forall b, vc_ids_ok P (b_bool b)) by (split; [intros x []|intros; exact Logic.I]).
    assert (L3 : vc_ids_ok P (EBin TUReal OSub (b_cast TUReal (b_uint 1)) a)).
    { destruct (B TUReal _ L1) as [R1 R2]. split; [|intros dd; cbn; auto]. cbn [ids]. intros x Hx. apply in_app_or in Hx as [Hx|Hx]; auto. }
    assert (L4 : vc_ids_ok P a) by (split; auto).
    constructor; [|constructor; [|constructor]]; cbn [fst snd]; auto.
  - destruct args as [|a [|b [|]]]; try discriminate. apply rbind_ok in H as [x [_ H]]. apply rbind_ok in H as [y [_ H]].
    eapply from_odds_closed; [exact H|]. intros p Hp. apply in_map_iff in Hp as [v [<- _]]. cbn; auto.
  - destruct args as [|a [|b [|c [|]]]]; try discriminate. apply rbind_ok in H as [x [_ H]]. apply rbind_ok in H as [y [_ H]]. apply rbind_ok in H as [z [_ H]].
    apply rbind_ok in H as [l [E H]]. eapply from_odds_closed; [exact H|]. eapply BK; [exact E|].
    intros k p Ep. repeat (apply rbind_ok in Ep as [? [_ Ep]]). injection Ep as <-. reflexivity.
  - destruct args as [|a [|b [|c [|]]]]; try discriminate. apply rbind_ok in H as [x [_ H]]. apply rbind_ok in H as [y [_ H]]. apply rbind_ok in H as [z [_ H]].
    apply rbind_ok in H as [ds [_ H]]. apply rbind_ok in H as [l [E H]]. eapply from_odds_closed; [exact H|]. eapply BK; [exact E|].
    intros k p Ep. repeat (apply rbind_ok in Ep as [? [_ Ep]]). injection Ep as <-. reflexivity.
Qed.

Section GenIds.
Variables (C : tcx) (P : ident -> Prop).
Let okv := vc_ids_ok P.

Lemma okv_lit t l : okv (ELit t l).
Proof. split; [intros x [] | intros; exact Logic.I]. Qed.
Lemma okv_bin op a b t : okv a -> okv b -> okv (EBin t op a b).
Proof.
  intros [A1 A2] [B1 B2]. split; [cbn [ids]; intros x Hx; apply in_app_or in Hx as [Hx|Hx]; auto|].
  intros d. cbn [guarded]. destruct (pull2 d op) as [[]|]; auto.
Qed.
Lemma okv_un op a t : okv a -> okv (EUn t op a).
Proof. intros [A1 A2]. split; [exact A1|]. intros d. cbn [guarded]. destruct (pull1 d op); auto. Qed.
Lemma okv_subst x b a : P x -> okv b -> okv a -> okv (ESubst x b a).
Proof.
  intros Hx [B1 B2] [A1 A2]. split; [cbn [ids]; intros y [<-|Hy]; auto; apply in_app_or in Hy as [Hy|Hy]; auto|].
  intros d. cbn [guarded]. auto.
Qed.

Lemma dist_expectation_ids d x post e : dist_expectation d x post = Ok e -> P x -> okv post ->
  Forall (fun pv => okv (fst pv) /\ okv (snd pv)) d -> okv e.
Proof.
  intros H Px HP HD. unfold dist_expectation in H.
  assert (F : Forall okv (map (fun pv => EBin (ty_of (fst pv)) OMul (fst pv) (b_subst post [(x, snd pv)])) d)).
  { apply Forall_forall. intros q Hq. apply in_map_iff in Hq as [pv [<- Hq]]. rewrite Forall_forall in HD. destruct (HD pv Hq).
    apply okv_bin; auto. apply okv_subst; auto. }
  destruct (map _ d) as [|t ts]; [discriminate|]. injection H as <-. inversion F as [|? ? F1 F2]; subst.
  clear HD F. revert t F1. induction F2 as [|u us Hu F2 IH]; intros t Ht; cbn [fold_left]; auto. apply IH. now apply okv_bin.
Qed.

Lemma generate_assign_ids e xs post r : generate_assign C e xs post = Ok r ->
  (forall x, In x (xs ++ ids e) -> P x) -> (forall e1 d, In e1 (e :: match e with ECall _ _ args => args | _ => [] end) -> guarded d e1) -> okv post -> okv r.
Proof.
  intros H Hx Hg HP.
  assert (E0 : okv e) by (split; [intros; apply Hx, in_or_app; auto | intros; apply Hg; now left]).
  assert (PL : match xs with [x] => Ok (b_subst post [(x, e)]) | _ => Panic "for vc generation, there must be exactly one lhs in an assignment" end = Ok r -> okv r).
  { destruct xs as [|x [|]]; try discriminate. intros K. injection K as <-. apply okv_subst; auto. apply Hx. now left. }
  destruct e; try (apply PL; exact H). cbn [generate_assign] in H. destruct (C f) as [[]|]; try discriminate; try (apply PL; exact H).
  unfold dist_vcgen in H. destruct xs as [|x [|]]; try discriminate. apply rbind_ok in H as [d [E H]].
  eapply dist_expectation_ids; eauto. { apply Hx. now left. }
  eapply apply_dist_ids; [exact E|]. intros a Ha. split; [|intros; apply Hg; now right].
  intros z Hz. apply Hx. right. cbn [ids]. apply in_flat_map. eauto.
Qed.

Definition declared_node (st : stmt) : Prop := forall x, In x (node_ids st) -> P x.
Lemma vcgen_ids st : forall post e, vcgen C st post = Ok e -> every declared_node st -> every guarded_node st -> okv post -> okv e.
Proof.
  assert (HB : forall b, Forall (fun st => forall post e, vcgen C st post = Ok e -> every declared_node st -> every guarded_node st -> okv post -> okv e) b ->
    forall post e, vcgen_block C b post = Ok e -> All (every declared_node) b -> All (every guarded_node) b -> okv post -> okv e).
  { induction 1 as [|s b Hs Hb IH]; intros post e H D G Hp; cbn [vcgen_block] in H; [injection H as <-; auto|].
    apply rbind_ok in H as [p [E1 E2]]. cbn [All] in D, G. destruct D, G. eapply Hs; eauto. }
  induction st using stmt_rect'; intros q0 r0 K D G Hp; cbn [vcgen] in K; rewrite ?vcgen_block_eq in K; cbn [every] in D, G; destruct D as [D0 D], G as [G0 G];
    unfold declared_node in D0; unfold guarded_node in G0; cbn [node_ids node_exprs] in D0, G0;
    try (apply rbind_ok in K as [p1 [E1 K]]; apply rbind_ok in K as [p2 [E2 K]]).
  all: try (injection K as <-; assumption).
  all: try (injection K as <-; apply okv_bin; [split; [exact D0 | intros; apply G0; now left] | assumption]; fail).
  all: try (injection K as <-; apply okv_bin; [apply (fun F D G => HB _ F _ _ E1 D G Hp) | apply (fun F D G => HB _ F _ _ E2 D G Hp)]; tauto).
  - eapply HB; eauto.
  - destruct i as [e|]; [|injection K as <-; assumption]. eapply generate_assign_ids; eauto.
  - eapply generate_assign_ids; eauto.
  - injection K as <-. destruct Hp as [A1 A2]. unfold b_quant. split.
    + cbn [ids]. intros x Hx. apply in_app_or in Hx as [Hx|Hx]; auto. apply D0. rewrite map_map in Hx. cbn in Hx. rewrite map_id in Hx. exact Hx.
    + intros dd. cbn [guarded]. intros _. split; auto. unfold fresh_names. clear. induction xs; auto.
  - injection K as <-. now apply okv_un.
  - injection K as <-. unfold vcgen_validate. destruct Hp as [A1 A2]. destruct d.
    + destruct q0; try (apply okv_un, okv_un; split; assumption). destruct op; try (apply okv_un, okv_un; split; assumption). split; [exact A1|]. intros d. exact (A2 d).
    + destruct q0; try (apply okv_un, okv_un; split; assumption). destruct op; try (apply okv_un, okv_un; split; assumption). split; [exact A1|]. intros d. exact (A2 d).
  - injection K as <-. assert (O1 : okv p1) by (apply (fun F D G => HB _ F _ _ E1 D G Hp); tauto). assert (O2 : okv p2) by (apply (fun F D G => HB _ F _ _ E2 D G Hp); tauto).
    destruct O1 as [A1 A2], O2 as [B1 B2]. split; [|intros d; cbn [guarded]; auto]. cbn [ids]. intros x Hx.
    apply in_app_or in Hx as [Hx|Hx]; auto. apply in_app_or in Hx as [Hx|Hx]; auto.
  - discriminate.
  - destruct (C n) as [[]|]; try discriminate. eapply IHst; eauto.
Qed.
End GenIds.

(** * From a procedure's body to the question *)
Theorem question_correct o orc qs C isd isf A d T k b :
  tcx_ok C isd isf A -> wts isd isf (SSeq b) -> every not_while (SSeq b) -> vguard (SSeq b) -> every (anns_in A) (SSeq b) ->
  every (fun st => forall x, In x (node_ids st) -> is_var T x) (SSeq b) -> every guarded_node (SSeq b) ->
  (strict o = false -> sound_oracle orc) -> opt_rel o = false ->
  exists q, question o orc qs C d T b = Ok q /\ wt q = true /\ ty_of q = TBool /\
    forall I, interp_ok I ->
      ((forall s, env_ok s -> eval I q s = VBool true) <->
       forall s, env_ok s -> wp I isd k (SSeq b) (fun _ => match d with Down => etop | Up => ebot end) s = match d with Down => etop | Up => ebot end).
Proof.
  intros HT H1 H2 H3 H4 HD HG Ho R.
  assert (Ht : is_exp (terminal d)) by (destruct d; split; reflexivity).
  assert (Hv : forall I s, ev I (terminal d) s = match d with Down => etop | Up => ebot end).
  { intros I s. destruct d; [reflexivity|]. unfold ev, terminal. cbn [eval eval_un b_inf eval_lit].
    change (match (if eleb etop etop then VEur ebot else VEur etop) with VEur r => r | _ => ebot end = ebot). now rewrite eleb_refl. }
  destruct (vcgen_correct C I5 isd isf A k HT I5_ok (SSeq b) H1 H2 H3 H4 _ Ht) as (e & E & [W Ty] & _).
  destruct (vcgen_ids C (is_var T) (SSeq b) _ _ E HD HG) as [G1 G2].
  { destruct d; (split; [intros x [] | intros dd; destruct dd; exact Logic.I]). }
  destruct (lower_spec o orc qs d T e Ho R W) as (q & Q1 & Q2 & Q3 & Q4); auto. { now rewrite Ty. }
  exists q. split. { unfold question. cbn [vcgen] in E. rewrite vcgen_block_eq in E. rewrite E. exact Q1. }
  split; auto. split; auto. intros I HI. rewrite (Q4 I HI).
  destruct (vcgen_correct C I isd isf A k HT HI (SSeq b) H1 H2 H3 H4 _ Ht) as (e' & E' & _ & V).
  rewrite E in E'. injection E' as <-. specialize (V (fun _ => match d with Down => etop | Up => ebot end) ltac:(intros; apply Hv)).
  unfold verified. split; intros HH s Hs; specialize (HH s Hs).
  - rewrite <- V by auto. rewrite (ev_spec I e s HI (conj W Ty) Hs) in HH. unfold verified_value in HH. destruct d; destruct HH as [HH|HH]; congruence.
  - rewrite (ev_spec I e s HI (conj W Ty) Hs), V, HH by auto. unfold verified_value. destruct d; auto.
Qed.
