(** The grammar of statements is unambiguous; printed statements and procedures read back as themselves. *)
From Coq Require Import Bool List String Arith ZArith QArith Lia.
From Verif.Model Require Import Syntax Tycheck Precedence Printing.
From Verif.Spec Require Import Reading Printed.
From Verif.Proofs Require Import GrammarProofs GroupingProofs PrintExprs.
Import ListNotations.
Local Open Scope list_scope.
Local Open Scope nat_scope.

(** * Where an expression ends *)
(** A scanner with a stack of the open brackets: [BCall]: commas may follow, [BIte n], [BLet n]: [n] commas have to follow *)
Inductive bracket := BPar | BIv | BCall | BIte (n : nat).
Inductive scan := Opd (s : list bracket) | Args (s : list bracket) | Aft (s : list bracket)
| WantCall (s : list bracket) | WantIte (s : list bracket) | WantLet (s : list bracket) | LetId (s : list bracket) | LetComma (s : list bracket)
| QVar (s : list bracket) | QSep (s : list bracket).
Definition step_opd (s : list bracket) (k : tok) : option scan :=
  match k with
  | KId _ | KLit _ => Some (Aft s)
  | KFun _ => Some (WantCall s) | KLet => Some (WantLet s) | KIte => Some (WantIte s)
  | KPre _ => Some (Opd s) | KLpar => Some (Opd (BPar :: s)) | KLbr => Some (Opd (BIv :: s))
  | KQuant _ => Some (QVar s)
  | _ => None
  end.
Definition step (st : scan) (k : tok) : option scan :=
  match st with
  | Opd s => step_opd s k
  | Args s => match k with KRpar => Some (Aft s) | _ => step_opd (BCall :: s) k end
  | Aft s =>
      match k, s with
      | KBin _, _ => Some (Opd s)
      | KRpar, (BPar | BCall | BIte 0) :: s' => Some (Aft s')
      | KRbr, BIv :: s' => Some (Aft s')
      | KComma, BCall :: s' => Some (Args s')
      | KComma, BIte (S n) :: s' => Some (Opd (BIte n :: s'))
      | _, _ => None
      end
  | WantCall s => match k with KLpar => Some (Args s) | _ => None end
  | WantIte s => match k with KLpar => Some (Opd (BIte 2 :: s)) | _ => None end
  | WantLet s => match k with KLpar => Some (LetId s) | _ => None end
  | LetId s => match k with KId _ => Some (LetComma s) | _ => None end
  | LetComma s => match k with KComma => Some (Opd (BIte 1 :: s)) | _ => None end
  | QVar s => match k with KVar _ => Some (QSep s) | _ => None end
  | QSep s => match k with KComma => Some (QVar s) | KDot => Some (Opd s) | _ => None end
  end.
Fixpoint scans (st : scan) (t : list tok) : option scan :=
  match t with [] => Some st | k :: t' => match step st k with Some st' => scans st' t' | None => None end end.
Lemma scans_app st t u : scans st (t ++ u) = match scans st t with Some st' => scans st' u | None => None end.
Proof. revert st. induction t as [|k t IH]; intros st; cbn; auto. destruct (step st k); auto. Qed.

Section G.
Variable G : levels.
Lemma scan_qvars t xs : qvars t xs -> forall s, scans (QVar s) t = Some (QSep s).
Proof. induction 1; intros s; cbn; auto. Qed.
Lemma args_opd s t st : t <> [] -> hd_error t <> Some KRpar -> scans (Opd (BCall :: s)) t = st -> scans (Args s) t = st.
Proof. destruct t as [|k t]; [congruence|]. cbn. intros _ H. destruct k; auto. congruence. Qed.
Lemma scan_expr :
  (forall t e, atom G t e -> forall s, scans (Opd s) t = Some (Aft s)) /\
  (forall k t e, glevel G k t e -> forall s, scans (Opd s) t = Some (Aft s)) /\
  (forall t e, gexpr G t e -> forall s, scans (Opd s) t = Some (Aft s)) /\
  (forall t es, gargs G t es -> forall s, scans (Args s) (t ++ [KRpar]) = Some (Aft s)).
Proof.
  assert (HR : forall s t st, scans (Opd s) t = Some st -> t <> [] -> hd_error t <> Some KRpar).
  { intros s [|k t] st H _; [discriminate|]. cbn in *. destruct k; cbn in *; congruence. }
  assert (NE : forall s t, scans (Opd s) t = Some (Aft s) -> t <> []) by (intros s [|k t] H; [discriminate|discriminate]).
  apply grammar_ind; intros; cbn [app]; repeat (cbn [scans step step_opd]; rewrite ?scans_app); auto.
  - rewrite H0. cbn. rewrite scans_app, H2. reflexivity.
  - rewrite H0. cbn. rewrite scans_app, H2. cbn. rewrite scans_app, H4. reflexivity.
  - specialize (H0 s). rewrite scans_app in H0. exact H0.
  - rewrite H0. reflexivity.
  - rewrite H0. reflexivity.
  - rewrite H1. cbn. apply H3.
  - rewrite H1. cbn. apply H3.
  - rewrite H1. cbn. apply H3.
  - rewrite (scan_qvars _ _ H). cbn. apply H1.
  - rewrite (args_opd s t (Some (Aft (BCall :: s))) (NE _ _ (H0 [])) (HR _ _ _ (H0 []) (NE _ _ (H0 []))) (H0 _)). reflexivity.
  - rewrite (args_opd s t (Some (Aft (BCall :: s))) (NE _ _ (H0 [])) (HR _ _ _ (H0 []) (NE _ _ (H0 []))) (H0 _)). cbn. specialize (H2 s). rewrite scans_app in H2. exact H2.
Qed.
End G.

(** Brackets match within an expression. *)
Fixpoint dep (n : nat) (t : list tok) : option nat :=
  match t with
  | [] => Some n
  | (KLpar | KLbr) :: t' => dep (S n) t'
  | (KRpar | KRbr) :: t' => match n with O => None | S n' => dep n' t' end
  | _ :: t' => dep n t'
  end.
Lemma dep_app n t u : dep n (t ++ u) = match dep n t with Some m => dep m u | None => None end.
Proof. revert n. induction t as [|k t IH]; intros n; cbn; auto. destruct k; auto. all: destruct n; auto. Qed.
Lemma dep_qvars t xs : qvars t xs -> forall n, dep n t = Some n.
Proof. induction 1; intros n; cbn; auto. Qed.
Lemma dep_expr G :
  (forall t e, atom G t e -> forall n, dep n t = Some n) /\ (forall k t e, glevel G k t e -> forall n, dep n t = Some n) /\
  (forall t e, gexpr G t e -> forall n, dep n t = Some n) /\ (forall t es, gargs G t es -> forall n, dep n t = Some n).
Proof.
  apply grammar_ind; intros; repeat (cbn [dep app]; rewrite ?dep_app); auto.
  - rewrite H0. cbn. rewrite dep_app, H2. reflexivity.
  - rewrite H0. cbn. rewrite dep_app, H2. cbn. rewrite dep_app, H4. reflexivity.
  - rewrite H0. reflexivity.
  - rewrite H0. reflexivity.
  - rewrite H0. reflexivity.
  - rewrite H1. cbn. apply H3.
  - rewrite H1. cbn. apply H3.
  - rewrite H1. cbn. apply H3.
  - rewrite (dep_qvars _ _ H). cbn. apply H1.
  - rewrite H0. cbn. apply H2.
Qed.

(** * Unambiguity *)
Lemma cut (t1 t2 : list tok) r1 r2 : map E t1 ++ r1 = map E t2 ++ r2 ->
  (exists u, t2 = t1 ++ u /\ r1 = map E u ++ r2) \/ (exists u, t1 = t2 ++ u /\ r2 = map E u ++ r1).
Proof.
  revert t2. induction t1 as [|k t1 IH]; intros t2 H; [left; exists t2; auto|].
  destruct t2 as [|k2 t2]; [right; exists (k :: t1); auto|]. cbn in H. injection H as <- H. destruct (IH _ H) as [(u & -> & ->)|(u & -> & ->)]; [left|right]; exists u; auto.
Qed.
Definition ends (r : list stok) : Prop := match r with E (KBin _) :: _ => False | _ => True end.
Section Unique.
Variable G : levels.
Hypothesis U : forall t e e', gexpr G t e -> gexpr G t e' -> e = e'.
Hypothesis UA : forall t es es', gargs G t es -> gargs G t es' -> es = es'.

Lemma expr_more t u e e' r : gexpr G t e -> gexpr G (t ++ u) e' -> ends (map E u ++ r) -> u = [].
Proof.
  intros H1 H2 HE. destruct u as [|k u]; auto. exfalso. pose proof (proj1 (proj2 (proj2 (scan_expr G))) _ _ H1 []) as S1. pose proof (proj1 (proj2 (proj2 (scan_expr G))) _ _ H2 []) as S2.
  rewrite scans_app, S1 in S2. cbn in S2. destruct k; cbn in *; try discriminate. contradiction.
Qed.
Lemma expr_cut t1 t2 e1 e2 r1 r2 : gexpr G t1 e1 -> gexpr G t2 e2 -> map E t1 ++ r1 = map E t2 ++ r2 -> ends r1 -> ends r2 -> e1 = e2 /\ r1 = r2.
Proof.
  intros H1 H2 H E1 E2. destruct (cut _ _ _ _ H) as [(u & -> & ->)|(u & -> & ->)].
  - assert (u = []) as -> by (exact (expr_more t1 u e1 e2 r2 H1 H2 E1)). rewrite app_nil_r in H2. split; eauto.
  - assert (u = []) as -> by (exact (expr_more t2 u e2 e1 r1 H2 H1 E2)). rewrite app_nil_r in H1. split; eauto.
Qed.
Lemma args_cut t1 t2 a1 a2 r1 r2 : gargs G t1 a1 -> gargs G t2 a2 -> map E t1 ++ E KRpar :: r1 = map E t2 ++ E KRpar :: r2 -> a1 = a2 /\ r1 = r2.
Proof.
  intros H1 H2 H.
  assert (D : forall t u v a a' r r', gargs G t a -> gargs G (t ++ u) a' -> E KRpar :: r = map E u ++ v :: r' -> u = [] ).
  { intros t u v a a' r r' K1 K2 K3. destruct u as [|k u]; auto. cbn in K3. injection K3 as <- _.
    pose proof (proj2 (proj2 (proj2 (dep_expr G))) _ _ K1 0) as D1. pose proof (proj2 (proj2 (proj2 (dep_expr G))) _ _ K2 0) as D2. rewrite dep_app, D1 in D2. discriminate. }
  destruct (cut _ _ _ _ H) as [(u & -> & K)|(u & -> & K)].
  - assert (u = []) as -> by (exact (D t1 u _ a1 a2 _ _ H1 H2 K)). rewrite app_nil_r in H2. cbn in K. injection K as ->. split; eauto.
  - assert (u = []) as -> by (exact (D t2 u _ a2 a1 _ _ H2 H1 K)). rewrite app_nil_r in H1. cbn in K. injection K as ->. split; eauto.
Qed.
Lemma expr_start t e : gexpr G t e -> exists k u, t = k :: u /\ (forall op, k <> KBin op).
Proof.
  intros H. pose proof (proj1 (proj2 (proj2 (scan_expr G))) _ _ H []) as S. destruct t as [|k u]; [discriminate|]. exists k, u. split; auto. intros op ->. discriminate.
Qed.

Definition no_comma (r : list stok) : Prop := match r with E KComma :: _ => False | _ => True end.
Lemma ids_cut t1 t2 x1 x2 r1 r2 : gids t1 x1 -> gids t2 x2 -> t1 ++ r1 = t2 ++ r2 -> no_comma r1 -> no_comma r2 -> x1 = x2 /\ r1 = r2.
Proof.
  intros H. revert t2 x2. induction H as [x|x t xs H IH]; intros t2 x2 H2 E0 N1 N2; inversion H2 as [y|y t' ys H3]; subst; cbn in E0.
  - injection E0 as -> ->. auto.
  - injection E0 as -> ->. destruct N1.
  - injection E0 as -> <-. destruct N2.
  - injection E0 as -> E0. destruct (IH _ _ H3 E0 N1 N2) as [-> ->]. auto.
Qed.
Lemma ids_start t xs : gids t xs -> exists x u, t = E (KId x) :: u.
Proof. destruct 1; eauto. Qed.

(** What may follow a statement, and a list of statements *)
Definition starts (k : stok) : bool := match k with LBrace | W _ | At _ | E (KId _) | E (KFun _) => true | _ => false end.
Definition follow (r : list stok) : Prop := match r with [] => True | k :: _ => starts k = true \/ k = Semi \/ k = RBrace end.
Definition stop (r : list stok) : Prop := match r with [] => True | k :: _ => k = RBrace end.
Lemma follow_ends r : follow r -> ends r.
Proof. destruct r as [|[[]| | | | | | | | | | | | ]]; cbn; auto. intros [H|[H|H]]; discriminate. Qed.
Lemma follow_comma r : follow r -> no_comma r.
Proof. destruct r as [|[[]| | | | | | | | | | | | ]]; cbn; auto. intros [H|[H|H]]; discriminate. Qed.
Lemma stop_follow r : stop r -> follow r.
Proof. destruct r; cbn; auto. Qed.
Lemma stmt_start t s : gstmt G t s -> exists k u, t = k :: u /\ starts k = true.
Proof.
  destruct 1; cbn [app]; eauto. destruct (ids_start _ _ H) as (x & u & ->). cbn [app]. eauto.
Qed.
Scheme gstmt_mut := Minimality for gstmt Sort Prop
  with gstmts_mut := Minimality for gstmts Sort Prop.
Combined Scheme stmt_ind2 from gstmt_mut, gstmts_mut.

Lemma choice_clash t e r1 r2 o : gexpr G t e -> o = E (KBin OAdd) \/ o = Oplus \/ o = E (KBin OInf) \/ o = E (KBin OSup) -> o :: r1 = map E t ++ r2 -> False.
Proof.
  intros H H1 H2. destruct (expr_start _ _ H) as (k & u & -> & N). cbn in H2. injection H2 as -> _. destruct H1 as [Q|[Q|[Q|Q]]]; try discriminate Q; injection Q as ->; now eapply N.
Qed.
Ltac side := first [exact Logic.I | reflexivity | assumption | now apply follow_ends | now apply follow_comma].
Ltac pieces :=
  repeat match goal with
  | Q : E KLpar :: _ = ?t ++ _, H : gstmt G ?t _ |- _ => exfalso; destruct (stmt_start _ _ H) as (? & ? & -> & ?); cbn in Q; injection Q as <- _; discriminate
  | Q : ?t ++ _ = E KLpar :: _, H : gstmt G ?t _ |- _ => exfalso; destruct (stmt_start _ _ H) as (? & ? & -> & ?); cbn in Q; injection Q as -> _; discriminate
  | Q : ?o :: _ = map E ?t ++ _, H : gexpr G ?t _ |- _ => exfalso; refine (choice_clash _ _ _ _ _ H _ Q); tauto
  | Q : map E ?t ++ _ = ?o :: _, H : gexpr G ?t _ |- _ => exfalso; symmetry in Q; refine (choice_clash _ _ _ _ _ H _ Q); tauto
  | Q : ?r = Equals :: _, F : follow ?r |- _ => exfalso; rewrite Q in F; cbn in F; destruct F as [F|[F|F]]; discriminate F
  | Q : Equals :: _ = ?r, F : follow ?r |- _ => exfalso; rewrite <- Q in F; cbn in F; destruct F as [F|[F|F]]; discriminate F
  | Q : ?a :: ?x = ?b :: ?y |- _ => injection Q; clear Q; intros; subst
  | Q : map E ?t ++ ?r = map E ?t' ++ ?r', H : gargs G ?t _, H' : gargs G ?t' _ |- _ => destruct (args_cut _ _ _ _ _ _ H H' Q); clear Q; subst
  | Q : map E ?t ++ ?r = map E ?t' ++ ?r', H : gexpr G ?t _, H' : gexpr G ?t' _ |- _ => destruct (expr_cut _ _ _ _ _ _ H H' Q); [side|side|]; clear Q; subst
  | Q : ?t ++ ?r = ?t' ++ ?r', H : gids ?t _, H' : gids ?t' _ |- _ => destruct (ids_cut _ _ _ _ _ _ H H' Q); [side|side|]; clear Q; subst
  | Q : ?t ++ ?r = ?t' ++ ?r', H' : gstmts G ?t' _, IH : forall t2 b2 r1 r2, gstmts G t2 b2 -> ?t ++ r1 = t2 ++ r2 -> _ |- _ => destruct (IH _ _ _ _ H' Q); [side|side|]; clear IH Q; subst
  | Q : ?t ++ ?r = ?t' ++ ?r', H' : gstmt G ?t' _, IH : forall t2 b2 r1 r2, gstmt G t2 b2 -> ?t ++ r1 = t2 ++ r2 -> _ |- _ => destruct (IH _ _ _ _ H' Q); [side|side|]; clear IH Q; subst
  end.
Ltac clash EQ :=
  first [discriminate EQ
        | match type of EQ with _ = ?t ++ _ => match goal with H : gids t _ |- _ => destruct (ids_start _ _ H) as (? & ? & ->); discriminate EQ end end
        | match type of EQ with ?t ++ _ = _ => match goal with H : gids t _ |- _ => destruct (ids_start _ _ H) as (? & ? & ->); discriminate EQ end end].
Theorem stmt_cut :
  (forall t1 s1, gstmt G t1 s1 -> forall t2 s2 r1 r2, gstmt G t2 s2 -> t1 ++ r1 = t2 ++ r2 -> follow r1 -> follow r2 -> s1 = s2 /\ r1 = r2) /\
  (forall t1 b1, gstmts G t1 b1 -> forall t2 b2 r1 r2, gstmts G t2 b2 -> t1 ++ r1 = t2 ++ r2 -> stop r1 -> stop r2 -> b1 = b2 /\ r1 = r2).
Proof.
  apply stmt_ind2.
  23-24: shelve.
  all: intros; match goal with H2 : gstmt _ ?t2 _, EQ : _ = ?t2 ++ _ |- _ => inversion H2; subst; clear H2; cbn in EQ; repeat (rewrite <- app_assoc in EQ; cbn in EQ); try (clash EQ) end.
  all: pieces; auto.
  1-2: match goal with F : follow (Equals :: _) |- _ => cbn in F; destruct F as [F|[F|F]]; discriminate F end.
  1-4: match goal with H : _ = _ \/ _ = _ |- _ => destruct H; discriminate end.
  Unshelve.
  - intros t2 b2 r1 r2 H2 EQ F1 F2. inversion H2; subst; auto. exfalso. cbn in EQ. destruct (stmt_start _ _ H) as (k & u & -> & K). subst. cbn in F1. subst. discriminate.
  - intros t s semi ts b Hs IHs Hsemi Hb IHb t2 b2 r1 r2 H2 EQ F1 F2. inversion H2 as [|t' s' semi' ts' b' Hs' Hsemi' Hb']; subst.
    { exfalso. cbn in EQ. destruct (stmt_start _ _ Hs) as (k & u & -> & K). subst. cbn in F2. subst. discriminate. }
    repeat rewrite <- app_assoc in EQ.
    assert (FF : forall semi ts b r, semi = [] \/ semi = [Semi] -> gstmts G ts b -> stop r -> follow (semi ++ ts ++ r)).
    { intros m tm bm r [->| ->] HB HR; [|cbn; auto]. cbn [app]. destruct HB as [|t0 ? ? ? ? H0]; [now apply stop_follow|]. destruct (stmt_start _ _ H0) as (k & u & -> & K). cbn. auto. }
    destruct (IHs _ _ _ _ Hs' EQ) as [-> Q]; [eapply FF; eassumption|eapply FF; eassumption|].
    assert (NS : forall ts b r r', gstmts G ts b -> stop r -> ts ++ r <> Semi :: r').
    { intros tm bm r r' HB HR HE. destruct HB as [|t0 ? ? ? ? H0]; [cbn in HE; subst; discriminate HR|]. destruct (stmt_start _ _ H0) as (k & u & -> & K). cbn in HE. injection HE as -> _. discriminate. }
    destruct Hsemi as [->| ->], Hsemi' as [->| ->]; cbn in Q.
    + destruct (IHb _ _ _ _ Hb' Q F1 F2) as [-> ->]. auto.
    + exfalso. exact (NS _ _ _ _ Hb F1 Q).
    + exfalso. symmetry in Q. exact (NS _ _ _ _ Hb' F2 Q).
    + injection Q as Q. destruct (IHb _ _ _ _ Hb' Q F1 F2) as [-> ->]. auto.
Qed.
Corollary stmts_unique t b b' : gstmts G t b -> gstmts G t b' -> b = b'.
Proof. intros H H'. now destruct (proj2 stmt_cut _ _ H _ _ [] [] H' eq_refl Logic.I Logic.I). Qed.
Corollary stmt_unique t s s' : gstmt G t s -> gstmt G t s' -> s = s'.
Proof. intros H H'. now destruct (proj1 stmt_cut _ _ H _ _ [] [] H' eq_refl Logic.I Logic.I). Qed.

(** Declarations of procedures *)
Definition no_var (r : list stok) : Prop := match r with E (KVar _) :: _ => False | _ => True end.
Lemma params_cut t1 t2 x1 x2 r1 r2 : gparams t1 x1 -> gparams t2 x2 -> t1 ++ E KRpar :: r1 = t2 ++ E KRpar :: r2 -> x1 = x2 /\ r1 = r2.
Proof.
  intros H. revert t2 x2. induction H as [|x|x t xs H IH]; intros t2 x2 H2 E0; inversion H2 as [|y|y t' ys H3]; subst; cbn in E0; try discriminate E0.
  - injection E0 as ->. auto.
  - injection E0 as -> ->. auto.
  - injection E0 as -> E0. destruct (IH _ _ H3 E0) as [-> ->]. auto.
Qed.
Definition spec_stop (r : list stok) : Prop := match r with [] => True | k :: _ => k = LBrace end.
Lemma spec_cut t1 l1 : gspec G t1 l1 -> forall t2 l2 r1 r2, gspec G t2 l2 -> t1 ++ r1 = t2 ++ r2 -> spec_stop r1 -> spec_stop r2 -> l1 = l2 /\ r1 = r2.
Proof.
  assert (SE : forall t l r, gspec G t l -> spec_stop r -> ends (t ++ r)).
  { intros t l r [| |] HR; cbn; auto. destruct r as [|k r]; cbn in *; auto. now subst. }
  induction 1 as [|t e ts l He Hl IH|t e ts l He Hl IH]; intros t2 l2 r1 r2 H2 EQ F1 F2; inversion H2 as [|t' e' ts' l' He' Hl'|t' e' ts' l' He' Hl']; subst; cbn in EQ;
    try (subst; discriminate); try (subst; cbn in *; discriminate); auto.
  all: repeat rewrite <- app_assoc in EQ; try discriminate EQ; injection EQ as EQ; destruct (expr_cut _ _ _ _ _ _ He He' EQ) as [-> Q]; [eapply SE; eassumption|eapply SE; eassumption|];
    destruct (IH _ _ _ _ Hl' Q F1 F2) as [-> ->]; auto.
Qed.
Lemma body_unique t b b' : gbody G t b -> gbody G t b' -> b = b'.
Proof.
  intros H H'. destruct H as [|t b H]; inversion H' as [|t' b'' H2 Q]; subst; auto. apply app_inj_tail in Q. destruct Q as [-> _]. f_equal. exact (stmts_unique _ _ _ H H2).
Qed.
Lemma body_stop t b : gbody G t b -> spec_stop t.
Proof. destruct 1; cbn; auto. Qed.
Theorem proc_unique t p p' : gproc G t p -> gproc G t p' -> p = p'.
Proof.
  intros H H'. inversion H as [c d n ti ins to outs tsp l tb b Hi Ho Hs Hb]; subst. inversion H' as [c' d' n' ti' ins' to' outs' tsp' l' tb' b' Hi' Ho' Hs' Hb']; subst.
  assert (Q : c' = c /\ E (KFun n') :: E KLpar :: ti' ++ E KRpar :: Arrow :: E KLpar :: to' ++ E KRpar :: tsp' ++ tb' = E (KFun n) :: E KLpar :: ti ++ E KRpar :: Arrow :: E KLpar :: to ++ E KRpar :: tsp ++ tb /\ d' = d).
  { destruct c, c'; cbn in H0; try discriminate H0; injection H0; intros; subst; repeat split; congruence. }
  destruct Q as (-> & Q & ->). injection Q as -> Q. destruct (params_cut _ _ _ _ _ _ Hi' Hi Q) as [-> Q1]. injection Q1 as Q1. destruct (params_cut _ _ _ _ _ _ Ho' Ho Q1) as [-> Q2].
  destruct (spec_cut _ _ Hs' _ _ _ _ Hs Q2) as [-> ->]; [eapply body_stop; eassumption|eapply body_stop; eassumption|].
  rewrite (body_unique _ _ _ Hb' Hb). reflexivity.
Qed.
End Unique.

(** * The text of a program *)
Lemma layout_app a b t : layout (a ++ b) t -> exists a' b', t = a' ++ b' /\ layout a a' /\ layout b b'.
Proof.
  revert t. induction a as [|k a IH]; cbn; intros t H; [exists [], t; repeat constructor; auto|].
  inversion H; subst; match goal with K : layout (a ++ b) _ |- _ => destruct (IH _ K) as (a' & b' & -> & ? & ?) end.
  - exists (k :: a'), b'. repeat split; auto. now constructor.
  - exists a', b'. repeat split; auto. now constructor.
  - exists (Semi :: a'), b'. repeat split; auto. now constructor.
Qed.
Lemma layout_same t t' : Forall (fun k => k <> Sep) t -> layout t t' -> t' = t.
Proof. intros H L. induction L; inversion H; subst; auto; try congruence. f_equal. auto. Qed.
Lemma map_nosep t : Forall (fun k => k <> Sep) (map E t).
Proof. induction t; cbn; constructor; auto. discriminate. Qed.
Lemma ids_nosep xs : Forall (fun k => k <> Sep) (pids xs).
Proof.
  induction xs as [|x xs IH]; cbn; auto. destruct xs; cbn in *; repeat constructor; try discriminate. exact IH.
Qed.
Lemma params_nosep xs : Forall (fun k => k <> Sep) (pparams xs).
Proof.
  induction xs as [|x xs IH]; cbn; auto. destruct xs; cbn in *; repeat constructor; try discriminate. exact IH.
Qed.
Lemma layout_tok k t t' : k <> Sep -> layout (k :: t) t' -> exists u, t' = k :: u /\ layout t u.
Proof. intros N H. inversion H; subst; try congruence. eauto. Qed.
Lemma layout_fixed a t t' : Forall (fun k => k <> Sep) a -> layout (a ++ t) t' -> exists u, t' = a ++ u /\ layout t u.
Proof. intros N H. destruct (layout_app _ _ _ H) as (a' & b' & -> & HA & HB). rewrite (layout_same _ _ N HA). eauto. Qed.

Section StmtInd.
Variable P : rstmt -> Prop.
Hypothesis HSeq : forall b, Forall P b -> P (RSeq b).
Hypothesis HLeaf : forall s, match s with RSeq _ | RDemonic _ _ | RAngelic _ _ | RAdditive _ _ | RIf _ _ _ | RWhile _ _ | RAnn _ _ _ => False | _ => True end -> P s.
Hypothesis HDem : forall b1 b2, Forall P b1 -> Forall P b2 -> P (RDemonic b1 b2).
Hypothesis HAng : forall b1 b2, Forall P b1 -> Forall P b2 -> P (RAngelic b1 b2).
Hypothesis HAdd : forall b1 b2, Forall P b1 -> Forall P b2 -> P (RAdditive b1 b2).
Hypothesis HIf : forall c b1 b2, Forall P b1 -> Forall P b2 -> P (RIf c b1 b2).
Hypothesis HWhile : forall c b, Forall P b -> P (RWhile c b).
Hypothesis HAnn : forall n args s, P s -> P (RAnn n args s).
Fixpoint rstmt_all (s : rstmt) : P s :=
  let all := fix all (b : list rstmt) : Forall P b := match b with [] => Forall_nil _ | s :: b' => Forall_cons _ (rstmt_all s) (all b') end in
  match s with
  | RSeq b => HSeq b (all b)
  | RDemonic b1 b2 => HDem b1 b2 (all b1) (all b2)
  | RAngelic b1 b2 => HAng b1 b2 (all b1) (all b2)
  | RAdditive b1 b2 => HAdd b1 b2 (all b1) (all b2)
  | RIf c b1 b2 => HIf c b1 b2 (all b1) (all b2)
  | RWhile c b => HWhile c b (all b)
  | RAnn n args s => HAnn n args s (rstmt_all s)
  | s => HLeaf s Logic.I
  end.
End StmtInd.

(** The program that the text is read as *)
Fixpoint shown_stmt (s : rstmt) : rstmt :=
  match s with
  | RSeq b => RSeq (map shown_stmt b)
  | RVarDecl x init => RVarDecl x (option_map shown init)
  | RAssign xs e => RAssign xs (shown e)
  | RHavoc d xs => RHavoc d xs
  | RAssert d e => RAssert d (shown e)
  | RAssume d e => RAssume d (shown e)
  | RCompare d e => RCompare d (shown e)
  | RNegate d => RNegate d
  | RValidate d => RValidate d
  | RTick e => RTick (shown e)
  | RWeigh e => RWeigh (shown e)
  | RDemonic b1 b2 => RDemonic (map shown_stmt b1) (map shown_stmt b2)
  | RAngelic b1 b2 => RAngelic (map shown_stmt b1) (map shown_stmt b2)
  | RAdditive b1 b2 => RAdditive (map shown_stmt b1) (map shown_stmt b2)
  | RIf c b1 b2 => RIf (shown c) (map shown_stmt b1) (map shown_stmt b2)
  | RWhile c b => RWhile (shown c) (map shown_stmt b)
  | RAnn n args s => RAnn n (map shown args) (shown_stmt s)
  | RLabel x => RLabel x
  end.
Lemma shown_stmt_unbr s : unbr_stmt (shown_stmt s) = unbr_stmt s.
Proof.
  assert (M : forall b, Forall (fun s => unbr_stmt (shown_stmt s) = unbr_stmt s) b -> map unbr_stmt (map shown_stmt b) = map unbr_stmt b).
  { induction 1; cbn; congruence. }
  induction s using rstmt_all.
  2: destruct s; try contradiction; cbn; rewrite ?shown_unbr; auto; destruct init; cbn; rewrite ?shown_unbr; auto.
  all: cbn; rewrite ?shown_unbr, ?M by assumption; auto.
  f_equal; auto. rewrite map_map. apply map_ext. intros. apply shown_unbr.
Qed.

Section Text.
Variable G : levels.
Hypothesis R : forall e, printable e = true -> gexpr G (pexpr e) (shown e).
Lemma text_args args : forallb printable args = true -> gargs G (commas KComma (map pexpr args)) (map shown args).
Proof.
  induction args as [|e l IH]; cbn; [intros _; constructor|]. intros H. apply andb_true_iff in H as [He Hl]. specialize (R e He).
  destruct l as [|e' l]; cbn [map] in *; [now constructor|]. apply ga_more; auto.
Qed.
Lemma text_ids xs : nonempty xs = true -> gids (pids xs) xs.
Proof.
  induction xs as [|x xs IH]; [discriminate|]. intros _. destruct xs as [|y xs]; cbn; [constructor|]. constructor. now apply IH.
Qed.
Lemma text_params xs : gparams (pparams xs) xs.
Proof. induction xs as [|x xs IH]; [constructor|]. destruct xs as [|y xs]; cbn; [constructor|]. constructor. apply IH. Qed.
Lemma pstmt_block s : pstmt s = match s with
  | RSeq b => LBrace :: pstmts b ++ [RBrace]
  | RDemonic b1 b2 => W WIf :: E (KBin OInf) :: LBrace :: pstmts b1 ++ RBrace :: W WElse :: LBrace :: pstmts b2 ++ [RBrace]
  | RAngelic b1 b2 => W WIf :: E (KBin OSup) :: LBrace :: pstmts b1 ++ RBrace :: W WElse :: LBrace :: pstmts b2 ++ [RBrace]
  | RAdditive b1 b2 => W WIf :: E (KBin OAdd) :: LBrace :: pstmts b1 ++ RBrace :: W WElse :: LBrace :: pstmts b2 ++ [RBrace]
  | RIf c b1 b2 => W WIf :: map E (pexpr c) ++ LBrace :: pstmts b1 ++ RBrace :: W WElse :: LBrace :: pstmts b2 ++ [RBrace]
  | RWhile c b => W WWhile :: map E (pexpr c) ++ LBrace :: pstmts b ++ [RBrace]
  | _ => pstmt s end.
Proof. destruct s; cbn [pstmt app]; try reflexivity; repeat (rewrite <- app_assoc; cbn [app]); try reflexivity. Qed.
Lemma text_stmts b : Forall (fun s => printable_stmt s = true -> forall t, layout (pstmt s) t -> gstmt G t (shown_stmt s)) b -> forallb printable_stmt b = true ->
  forall t, layout (pstmts b) t -> gstmts G t (map shown_stmt b).
Proof.
  induction 1 as [|s b Hs Hb IH]; cbn [forallb]; intros HP t L.
  - inversion L. constructor.
  - apply andb_true_iff in HP as [P1 P2]. destruct b as [|s' b].
    + cbn [pstmts] in L. replace t with (t ++ [] ++ []) by (cbn; apply app_nil_r). cbn [map]. apply gs_cons; auto. constructor.
    + cbn [pstmts] in L. destruct (layout_app _ _ _ L) as (a & b' & -> & LA & LB). inversion LB as [|k ? ? N|? ? LC|? ? LC]; subst; [congruence| |].
      * apply (gs_cons G a _ [] b'); auto.
      * change (Semi :: t') with ([Semi] ++ t'). apply gs_cons; auto.
Qed.
Lemma spec_nosep l : Forall (fun k => k <> Sep) (pspec l).
Proof. induction l as [|c l IH]; cbn; auto. constructor; [discriminate|]. apply Forall_app. split; [apply map_nosep|exact IH]. Qed.
Ltac lay := repeat match goal with
  | L : layout (?k :: _) _ |- _ => let u := fresh "u" in apply layout_tok in L; [|discriminate]; destruct L as (u & -> & L)
  | L : layout [] _ |- _ => inversion L; subst; clear L
  | L : layout (map E ?t) _ |- _ => apply (layout_same _ _ (map_nosep t)) in L; subst
  | L : layout (pids ?t) _ |- _ => apply (layout_same _ _ (ids_nosep t)) in L; subst
  | L : layout (map E ?t ++ _) _ |- _ => let u := fresh "u" in apply (layout_fixed _ _ _ (map_nosep t)) in L; destruct L as (u & -> & L)
  | L : layout (pids ?t ++ _) _ |- _ => let u := fresh "u" in apply (layout_fixed _ _ _ (ids_nosep t)) in L; destruct L as (u & -> & L)
  | L : layout (pparams ?t ++ _) _ |- _ => let u := fresh "u" in apply (layout_fixed _ _ _ (params_nosep t)) in L; destruct L as (u & -> & L)
  | L : layout (pspec ?t ++ _) _ |- _ => let u := fresh "u" in apply (layout_fixed _ _ _ (spec_nosep t)) in L; destruct L as (u & -> & L)
  | L : layout (pargs ?t ++ _) _ |- _ => let u := fresh "u" in apply (layout_fixed _ _ _ (map_nosep _)) in L; destruct L as (u & -> & L)
  | L : layout (_ ++ _) _ |- _ => let a := fresh "a" in let b := fresh "b" in let LA := fresh "LA" in apply layout_app in L; destruct L as (a & b & -> & LA & L)
  end.
Ltac ands := repeat match goal with H : _ /\ _ |- _ => destruct H end.
Theorem text_stmt s : printable_stmt s = true -> forall t, layout (pstmt s) t -> gstmt G t (shown_stmt s).
Proof.
  induction s using rstmt_all; cbn [printable_stmt]; intros HP t L; rewrite ?andb_true_iff in HP; try rewrite pstmt_block in L; try (lay; cbn [shown_stmt]; ands; constructor; auto using text_stmts; fail).
  - destruct s; try contradiction; cbn [pstmt] in L; cbn [shown_stmt].
    1: destruct init; cbn [option_map].
    all: rewrite ?andb_true_iff in HP; ands; lay; try (constructor; auto using text_ids; fail).
    cbn [printable_stmt] in HP. rewrite andb_true_iff in HP. destruct HP. apply gs_assign; auto using text_ids.
  - lay. cbn [shown_stmt]. destruct HP as [HP HP2]. cbn [pstmt] in L. lay. unfold pargs. apply gs_ann_args; auto using text_args.
Qed.
Theorem text_block b : forallb printable_stmt b = true -> forall t, layout (pstmts b) t -> gstmts G t (map shown_stmt b).
Proof. apply text_stmts. apply Forall_forall. intros s _. apply text_stmt. Qed.
Definition shown_proc (p : rproc) : rproc :=
  mkrproc (rp_dir p) (rp_name p) (rp_ins p) (rp_outs p) (map (fun c => (fst c, shown (snd c))) (rp_spec p)) (option_map (map shown_stmt) (rp_body p)) (rp_calculus p).
Lemma text_spec l : forallb (fun c => printable (snd c)) l = true -> gspec G (pspec l) (map (fun c => (fst c, shown (snd c))) l).
Proof.
  induction l as [|[[] e] l IH]; cbn; intros H; [constructor| |]; apply andb_true_iff in H as [H1 H2]; constructor; auto.
Qed.
Theorem text_proc p : printable_proc p = true -> forall t, layout (pproc p) t -> gproc G t (shown_proc p).
Proof.
  destruct p as [d n ins outs sp body c]. unfold printable_proc, pproc. cbn [rp_dir rp_name rp_ins rp_outs rp_spec rp_body rp_calculus]. rewrite !andb_true_iff. intros [[H1 H2] H3] t L. destruct c; [discriminate|]. lay.
  apply (gpr G None d n (pparams ins) ins (pparams outs) outs (pspec sp)) ; auto using text_params, text_spec.
  destruct body as [b|]; lay; constructor. now apply text_block.
Qed.
End Text.

(** * Printed programs read back *)
Lemma args_of_expr G : (forall t e e', gexpr G t e -> gexpr G t e' -> e = e') -> forall t es es', gargs G t es -> gargs G t es' -> es = es'.
Proof.
  intros U t es es' H H'. assert (K : forall es, gargs G t es -> gexpr G (KFun "f" :: KLpar :: t ++ [KRpar]) (RCall None "f" es)).
  { intros l Hl. apply ge_ops. assert (L : forall n, n <= loosest G -> glevel G n (KFun "f" :: KLpar :: t ++ [KRpar]) (RCall None "f" l)).
    { induction n; intros N; [now apply lv_atom, at_call|]. apply lv_up; auto with arith. }
    auto. }
  pose proof (U _ _ _ (K _ H) (K _ H')) as Q. now injection Q.
Qed.
Lemma unbr_shown_block b : map unbr_stmt (map shown_stmt b) = map unbr_stmt b.
Proof. rewrite map_map. apply map_ext. intros. apply shown_stmt_unbr. Qed.
Lemma unbr_shown_proc p : unbr_proc (shown_proc p) = unbr_proc p.
Proof.
  destruct p as [d n ins outs sp body c]. unfold unbr_proc, shown_proc. cbn. f_equal.
  - rewrite map_map. apply map_ext. intros [b e]. cbn. now rewrite shown_unbr.
  - destruct body; cbn; [|auto]. now rewrite unbr_shown_block.
Qed.
Theorem printed_block b t : forallb printable_stmt b = true -> layout (pstmts b) t ->
  (exists b', gstmts new_levels t b') /\
  forall b', gstmts new_levels t b' \/ gstmts old_levels t b' -> map unbr_stmt b' = map unbr_stmt b.
Proof.
  intros HP L. assert (N := text_block new_levels (fun e H => proj1 (printed_reads e H)) b HP t L). assert (O := text_block old_levels (fun e H => proj2 (printed_reads e H)) b HP t L).
  split; [eauto|]. intros b' [X|X].
  - rewrite (stmts_unique _ new_unique (args_of_expr _ new_unique) _ _ _ X N). apply unbr_shown_block.
  - rewrite (stmts_unique _ old_unique (args_of_expr _ old_unique) _ _ _ X O). apply unbr_shown_block.
Qed.
Theorem printed_proc p t : printable_proc p = true -> layout (pproc p) t ->
  (exists p', gproc new_levels t p') /\
  forall p', gproc new_levels t p' \/ gproc old_levels t p' -> unbr_proc p' = unbr_proc p.
Proof.
  intros HP L. assert (N := text_proc new_levels (fun e H => proj1 (printed_reads e H)) p HP t L). assert (O := text_proc old_levels (fun e H => proj2 (printed_reads e H)) p HP t L).
  split; [eauto|]. intros b' [X|X].
  - rewrite (proc_unique _ new_unique (args_of_expr _ new_unique) _ _ _ X N). apply unbr_shown_proc.
  - rewrite (proc_unique _ old_unique (args_of_expr _ old_unique) _ _ _ X O). apply unbr_shown_proc.
Qed.
(** Programs are read in one way only. *)
Theorem programs_unique t : (forall b b', gstmts new_levels t b -> gstmts new_levels t b' -> b = b') /\ (forall p p', gproc new_levels t p -> gproc new_levels t p' -> p = p').
Proof.
  split; [intros b b'; apply stmts_unique|intros b b'; apply proc_unique]; try exact new_unique; apply args_of_expr; exact new_unique.
Qed.
