(** Fingerprints: equal exactly for readings that are the same up to associativity (C45). *)
From Coq Require Import Bool List String Arith ZArith QArith Lia Wf_nat.
From Verif.Model Require Import Syntax Tycheck Precedence.
From Verif.Spec Require Import Reading.
From Verif.Proofs Require Import GrammarProofs ReadingProofs GroupingProofs.
Import ListNotations.
Local Open Scope list_scope.
Local Open Scope nat_scope.

Lemma binop_eqb_eq a b : binop_eqb a b = true <-> a = b.
Proof. destruct a, b; cbn; split; intros; congruence. Qed.
Lemma binop_eqb_refl a : binop_eqb a a = true.
Proof. destruct a; reflexivity. Qed.
Lemma assoc_iff op : is_assoc op = true <-> associative op.
Proof. unfold associative. destruct op; cbn; split; intros H; auto 10; try discriminate; repeat (destruct H as [H|H]; [discriminate|]); contradiction. Qed.

Definition term (e : rexpr) : list ftok := fp e ++ [PSemi].
(** mod.rs 418-431: a chain is written term by term *)
Lemma fp_chain op e : is_assoc op = true -> fpx (Some op) e = flat_map term (collect op e).
Proof.
  intros A. induction e as [| | |o op' a IHa b IHb| | | | |]; try (cbn [collect flat_map]; rewrite app_nil_r; reflexivity).
  cbn [collect]. destruct (binop_eqb op' op) eqn:E.
  - apply binop_eqb_eq in E as ->. cbn [fpx]. rewrite A, binop_eqb_refl, flat_map_app. congruence.
  - cbn [flat_map]. rewrite app_nil_r. unfold term, fp. cbn [fpx]. rewrite E. destruct (is_assoc op'); reflexivity.
Qed.
Lemma fp_assoc o op a b : is_assoc op = true -> fp (RBin o op a b) = PAssoc op :: flat_map term (collect op (RBin o op a b)) ++ [PClose].
Proof.
  intros A. unfold fp. cbn [fpx collect]. rewrite A, binop_eqb_refl, flat_map_app, !fp_chain by auto. reflexivity.
Qed.
Lemma fp_bin o op a b : is_assoc op = false -> fp (RBin o op a b) = PBin op :: fp a ++ PComma :: fp b ++ [PClose].
Proof. intros A. unfold fp. cbn [fpx]. rewrite A. reflexivity. Qed.
Lemma fp_call o f args : fp (RCall o f args) = PCall f :: flat_map term args ++ [PClose].
Proof.
  unfold fp. cbn [fpx in_chain]. f_equal. f_equal. induction args as [|a args IH]; auto. cbn [flat_map]. unfold term at 1, fp. rewrite <- IH, <- app_assoc. reflexivity.
Qed.

(** the identifiers of a tree and of a text *)
Fixpoint marks (e : rexpr) : list ident :=
  match e with
  | RVar _ x => [x]
  | RLit _ _ => []
  | RCall _ _ args => (fix go l := match l with [] => [] | a :: l' => marks a ++ go l' end) args
  | RIte _ c a b => marks c ++ marks a ++ marks b
  | RBin _ _ a b => marks a ++ marks b
  | RUn _ _ a | RCast _ a => marks a
  | RQuant _ _ xs a => map qname xs ++ marks a
  | RSubst _ x v a => x :: marks v ++ marks a
  end.
Definition tmark (k : tok) : list ident := match k with KId x | KVar x => [x] | _ => [] end.
Definition tmarks (t : list tok) : list ident := flat_map tmark t.
Lemma marks_call o f args : marks (RCall o f args) = flat_map marks args.
Proof. cbn. induction args; cbn; congruence. Qed.
Lemma marks_collect op e : marks e = flat_map marks (collect op e).
Proof.
  induction e; cbn [collect flat_map]; rewrite ?app_nil_r; auto.
  destruct (binop_eqb op0 op); cbn [flat_map]; rewrite ?app_nil_r; auto. rewrite flat_map_app. cbn. congruence.
Qed.
Lemma tmarks_app a b : tmarks (a ++ b) = tmarks a ++ tmarks b.
Proof. apply flat_map_app. Qed.
Lemma tmarks_cons k t : tmarks (k :: t) = tmark k ++ tmarks t.
Proof. reflexivity. Qed.
Lemma qvars_marks tv xs : qvars tv xs -> tmarks tv = map qname xs.
Proof. induction 1; cbn; auto. f_equal. exact IHqvars. Qed.
Lemma text_marks :
  (forall e t, writes e t -> marks e = tmarks t) /\ (forall es t, writes_args es t -> flat_map marks es = tmarks t).
Proof.
  apply writes_ind2; intros; rewrite ?marks_call; cbn [marks flat_map];
    repeat (rewrite ?tmarks_cons, ?tmarks_app; cbn [tmark app]); rewrite ?app_nil_r; try congruence.
  all: cbn [tmarks flat_map]; rewrite ?app_nil_r; try congruence.
  match goal with H : qvars _ _ |- _ => rewrite (qvars_marks _ _ H) end. congruence.
Qed.

(** no types, no conversions *)
Fixpoint clean (e : rexpr) : bool :=
  match e with
  | RVar None _ | RLit None _ => true
  | RCall None _ args => forallb clean args
  | RIte None c a b => clean c && clean a && clean b
  | RBin None _ a b => clean a && clean b
  | RUn None _ a | RQuant None _ _ a => clean a
  | RSubst None _ v a => clean v && clean a
  | _ => false
  end.
Lemma writes_clean : (forall e t, writes e t -> clean e = true) /\ (forall es t, writes_args es t -> forallb clean es = true).
Proof. apply writes_ind2; cbn; intros; rewrite ?andb_true_iff; auto. Qed.
Lemma clean_collect op e : clean e = true -> forall a, In a (collect op e) -> clean a = true.
Proof.
  induction e; cbn [collect]; intros C a' Ha; try (destruct Ha as [<-|[]]; exact C).
  destruct (binop_eqb op0 op); [|destruct Ha as [<-|[]]; exact C].
  destruct o; [discriminate|]. cbn in C. apply andb_true_iff in C as [C1 C2]. apply in_app_iff in Ha as [Ha|Ha]; auto.
Qed.
Lemma collect_size op e a : In a (collect op e) -> rsize a <= rsize e.
Proof.
  induction e; cbn [collect]; intros Ha; try (destruct Ha as [<-|[]]; apply le_n).
  destruct (binop_eqb op0 op); [|destruct Ha as [<-|[]]; apply le_n]. cbn [rsize]. apply in_app_iff in Ha as [Ha|Ha]; [apply IHe1 in Ha|apply IHe2 in Ha]; lia.
Qed.
Lemma collect_smaller o op a b x : In x (collect op (RBin o op a b)) -> rsize x < rsize (RBin o op a b).
Proof. cbn [collect]. rewrite binop_eqb_refl. intros H. cbn [rsize]. apply in_app_iff in H as [H|H]; apply collect_size in H; lia. Qed.

(** ** Chains of associative operators as lists *)
Inductive sim : rexpr -> rexpr -> Prop :=
| si_var x : sim (RVar None x) (RVar None x)
| si_lit l : sim (RLit None l) (RLit None l)
| si_call f args args' : Forall2 sim args args' -> sim (RCall None f args) (RCall None f args')
| si_ite c a b c' a' b' : sim c c' -> sim a a' -> sim b b' -> sim (RIte None c a b) (RIte None c' a' b')
| si_un op a a' : sim a a' -> sim (RUn None op a) (RUn None op a')
| si_quant op xs a a' : sim a a' -> sim (RQuant None op xs a) (RQuant None op xs a')
| si_let x v a v' a' : sim v v' -> sim a a' -> sim (RSubst None x v a) (RSubst None x v' a')
| si_bin op a b a' b' : is_assoc op = false -> sim a a' -> sim b b' -> sim (RBin None op a b) (RBin None op a' b')
| si_chain op a b a' b' : is_assoc op = true -> Forall2 sim (collect op (RBin None op a b)) (collect op (RBin None op a' b')) ->
    sim (RBin None op a b) (RBin None op a' b').

Definition prefix_at (e : rexpr) : Prop := forall e' r r' m m', clean e = true -> clean e' = true ->
  fp e ++ r = fp e' ++ r' -> marks e ++ m = marks e' ++ m' -> sim e e' /\ r = r' /\ m = m'.
Lemma fp_head e : exists k t, fp e = k :: t /\ match k with PClose | PSemi | PComma => False | _ => True end.
Proof.
  destruct e; unfold fp; cbn [fpx in_chain]; try (eexists; eexists; split; [reflexivity|exact I]).
  destruct (is_assoc op); cbn [in_chain]; eexists; eexists; (split; [reflexivity|exact I]).
Qed.
Lemma terms_prefix l : (forall a, In a l -> prefix_at a) -> (forall a, In a l -> clean a = true) -> forall l' r r' m m',
  (forall a, In a l' -> clean a = true) -> flat_map term l ++ PClose :: r = flat_map term l' ++ PClose :: r' ->
  flat_map marks l ++ m = flat_map marks l' ++ m' -> Forall2 sim l l' /\ r = r' /\ m = m'.
Proof.
  induction l as [|a l IH]; intros P C l' r r' m m' C' E M; destruct l' as [|a' l']; cbn [flat_map app] in E, M.
  - injection E as ->. auto.
  - exfalso. unfold term in E. destruct (fp_head a') as (k & t & X & H). rewrite X in E. cbn in E. injection E as <- _. exact H.
  - exfalso. unfold term in E. destruct (fp_head a) as (k & t & X & H). rewrite X in E. cbn in E. injection E as -> _. exact H.
  - unfold term in E at 1 3. norm E. rewrite <- !app_assoc in M.
    destruct (P a (or_introl eq_refl) a' _ _ _ _ (C a (or_introl eq_refl)) (C' a' (or_introl eq_refl)) E M) as (S & E2 & M2).
    injection E2 as E2. destruct (IH (fun x H => P x (or_intror H)) (fun x H => C x (or_intror H)) l' r r' m m') as (F & -> & ->); auto.
    intros x Hx. apply C'. right; auto.
Qed.
Lemma qvars_prefix xs : forall xs' r r' (m m' : list ident), map fp_qvar xs ++ PBody :: r = map fp_qvar xs' ++ PBody :: r' ->
  map qname xs ++ m = map qname xs' ++ m' -> xs = xs' /\ r = r' /\ m = m'.
Proof.
  induction xs as [|x xs IH]; intros [|x' xs'] r r' m m' E M; cbn in E, M.
  - injection E as ->. auto.
  - exfalso. destruct x'; discriminate.
  - exfalso. destruct x; discriminate.
  - injection E as E1 E. injection M as M1 M. destruct (IH _ _ _ _ _ E M) as (-> & -> & ->).
    split; [|auto]. f_equal. destruct x, x'; cbn in *; try discriminate; congruence.
Qed.
Lemma app_inv4 {T} (a b c d : list T) (k : T) : a ++ k :: b = c ++ k :: d -> a ++ [k] ++ b = c ++ [k] ++ d.
Proof. auto. Qed.
Lemma forallb_In {T} (p : T -> bool) l a : forallb p l = true -> In a l -> p a = true.
Proof. rewrite forallb_forall. auto. Qed.
Lemma fp_prefix e : prefix_at e.
Proof.
  induction e as [e IH] using (induction_ltof1 _ rsize); unfold ltof in IH. intros e' r r' m m' C C' E M.
  assert (K : forall a, In a (kids e) -> prefix_at a) by (intros a Ha; apply IH, rsize_kid; auto).
  destruct e as [o x|o f args|o g a b|o op a b|o op a|o a|o op xs a|o x v a|o l]; (destruct o as [o|]; [discriminate|]); try discriminate C.
  - destruct e' as [o' x'|o' f' args'|o' g' a' b'|o' op' a' b'|o' op' a'|o' a'|o' op' xs' a'|o' x' v' a'|o' l']; (destruct o' as [o'|]; [discriminate|]); try discriminate C'; try (cbn in E; discriminate E); try (unfold fp in E; cbn in E; destruct (is_assoc op'); discriminate E).
    cbn in E, M. injection E as E1 ->. injection M as -> ->. split; [constructor|auto].
  - destruct e' as [o' x'|o' f' args'|o' g' a' b'|o' op' a' b'|o' op' a'|o' a'|o' op' xs' a'|o' x' v' a'|o' l']; (destruct o' as [o'|]; [discriminate|]); try discriminate C'; try (cbn in E; discriminate E); try (unfold fp in E; cbn in E; destruct (is_assoc op'); discriminate E).
    rewrite !fp_call in E. rewrite !marks_call in M. norm E. injection E as -> E.
    destruct (terms_prefix args K (fun x => forallb_In _ _ x C) args' r r' m m' (fun x => forallb_In _ _ x C') E M) as (F & -> & ->). split; [constructor; auto|auto].
  - destruct e' as [o' x'|o' f' args'|o' g' a' b'|o' op' a' b'|o' op' a'|o' a'|o' op' xs' a'|o' x' v' a'|o' l']; (destruct o' as [o'|]; [discriminate|]); try discriminate C'; try (cbn in E; discriminate E); try (unfold fp in E; cbn in E; destruct (is_assoc op'); discriminate E).
    cbn in C, C'. rewrite !andb_true_iff in C, C'. destruct C as [[C1 C2] C3], C' as [[C1' C2'] C3'].
    unfold fp in E. cbn [fpx in_chain] in E. fold (fp g) (fp a) (fp b) (fp g') (fp a') (fp b') in E. norm E. injection E as E. cbn in M. rewrite <- !app_assoc in M.
    destruct (K g ltac:(cbn; auto) _ _ _ _ _ C1 C1' E M) as (S1 & E1 & M1). injection E1 as E1.
    destruct (K a ltac:(cbn; auto) _ _ _ _ _ C2 C2' E1 M1) as (S2 & E2 & M2). injection E2 as E2.
    destruct (K b ltac:(cbn; auto) _ _ _ _ _ C3 C3' E2 M2) as (S3 & E3 & M3). injection E3 as ->. split; [constructor; auto|auto].
  - destruct e' as [o' x'|o' f' args'|o' g' a' b'|o' op' a' b'|o' op' a'|o' a'|o' op' xs' a'|o' x' v' a'|o' l']; (destruct o' as [o'|]; [discriminate|]); try discriminate C'; try (unfold fp in E; cbn in E; destruct (is_assoc op); discriminate E).
    destruct (is_assoc op) eqn:A, (is_assoc op') eqn:A'.
    + rewrite !fp_assoc in E by auto. norm E. injection E as -> E. rewrite (marks_collect op'), (marks_collect op' (RBin None op' a' b')) in M.
      destruct (terms_prefix (collect op' (RBin None op' a b)) (fun x H => IH x (collect_smaller _ _ _ _ _ H)) (clean_collect _ _ C)
                  (collect op' (RBin None op' a' b')) r r' m m' (clean_collect _ _ C') E M) as (F & -> & ->).
      split; [apply si_chain; auto|auto].
    + rewrite (fp_assoc _ op), (fp_bin _ op') in E by auto. discriminate.
    + rewrite (fp_bin _ op), (fp_assoc _ op') in E by auto. discriminate.
    + rewrite !fp_bin in E by auto. norm E. injection E as -> E. cbn in M. rewrite <- !app_assoc in M.
      cbn in C, C'. rewrite !andb_true_iff in C, C'. destruct C as [C1 C2], C' as [C1' C2'].
      destruct (K a ltac:(cbn; auto) _ _ _ _ _ C1 C1' E M) as (S1 & E1 & M1). injection E1 as E1.
      destruct (K b ltac:(cbn; auto) _ _ _ _ _ C2 C2' E1 M1) as (S2 & E2 & M2). injection E2 as ->. split; [apply si_bin; auto|auto].
  - destruct e' as [o' x'|o' f' args'|o' g' a' b'|o' op' a' b'|o' op' a'|o' a'|o' op' xs' a'|o' x' v' a'|o' l']; (destruct o' as [o'|]; [discriminate|]); try discriminate C'; try (cbn in E; discriminate E); try (unfold fp in E; cbn in E; destruct (is_assoc op'); discriminate E).
    unfold fp in E. cbn [fpx in_chain] in E. fold (fp a) (fp a') in E. norm E. injection E as -> E. cbn in M.
    cbn in C, C'. destruct (K a ltac:(cbn; auto) _ _ _ _ _ C C' E M) as (S1 & E1 & M1). injection E1 as ->. split; [constructor; auto|auto].
  - destruct e' as [o' x'|o' f' args'|o' g' a' b'|o' op' a' b'|o' op' a'|o' a'|o' op' xs' a'|o' x' v' a'|o' l']; (destruct o' as [o'|]; [discriminate|]); try discriminate C'; try (cbn in E; discriminate E); try (unfold fp in E; cbn in E; destruct (is_assoc op'); discriminate E).
    unfold fp in E. cbn [fpx in_chain] in E. fold (fp a) (fp a') in E. norm E. injection E as -> E. cbn in M. rewrite <- !app_assoc in M.
    destruct (qvars_prefix _ _ _ _ _ _ E M) as (-> & E1 & M1).
    cbn in C, C'. destruct (K a ltac:(cbn; auto) _ _ _ _ _ C C' E1 M1) as (S1 & -> & ->). split; [constructor; auto|auto].
  - destruct e' as [o' x'|o' f' args'|o' g' a' b'|o' op' a' b'|o' op' a'|o' a'|o' op' xs' a'|o' x' v' a'|o' l']; (destruct o' as [o'|]; [discriminate|]); try discriminate C'; try (cbn in E; discriminate E); try (unfold fp in E; cbn in E; destruct (is_assoc op'); discriminate E).
    cbn in C, C'. rewrite !andb_true_iff in C, C'. destruct C as [C1 C2], C' as [C1' C2'].
    unfold fp in E. cbn [fpx in_chain] in E. fold (fp v) (fp a) (fp v') (fp a') in E. norm E. injection E as _ E. cbn in M. rewrite <- !app_assoc in M. injection M as -> M.
    destruct (K v ltac:(cbn; auto) _ _ _ _ _ C1 C1' E M) as (S1 & E1 & M1). injection E1 as E1.
    destruct (K a ltac:(cbn; auto) _ _ _ _ _ C2 C2' E1 M1) as (S2 & E2 & M2). injection E2 as ->. split; [constructor; auto|auto].
  - destruct e' as [o' x'|o' f' args'|o' g' a' b'|o' op' a' b'|o' op' a'|o' a'|o' op' xs' a'|o' x' v' a'|o' l']; (destruct o' as [o'|]; [discriminate|]); try discriminate C'; try (cbn in E; discriminate E); try (unfold fp in E; cbn in E; destruct (is_assoc op'); discriminate E).
    cbn in E, M. injection E as -> ->. subst. split; [constructor|auto].
Qed.

(** ** Back to pairwise grouping *)
Fixpoint rchain (op : binop) (l : list rexpr) : rexpr :=
  match l with [] => RLit None LInf | [a] => a | a :: l' => RBin None op a (rchain op l') end.
Lemma rchain_cons op a l : l <> [] -> rchain op (a :: l) = RBin None op a (rchain op l).
Proof. destruct l; [congruence|reflexivity]. Qed.
Lemma collect_ne op e : collect op e <> [].
Proof. induction e; cbn; try discriminate. destruct (binop_eqb op0 op); [|discriminate]. intros E. apply app_eq_nil in E as [E _]. auto. Qed.
Lemma rchain_app op l : associative op -> l <> [] -> forall l', l' <> [] -> same (RBin None op (rchain op l) (rchain op l')) (rchain op (l ++ l')).
Proof.
  intros A. induction l as [|a l IH]; intros N l' N'; [congruence|]. destruct l as [|b l].
  - cbn [app]. rewrite (rchain_cons op a l') by auto. apply sm_refl.
  - change ((a :: b :: l) ++ l') with (a :: ((b :: l) ++ l')). rewrite (rchain_cons op a (b :: l)), (rchain_cons op a ((b :: l) ++ l')) by discriminate.
    eapply sm_trans; [apply sm_assoc; auto|]. apply sm_bin; [apply sm_refl|]. apply IH; auto. discriminate.
Qed.
Lemma same_collect op e : associative op -> clean e = true -> same e (rchain op (collect op e)).
Proof.
  intros A. induction e; intros C; try apply sm_refl. cbn [collect]. destruct (binop_eqb op0 op) eqn:E; [|apply sm_refl].
  apply binop_eqb_eq in E as ->. destruct o; [discriminate|]. cbn in C. apply andb_true_iff in C as [C1 C2].
  eapply sm_trans; [apply sm_bin; [apply IHe1; auto|apply IHe2; auto]|]. apply rchain_app; auto using collect_ne.
Qed.
Lemma rchain_same op l l' : Forall2 same l l' -> same (rchain op l) (rchain op l').
Proof.
  induction 1 as [|a b l l' S F IH]; [apply sm_refl|]. destruct l, l'; try (inversion F; fail); auto.
  rewrite !rchain_cons by discriminate. apply sm_bin; auto.
Qed.
Lemma sim_clean_same e : forall e', clean e = true -> clean e' = true -> sim e e' -> same e e'.
Proof.
  induction e as [e IH] using (induction_ltof1 _ rsize); unfold ltof in IH. intros e' C C' S.
  assert (K : forall a a', In a (kids e) -> In a' (kids e') -> clean a = true -> clean a' = true -> sim a a' -> same a a') by (intros a a' Ha _; apply IH, rsize_kid; auto).
  assert (L : forall l l', Forall2 sim l l' -> (forall a, In a l -> rsize a < rsize e) -> (forall a, In a l -> clean a = true) -> (forall a, In a l' -> clean a = true) -> Forall2 same l l').
  { intros l l' F. induction F; intros; constructor; auto; [apply IH; cbn in *; auto|apply IHF; cbn in *; auto]. }
  inversion S; subst; cbn in C, C'; rewrite ?andb_true_iff in C, C'.
  - apply sm_refl.
  - apply sm_refl.
  - apply sm_call. apply L; auto; [intros a Ha; apply rsize_kid; auto|intros a; apply forallb_In; auto|intros a; apply forallb_In; auto].
  - destruct C as [[C1 C2] C3], C' as [[C1' C2'] C3']. apply sm_ite; apply K; cbn; auto.
  - apply sm_un; apply K; cbn; auto.
  - apply sm_quant; apply K; cbn; auto.
  - destruct C as [C1 C2], C' as [C1' C2']. apply sm_let; apply K; cbn; auto.
  - destruct C as [C1 C2], C' as [C1' C2']. apply sm_bin; apply K; cbn; auto.
  - assert (Cx : clean (RBin None op a b) = true) by (cbn; apply andb_true_iff; auto).
    assert (Cy : clean (RBin None op a' b') = true) by (cbn; apply andb_true_iff; auto).
    apply assoc_iff in H. eapply sm_trans; [apply (same_collect op); auto|]. apply sm_sym. eapply sm_trans; [apply (same_collect op); auto|]. apply sm_sym.
    apply rchain_same. apply L; auto; [intros x Hx; apply collect_smaller in Hx; auto|apply clean_collect; auto|apply clean_collect; auto].
Qed.

Section SameInd.
  Variable P : rexpr -> rexpr -> Prop.
  Hypothesis Hrefl : forall e, P e e.
  Hypothesis Hsym : forall e f, P e f -> P f e.
  Hypothesis Htrans : forall e f g, P e f -> P f g -> P e g.
  Hypothesis Hassoc : forall op a b c, associative op -> P (RBin None op (RBin None op a b) c) (RBin None op a (RBin None op b c)).
  Hypothesis Hbin : forall op a b a' b', P a a' -> P b b' -> P (RBin None op a b) (RBin None op a' b').
  Hypothesis Hcall : forall f args args', Forall2 P args args' -> P (RCall None f args) (RCall None f args').
  Hypothesis Hite : forall c a b c' a' b', P c c' -> P a a' -> P b b' -> P (RIte None c a b) (RIte None c' a' b').
  Hypothesis Hun : forall op a a', P a a' -> P (RUn None op a) (RUn None op a').
  Hypothesis Hquant : forall op xs a a', P a a' -> P (RQuant None op xs a) (RQuant None op xs a').
  Hypothesis Hlet : forall x v a v' a', P v v' -> P a a' -> P (RSubst None x v a) (RSubst None x v' a').
  Fixpoint same_rect (e f : rexpr) (H : same e f) {struct H} : P e f :=
    match H in same e f return P e f with
    | sm_refl e => Hrefl e
    | sm_sym e f H => Hsym e f (same_rect e f H)
    | sm_trans e f g H H' => Htrans e f g (same_rect e f H) (same_rect f g H')
    | sm_assoc op a b c A => Hassoc op a b c A
    | sm_bin op a b a' b' H H' => Hbin op a b a' b' (same_rect a a' H) (same_rect b b' H')
    | sm_call f args args' F => Hcall f args args'
        ((fix go l l' (F : Forall2 same l l') : Forall2 P l l' :=
            match F in Forall2 _ l l' return Forall2 P l l' with
            | Forall2_nil _ => Forall2_nil P
            | Forall2_cons x y H F' => Forall2_cons x y (same_rect x y H) (go _ _ F')
            end) args args' F)
    | sm_ite c a b c' a' b' H1 H2 H3 => Hite c a b c' a' b' (same_rect c c' H1) (same_rect a a' H2) (same_rect b b' H3)
    | sm_un op a a' H => Hun op a a' (same_rect a a' H)
    | sm_quant op xs a a' H => Hquant op xs a a' (same_rect a a' H)
    | sm_let x v a v' a' H H' => Hlet x v a v' a' (same_rect v v' H) (same_rect a a' H')
    end.
End SameInd.
Lemma same_marks e e' : same e e' -> marks e = marks e'.
Proof.
  intros H. induction H using same_rect; rewrite ?marks_call; cbn [marks]; try congruence.
  - rewrite app_assoc. reflexivity.
  - induction H; cbn; congruence.
Qed.
Lemma same_fpx e e' : same e e' -> forall c, fpx c e = fpx c e'.
Proof.
  intros H. induction H as [e|e f IH|e f g IH1 IH2|op a b c A|op a b a' b' IH1 IH2|f args args' F|g a b g' a' b' IH1 IH2 IH3|op a a' IH|op xs a a' IH|x v a v' a' IH1 IH2]
    using same_rect; intros c0.
  - reflexivity.
  - auto.
  - rewrite IH1. auto.
  - apply assoc_iff in A. cbn [fpx]. rewrite A, binop_eqb_refl. destruct (match c0 with Some op' => binop_eqb op op' | None => false end); rewrite !app_assoc; reflexivity.
  - cbn [fpx]. rewrite !IH1, !IH2. reflexivity.
  - pose proof (fp_call None f args) as X. pose proof (fp_call None f args') as Y.
    assert (Z : forall l, fpx c0 (RCall None f l) = in_chain c0 (fp (RCall None f l))) by reflexivity.
    rewrite !Z, X, Y. do 3 f_equal. clear X Y Z. induction F as [|a b l l' E F IH]; cbn [flat_map]; auto. unfold term at 1 3, fp. rewrite E. congruence.
  - cbn [fpx]. rewrite IH1, IH2, IH3. reflexivity.
  - cbn [fpx]. rewrite IH. reflexivity.
  - cbn [fpx]. rewrite IH. reflexivity.
  - cbn [fpx]. rewrite IH1, IH2. reflexivity.
Qed.
Lemma same_fp_iff a b : same_fp a b = true <-> fp a = fp b.
Proof. unfold same_fp. destruct (list_eq_dec ftok_dec (fp a) (fp b)); split; intros; auto; discriminate. Qed.
Lemma sim_of_fp e e' : clean e = true -> clean e' = true -> fp e = fp e' -> marks e = marks e' -> sim e e'.
Proof. intros C C' E M. apply (fp_prefix e e' [] [] [] []); auto; rewrite !app_nil_r; auto. Qed.
Theorem fp_same e e' : clean e = true -> clean e' = true -> (fp e = fp e' /\ marks e = marks e') <-> same e e'.
Proof.
  intros C C'. split.
  - intros [E M]. apply sim_clean_same; auto. apply sim_of_fp; auto.
  - intros H. split; [apply same_fpx; auto|apply same_marks; auto].
Qed.
(** For two trees of one text the fingerprints alone decide. *)
Theorem text_same e e' t : writes e t -> writes e' t -> same_fp e e' = true <-> same e e'.
Proof.
  intros W W'. rewrite same_fp_iff, <- (fp_same e e') by (eapply (proj1 writes_clean); eauto).
  rewrite (proj1 text_marks _ _ W), (proj1 text_marks _ _ W'). tauto.
Qed.

(** ** The comparison *)
Lemma all_same_terms l : forall l', all_same l l' = true -> flat_map term l = flat_map term l'.
Proof.
  induction l as [|a l IH]; intros [|b l']; cbn; intros H; try discriminate; auto. apply andb_true_iff in H as [H1 H2].
  apply same_fp_iff in H1. unfold term at 1 3. rewrite H1. f_equal. auto.
Qed.
Lemma or_some {T} (a b : option T) : b <> None -> or_else a b <> None.
Proof. destruct a; cbn; auto; discriminate. Qed.
Lemma args_some (mm : option (rexpr * rexpr)) : mm <> None -> forall l l',
  (fix go (l l' : list rexpr) := match l, l' with a :: r, a' :: r' => or_else (check a a') (go r r') | _, _ => mm end) l l' <> None.
Proof. intros N. induction l as [|a l IH]; intros [|b l']; auto. destruct (check a b); cbn; [discriminate|apply IH]. Qed.
Lemma args_found (mm : option (rexpr * rexpr)) m : forall l l',
  (fix go (l l' : list rexpr) := match l, l' with a :: r, a' :: r' => or_else (check a a') (go r r') | _, _ => mm end) l l' = Some m ->
  mm = Some m \/ exists a a', In a l /\ In a' l' /\ check a a' = Some m.
Proof.
  induction l as [|a l IH]; intros [|b l'] H; auto. destruct (check a b) eqn:E; cbn in H.
  - right. injection H as ->. exists a, b. cbn. auto.
  - destruct (IH _ H) as [X|(x & y & Hx & Hy & K)]; auto. right. exists x, y. cbn. auto.
Qed.
Theorem check_none e e' : check e e' = None <-> fp e = fp e'.
Proof.
  rewrite <- same_fp_iff. split.
  - intros H. destruct (same_fp e e') eqn:E; auto. exfalso. revert H.
    destruct e as [o x|o f args|o g a b|o op a b|o op a|o a|o op xs a|o x v a|o l];
      destruct e' as [o' x'|o' f' args'|o' g' a' b'|o' op' a' b'|o' op' a'|o' a'|o' op' xs' a'|o' x' v' a'|o' l'];
      cbn [check]; rewrite E; cbn zeta; try discriminate; try (repeat (apply or_some); discriminate).
    + destruct (_ && _); [|discriminate]. apply args_some. discriminate.
    + destruct (binop_eqb op op') eqn:B; cbn [negb]; [|discriminate]. apply binop_eqb_eq in B as ->.
      destruct (is_assoc op') eqn:A; [|discriminate]. destruct (all_same _ _) eqn:AS; [|discriminate]. intros _.
      apply all_same_terms in AS. enough (same_fp (RBin o op' a b) (RBin o' op' a' b') = true) by congruence.
      apply same_fp_iff. rewrite !fp_assoc by auto. congruence.
    + destruct (unop_eqb _ _); [|discriminate]. apply or_some. discriminate.
    + destruct (_ && _); [|discriminate]. apply or_some. discriminate.
    + destruct (ident_eqb _ _); [|discriminate]. repeat apply or_some. discriminate.
  - intros E. destruct e; cbn [check]; rewrite E; reflexivity.
Qed.
Lemma or_found {T} (a b : option T) m : or_else a b = Some m -> a = Some m \/ b = Some m.
Proof. destruct a; cbn; auto. Qed.
(** A reported pair: subexpressions of the two trees with different fingerprints. *)
Theorem check_found e : forall e' m m', check e e' = Some (m, m') -> occurs_in m e /\ occurs_in m' e' /\ fp m <> fp m'.
Proof.
  induction e as [e IH] using (induction_ltof1 _ rsize); unfold ltof in IH. intros e' m m' H.
  assert (K : forall a a', In a (kids e) -> In a' (kids e') -> check a a' = Some (m, m') -> occurs_in m e /\ occurs_in m' e' /\ fp m <> fp m').
  { intros a a' Ha Ha' X. destruct (IH a (rsize_kid _ _ Ha) a' m m' X) as (O & O' & D). split; [eapply oc_in; eauto|split; [eapply oc_in; eauto|auto]]. }
  destruct (same_fp e e') eqn:E; [destruct e; cbn [check] in H; rewrite E in H; discriminate|].
  assert (M : Some (e, e') = Some (m, m') -> occurs_in m e /\ occurs_in m' e' /\ fp m <> fp m').
  { intros X. injection X as <- <-. split; [apply oc_here|split; [apply oc_here|]]. intros F. apply same_fp_iff in F. congruence. }
  destruct e as [o x|o f args|o g a b|o op a b|o op a|o a|o op xs a|o x v a|o l];
    destruct e' as [o' x'|o' f' args'|o' g' a' b'|o' op' a' b'|o' op' a'|o' a'|o' op' xs' a'|o' x' v' a'|o' l'];
    cbn [check] in H; rewrite E in H; cbn zeta in H; auto.
  - destruct (_ && _); auto. apply args_found in H as [H|(a & a' & Ha & Ha' & H)]; auto. apply (K a a'); auto.
  - repeat (apply or_found in H as [H|H]); auto; [apply (K g g')|apply (K a a')|apply (K b b')]; cbn; auto.
  - destruct (negb _); auto. destruct (is_assoc op); auto. destruct (all_same _ _); [discriminate|auto].
  - destruct (unop_eqb _ _); auto. apply or_found in H as [H|H]; auto. apply (K a a'); cbn; auto.
  - apply or_found in H as [H|H]; auto. apply (K a a'); cbn; auto.
  - destruct (_ && _); auto. apply or_found in H as [H|H]; auto. apply (K a a'); cbn; auto.
  - destruct (ident_eqb _ _); auto. repeat (apply or_found in H as [H|H]); auto; [apply (K v v')|apply (K a a')]; cbn; auto.
Qed.

(** ** Whole files *)
Lemma first_diff_none es : forall es', List.length es = List.length es' -> first_diff es es' = None <-> Forall2 (fun e e' => same_fp e e' = true) es es'.
Proof.
  induction es as [|e es IH]; intros [|e' es'] L; try discriminate; cbn [first_diff].
  - split; auto.
  - injection L as L. destruct (same_fp e e') eqn:E.
    + rewrite (IH _ L). split; [constructor; auto|inversion 1; auto].
    + split; [|inversion 1; congruence]. destruct (check e e'); discriminate.
Qed.
Lemma parse_all_ok p src : forall es, parse_all p src = Ok es <-> Forall2 (fun t e => p t = Ok e) src es.
Proof.
  induction src as [|t src IH]; intros es; cbn [parse_all].
  - split; [intros [= <-]; constructor|inversion 1; auto].
  - split.
    + intros H. destruct (p t) as [e| |] eqn:E; cbn in H; try discriminate. destruct (parse_all p src) as [l| |] eqn:F; cbn in H; try discriminate.
      injection H as <-. constructor; auto. apply IH. auto.
    + inversion 1 as [|? e ? l Pe F]; subst. rewrite Pe. cbn. apply IH in F. rewrite F. reflexivity.
Qed.
Lemma parse_all_fails p src : (forall t, (exists e, p t = Ok e) \/ (exists s, p t = Err s)) -> (exists es, parse_all p src = Ok es) \/ (exists s, parse_all p src = Err s).
Proof.
  intros T. induction src as [|t src IH]; cbn [parse_all]; [eauto|].
  destruct (T t) as [[e ->]|[s ->]]; cbn; [|eauto]. destruct IH as [[l ->]|[s ->]]; cbn; eauto.
Qed.

Lemma f2_len {A B} (R : A -> B -> Prop) l m : Forall2 R l m -> List.length l = List.length m.
Proof. induction 1; cbn; congruence. Qed.
Lemma f2_impl {A B} (R R' : A -> B -> Prop) l m : (forall a b, R a b -> R' a b) -> Forall2 R l m -> Forall2 R' l m.
Proof. induction 2; auto. Qed.
Section Files.
  Variables n o : list tok -> res rexpr.
  Hypothesis Gn : generated new_levels n.
  Hypothesis Go : generated old_levels o.
  Lemma new_all src es : parse_all n src = Ok es <-> Forall2 (gexpr new_levels) src es.
  Proof. rewrite parse_all_ok. split; intros F; (eapply f2_impl; [|exact F]); intros t e H; apply (proj1 (Gn t)); exact H. Qed.
  Lemma old_all src es : parse_all o src = Ok es <-> Forall2 (gexpr old_levels) src es.
  Proof. rewrite parse_all_ok. split; intros F; (eapply f2_impl; [|exact F]); intros t e H; apply (proj1 (Go t)); exact H. Qed.
  Lemma gen_total G p : generated G p -> forall t, (exists e, p t = Ok e) \/ (exists s, p t = Err s).
  Proof. intros H t. destruct (p t) eqn:E; eauto. destruct (proj2 (H t) _ E). Qed.
  Lemma old_all_ex src es : Forall2 (gexpr new_levels) src es -> exists es', Forall2 (gexpr old_levels) src es'.
  Proof. induction 1 as [|t e src es H _ (es' & IH)]; [eexists; constructor|]. apply new_in_old in H as (e' & H). eexists. constructor; eauto. Qed.
  Lemma all_text src es es' : Forall2 (gexpr new_levels) src es -> Forall2 (gexpr old_levels) src es' ->
    Forall2 (fun e e' => same_fp e e' = true) es es' <-> Forall2 same es es'.
  Proof.
    intros F. revert es'. induction F as [|t e src es H F IH]; intros es' F'; inversion F' as [|? e' ? l' H' K]; subst.
    - split; constructor.
    - apply new_reads in H as [W _]. apply old_reads in H' as [W' _]. specialize (IH _ K).
      split; inversion 1; subst; constructor; try apply IH; auto; apply (text_same e e' t W W'); auto.
  Qed.
  Lemma both_form src es es' : Forall2 (gexpr new_levels) src es -> Forall2 (gexpr old_levels) src es' ->
    (Forall2 same es es' /\ parse_by_mode MBoth n o src = Ok es) \/ (~ Forall2 same es es' /\ parse_by_mode MBoth n o src = Err "ChangedPrecedence").
  Proof.
    intros F F'. pose proof (all_text _ _ _ F F') as T. unfold parse_by_mode.
    assert (L : List.length es = List.length es') by (transitivity (List.length src); [symmetry|]; eapply f2_len; eauto).
    rewrite (proj2 (new_all src es) F). cbn [rbind]. rewrite (proj2 (old_all src es') F'). unfold first_mismatch.
    pose proof (first_diff_none es es' L) as D. destruct (first_diff es es'); cbn [rbind].
    - right. split; auto. intros X. apply T, D in X. discriminate.
    - left. rewrite L, Nat.eqb_refl. cbn [rbind]. split; auto. apply T, D. reflexivity.
  Qed.
  Theorem both_iff src es : parse_by_mode MBoth n o src = Ok es <->
    parse_by_mode MNew n o src = Ok es /\ exists es', parse_by_mode MOld n o src = Ok es' /\ Forall2 same es es'.
  Proof.
    change (parse_by_mode MNew n o src) with (parse_all n src). change (parse_by_mode MOld n o src) with (parse_all o src). split.
    - intros H. assert (N : parse_all n src = Ok es).
      { unfold parse_by_mode in H. destruct (parse_all n src) as [l| |] eqn:E; cbn in H; try discriminate.
        destruct (parse_all o src); cbn in H; auto. unfold first_mismatch in H. destruct (first_diff l a); cbn in H; [discriminate|]. destruct (Nat.eqb _ _); cbn in H; congruence. }
      split; auto. apply new_all in N. destruct (old_all_ex _ _ N) as (es' & F'). exists es'. split; [apply old_all; auto|].
      destruct (both_form _ _ _ N F') as [[S _]|[_ X]]; auto. congruence.
    - intros (N & es' & O & S). apply new_all in N. apply old_all in O. destruct (both_form _ _ _ N O) as [[_ X]|[X _]]; [auto|contradiction].
  Qed.
  Theorem both_rejects src es : parse_by_mode MNew n o src = Ok es ->
    exists es', parse_by_mode MOld n o src = Ok es' /\ (parse_by_mode MBoth n o src = Err "ChangedPrecedence" <-> ~ Forall2 same es es').
  Proof.
    change (parse_by_mode MNew n o src) with (parse_all n src). change (parse_by_mode MOld n o src) with (parse_all o src). intros N. apply new_all in N. destruct (old_all_ex _ _ N) as (es' & F'). exists es'. split; [apply old_all; auto|].
    destruct (both_form _ _ _ N F') as [[S X]|[S X]]; rewrite X; split; intros; try congruence; contradiction.
  Qed.
  Theorem modes_total m src : (exists es, parse_by_mode m n o src = Ok es) \/ (exists s, parse_by_mode m n o src = Err s).
  Proof.
    destruct m; [apply parse_all_fails; apply (gen_total _ _ Gn)|apply parse_all_fails; apply (gen_total _ _ Go)|].
    destruct (parse_all_fails n src (gen_total _ _ Gn)) as [[es E]|[s E]].
    - pose proof (proj1 (new_all _ _) E) as N. destruct (old_all_ex _ _ N) as (es' & F'). destruct (both_form _ _ _ N F') as [[S X]|[S X]]; eauto.
    - right. exists s. cbn. rewrite E. reflexivity.
  Qed.
End Files.
