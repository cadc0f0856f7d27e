(** What is shown of a counterexample. *)
From Coq Require Import Bool List String ZArith Arith Permutation Sorted Lia.
From Verif.Model Require Import Syntax Builder Subsets Slicing Numerals CexDisplay.
From Verif.Spec Require Import CexSpec.
From Verif.Proofs Require Import NumeralReading.
Import ListNotations.
Local Open Scope nat_scope.

(** * Accessed declarations *)
Section TermInd.
  Variable P : term -> Prop.
  Hypothesis HA : forall f l, Forall P l -> P (TApp f l).
  Hypothesis HO : forall n, P (TOther n).
  Fixpoint term_ind' (t : term) : P t :=
    match t with
    | TApp f l => HA f l ((fix go (l : list term) : Forall P l := match l with [] => Forall_nil P | x :: l' => Forall_cons x (term_ind' x) (go l') end) l)
    | TOther n => HO n
    end.
End TermInd.

Lemma term_eqb_eq : forall a b, term_eqb a b = true -> a = b.
Proof.
  induction a as [f l IH|n] using term_ind'; intros [g m|k] H; cbn in H; try discriminate.
  - apply andb_prop in H as [H1 H2]. apply String.eqb_eq in H1. subst g. f_equal. revert m H2.
    induction IH as [|x l Hx _ IHl]; intros [|y m] H2; try discriminate; auto.
    apply andb_prop in H2 as [H2 H3]. f_equal; auto.
  - apply Nat.eqb_eq in H. now subst.
Qed.
Lemma term_eqb_refl : forall a, term_eqb a a = true.
Proof.
  induction a as [f l IH|n] using term_ind'; cbn; [|apply Nat.eqb_refl].
  rewrite String.eqb_refl. cbn. induction IH as [|x l Hx _ IHl]; auto. rewrite Hx. exact IHl.
Qed.

(** Every remembered expression was walked through, or is being walked through. *)
Definition marked (a : accessed) (t : term) : Prop := forall n, reads n t -> In n (a_decls a).
Definition inv (a : accessed) : Prop := forall t, In t (a_exprs a) -> marked a t.
Definition adds (a a' : accessed) (P : string -> Prop) : Prop := forall n, In n (a_decls a') <-> In n (a_decls a) \/ P n.

Fixpoint children (l : list term) (a : accessed) : accessed :=
  match l with
  | [] => a
  | c :: l' => if existsb (term_eqb c) (a_exprs a) then children l' a else children l' (mark_expr c (mkacc (a_decls a) (c :: a_exprs a)))
  end.
Lemma mark_app f l a : mark_expr (TApp f l) a = match l with [] => mark_decl f a | _ => children l a end.
Proof.
  destruct l as [|c l]; [reflexivity|].
  enough (G : forall m a, (fix children (l : list term) (a : accessed) : accessed :=
         match l with
         | [] => a
         | c :: l' =>
             if existsb (term_eqb c) (a_exprs a) then children l' a
             else children l' (mark_expr c (mkacc (a_decls a) (c :: a_exprs a)))
         end) m a = children m a) by exact (G (c :: l) a).
  induction m as [|x m IH]; intros b; [reflexivity|]. cbn [children]. destruct (existsb _ _); apply IH.
Qed.

(** The invariant while the children of some terms are walked through: those are open. *)
Definition inv_but (o : list term) (a : accessed) : Prop := forall t, In t (a_exprs a) -> In t o \/ marked a t.
Fixpoint size (t : term) : nat := match t with TApp _ l => S (fold_right (fun x n => size x + n) 0 l) | TOther _ => 1 end.
Lemma size_child f l t : In t l -> size t < size (TApp f l).
Proof. cbn. induction l as [|x l IH]; intros H; [easy|]. cbn. destruct H as [->|H]; [lia|]. apply IH in H. lia. Qed.

Lemma mark_spec : forall t o a, (forall u, In u o -> size t <= size u) -> inv_but o a ->
  inv_but o (mark_expr t a) /\ adds a (mark_expr t a) (fun n => reads n t).
Proof.
  induction t as [f l IH|k] using term_ind'; intros o a Ho HI.
  2:{ split; [exact HI|]. intros n. cbn [mark_expr]. split; auto. intros [H|H]; auto. inversion H. }
  rewrite mark_app. destruct l as [|c0 l0] eqn:El.
  { cbn [mark_decl]. split.
    - intros t Ht. destruct (HI t Ht) as [?|M]; auto. right. intros n Hn. right. now apply M.
    - intros n. cbn. split.
      + intros [<-|H]; auto. right. constructor.
      + intros [H|H]; auto. inversion H as [|? ? ? K]; subst; auto. destruct K. }
  assert (NE : l <> []) by (rewrite El; discriminate). rewrite <- El in *. clear c0 l0 El.
  assert (Hs : forall u t, In u o -> In t l -> size t < size u).
  { intros u t Hu Ht. specialize (Ho u Hu). pose proof (size_child f l t Ht). lia. }
  assert (G : inv_but o (children l a) /\ adds a (children l a) (fun n => exists t, In t l /\ reads n t)).
  { clear Ho NE. revert a HI. induction IH as [|c l Hc _ IHl]; intros a HI.
    - split; [exact HI|]. intros n. cbn. split; auto. intros [H|(? & [] & _)]; auto.
    - cbn [children]. destruct (existsb (term_eqb c) (a_exprs a)) eqn:E.
      + destruct (IHl ltac:(intros; apply Hs; auto; now right) a HI) as [I1 A1]. split; auto. intros n. rewrite (A1 n).
        apply existsb_exists in E as (c' & E1 & E2). apply term_eqb_eq in E2. subst c'.
        split; [intros [H|(t & Ht & Hr)]; auto; right; exists t; split; auto; now right|].
        intros [H|(t & [<-|Ht] & Hr)]; auto; [|right; eauto]. destruct (HI c E1) as [K|K]; [|left; now apply K].
        exfalso. pose proof (Hs c c K (or_introl eq_refl)). lia.
      + set (a1 := mkacc (a_decls a) (c :: a_exprs a)).
        assert (J : inv_but (c :: o) a1).
        { intros t [<-|Ht]; [left; now left|]. destruct (HI t Ht) as [K|K]; [left; now right|right; exact K]. }
        destruct (Hc (c :: o) a1) as [I2 A2]; auto.
        { intros u [<-|Hu]; auto. apply Nat.lt_le_incl. apply Hs; auto. now left. }
        assert (I3 : inv_but o (mark_expr c a1)).
        { intros t Ht. destruct (I2 t Ht) as [[<-|K]|K]; auto. right. intros n Hn. apply A2. auto. }
        destruct (IHl ltac:(intros; apply Hs; auto; now right) (mark_expr c a1) I3) as [I4 A4]. split; auto. intros n. rewrite (A4 n), (A2 n). cbn [a1 a_decls].
        split.
        * intros [[H|H]|(t & Ht & Hr)]; auto; right; [exists c|exists t]; split; auto; [now left|now right].
        * intros [H|(t & [<-|Ht] & Hr)]; auto. right. eauto. }
  destruct G as [G1 G2]. split; auto. intros n. rewrite (G2 n). split; intros [H|H]; auto; right.
  - destruct H as (t & Ht & Hr). econstructor; eauto.
  - inversion H as [K|? ? t Ht Hr]; subst; eauto. now destruct NE.
Qed.

(** * One evaluation *)
Definition inv0 := inv_but [].
Definition read_by (l : list term) (n : string) : Prop := exists t, In t l /\ reads n t.
(** [f] adds the constants of [l] and its result does not depend on what was accessed *)
Definition marks {X} (f : accessed -> res X * accessed) (l : list term) : Prop :=
  forall a, inv0 a -> inv0 (snd (f a)) /\ (forall a', fst (f a) = fst (f a')) /\ forall v, fst (f a) = Ok v -> adds a (snd (f a)) (read_by l).

Lemma adds_one a t : inv0 a -> inv0 (mark_expr t a) /\ adds a (mark_expr t a) (read_by [t]).
Proof.
  intros H. destruct (mark_spec t [] a ltac:(intros ? []) H) as [A B]. split; auto. intros n. rewrite (B n). unfold read_by.
  split; intros [K|K]; auto; right; [exists t; split; [now left|auto]|]. destruct K as (? & [<-|[]] & ?). auto.
Qed.
Lemma marks_b z t : marks (eval_b z t) [t].
Proof. intros a H. unfold eval_b, eval_ast. cbn. destruct (adds_one a t H). split; auto. Qed.
Lemma marks_i z t : marks (eval_i z t) [t].
Proof. intros a H. unfold eval_i, eval_ast. cbn. destruct (adds_one a t H). split; auto. Qed.
Lemma marks_r i z t : marks (eval_r i z t) [t].
Proof. intros a H. unfold eval_r, eval_ast. cbn. destruct (adds_one a t H). split; auto. Qed.
Lemma marks_lift {X} (g : X -> shown) f l : marks f l -> marks (fun a => lift g (f a)) l.
Proof.
  intros M a H. destruct (M a H) as (A & B & D). unfold lift. cbn [fst snd]. split; auto. split.
  - intros a'. now rewrite (B a').
  - intros v. destruct (fst (f a)) as [x| |] eqn:E; try discriminate. intros _. eauto.
Qed.
Lemma marks_e i z p q : marks (eval_e i z p q) [p; q].
Proof.
  intros a H. unfold eval_e. destruct (marks_b z p a H) as (A & B & D).
  assert (Q1 : forall a', exists r, eval_b z p a' = (r, mark_expr p a') /\ r = fst (eval_b z p a)).
  { intros a'. eexists. split; [reflexivity|]. reflexivity. }
  destruct (eval_b z p a) as [r a1] eqn:E1. cbn [fst snd] in *.
  destruct r as [b|e|e]; cbn [fst snd].
  2:{ split; auto. split; [|discriminate]. intros a'. destruct (Q1 a') as (r & -> & ->). reflexivity. }
  2:{ split; auto. split; [|discriminate]. intros a'. destruct (Q1 a') as (r & -> & ->). reflexivity. }
  destruct (marks_r i z q a1 A) as (A2 & B2 & D2).
  destruct (eval_r i z q a1) as [r2 a2] eqn:E2. cbn [fst snd] in *.
  assert (S : snd (match r2 with Ok q0 => (Ok (if b then None else Some q0), a2) | Err e => (Err e, a2) | Panic e => (Panic e, a2) end) = a2) by (destruct r2; reflexivity).
  rewrite S. split; auto. split.
  - intros a'. destruct (Q1 a') as (r & -> & ->). cbv iota beta. specialize (B2 (mark_expr p a')). destruct (eval_r i z q (mark_expr p a')) as [r3 a3]. cbn [fst] in B2. subst r3. destruct r2; reflexivity.
  - intros v. destruct r2 as [x| |]; try discriminate. intros _ n. rewrite (D2 x eq_refl n), (D b eq_refl n). unfold read_by. split.
    + intros [[K|(t & [<-|[]] & K)]|(t & [<-|[]] & K)]; auto; right; eexists; (split; [|exact K]); cbn; auto.
    + intros [K|(t & [<-|[<-|[]]] & K)]; auto; [left; right|right]; eexists; (split; [|exact K]); cbn; auto.
Qed.
Lemma marks_symbolic i z y : marks (eval_symbolic i z y) (parts y).
Proof. destruct y; [exact (marks_lift _ _ _ (marks_b _ _))|exact (marks_lift _ _ _ (marks_i _ _))|exact (marks_lift _ _ _ (marks_r _ _ _))|exact (marks_lift _ _ _ (marks_e _ _ _ _))]. Qed.

(** ** atomically *)
Definition ok {X} (r : res X) : Prop := exists v, r = Ok v.
Lemma atomic {X} (f : accessed -> res X * accessed) l : marks f l -> forall a, inv0 a -> (forall e, fst (f a) <> Panic e) ->
  inv0 (snd (atomically f a)) /\ (forall a', fst (atomically f a) = fst (f a')) /\ adds a (snd (atomically f a)) (fun n => ok (fst (f a)) /\ read_by l n).
Proof.
  intros M a H NP. destruct (M a H) as (A & B & D). unfold atomically. destruct (f a) as [[v|e|e] a1] eqn:E; cbn [fst snd] in *.
  - split; auto. split; auto. intros n. rewrite (D v eq_refl n). split; intros [K|K]; auto; right; [split; auto; now exists v|tauto].
  - split; auto. split; auto. intros n. split; auto. intros [K|[[v K] _]]; auto. discriminate.
  - now destruct (NP e).
Qed.
Lemma rollback {X} (f : accessed -> res X * accessed) a e : fst (atomically f a) = Err e -> snd (atomically f a) = a.
Proof. unfold atomically. destruct (f a) as [[]]; cbn; congruence. Qed.

(** * The variables *)
Definition outcome (i : bool) (z : zmodel) (y : symbolic) : res shown := fst (eval_symbolic i z y acc0).
Lemma inv_acc0 : inv0 acc0. Proof. intros t []. Qed.
Lemma outcome_any i z y a : fst (eval_symbolic i z y a) = outcome i z y.
Proof. unfold outcome. destruct (marks_symbolic i z y acc0 inv_acc0) as (_ & B & _). symmetry. apply B. Qed.
Definition cell_of (i : bool) (z : zmodel) (y : symbolic) : cell := match outcome i z y with Ok v => Value v | Err e | Panic e => Failed e end.
Lemma var_value i z y a c a' : inv0 a -> pretty_var_value i z y a = Ok (c, a') ->
  inv0 a' /\ c = cell_of i z y /\ (forall e, outcome i z y <> Panic e) /\ adds a a' (fun n => (exists v, c = Value v) /\ read_by (parts y) n).
Proof.
  intros H E. unfold pretty_var_value in E.
  assert (NP : forall e, fst (eval_symbolic i z y a) <> Panic e).
  { intros e K. unfold atomically in E. destruct (eval_symbolic i z y a) as [r a1]. cbn in K. subst r. discriminate E. }
  destruct (atomic _ _ (marks_symbolic i z y) a H NP) as (A & B & D). rewrite outcome_any in *.
  specialize (B acc0). fold (outcome i z y) in B. destruct (atomically (eval_symbolic i z y) a) as [r a1]. cbn [fst snd] in *. subst r.
  unfold cell_of. destruct (outcome i z y) as [v|e|e]; cbn in E; try discriminate; injection E as <- <-.
  - split; auto. split; auto. split; [discriminate|]. intros n. rewrite (D n). split; intros [K|[_ K]]; auto; right; split; eauto. now exists v.
  - split; auto. split; auto. split; [discriminate|]. intros n. rewrite (D n). split; intros [K|[[v K] _]]; auto; discriminate.
Qed.

Definition shows (i : bool) (z : zmodel) (v : local) : ident * cell := (v_id v, cell_of i z (v_sym v)).
Definition known (i : bool) (z : zmodel) (l : list local) (n : string) : Prop :=
  exists v, In v l /\ (exists w, cell_of i z (v_sym v) = Value w) /\ read_by (parts (v_sym v)) n.
Lemma show_vars_spec i z : forall l a r a', inv0 a -> show_vars i z l a = Ok (r, a') ->
  inv0 a' /\ r = map (shows i z) l /\ adds a a' (known i z l).
Proof.
  induction l as [|v l IH]; intros a r a' H E; cbn [show_vars] in E.
  - injection E as <- <-. split; auto. split; auto. intros n. split; auto. intros [K|(? & [] & _)]; auto.
  - destruct (pretty_var_value i z (v_sym v) a) as [[c a1]| |] eqn:E1; try discriminate. cbn [rbind] in E.
    destruct (var_value i z _ a c a1 H E1) as (A & -> & _ & D).
    destruct (show_vars i z l a1) as [[r1 a2]| |] eqn:E2; try discriminate. cbn [rbind] in E. injection E as <- <-.
    destruct (IH _ _ _ A E2) as (A2 & -> & D2). split; auto. split; auto. intros n. rewrite (D2 n), (D n). unfold known. split.
    + intros [[K|[K1 K2]]|(w & K1 & K2)]; auto; right; [exists v; cbn; auto|exists w; cbn; auto].
    + intros [K|(w & [<-|K1] & K2 & K3)]; auto. right. exists w. auto.
Qed.
Lemma show_groups_spec i z : forall g a r a', inv0 a -> show_groups i z g a = Ok (r, a') ->
  inv0 a' /\ r = map (fun p => (fst p, map (shows i z) (snd p))) g /\ adds a a' (known i z (flat_map snd g)).
Proof.
  induction g as [|[k l] g IH]; intros a r a' H E; cbn [show_groups] in E.
  - injection E as <- <-. split; auto. split; auto. intros n. split; auto. intros [K|(? & [] & _)]; auto.
  - destruct (show_vars i z l a) as [[c a1]| |] eqn:E1; try discriminate. cbn [rbind] in E.
    destruct (show_vars_spec i z l a c a1 H E1) as (A & -> & D).
    destruct (show_groups i z g a1) as [[r1 a2]| |] eqn:E2; try discriminate. cbn [rbind] in E. injection E as <- <-.
    destruct (IH _ _ _ A E2) as (A2 & -> & D2). split; auto. split; auto. intros n. rewrite (D2 n), (D n). unfold known. cbn [flat_map snd].
    split.
    + intros [[K|(w & K1 & K2)]|(w & K1 & K2)]; auto; right; exists w; split; auto; apply in_or_app; auto.
    + intros [K|(w & K1 & K2)]; auto. apply in_app_or in K1 as [K1|K1]; [left; right|right]; exists w; auto.
Qed.

(** ** Order and groups *)
Lemma insert_perm v l : Permutation (insert_by_start v l) (v :: l).
Proof. induction l as [|w l IH]; cbn; auto. destruct (_ <=? _); auto. rewrite IH. apply perm_swap. Qed.
Lemma sorted_perm l : Permutation (sorted_by_start l) l.
Proof. induction l as [|v l IH]; cbn; auto. rewrite insert_perm. now constructor. Qed.
Definition before (v w : local) : Prop := v_start v <= v_start w.
Lemma insert_sorted v l : StronglySorted before l -> StronglySorted before (insert_by_start v l).
Proof.
  induction 1 as [|w l S IH F]; cbn; [repeat constructor|]. destruct (_ <=? _) eqn:E.
  - apply Nat.leb_le in E. constructor; [now constructor|]. constructor; auto. eapply Forall_impl; [|exact F]. unfold before. intros; lia.
  - apply Nat.leb_gt in E. constructor; auto. eapply Permutation_Forall; [symmetry; apply insert_perm|]. constructor; [unfold before; lia|auto].
Qed.
Lemma sorted_sorted l : StronglySorted before (sorted_by_start l).
Proof. induction l; cbn; [constructor|]. now apply insert_sorted. Qed.
Lemma filter_sorted f l : StronglySorted before l -> StronglySorted before (List.filter f l).
Proof.
  induction 1 as [|w l S IH F]; cbn; [constructor|]. destruct (f w); auto. constructor; auto. apply Forall_forall. intros x Hx. apply filter_In in Hx as [Hx _].
  rewrite Forall_forall in F. auto.
Qed.
Lemma filter_perm {X} (f : X -> bool) l m : Permutation l m -> Permutation (List.filter f l) (List.filter f m).
Proof. induction 1; cbn; auto; [destruct (f x); auto|destruct (f x), (f y); auto; apply perm_swap|eapply perm_trans; eauto]. Qed.
Lemma globals_perm l : Permutation (global_decls l) (visible l).
Proof. apply filter_perm, sorted_perm. Qed.

Lemma vkind_eqb_eq a b : vkind_eqb a b = true <-> a = b.
Proof. destruct a, b; cbn; split; congruence. Qed.
Lemma by_kind_perm l : Permutation (flat_map snd (by_kind l)) l.
Proof.
  assert (E : flat_map snd (by_kind l) = flat_map (fun k => List.filter (fun v => vkind_eqb (v_kind v) k) l) [KInput; KOutput; KMut; KQuant; KSubst; KSlice]).
  { unfold by_kind. induction [KInput; KOutput; KMut; KQuant; KSubst; KSlice] as [|k ks IH]; auto. cbn.
    destruct (List.filter (fun v => vkind_eqb (v_kind v) k) l) eqn:F; cbn; [exact IH|]. rewrite IH. reflexivity. }
  rewrite E. clear E. induction l as [|v l IH]; cbn; auto. cbn in IH.
  destruct (v_kind v); cbn; repeat rewrite <- Permutation_middle; apply perm_skip; exact IH.
Qed.
(** * Slice variables *)
Definition toggle_result (z : zmodel) (t : term) : res bool :=
  match z_eval z false t with None => Err "EvalError"%string | Some v => Ok (match as_bool v with Some b => b | None => true end) end.
Lemma eval_b_result z t a : fst (eval_b z t a) = toggle_result z t.
Proof. unfold eval_b, toggle_result, eval_ast. cbn. destruct (z_eval z false t); reflexivity. Qed.
Lemma eval_toggles_spec z : forall l a m a', inv0 a -> eval_toggles z l a = (m, a') ->
  inv0 a' /\ m = map (fun p => (fst p, toggle_result z (snd p))) l /\ adds a a' (read_by_toggle z l).
Proof.
  induction l as [|[e t] l IH]; intros a m a' H E; cbn [eval_toggles] in E.
  - injection E as <- <-. split; auto. split; auto. intros n. split; auto. intros [K|(? & ? & [] & _)]; auto.
  - assert (NP : forall x, fst (eval_b z t a) <> Panic x) by (intros x; rewrite eval_b_result; unfold toggle_result; destruct (z_eval z false t); discriminate).
    destruct (atomic _ _ (marks_b z t) a H NP) as (A & B & D). destruct (atomically (eval_b z t) a) as [r a1]. cbn [fst snd] in *.
    specialize (B a). rewrite eval_b_result in *. subst r. destruct (eval_toggles z l a1) as [m1 a2] eqn:E2. injection E as <- <-.
    destruct (IH _ _ _ A E2) as (A2 & -> & D2). split; auto. split; auto. intros n. rewrite (D2 n), (D n). unfold read_by_toggle, ok, toggle_result, read_by.
    split.
    + intros [[K|[[v K1] (u & [<-|[]] & K2)]]|(e' & t' & K1 & K2)]; auto; right.
      * exists e, t. split; [now left|]. split; auto. intros K. rewrite K in K1. discriminate.
      * exists e', t'. split; auto. now right.
    + intros [K|(e' & t' & [[= <- <-]|K1] & K2 & K3)]; auto.
      * left. right. split; [|exists t; cbn; auto]. destruct (z_eval z false t); [eauto|congruence].
      * right. exists e', t'. auto.
Qed.
Definition result_of (z : zmodel) (p : slice_stmt * term) : slice_stmt * res bool := (fst p, toggle_result z (snd p)).
Definition chosen (sel : selection) (l : list (slice_stmt * term)) := List.filter (fun p : slice_stmt * term => enables sel (sl_sel (fst p))) l.
Lemma from_model_spec z sel l a m a' : inv0 a -> from_model z sel l a = (m, a') ->
  inv0 a' /\ m = map (result_of z) (chosen sel l) /\ adds a a' (read_by_toggle z l).
Proof.
  intros H E. unfold from_model in E. destruct (eval_toggles z l a) as [m1 a1] eqn:E1. injection E as <- <-.
  destruct (eval_toggles_spec z l a m1 a1 H E1) as (A & -> & D). split; auto. split; auto.
  unfold chosen. clear. induction l as [|p l IH]; cbn; auto. destruct (enables _ _); cbn; rewrite IH; reflexivity.
Qed.

(** * The display *)
Section Display.
Variables (inner : bool) (z : zmodel) (sel : selection) (toggles : list (slice_stmt * term)) (locals : list local) (tr : expr -> symbolic) (vc : expr).

Lemma display_parts D : show_counterexample inner z sel toggles locals tr vc = Ok D ->
  exists a p s, inv0 a /\ D = mkdisplay (map (fun p => (fst p, map (shows inner z) (snd p))) (by_kind (global_decls locals))) (iter_unaccessed z a)
    (iter_results Error (map (result_of z) (chosen sel toggles))) p s /\
  pretty_vc_value inner z tr vc (map (result_of z) (chosen sel toggles)) a = Ok (p, s) /\
  adds acc0 a (fun n => read_by_toggle z toggles n \/ known inner z (flat_map snd (by_kind (global_decls locals))) n).
Proof.
  unfold show_counterexample. destruct (from_model z sel toggles acc0) as [m a1] eqn:E1. destruct (from_model_spec z sel toggles acc0 m a1 inv_acc0 E1) as (A1 & -> & D1).
  destruct (pretty_globals inner z locals a1) as [[g a2]| |] eqn:E2; try discriminate. cbn [rbind].
  destruct (show_groups_spec inner z _ a1 g a2 A1 E2) as (A2 & -> & D2).
  destruct (pretty_vc_value inner z tr vc _ a2) as [[p s]| |] eqn:E3; try discriminate. cbn [rbind]. intros [= <-].
  exists a2, p, s. split; auto. split; auto. split; auto. intros n. rewrite (D2 n), (D1 n). tauto.
Qed.

Lemma entries_shown D : show_counterexample inner z sel toggles locals tr vc = Ok D ->
  entries (d_globals D) = map (shows inner z) (flat_map snd (by_kind (global_decls locals))).
Proof.
  intros H. destruct (display_parts D H) as (a & p & s & _ & -> & _). cbn [d_globals]. unfold entries. clear H.
  induction (by_kind (global_decls locals)) as [|[k l] g IH]; cbn; auto. rewrite map_app. f_equal. exact IH.
Qed.
Lemma shown_locals v : In v (flat_map snd (by_kind (global_decls locals))) <-> In v (visible locals).
Proof.
  split; intros H.
  - eapply Permutation_in; [apply globals_perm|]. eapply Permutation_in; [apply by_kind_perm|]. exact H.
  - eapply Permutation_in; [symmetry; apply by_kind_perm|]. eapply Permutation_in; [symmetry; apply globals_perm|]. exact H.
Qed.

Theorem shown_once D : show_counterexample inner z sel toggles locals tr vc = Ok D ->
  Permutation (map fst (entries (d_globals D))) (map v_id (visible locals)).
Proof.
  intros H. rewrite (entries_shown D H), map_map. change (fun x => fst (shows inner z x)) with v_id.
  transitivity (map v_id (global_decls locals)); apply Permutation_map; [apply by_kind_perm|apply globals_perm].
Qed.

Lemma by_kind_groups l k vs : In (k, vs) (by_kind l) -> vs <> [] /\ vs = List.filter (fun v => vkind_eqb (v_kind v) k) l.
Proof.
  unfold by_kind. intros H. apply filter_In in H as [H1 H2]. apply in_map_iff in H1 as (k' & [= <- <-] & _). split; auto. intros E. cbn in H2. rewrite E in H2. discriminate.
Qed.
Theorem shown_groups D : show_counterexample inner z sel toggles locals tr vc = Ok D ->
  StronglySorted (fun g h => rank (fst g) < rank (fst h)) (d_globals D) /\
  forall k l, In (k, l) (d_globals D) -> l <> [] /\ exists vs, map v_id vs = map fst l /\ StronglySorted (fun v w => v_start v <= v_start w) vs /\
    Permutation vs (List.filter (fun v => vkind_eqb (v_kind v) k) (visible locals)).
Proof.
  intros H. destruct (display_parts D H) as (a & p & s & _ & -> & _). cbn [d_globals]. split.
  - assert (G : forall ks, StronglySorted (fun g h => rank g < rank h) ks -> forall (f : vkind -> list local) (t : list local -> bool) (sh : list local -> list (ident * cell)),
      StronglySorted (fun g h : vkind * list (ident * cell) => rank (fst g) < rank (fst h)) (map (fun p : vkind * list local => (fst p, sh (snd p))) (List.filter (fun g => t (snd g)) (map (fun k => (k, f k)) ks)))).
    { induction 1 as [|k ks S IH F]; intros f t sh; cbn; [constructor|]. destruct (t (f k)); auto. cbn. constructor; auto.
      apply Forall_forall. intros x Hx. apply in_map_iff in Hx as ([k' y] & <- & Hx). apply filter_In in Hx as [Hx _]. apply in_map_iff in Hx as (k2 & [= <- <-] & Hx). cbn.
      rewrite Forall_forall in F. auto. }
    unfold by_kind. refine (G [KInput; KOutput; KMut; KQuant; KSubst; KSlice] _ (fun k => List.filter (fun v => vkind_eqb (v_kind v) k) (global_decls locals)) (fun l => match l with [] => false | _ => true end) (map (shows inner z))).
    repeat constructor; cbn; lia.
  - intros k l Hk. apply in_map_iff in Hk as ([k' vs] & [= <- <-] & Hk). cbn [fst snd]. apply by_kind_groups in Hk as [N E]. split.
    { destruct vs; [congruence|discriminate]. }
    exists vs. split; [rewrite map_map; reflexivity|]. rewrite E. split; [apply filter_sorted, filter_sorted, sorted_sorted|]. apply filter_perm, globals_perm.
Qed.

Theorem shown_extra D : show_counterexample inner z sel toggles locals tr vc = Ok D -> NoDup (map v_id locals) ->
  forall d, In d (d_extra D) <-> In d (z_decls z) /\ ~ read_by_shown locals (entries (d_globals D)) (fst d) /\ ~ read_by_toggle z toggles (fst d).
Proof.
  intros H ND d. pose proof (entries_shown D H) as EN. destruct (display_parts D H) as (a & p & s & _ & -> & _ & AD). cbn [d_extra d_globals] in *. rewrite EN.
  unfold iter_unaccessed. rewrite filter_In.
  assert (K : is_accessed a d = true <-> read_by_shown locals (map (shows inner z) (flat_map snd (by_kind (global_decls locals)))) (fst d) \/ read_by_toggle z toggles (fst d)).
  { unfold is_accessed. rewrite existsb_exists. split.
    - intros (n & Hn & E). apply String.eqb_eq in E. subst n. apply AD in Hn as [[]|[Hn|Hn]]; auto. left.
      destruct Hn as (v & Hv & (w & Hw) & (t & Ht & Hr)). exists v, w, t. split; [|split; [|auto]].
      + apply shown_locals in Hv. unfold visible in Hv. now apply filter_In in Hv.
      + apply in_map_iff. exists v. split; auto. unfold shows. now rewrite Hw.
    - intros Hn. exists (fst d). split; [|apply String.eqb_refl]. apply AD. right. destruct Hn as [(v & w & t & Hv & He & Ht & Hr)|Hn]; auto. right.
      apply in_map_iff in He as (v' & E & He). unfold shows in E. injection E as E1 E2.
      assert (v' = v). { apply shown_locals in He. unfold visible in He. apply filter_In in He as [He _]. clear - ND E1 He Hv.
        induction locals as [|u l IH]; [easy|]. cbn in ND. inversion ND as [|? ? N1 N2]; subst. destruct Hv as [<-|Hv], He as [<-|He]; auto.
        - exfalso. apply N1. rewrite <- E1. now apply in_map.
        - exfalso. apply N1. rewrite E1. now apply in_map. }
      subst v'. exists v. split; auto. split; [now exists w|now exists t]. }
  destruct (is_accessed a d); cbn [negb].
  - split; [intros [_ E]; discriminate|]. intros (_ & K1 & K2). exfalso. destruct (proj1 K eq_refl); auto.
  - split.
    + intros [H1 _]. split; auto. split; intros Q; assert (false = true) by (apply K; auto); discriminate.
    + intros [H1 _]. auto.
Qed.

(** ** Values *)
Lemma outcome_denotes den y v : completes z den -> determined z y -> numeric den y -> outcome inner z y = Ok v -> denotes den y v.
Proof.
  intros HC [HD HR] HN. unfold outcome. destruct y as [t|t|t|i t]; unfold eval_symbolic, lift, eval_b, eval_i, eval_r, eval_e, eval_ast.
  - destruct (HD t) as (b & E); [now left|]. cbn. rewrite E. cbn. intros [= <-]. cbn. apply (comp_known z den HC _ _ E). discriminate.
  - cbn. rewrite (comp_all z den HC). destruct (HN t) as (n & d & E); [now left|]. rewrite E. cbn [as_value]. destruct (eval_int (ZNum n d)) as [k| |] eqn:Q; try discriminate.
    apply eval_int_exact in Q as [-> ->]. intros [= <-]. cbn; congruence.
  - destruct (HR t) as (n & d & E); [now left|]. cbn. rewrite E. cbn [as_value]. rewrite eval_real_numeral. destruct (readable n d); try discriminate.
    intros [= <-]. cbn. apply (comp_known z den HC _ _ E). discriminate.
  - destruct (HD i) as (b & Eb); [now left|]. destruct (HR t) as (n & d & E); [now left|]. cbv iota beta. unfold eval_b, eval_r, eval_ast. cbv zeta. rewrite Eb. cbn [as_bool eval_bool].
    rewrite E. cbn [as_value]. rewrite eval_real_numeral. destruct (readable n d); try discriminate. cbn.
    pose proof (comp_known z den HC _ _ Eb ltac:(discriminate)) as Db. pose proof (comp_known z den HC _ _ E ltac:(discriminate)) as Dn.
    destruct b; intros [= <-]; cbn; auto.
Qed.
Theorem shown_values den D : show_counterexample inner z sel toggles locals tr vc = Ok D -> completes z den ->
  (forall v, In v (visible locals) -> determined z (v_sym v) /\ numeric den (v_sym v)) ->
  forall x w, In (x, Value w) (entries (d_globals D)) -> exists v, In v (visible locals) /\ v_id v = x /\ denotes den (v_sym v) w.
Proof.
  intros H HC HV x w Hx. rewrite (entries_shown D H) in Hx. apply in_map_iff in Hx as (v & E & Hv). apply shown_locals in Hv. exists v. injection E as E1 E2.
  split; auto. split; auto. destruct (HV v Hv). apply outcome_denotes; auto. unfold cell_of in E2. destruct (outcome inner z (v_sym v)); congruence.
Qed.

(** ** The slice *)
Theorem shown_slice D : show_counterexample inner z sel toggles locals tr vc = Ok D ->
  forall p r, In (p, r) (d_slice D) <-> exists e t, In (e, t) toggles /\ enables sel (sl_sel e) = true /\ sl_at e = p /\
    match r with
    | PartOfError => exists v, z_eval z false t = Some v /\ v <> ABool false
    | NotNecessary => False
    | ResultError m => z_eval z false t = None /\ m = "EvalError"%string
    end.
Proof.
  intros H p r. destruct (display_parts D H) as (a & p0 & s & _ & -> & _). cbn [d_slice]. unfold iter_results. rewrite in_flat_map. split.
  - intros (x & Hx & Hr). apply in_map_iff in Hx as ([e t] & <- & Hx). unfold chosen in Hx. apply filter_In in Hx as [Hx He]. cbn [fst] in He. exists e, t. split; auto. split; auto.
    unfold slice_line, result_of, toggle_result in Hr. cbn [fst snd] in Hr. destruct (z_eval z false t) as [[[]|v]|] eqn:E; cbn in Hr; try contradiction; destruct Hr as [Hr|[]]; injection Hr as <- <-; split; auto; eexists; split; eauto; discriminate.
  - intros (e & t & Ht & He & <- & Hr). exists (result_of z (e, t)). split.
    + apply in_map, filter_In. auto.
    + unfold slice_line, result_of, toggle_result. cbn [fst snd]. destruct r.
      * destruct Hr as (v & -> & N). destruct v as [[]|]; cbn; auto.
      * destruct Hr.
      * destruct Hr as [-> ->]. cbn. auto.
Qed.
End Display.

Theorem enabled_slice sel l enabled p r : In (p, r) (iter_results Verify (from_enabled sel l enabled)) <->
  r = NotNecessary /\ exists e t, In (e, t) l /\ enables sel (sl_sel e) = true /\ sl_at e = p /\ ~ In t enabled.
Proof.
  unfold iter_results, from_enabled. rewrite in_flat_map. split.
  - intros (x & Hx & Hr). apply in_map_iff in Hx as ([e t] & <- & Hx). apply filter_In in Hx as [Hx He]. cbn [fst snd] in *. unfold slice_line in Hr. cbn [fst snd] in Hr.
    destruct (existsb (term_eqb t) enabled) eqn:E; [destruct Hr|]. destruct Hr as [[= <- <-]|[]]. split; auto. exists e, t. split; auto. split; auto. split; auto.
    intros K. assert (existsb (term_eqb t) enabled = true); [|congruence]. apply existsb_exists. exists t. split; auto. apply term_eqb_refl.
  - intros (-> & e & t & Ht & He & <- & N). exists (e, Ok (existsb (term_eqb t) enabled)). split.
    + apply in_map_iff. exists (e, t). split; auto. apply filter_In. auto.
    + unfold slice_line. cbn [fst snd]. destruct (existsb (term_eqb t) enabled) eqn:E; [|now left].
      exfalso. apply existsb_exists in E as (u & Hu & E). apply term_eqb_eq in E. subst u. auto.
Qed.

(** * The language server shows the same *)
Lemma show_vars_total i z : forall l a, (forall v, In v l -> forall e, outcome i z (v_sym v) <> Panic e) -> exists r a', show_vars i z l a = Ok (r, a').
Proof.
  induction l as [|v l IH]; intros a H; cbn; [eauto|]. unfold pretty_var_value, atomically.
  pose proof (outcome_any i z (v_sym v) a) as E. destruct (eval_symbolic i z (v_sym v) a) as [r a1]. cbn in E. subst r.
  destruct (outcome i z (v_sym v)) as [w|e|e] eqn:O.
  3:{ exfalso. eapply (H v); [now left|exact O]. }
  - cbn. destruct (IH a1 ltac:(intros; apply H; now right)) as (r2 & a2 & ->). cbn. eauto.
  - cbn. destruct (IH a ltac:(intros; apply H; now right)) as (r2 & a2 & ->). cbn. eauto.
Qed.
Lemma show_vars_no_panic i z : forall l a r a', show_vars i z l a = Ok (r, a') -> forall v, In v l -> forall e, outcome i z (v_sym v) <> Panic e.
Proof.
  induction l as [|v l IH]; intros a r a' E w Hw; [easy|]. cbn in E. unfold pretty_var_value, atomically in E.
  pose proof (outcome_any i z (v_sym v) a) as O. destruct (eval_symbolic i z (v_sym v) a) as [r0 a1]. cbn in O. subst r0.
  destruct Hw as [<-|Hw].
  - intros e K. rewrite K in E. discriminate E.
  - destruct (outcome i z (v_sym v)); cbn in E; try discriminate;
    [destruct (show_vars i z l a1) as [[r2 a2]| |] eqn:E2|destruct (show_vars i z l a) as [[r2 a2]| |] eqn:E2]; try discriminate; eapply IH; eauto.
Qed.
Lemma show_groups_no_panic i z : forall g a r a', show_groups i z g a = Ok (r, a') -> forall v, In v (flat_map snd g) -> forall e, outcome i z (v_sym v) <> Panic e.
Proof.
  induction g as [|[k l] g IH]; intros a r a' E w Hw; [easy|]. cbn [show_groups] in E.
  destruct (show_vars i z l a) as [[c a1]| |] eqn:E1; try discriminate. cbn [rbind] in E. destruct (show_groups i z g a1) as [[r1 a2]| |] eqn:E2; try discriminate.
  cbn in Hw. apply in_app_or in Hw as [Hw|Hw]; [eapply show_vars_no_panic; eauto|eapply IH; eauto].
Qed.
Lemma vc_value_any i z tr vc m a a' : pretty_vc_value i z tr vc m a = pretty_vc_value i z tr vc m a'.
Proof.
  unfold pretty_vc_value. pose proof (outcome_any i z (tr (original_vc vc m)) a) as O. pose proof (outcome_any i z (tr (original_vc vc m)) a') as O'.
  destruct (eval_symbolic i z (tr (original_vc vc m)) a) as [r a1], (eval_symbolic i z (tr (original_vc vc m)) a') as [r' a1']. cbn in O, O'. subst r r'.
  destruct (to_cell _); auto. cbn [rbind]. destruct (_ =? _); auto.
  pose proof (outcome_any i z (tr vc) a1) as O. pose proof (outcome_any i z (tr vc) a1') as O'.
  destruct (eval_symbolic i z (tr vc) a1) as [r a2], (eval_symbolic i z (tr vc) a1') as [r' a2']. cbn in O, O'. now subst r r'.
Qed.
Theorem same_in_server inner z sel toggles locals tr vc D : show_counterexample inner z sel toggles locals tr vc = Ok D ->
  exists g, emit_counterexample inner z sel toggles locals tr vc = Ok (g, d_extra D, d_pre D, d_sliced D) /\ Permutation g (entries (d_globals D)).
Proof.
  intros H. pose proof (entries_shown _ _ _ _ _ _ _ _ H) as EN. unfold show_counterexample in H. unfold emit_counterexample.
  destruct (from_model z sel toggles acc0) as [m a1] eqn:E1. destruct (from_model_spec z sel toggles acc0 m a1 inv_acc0 E1) as (A1 & Em & D1).
  destruct (pretty_globals inner z locals a1) as [[g a2]| |] eqn:E2; try discriminate. cbn [rbind] in H.
  destruct (show_groups_spec inner z _ a1 g a2 A1 E2) as (A2 & _ & D2).
  assert (KP : forall v, In v (global_decls locals) -> In v (flat_map snd (by_kind (global_decls locals)))) by (intros v; apply Permutation_in; symmetry; apply by_kind_perm).
  destruct (show_vars_total inner z (global_decls locals) a1) as (r & a3 & E3). { intros v Hv. eapply show_groups_no_panic; [exact E2|auto]. }
  rewrite E3. cbn [rbind]. destruct (show_vars_spec inner z _ a1 r a3 A1 E3) as (_ & -> & D3).
  rewrite (vc_value_any inner z tr vc m a3 a2). destruct (pretty_vc_value inner z tr vc m a2) as [[p s]| |] eqn:E4; try discriminate. cbn [rbind] in *. injection H as <-. cbn [d_extra d_pre d_sliced d_globals] in *.
  eexists. split.
  - do 4 f_equal. unfold iter_unaccessed. apply filter_ext. intros d. f_equal. unfold is_accessed. apply eq_true_iff_eq. rewrite !existsb_exists.
    assert (Q : forall n, In n (a_decls a3) <-> In n (a_decls a2)).
    { intros n. rewrite (D3 n), (D2 n). apply or_iff_compat_l. split; intros (v & Hv & K); exists v; split; auto. eapply Permutation_in; [apply by_kind_perm|exact Hv]. }
    split; intros (n & Hn & E); exists n; split; auto; now apply Q.
  - rewrite EN. apply Permutation_map. symmetry. apply by_kind_perm.
Qed.
