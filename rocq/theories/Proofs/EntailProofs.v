(** The question asked for a pair of procedures. *)
From Coq Require Import Bool List String NArith QArith Classical FunctionalExtensionality.
From Verif.Model Require Import Syntax Builder Lits TyCtx AstUtil VcGen Subst Unfolder Pipeline Driver.
From Verif.Spec Require Import Eur Sem Wp Linear Valid Reach Verdicts.
From Verif.Proofs Require Import EurLemmas SemLemmas WpLemmas VcGenProofs SubstProofs UnfolderProofs SimplifyRefuted PipelineProofs SimLemmas.
Import ListNotations.
Local Open Scope nat_scope.

Definition renaming (m : list (ident * ident)) : list (ident * expr) := map (fun p => (snd p, EVar (fst p))) m.
Lemma b_subst_cons e p l : b_subst e (p :: l) = b_subst (ESubst (fst p) (snd p) e) l.
Proof. reflexivity. Qed.

Lemma subst_ty l : forall e, ty_of (b_subst e l) = ty_of e.
Proof. induction l as [|p l IH]; intros e; [reflexivity|]. rewrite b_subst_cons, IH. reflexivity. Qed.
Lemma subst_wt m : (forall x y, In (x, y) m -> ity x = ity y) -> forall e, wt e = true -> wt (b_subst e (renaming m)) = true.
Proof.
  induction m as [|[x y] m IH]; intros H e W; [exact W|]. cbn [renaming map]. rewrite b_subst_cons. apply IH.
  - intros; apply H; now right.
  - cbn. rewrite W, (H x y) by now left. destruct (ity y); reflexivity.
Qed.
Lemma subst_ok P m : (forall x y, In (x, y) m -> P x /\ P y) -> forall e, vc_ids_ok P e -> vc_ids_ok P (b_subst e (renaming m)).
Proof.
  induction m as [|[x y] m IH]; intros H e O; [exact O|]. cbn [renaming map]. rewrite b_subst_cons. apply IH; [intros; apply H; now right|].
  destruct (H x y); [now left|]. apply okv_subst; auto. split; [intros z [<-|[]]; auto|intros; exact Logic.I].
Qed.

(** The state seen by the renamed condition. *)
Fixpoint moved (m : list (ident * ident)) (s : env) : env :=
  match m with [] => s | p :: m => let s1 := moved m s in upd s1 (snd p) (s1 (fst p)) end.
Lemma moved_eval I m : forall e s, eval I (b_subst e (renaming m)) s = eval I e (moved m s).
Proof. induction m as [|[x y] m IH]; intros e s; [reflexivity|]. cbn [renaming map moved]. rewrite b_subst_cons. rewrite IH. reflexivity. Qed.
Lemma moved_out m s z : ~ In z (map snd m) -> moved m s z = s z.
Proof.
  induction m as [|[x y] m IH]; intros H; [reflexivity|]. cbn [moved snd fst]. unfold upd. destruct (ident_eqb y z) eqn:E.
  - apply ident_eqb_eq in E. subst. exfalso. apply H. now left.
  - apply IH. intros K. apply H. now right.
Qed.
Lemma moved_renames m s : apart m -> renames m s (moved m s).
Proof.
  intros (N & _ & D). split; [|intros; now apply moved_out]. induction m as [|[x y] m IH]; intros x' y' H; [easy|]. inversion N as [|? ? N1 N2]; subst.
  cbn [moved fst snd]. unfold upd. destruct H as [H|H].
  - injection H as <- <-. rewrite ident_eqb_refl. apply moved_out. intros K. apply (D x); [now left|]. now right.
  - destruct (ident_eqb y y') eqn:E.
    + apply ident_eqb_eq in E. subst. exfalso. apply N1. apply in_map_iff. now exists (x', y').
    + apply IH; auto. intros z Hz K. apply (D z); [now right|now right].
Qed.
Lemma moved_unique m s s' : renames m s s' -> apart m -> forall z, s' z = moved m s z.
Proof.
  intros [H1 H2] A z. destruct (moved_renames m s A) as [K1 K2].
  destruct (classic (In z (map snd m))) as [I0|N0].
  - apply in_map_iff in I0 as [[x y] [<- I0]]. cbn. rewrite (H1 x y I0), (K1 x y I0). reflexivity.
  - rewrite H2, K2; auto.
Qed.
Lemma moved_ok m s : apart m -> env_ok s -> env_ok (moved m s).
Proof.
  intros (N & Ty & D) Hs. induction m as [|[x y] m IH]; [exact Hs|]. cbn [moved fst snd]. inversion N; subst.
  assert (K : env_ok (moved m s)).
  { apply IH; auto; [intros; apply Ty; now right|]. intros z Hz E. apply (D z); now right. }
  intros z. unfold upd. destruct (ident_eqb y z) eqn:E; [|apply K]. apply ident_eqb_eq in E. subst. rewrite <- (Ty x z) by now left. apply K.
Qed.

Theorem entail_correct o orc qs C isd isf A T k m a b :
  tcx_ok C isd isf A -> apart m -> (forall x y, In (x, y) m -> is_var T x /\ is_var T y) ->
  (forall c, c = a \/ c = b -> wts isd isf (SSeq c) /\ every not_while (SSeq c) /\ vguard (SSeq c) /\ every (anns_in A) (SSeq c) /\
     every (fun st => forall x, In x (node_ids st) -> is_var T x) (SSeq c) /\ every guarded_node (SSeq c)) ->
  (strict o = false -> sound_oracle orc) -> opt_rel o = false ->
  exists q, entail_question o orc qs C T m a b = Ok q /\ wt q = true /\ ty_of q = TBool /\
    forall I, interp_ok I ->
      ((forall s, env_ok s -> eval I q s = VBool true) <->
       forall s s', env_ok s -> renames m s s' -> ele (wp I isd k (SSeq a) (fun _ => ebot) s) (wp I isd k (SSeq b) (fun _ => etop) s')).
Proof.
  intros HT Am Hm HC Ho R.
  assert (HV : forall c d, c = a \/ c = b -> exists e, vcgen_block C c (terminal d) = Ok e /\ is_exp e /\ vc_ids_ok (is_var T) e /\
    forall I, interp_ok I -> forall s, env_ok s -> ev I e s = wp I isd k (SSeq c) (fun _ => match d with Down => etop | Up => ebot end) s).
  { intros c d Hc. destruct (HC c Hc) as (H1 & H2 & H3 & H4 & HD & HG).
    assert (Ht : is_exp (terminal d)) by (destruct d; split; reflexivity).
    assert (Hv : forall I s, ev I (terminal d) s = match d with Down => etop | Up => ebot end).
    { intros I s. destruct d; [reflexivity|]. unfold ev, terminal. cbn [eval eval_un b_inf eval_lit].
      change (match (if eleb etop etop then VEur ebot else VEur etop) with VEur r => r | _ => ebot end = ebot). now rewrite eleb_refl. }
    destruct (vcgen_correct C I5 isd isf A k HT I5_ok (SSeq c) H1 H2 H3 H4 _ Ht) as (e & E & X & _).
    exists e. split. { cbn [vcgen] in E. now rewrite vcgen_block_eq in E. } split; auto. split.
    { apply (vcgen_ids C (is_var T) (SSeq c) _ _ E HD HG). destruct d; (split; [intros x [] | intros dd; destruct dd; exact Logic.I]). }
    intros I HI s Hs. destruct (vcgen_correct C I isd isf A k HT HI (SSeq c) H1 H2 H3 H4 _ Ht) as (e' & E' & _ & V).
    rewrite E in E'. injection E' as <-. apply V; auto. }
  destruct (HV a Up) as (e1 & E1 & [W1 T1] & O1 & V1); [now left|]. destruct (HV b Down) as (e2 & E2 & [W2 T2] & O2 & V2); [now right|].
  pose proof (subst_wt m (proj1 (proj2 Am)) e2 W2) as W3. pose proof (subst_ty (renaming m) e2) as T3. rewrite T2 in T3.
  pose proof (subst_ok (is_var T) m Hm e2 O2) as O3.
  destruct (okv_bin (is_var T) OImpl _ _ (ty_of e1) O1 O3) as [G1 G2].
  destruct (lower_spec o orc qs Down T (entails m e1 e2) Ho R) as (q & Q1 & Q2 & Q3 & Q4).
  - unfold entails. fold (renaming m). cbn [wt]. rewrite W1, W3, T1, T3. reflexivity.
  - unfold entails. cbn [ty_of]. rewrite T1. reflexivity.
  - exact G1.
  - intros _. exact (G2 Down).
  - exists q. split. { unfold entail_question. rewrite E1, E2. exact Q1. }
    split; auto. split; auto. intros I HI. rewrite (Q4 I HI). unfold verified.
    assert (K : forall s, env_ok s -> verified_value Down (eval I (entails m e1 e2) s) <->
      ele (wp I isd k (SSeq a) (fun _ => ebot) s) (wp I isd k (SSeq b) (fun _ => etop) (moved m s))).
    { intros s Hs. unfold entails. fold (renaming m). cbn [eval]. rewrite moved_eval.
      rewrite (ev_spec I e1 s HI (conj W1 T1) Hs), (ev_spec I e2 _ HI (conj W2 T2) (moved_ok m s Am Hs)), T1. cbn [eval_bin verified_value].
      rewrite V1, V2 by (auto using moved_ok). set (u := wp _ _ _ _ _ _). set (v := wp _ _ _ _ _ _). split.
      - intros [H|H]; [discriminate|]. injection H as H. destruct (eleb _ _) eqn:L; [now apply eleb_iff|]. fold v in H. rewrite H. apply ele_top.
      - intros L. right. apply eleb_iff in L. rewrite L. reflexivity. }
    split.
    + intros H s s' Hs Hr.
      replace s' with (moved m s); [apply K; auto|]. apply functional_extensionality. intros z. symmetry. now apply (moved_unique m s s').
    + intros H s Hs. apply K; auto. apply H; auto. now apply moved_renames.
Qed.

(** * The mapping of the parameters *)
Lemma map_params_spec : forall a b m, List.length a = List.length b ->
  (map_params a b = inl m <-> m = combine a b /\ Forall2 (fun x y => iname x = iname y /\ ity x = ity y) a b).
Proof.
  induction a as [|x a IH]; intros [|y b] m L; try discriminate L; cbn [map_params combine].
  { split; [intros [= <-]; auto|intros [-> _]; reflexivity]. }
  injection L as L. destruct (String.eqb (iname x) (iname y)) eqn:E; cbn [negb].
  2:{ split; [discriminate|]. intros [_ F]. inversion F as [|? ? ? ? [K _]]; subst. apply String.eqb_neq in E. contradiction. }
  apply String.eqb_eq in E. destruct (ty_eqb (ity x) (ity y)) eqn:T; cbn [negb].
  2:{ split; [discriminate|]. intros [_ F]. inversion F as [|? ? ? ? [_ K]]; subst. rewrite K in T. rewrite (proj2 (ty_eqb_eq _ _) eq_refl) in T. discriminate. }
  apply ty_eqb_eq in T. split.
  - destruct (map_params a b) as [m'|] eqn:M; [|discriminate]. cbn [cbind]. intros [= <-]. apply IH in M as [-> F]; auto.
  - intros [-> F]. inversion F; subst. rewrite (proj2 (IH b (combine a b) L)); auto.
Qed.
Theorem mapping_spec a b m : mapping a b = inl m <->
  u_dir a = Up /\ u_dir b = Down /\ m = combine (u_params a) (u_params b) /\
  Forall2 (fun x y => iname x = iname y /\ ity x = ity y) (u_params a) (u_params b).
Proof.
  unfold mapping. destruct (u_dir a), (u_dir b); cbn; try (split; [discriminate|intros (? & ? & _); discriminate]).
  destruct (Nat.eqb _ _) eqn:E; cbn [negb].
  - apply Nat.eqb_eq in E. rewrite (map_params_spec _ _ m E). tauto.
  - split; [discriminate|]. intros (_ & _ & _ & F). exfalso. apply Nat.eqb_neq in E. apply E. clear E. induction F; cbn; auto.
Qed.
Theorem mapping_apart a b m : mapping a b = inl m -> NoDup (u_params b) -> (forall x, In x (u_params a) -> ~ In x (u_params b)) -> apart m.
Proof.
  intros M ND D. apply mapping_spec in M as (_ & _ & -> & F). revert ND D. induction F as [|x y la lb [_ T] F IH]; intros ND D.
  { repeat split; [constructor|intros ? ? []|intros ? []]. }
  inversion ND; subst. destruct IH as (A1 & A2 & A3); auto. { intros z Hz K. apply (D z); now right. }
  assert (S2 : forall z, In z (map snd (combine la lb)) -> In z lb). { intros z Hz. apply in_map_iff in Hz as [[p q] [<- Hz]]. now apply in_combine_r in Hz. }
  assert (S1 : forall z, In z (map fst (combine la lb)) -> In z la). { intros z Hz. apply in_map_iff in Hz as [[p q] [<- Hz]]. now apply in_combine_l in Hz. }
  cbn [combine]. split; [|split]; cbn [map fst snd].
  - constructor; auto.
  - intros u v [[= <- <-]|H]; auto.
  - intros z [<-|Hz] [K|K]; [apply (D x); [now left|now left]|apply (D x); [now left|right; auto]|apply (D z); [now right; auto|now left]|apply (A3 z); auto].
Qed.
