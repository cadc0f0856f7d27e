(** Axioms for functions, one equation at a time. *)
From Coq Require Import Bool List String ZArith NArith Reals Lia ClassicalEpsilon.
From Verif.Model Require Import EurEncodings Syntax AstUtil ScopeMap Translate Funcs.
From Verif.Spec Require Import Eur EncSpec Sem Exprs Translated Functions.
From Verif.Proofs Require Import EurLemmas SemLemmas EncProofs ScopeProofs SubstProofs TranslateTerms TranslateStates TranslateProofs TranslateProps.
Import ListNotations.
Local Open Scope list_scope.
Local Open Scope nat_scope.

Definition top (st : tst) : Prop := inv st /\ qstack st = [].
Definition keeps (st st' : tst) : Prop := forall x v, vis st x = Some v -> vis st' x = Some v.
Lemma top_init : top tst_new. Proof. split; [apply inv_init | reflexivity]. Qed.
Lemma keeps_refl st : keeps st st. Proof. intros x v H; exact H. Qed.
Lemma keeps_trans a b c : keeps a b -> keeps b c -> keeps a c. Proof. intros H1 H2 x v H. auto. Qed.

Definition seen (st : tst) (x : ident) (y : symb) : Prop := exists sc, vis st x = Some (y, sc).
Lemma seen_keeps st st' x y : keeps st st' -> seen st x y -> seen st' x y.
Proof. intros K [sc V]. exists sc. auto. Qed.
Lemma seen_list_keeps st st' xs ys : keeps st st' -> Forall2 (seen st) xs ys -> Forall2 (seen st') xs ys.
Proof. intros K. induction 1; constructor; auto. eapply seen_keeps; eauto. Qed.

Definition dummy : interp := {| ifun := fun _ t _ => some_val t; idiv0 := fun r => r; iudiv0 := fun x => x; imod0 := fun z => z; iumod0 := fun n => n |}.
Lemma dummy_ok : interp_ok dummy. Proof. intros f t vs. apply some_val_ty. Qed.

Lemma val_dyn_fun v d d' : val_dyn v d -> val_dyn v d' -> d = d'.
Proof.
  destruct v; destruct d; simpl; try contradiction; destruct d'; simpl; try contradiction; intros; try congruence.
  destruct H as [O1 H1], H0 as [O2 H2]. f_equal. subst e. destruct d, d0; simpl in *; try discriminate; auto.
  f_equal. injection H2 as H2. rewrite !Rmax_right in H2 by auto. auto.
Qed.

Section Equations.
Context (isvar : ident -> bool) (fsig : string -> option (list ty * ty)) (E : encoder).
Notation tr_at fuel := (tr isvar fsig (enc_call E fuel)).
Notation fits_at k := (fits fsig (enc_call E k)).

Lemma tr_plain k e st : plain_expr isvar fsig e -> top st -> exists y st', tr_at k e st = Ok (y, st') /\ top st' /\ keeps st st' /\
  symb_ty y = ty_of e /\ (forall x, fv x e -> exists v, vis st' x = Some v) /\
  (forall I M s, interp_ok I -> fits_at k I M -> encs (fun x => fv x e) st' M s -> enc M y (eval I e s)).
Proof.
  intros (T & S1 & S2) [Iv Q]. apply andb_prop in T. destruct T as [W U]. apply negb_true_iff in U.
  destruct (all_good isvar fsig (enc_call E k) dummy dummy_ok e W U st Iv) as (y & st' & new & Et & Ty & _ & Qn & D).
  specialize (Qn S2). subst new. exists y, st'. split; auto.
  pose proof (d_step _ _ _ _ _ _ _ _ _ D) as St. split; [split; [apply (d_inv _ _ _ _ _ _ _ _ _ D) | rewrite (s_q _ _ _ St); exact Q]|].
  split; [exact (s_vis _ _ _ St)|]. split; auto. split; [apply (d_vis _ _ _ _ _ _ _ _ _ D)|].
  intros I M s HI Hf He. destruct (all_good isvar fsig (enc_call E k) I HI e W U st Iv) as (y' & st'' & new & Et' & _ & _ & Qn & D').
  specialize (Qn S2). subst new. rewrite Et in Et'. injection Et' as <- <-.
  apply (d_corr _ _ _ _ _ _ _ _ _ D'); auto using alltrue_nil. unfold qc. rewrite Q. apply alltrue_nil.
Qed.

Definition go_args (k : nat) : list expr -> tst -> res (list symb * tst) :=
  fix go l st := match l with
                 | [] => Ok ([], st)
                 | a :: l => let? r := tr_at k a st in let? rs := go l (snd r) in Ok (fst r :: fst rs, snd rs)
                 end.
Lemma go_vars k xs : (forall x, In x xs -> isvar x = true) -> forall st, top st -> exists ys st',
  go_args k (map EVar xs) st = Ok (ys, st') /\ top st' /\ keeps st st' /\ Forall2 (seen st') xs ys.
Proof.
  induction xs as [|x xs IH]; intros Hx st [Iv Q].
  - exists [], st. split; [reflexivity|]. split; [split; auto|]. split; [apply keeps_refl|constructor].
  - destruct (get_local_done isvar fsig plain_call dummy x st Iv (Hx x (or_introl eq_refl))) as (v & st1 & E1 & V & _ & D).
    pose proof (d_step _ _ _ _ _ _ _ _ _ D) as St.
    destruct (IH (fun y Hy => Hx y (or_intror Hy)) st1) as (ys & st2 & E2 & T2 & K2 & F2).
    { split; [apply (d_inv _ _ _ _ _ _ _ _ _ D) | rewrite (s_q _ _ _ St); exact Q]. }
    exists (fst v :: ys), st2. split; [|split; auto; split].
    + cbn [map go_args tr]. rewrite E1. cbn [rbind fst snd]. fold (go_args k). rewrite E2. reflexivity.
    + eapply keeps_trans; [exact (s_vis _ _ _ St) | exact K2].
    + constructor; auto. destruct v as [y sc]. exists sc. apply K2. exact V.
Qed.

Definition sig_ok (d : fdecl) : Prop := (forall x, In x (finputs d) -> isvar x = true) /\ fsig (fname d) = Some (map ity (finputs d), fout d).
Definition args_at (ys : list symb) (M : strct) : list dyn := map (fun y => into_dynamic y M) ys.
Definition call_at (k : nat) (d : fdecl) (ys : list symb) : symb :=
  from_dynamic (fout d) (fun M => enc_call E k (fname d) (ufn M) (args_at ys M)).
Lemma tr_call k d st : sig_ok d -> top st -> exists ys st', tr_at k (mk_call_expr d) st = Ok (call_at k d ys, st') /\
  top st' /\ keeps st st' /\ Forall2 (seen st') (finputs d) ys.
Proof.
  intros [Hx Hf] T. destruct (go_vars k (finputs d) Hx st T) as (ys & st' & Eg & T' & K & F).
  exists ys, st'. split; auto. unfold mk_call_expr. cbn [tr]. change ((let? r := go_args k (map EVar (finputs d)) st in
    (let? y := call_term fsig (enc_call E k) (fout d) (fname d) (fst r) in Ok (y, snd r))) = Ok (call_at k d ys, st')).
  rewrite Eg. cbn [rbind fst snd]. unfold call_term. rewrite Hf. replace (ty_eqb (fout d) (fout d)) with true by (symmetry; now apply ty_eqb_eq). reflexivity.
Qed.

Lemma mk_scope_vis xs : forall acc st, (forall x, In x xs -> exists v, vis st x = Some v) ->
  mk_scope isvar (map QShadow xs) acc st = Ok (mkscope (sbounds acc ++ bnds st xs) (scons acc ++ cons_ st xs), st).
Proof.
  induction xs as [|x xs IH]; intros acc st H.
  - simpl. rewrite !app_nil_r. now destruct acc.
  - cbn [map mk_scope qname]. destruct (H x (or_introl eq_refl)) as [[y sc] V].
    assert (Eg : get_local isvar x st = Ok ((y, sc), st)).
    { unfold get_local, sm_contains. unfold vis in V. rewrite V. cbn [rbind]. now rewrite V. }
    rewrite Eg. cbn [rbind fst snd]. rewrite IH by (intros; apply H; now right).
    cbn [append_scope sbounds scons bnds cons_ flat_map]. rewrite V. now rewrite !app_assoc.
Qed.

(** What an equation looks like. *)
Record eqn (p : partial_encoding) (fh fb : nat) (d : fdecl) (e : expr) (st st' : tst) (ax : term bool) (ys : list symb) (yb : symb) : Prop := {
  q_top : top st';
  q_keeps : keeps st st';
  q_seen : Forall2 (seen st') (finputs d) ys;
  q_ax : ax = scope_forall (mkscope (bnds st' (finputs d)) (match p with Partial => cons_ st' (finputs d) | StrengthenToTotal => [] end))
              (dyn_eq (into_dynamic (call_at fh d ys)) (into_dynamic yb));
  q_ty : symb_ty yb = ty_of e;
  q_tr : exists st0, top st0 /\ keeps st0 st' /\ Forall2 (seen st0) (finputs d) ys /\ tr_at fb e st0 = Ok (yb, st');
  q_corr : forall I M s, interp_ok I -> fits_at fb I M -> encs (fun x => In x (finputs d)) st' M s -> enc M yb (eval I e s)
}.

Lemma equation_ok p fh fb d e st : sig_ok d -> plain_expr isvar fsig e -> (forall x, fv x e -> In x (finputs d)) -> top st ->
  exists ax st' ys yb, equation isvar fsig E p fh fb d e st = Ok (ax, st') /\ eqn p fh fb d e st st' ax ys yb.
Proof.
  intros Sd Pe Fe T. destruct (tr_call fh d st Sd T) as (ys & st1 & E1 & T1 & K1 & F1).
  destruct (tr_plain fb e st1 Pe T1) as (yb & st2 & E2 & T2 & K2 & Ty & V2 & C2).
  assert (F2 : Forall2 (seen st2) (finputs d) ys) by (eapply seen_list_keeps; eauto).
  assert (V : forall x, In x (finputs d) -> exists v, vis st2 x = Some v).
  { clear - F2. induction F2 as [|x y xs ys [sc V] _ IH]; simpl; [tauto|]. intros z [<-|Hz]; eauto. }
  eexists _, st2, ys, yb. split.
  - unfold equation, inputs_scope. rewrite E1. cbn [rbind fst snd]. rewrite E2. cbn [rbind fst snd]. rewrite mk_scope_vis by exact V.
    cbn [rbind fst snd scope_new sbounds scons app]. reflexivity.
  - split; auto.
    + eapply keeps_trans; eauto.
    + destruct p; reflexivity.
    + exists st1. auto.
    + intros I M s HI Hf He. apply C2; auto. intros x Hx. apply He. auto.
Qed.

(** The values of the inputs. *)
Lemma encs_args st xs ys M s : Forall2 (seen st) xs ys -> encs (fun x => In x xs) st M s -> Forall2 (enc M) ys (map s xs).
Proof.
  induction 1 as [|x y xs ys [sc V] _ IH]; intros He; simpl; constructor.
  - destruct (He x (or_introl eq_refl)) as (y' & sc' & V' & C). rewrite V in V'. injection V' as <- <-. exact C.
  - apply IH. intros z Hz. apply He. now right.
Qed.
Lemma call_enc k d ys st M s I : interp_ok I -> sig_ok d -> fits_at k I M -> env_ok s -> Forall2 (seen st) (finputs d) ys ->
  encs (fun x => In x (finputs d)) st M s -> enc M (call_at k d ys) (ifun I (fname d) (fout d) (map s (finputs d))).
Proof.
  intros HI [_ Hs] Hf Ok F He. pose proof (encs_args _ _ _ _ _ F He) as H2. unfold call_at. apply from_dynamic_enc; [apply HI|].
  apply (fits_fun _ _ _ _ Hf _ _ _ _ _ Hs).
  - clear - Ok. induction (finputs d); simpl; constructor; auto.
  - unfold args_at. clear - H2. induction H2; simpl; constructor; auto using into_dynamic_val.
Qed.

Lemma cons_in st xs x y sc c : In x xs -> vis st x = Some (y, sc) -> In c (scons sc) -> In c (cons_ st xs).
Proof. intros Hx V Hc. unfold cons_. apply in_flat_map. exists x. split; auto. now rewrite V. Qed.

(** A structure that satisfies the constraints of the inputs gives them values; and values can be given. *)
Lemma decode_inputs st xs M : inv st -> (forall x, In x xs -> exists v, vis st x = Some v) -> alltrue (cons_ st xs) M ->
  exists s, env_ok s /\ encs (fun x => In x xs) st M s.
Proof.
  intros Iv V C. destruct (decode_env (fun x => In x xs) st M Iv V) as (s & Ts & Es).
  { intros x y sc Hx Vx c Hc. apply C. eapply cons_in; eauto. }
  exists (fun x => if in_dec ident_dec x xs then s x else some_val (ity x)). split.
  - intros x. destruct (in_dec ident_dec x xs); auto using some_val_ty.
  - intros x Hx. destruct (Es x Hx) as (y & sc & Vx & C'). exists y, sc. split; auto. destruct (in_dec ident_dec x xs); tauto.
Qed.
Lemma assign_inputs st xs M s : inv st -> (forall x, In x xs -> exists v, vis st x = Some v) -> env_ok s ->
  exists M', agree_off (bnds st xs) M M' /\ alltrue (cons_ st xs) M' /\ encs (fun x => In x xs) st M' s.
Proof.
  intros Iv V Hs. destruct (assign isvar st Iv xs V s M (fun x _ => Hs x)) as (M' & A & H). exists M'. split; auto. split.
  - intros c Hc. unfold cons_ in Hc. apply in_flat_map in Hc. destruct Hc as (x & Hx & Hc). destruct (vis st x) as [[y sc]|] eqn:Vx; [|destruct Hc].
    now apply (H x y sc Hx Vx).
  - intros x Hx. destruct (V x Hx) as [[y sc] Vx]. exists y, sc. split; auto. now apply (H x y sc Hx Vx).
Qed.
Lemma seen_vis st xs ys : Forall2 (seen st) xs ys -> forall x, In x xs -> exists v, vis st x = Some v.
Proof. induction 1 as [|x y xs ys [sc V] _ IH]; simpl; [tauto|]. intros z [<-|Hz]; eauto. Qed.

Lemma dyn_eq_iff a b M : dyn_eq a b M = true <-> a M = b M. Proof. apply holds_iff. Qed.

(** In structures that fit, an equation says what it should for arguments of the right types. *)
Lemma eqn_partial fh fb d e st st' ax ys yb I M : interp_ok I -> sig_ok d -> ty_of e = fout d -> eqn Partial fh fb d e st st' ax ys yb ->
  fits_at fh I M -> fits_at fb I M -> (forall s, env_ok s -> ifun I (fname d) (fout d) (map s (finputs d)) = eval I e s) -> ax M = true.
Proof.
  intros HI Sd Te [T K F Ax Ty _ C] Hh Hb Heq. rewrite Ax. apply scope_forall_iff. cbn [sbounds scons]. intros M' A Cs. apply dyn_eq_iff.
  destruct (decode_inputs st' (finputs d) M' (proj1 T) (seen_vis _ _ _ F) Cs) as (s & Hs & He).
  pose proof (fits_off _ _ _ _ _ _ A Hh) as Hh'. pose proof (fits_off _ _ _ _ _ _ A Hb) as Hb'.
  eapply val_dyn_fun.
  - apply into_dynamic_val. eapply call_enc; eauto.
  - rewrite Heq by auto. apply into_dynamic_val. apply C; auto.
Qed.
Lemma eqn_says p fh fb d e st st' ax ys yb I M : interp_ok I -> sig_ok d -> ty_of e = fout d -> eqn p fh fb d e st st' ax ys yb ->
  fits_at fh I M -> fits_at fb I M -> ax M = true -> forall s, env_ok s -> ifun I (fname d) (fout d) (map s (finputs d)) = eval I e s.
Proof.
  intros HI Sd Te [T K F Ax Ty _ C] Hh Hb Ha s Hs. rewrite Ax in Ha. rewrite scope_forall_iff in Ha. cbn [sbounds scons] in Ha.
  destruct (assign_inputs st' (finputs d) M s (proj1 T) (seen_vis _ _ _ F) Hs) as (M' & A & Cs & He).
  assert (Q : dyn_eq (into_dynamic (call_at fh d ys)) (into_dynamic yb) M' = true).
  { apply Ha; auto. destruct p; auto using alltrue_nil. }
  apply dyn_eq_iff in Q. pose proof (fits_off _ _ _ _ _ _ A Hh) as Hh'. pose proof (fits_off _ _ _ _ _ _ A Hb) as Hb'.
  pose proof (into_dynamic_val _ _ _ (call_enc fh d ys st' M' s I HI Sd Hh' Hs F He)) as V1.
  pose proof (C I M' s HI Hb' He) as V2. pose proof (enc_ty _ _ _ V2) as T2. rewrite Ty, Te in T2. apply into_dynamic_val in V2.
  rewrite Q in V1. eapply val_dyn_inj; eauto.
Qed.
End Equations.
