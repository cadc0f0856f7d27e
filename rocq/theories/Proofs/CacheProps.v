(** What the cache changes and what it does not. *)
From Coq Require Import Bool List String Arith ZArith NArith Reals Lia ClassicalEpsilon.
From Verif.Model Require Orders.
From Verif.Model Require Import EurEncodings Syntax AstUtil ScopeMap Translate TranslateCache.
From Verif.Spec Require Import Eur EncSpec Sem Exprs Translated Cached.
From Verif.Proofs Require Import EurLemmas SemLemmas EncProofs ScopeProofs SubstProofs TranslateTerms TranslateStates TranslateProofs TranslateProps CacheProofs.
Import ListNotations.
Local Open Scope list_scope.
Local Open Scope nat_scope.

Lemma surjective_scope s : s = mkscope (sbounds s) (scons s). Proof. now destruct s. Qed.

Section Props.
Context {A : Type} (same : A -> A -> bool) (ptr : nat -> expr -> A) (refs : nat -> A -> nat) (heap : A -> expr).
Context (same_eq : forall p q, same p q = true -> p = q) (heap_ptr : forall n e, heap (ptr n e) = e).
Context (isvar : ident -> bool) (fsig : string -> option (list ty * ty)).

Lemma cok_new ecall I : cok heap fsig ecall I [] cst_new.
Proof. exists [], []. split; auto. intros p y []. Qed.
Lemma hok_new b : hok [] b.
Proof. split; intros c []. Qed.

(** * One question *)
Section One.
Context (ecall : encoding).
Lemma translate_c_spec e : translatable isvar fsig e = true -> ty_of e = TBool -> forall I, interp_ok I ->
  exists t cs, translate_c same ptr refs isvar fsig ecall e = Ok (t, cs) /\ translated fsig ecall e I t cs.
Proof.
  intros T Tb I HI. apply andb_prop in T. destruct T as [W U]. apply negb_true_iff in U.
  destruct (all_good_c same ptr refs heap same_eq heap_ptr isvar fsig ecall I HI e W U [] cst_new inv_init (hok_new _) (cok_new ecall I)) as (y & st & new & E & Ty & _ & _ & D & _).
  rewrite Tb in Ty. destruct y as [b| | | | |]; try discriminate Ty. cbn [base cst_new] in D.
  pose proof (d_step _ _ _ _ _ _ _ _ _ D) as S. pose proof (d_inv _ _ _ _ _ _ _ _ _ D) as Iv.
  destruct (s_loc _ _ _ S) as (l & l' & ms & E1 & E2). cbn in E1. injection E1 as <- <-.
  destruct (local_iter_vis (base st) l' Iv E2) as (ls & El & Hls).
  exists b, (new ++ flat_map (fun p : ident * (symb * scope) => scons (snd (snd p))) ls). split.
  - unfold translate_c. replace (ty_eqb (ty_of e) TBool) with true by (symmetry; now apply ty_eqb_eq).
    rewrite E. cbn [rbind fst snd]. unfold local_scope. rewrite (s_lim _ _ _ S). cbn [tst_new limits add_outermost]. rewrite El. cbn [rbind].
    rewrite extend_scope_cons. cbn [scons scope_new app]. do 3 f_equal. clear. induction ls as [|p ls IH]; simpl; congruence.
  - exists (base st), new, ls. split; auto. split; auto. split; auto. split; [exact (s_q _ _ _ S) | exact D].
Qed.
Definition any_interp : interp := {| ifun := fun _ t _ => some_val t; idiv0 := fun r => r; iudiv0 := fun x => x; imod0 := fun z => z; iumod0 := fun n => n |}.
Lemma any_interp_ok : interp_ok any_interp. Proof. intros f t vs. apply some_val_ty. Qed.
Lemma cached_no_panic e : translatable isvar fsig e = true -> ty_of e = TBool -> exists t cs, translate_c same ptr refs isvar fsig ecall e = Ok (t, cs).
Proof. intros T Tb. destruct (translate_c_spec e T Tb any_interp any_interp_ok) as (t & cs & E & _). eauto. Qed.
Lemma cached_translated e I t cs : translatable isvar fsig e = true -> ty_of e = TBool -> interp_ok I -> translate_c same ptr refs isvar fsig ecall e = Ok (t, cs) -> translated fsig ecall e I t cs.
Proof. intros T Tb HI E. destruct (translate_c_spec e T Tb I HI) as (t' & cs' & E' & H). rewrite E in E'. injection E' as -> ->. exact H. Qed.

Lemma cached_models e I t cs : translatable isvar fsig e = true -> ty_of e = TBool -> some eur_sub e = false -> interp_ok I -> translate_c same ptr refs isvar fsig ecall e = Ok (t, cs) ->
  forall M, fits fsig ecall I M -> Forall (fun c => c M = true) cs -> exists s, env_ok s /\ eval I e s = VBool (t M).
Proof. intros T Tb HS HI E. apply (models_to_states_x isvar fsig ecall e I t cs HS (cached_translated e I t cs T Tb HI E)). Qed.
Lemma cached_states e I t cs : translatable isvar fsig e = true -> ty_of e = TBool -> some eur_sub e = false -> interp_ok I -> translate_c same ptr refs isvar fsig ecall e = Ok (t, cs) ->
  forall s M0, env_ok s -> fits fsig ecall I M0 -> exists M, fits fsig ecall I M /\ Forall (fun c => c M = true) cs /\ eval I e s = VBool (t M).
Proof. intros T Tb HS HI E. apply (states_to_models_x isvar fsig ecall e I t cs HS (cached_translated e I t cs T Tb HI E)). Qed.
Lemma cached_valid e I t cs : translatable isvar fsig e = true -> ty_of e = TBool -> some eur_sub e = false -> interp_ok I -> translate_c same ptr refs isvar fsig ecall e = Ok (t, cs) ->
  forall M0, fits fsig ecall I M0 ->
  ((forall M, fits fsig ecall I M -> Forall (fun c => c M = true) cs -> t M = true) <-> (forall s, env_ok s -> eval I e s = VBool true)).
Proof. intros T Tb HS HI E. apply (valid_iff_x isvar fsig ecall e I t cs HS (cached_translated e I t cs T Tb HI E)). Qed.
End One.

(** * Several questions *)
Record sdone (I : interp) (ecs : list encoding) (old : list (term bool)) (es : list expr) (ys : list symb) (b : tst) (new : list (term bool)) (b' : tst) : Prop := {
  sd_step : step b new b';
  sd_inv : inv b';
  sd_vis : forall x, Exists (fv x) es -> exists v, vis b' x = Some v;
  sd_below : forall c, In c new -> below (nxt b') c;
  sd_corr : Forall (fun e => some eur_sub e = false) es -> forall M s, fits_all ecs fsig I M -> alltrue (old ++ new) M -> alltrue (qc b) M ->
    encs (fun x => Exists (fv x) es) b' M s -> Forall2 (fun e y => enc M y (eval I e s)) es ys;
  sd_ex : Forall (fun e => some eur_sub e = false) es -> forall M, fits_all ecs fsig I M -> alltrue old M -> gok (fun x => Exists (fv x) es) b' M ->
    exists M', skdiff (nxt b) (nxt b') M M' /\ alltrue new M'
}.
Lemma fits_all_agree ecs I k M M' : agree k M M' -> fits_all ecs fsig I M -> fits_all ecs fsig I M'.
Proof. intros G. unfold fits_all. apply Forall_impl. intros ec. now apply fits_agree with (k := k). Qed.
Lemma session_good I (HI : interp_ok I) cs : forall ecall old (st : cst A), Forall (fun e => translatable isvar fsig e = true) (asked cs) ->
  inv (base st) -> hok old (base st) -> cok heap fsig ecall I old st -> exists ys st' new,
  session same ptr refs isvar fsig ecall cs st = Ok (ys, st') /\ sdone I (encodings ecall cs) old (asked cs) ys (base st) new (base st').
Proof.
  induction cs as [|[e|ec] cs IH]; intros ecall old st T Iv Ho Co; cbn [session].
  - exists [], st, []. split; auto. split; auto.
    + now apply step_refl.
    + intros x H. inversion H.
    + intros c [].
    + constructor.
    + intros _ M _ _ _. exists M. split; [apply skdiff_refl | apply alltrue_nil].
  - cbn [asked flat_map app] in T. fold (asked cs) in T. inversion T as [|? ? Te Tes]; subst. apply andb_prop in Te. destruct Te as [W U]. apply negb_true_iff in U.
    destruct (all_good_c same ptr refs heap same_eq heap_ptr isvar fsig ecall I HI e W U old st Iv Ho Co) as (y & st1 & n1 & E1 & _ & _ & _ & D1 & C1 & _).
    pose proof (hok_step _ _ _ _ _ _ _ _ _ _ Ho D1) as Ho1.
    destruct (IH ecall (old ++ n1) st1 Tes (d_inv _ _ _ _ _ _ _ _ _ D1) Ho1 C1) as (ys & st2 & n2 & E2 & D2).
    rewrite E1. cbn [rbind fst snd]. rewrite E2. cbn [rbind fst snd]. exists (y :: ys), st2, (n1 ++ n2). split; auto.
    cbn [asked flat_map app]. fold (asked cs). change (encodings ecall (Ask e :: cs)) with (encodings ecall cs).
    destruct D1 as [A1 A2 A3 A4 A5 A6 A7], D2 as [B1 B2 B3 B4 B5 B6]. split; auto.
    + eapply step_trans; eauto.
    + intros x Hx. inversion Hx; subst; auto. destruct (A3 x) as [v V]; auto. exists v. now apply (s_vis _ _ _ B1).
    + intros c Hc. apply in_app_or in Hc. destruct Hc as [Hc|Hc]; auto. eapply below_le; [|apply A4; auto]. apply (s_nxt _ _ _ B1).
    + intros Hs M s Hf Hn Hq He. inversion Hs; subst. rewrite app_assoc in Hn. pose proof Hn as Hn'. apply alltrue_app in Hn'. destruct Hn' as [Hn1 Hn2]. constructor.
      * apply A6; auto; [now inversion Hf|]. eapply encs_step; [exact B1 | auto |]. intros x Hx. apply He. auto.
      * apply B5; auto; [now rewrite (step_qc _ _ _ A1)|]. intros x Hx. apply He. auto.
    + intros Hs M Hf Hh G. inversion Hs; subst.
      destruct (A7 ltac:(auto) M) as (M1 & K1 & T1); auto; [now inversion Hf | |].
      { eapply gok_step; [exact B1|]. intros x z sc Hx V. apply (G x z sc); auto. }
      destruct (B6 ltac:(auto) M1) as (M2 & K2 & T2).
      { eapply fits_all_agree; [|exact Hf]. eapply skdiff_agree; eauto. }
      { apply alltrue_app. split; auto. eapply alltrue_below; [|apply (skdiff_agree _ _ _ _ K1)|exact Hh]. intros c Hc. now apply (h_below _ _ Ho). }
      { eapply gok_sk; [exact B2 | exact K1 |]. intros x z sc Hx V. apply (G x z sc); auto. }
      exists M2. split.
      * eapply skdiff_trans; [| |exact K1|exact K2]; [apply (s_nxt _ _ _ A1) | apply (s_nxt _ _ _ B1)].
      * apply alltrue_app. split; auto. eapply alltrue_below; [|apply (skdiff_agree _ _ _ _ K2)|exact T1]. auto.
  - destruct (IH ec old (cache_clear st) T Iv Ho) as (ys & st' & new & E & D).
    { destruct Co as (l & ls & El & _). unfold cok, cache_clear. cbn [cache base]. rewrite El. exists [], (map (fun _ => []) ls). split; auto. intros p y []. }
    exists ys, st', new. split; auto. cbn [asked flat_map app]. fold (asked cs). cbn [base cache_clear] in D.
    destruct D as [B1 B2 B3 B4 B5 B6]. split; auto.
    + intros Hs M s Hf. apply B5; auto. unfold fits_all in *. now inversion Hf.
    + intros Hs M Hf. apply B6; auto. unfold fits_all in *. now inversion Hf.
Qed.

Section Several.
Context (ecall : encoding) (cs : list command) (HT : Forall (fun e => translatable isvar fsig e = true) (asked cs)).
Notation run := (session same ptr refs isvar fsig ecall cs cst_new).
Lemma session_spec I : interp_ok I -> exists ys st new ls, run = Ok (ys, st) /\
  local_scope (base st) = Ok (mkscope (flat_map (fun p : ident * (symb * scope) => sbounds (snd (snd p))) ls) (new ++ flat_map (fun p : ident * (symb * scope) => scons (snd (snd p))) ls)) /\
  (forall x v, In (x, v) ls <-> vis (base st) x = Some v) /\ inv (base st) /\ sdone I (encodings ecall cs) [] (asked cs) ys tst_new new (base st).
Proof.
  intros HI. destruct (session_good I HI cs ecall [] cst_new HT inv_init (hok_new _) (cok_new ecall I)) as (ys & st & new & E & D).
  cbn [base cst_new] in D. pose proof (sd_step _ _ _ _ _ _ _ _ D) as S. pose proof (sd_inv _ _ _ _ _ _ _ _ D) as Iv.
  destruct (s_loc _ _ _ S) as (l & l' & ms & E1 & E2). cbn in E1. injection E1 as <- <-.
  destruct (local_iter_vis (base st) l' Iv E2) as (ls & El & Hls).
  exists ys, st, new, ls. split; auto. split; [|auto].
  unfold local_scope. rewrite (s_lim _ _ _ S). cbn [tst_new limits add_outermost]. rewrite El. cbn [rbind]. f_equal.
  match goal with |- ?x = _ => rewrite (surjective_scope x) end. f_equal.
  - rewrite extend_scope_bounds. cbn [sbounds scope_new app]. clear. induction ls as [|p ls IH]; simpl; congruence.
  - rewrite extend_scope_cons. cbn [scons scope_new app]. f_equal. clear. induction ls as [|p ls IH]; simpl; congruence.
Qed.
Lemma session_no_panic : exists ys st sc, run = Ok (ys, st) /\ local_scope (base st) = Ok sc.
Proof. destruct (session_spec any_interp any_interp_ok) as (ys & st & new & ls & E & L & _). eauto. Qed.

Context (I : interp) (HI : interp_ok I) (HS : Forall (fun e => some eur_sub e = false) (asked cs)) (ys : list symb) (st : cst A) (sc : scope) (HE : run = Ok (ys, st)) (HL : local_scope (base st) = Ok sc).
Lemma to_dynamic M s es zs : Forall2 (fun e y => enc M y (eval I e s)) es zs -> answers I M s es zs.
Proof. unfold answers. induction 1; constructor; auto using into_dynamic_val. Qed.

Lemma session_models M : fits_all (encodings ecall cs) fsig I M -> Forall (fun c => c M = true) (scons sc) -> exists s, env_ok s /\ answers I M s (asked cs) ys.
Proof.
  intros F C. destruct (session_spec I HI) as (ys' & st' & new & ls & E & L & Hls & Iv & D). rewrite HE in E. injection E as <- <-. rewrite HL in L. injection L as ->.
  cbn [scons] in C. rewrite Forall_forall in C. change (alltrue (new ++ flat_map (fun p : ident * (symb * scope) => scons (snd (snd p))) ls) M) in C.
  apply alltrue_app in C. destruct C as [C1 C2].
  destruct (decode_env (fun x => Exists (fv x) (asked cs)) (base st) M Iv (sd_vis _ _ _ _ _ _ _ _ D)) as (s & Ts & Es).
  { intros x y k _ V c Hc. apply C2. apply in_flat_map. exists (x, (y, k)). split; auto. now apply Hls. }
  exists (fun x => if excluded_middle_informative (Exists (fv x) (asked cs)) then s x else some_val (ity x)). split.
  - intros x. destruct (excluded_middle_informative _); auto using some_val_ty.
  - apply to_dynamic. apply (sd_corr _ _ _ _ _ _ _ _ D); auto.
    + intros c [].
    + intros x Hx. destruct (Es x Hx) as (y & k & V & C). exists y, k. split; auto. destruct (excluded_middle_informative _); tauto.
Qed.
Lemma session_states s M0 : env_ok s -> fits_all (encodings ecall cs) fsig I M0 ->
  exists M, fits_all (encodings ecall cs) fsig I M /\ Forall (fun c => c M = true) (scons sc) /\ answers I M s (asked cs) ys.
Proof.
  intros Hs F0. destruct (session_spec I HI) as (ys' & st' & new & ls & E & L & Hls & Iv & D). rewrite HE in E. injection E as <- <-. rewrite HL in L. injection L as ->.
  destruct (assign isvar (base st) Iv (map fst ls)) with (s := s) (M := M0) as (M1 & A1 & V1).
  { intros x Hx. apply in_map_iff in Hx. destruct Hx as ([x' v] & <- & Hx). exists v. now apply Hls. }
  { intros x _. apply Hs. }
  assert (V1' : forall x y k, vis (base st) x = Some (y, k) -> enc M1 y (s x) /\ alltrue (scons k) M1).
  { intros x y k V. apply V1; auto. apply in_map_iff. exists (x, (y, k)). split; auto. now apply Hls. }
  assert (F1 : fits_all (encodings ecall cs) fsig I M1). { revert F0. unfold fits_all. apply Forall_impl. intros ec. eapply fits_off; eauto. }
  destruct (sd_ex _ _ _ _ _ _ _ _ D HS M1 F1) as (M & S & T). { apply alltrue_nil. } { intros x y k _ V. right. apply (V1' x y k V). }
  assert (F : fits_all (encodings ecall cs) fsig I M) by (eapply fits_all_agree; [eapply skdiff_agree; exact S | exact F1]).
  assert (EM : forall x y k, vis (base st) x = Some (y, k) -> enc M y (s x) /\ alltrue (scons k) M).
  { intros x y k V. destruct (V1' x y k V) as [G1 G2]. destruct (inv_vis _ Iv _ _ _ V) as (n & _ & En & _). destruct S as (S1&S2&S3&_).
    assert (y = fst (fresh_sym (ity x) n)) as Ey by now rewrite <- En. assert (k = snd (fresh_sym (ity x) n)) as Esc by now rewrite <- En.
    subst y k. split; [|eapply fresh_cons_consts; eauto].
    revert G1. destruct (ity x), (s x); simpl; rewrite ?S1, ?S2, ?S3; auto. }
  exists M. split; auto. split.
  - cbn [scons]. rewrite Forall_forall. intros c Hc. apply in_app_or in Hc. destruct Hc as [Hc|Hc]; [now apply T|].
    apply in_flat_map in Hc. destruct Hc as ([x [y k]] & Hx & Hc). apply Hls in Hx. now apply (EM x y k Hx).
  - apply to_dynamic. apply (sd_corr _ _ _ _ _ _ _ _ D); auto.
    + intros c [].
    + intros x Hx. destruct (sd_vis _ _ _ _ _ _ _ _ D x Hx) as [[y k] V]. exists y, k. split; auto. now apply (EM x y k).
Qed.
End Several.
End Props.
