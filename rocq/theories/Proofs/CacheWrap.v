(** Statements about the cache for arbitrary pointers, and when the cache answers nothing. *)
From Coq Require Import Bool List String Arith ZArith Lia.
From Verif.Model Require Orders.
From Verif.Model Require Import EurEncodings Syntax AstUtil ScopeMap Translate TranslateCache.
From Verif.Spec Require Import Sem Exprs Translated Cached.
From Verif.Proofs Require Import SemLemmas TranslateProps CacheProofs CacheProps CacheCount.
Import ListNotations.
Local Open Scope list_scope.
Local Open Scope nat_scope.

Section Off.
Context {A : Type} (same : A -> A -> bool) (ptr : nat -> expr -> A) (refs : nat -> A -> nat).
Context (isvar : ident -> bool) (fsig : string -> option (list ty * ty)) (ecall : encoding).
Context (few : forall n p, refs n p <= 2).
Notation trc := (trc same ptr refs isvar fsig ecall).
Definition ismiss (v : event A) : Prop := exists p, v = Miss p.
Definition misses (st st' : cst A) : Prop := Forall ismiss (trace st) -> Forall ismiss (trace st').
Lemma visit_misses e body st y st' : (forall y' s', body (tick st) = Ok (y', s') -> misses (tick st) s') -> visit same ptr refs e body st = Ok (y, st') -> misses st st'.
Proof.
  intros Hb. unfold visit. rewrite (unworthy refs few), andb_false_r. cbn [rbind]. destruct (body (tick st)) as [[y1 s1]| |] eqn:B; try discriminate. cbn [rbind fst snd].
  rewrite (unworthy refs few), andb_false_r. cbn [rbind]. intros H F. inversion H; subst. cbn. constructor; [now eexists|]. now apply (Hb y s1).
Qed.
Lemma trc_misses e : forall st y st', trc e st = Ok (y, st') -> misses st st'.
Proof.
  induction e as [x|t f args IH|t c a b IHc IHa IHb|t op a b IHa IHb|t op a IHa|t a IHa|op xs a IHa|x b a IHb IHa|t l] using expr_rect'; intros st y st'; cbn [trc]; apply visit_misses; intros y' s' H.
  - unfold get_local_c in H. destruct (get_local isvar x (base (tick st))) as [r| |]; inversion H; subst. exact (fun F => F).
  - match type of H with rbind ?g _ = _ => destruct g as [[ys s1]| |] eqn:G end; try discriminate H. cbn [rbind fst snd] in H. destruct (call_term fsig ecall t f ys); inversion H; subst.
    clear H. revert G. generalize (tick st). revert ys. induction IH as [|a l Ha _ IH]; intros ys s0 G; [inversion G; subst; exact (fun F => F)|].
    destruct (trc a s0) as [[ya sa]| |] eqn:Ea; try discriminate G. cbn [rbind fst snd] in G.
    match type of G with rbind ?g _ = _ => destruct g as [[yl sl]| |] eqn:G' end; try discriminate G. inversion G; subst. intros F. eapply IH; eauto. eapply Ha; eauto.
  - destruct (ty_eqb (ty_of c) TBool); [|discriminate H].
    destruct (trc c (tick st)) as [[y1 s1]| |] eqn:E1; try discriminate H. cbn [rbind fst snd] in H. destruct (ty_eqb (ty_of a) t); [|discriminate H].
    destruct (trc a s1) as [[y2 s2]| |] eqn:E2; try discriminate H. cbn [rbind fst snd] in H. destruct (ty_eqb (ty_of b) t); [|discriminate H].
    destruct (trc b s2) as [[y3 s3]| |] eqn:E3; try discriminate H. cbn [rbind fst snd] in H. destruct (ite_term _ _ _ _); inversion H; subst.
    intros F. eapply IHb; eauto. eapply IHa; eauto. eapply IHc; eauto.
  - destruct (ty_eqb (ty_of a) _); [|discriminate H].
    destruct (trc a (tick st)) as [[y1 s1]| |] eqn:E1; try discriminate H. cbn [rbind fst snd] in H. destruct (ty_eqb (ty_of b) _); [|discriminate H].
    destruct (trc b s1) as [[y2 s2]| |] eqn:E2; try discriminate H. cbn [rbind fst snd] in H. destruct (bin_term _ _ _ _); inversion H; subst.
    intros F. eapply IHb; eauto. eapply IHa; eauto.
  - destruct (ty_eqb (ty_of a) _); [|discriminate H]. destruct (trc a (tick st)) as [[y1 s1]| |] eqn:E1; try discriminate H. cbn [rbind fst snd] in H. destruct (un_term _ _ _); inversion H; subst. exact (IHa _ _ _ E1).
  - destruct (trc a (tick st)) as [[y1 s1]| |] eqn:E1; try discriminate H. cbn [rbind fst snd] in H. destruct (cast_term _ _); inversion H; subst. exact (IHa _ _ _ E1).
  - destruct (ty_of a); try discriminate H; destruct (init_quantifier_free_vars isvar a xs (base (tick st))) as [b| |]; try discriminate H; cbn [rbind] in H; unfold enter_c in H;
      (destruct (enter isvar xs b) as [[sc b1]| |]; try discriminate H); cbn [rbind fst snd] in H;
      match type of H with context [trc a ?s] => destruct (trc a s) as [[y1 s1]| |] eqn:E1; try discriminate H end; cbn [rbind fst snd] in H; unfold leave_c in H;
      (destruct (leave (base s1)) as [b2| |]; try discriminate H); cbn [rbind] in H; destruct y1; try discriminate H; try (destruct op; try discriminate H); inversion H; subst; exact (IHa _ _ _ E1).
  - discriminate H.
  - destruct (lit_term t l); inversion H; subst. exact (fun F => F).
Qed.
Lemma wrapped_off e y st : trc e cst_new = Ok (y, st) -> forall lit v, In v (trace st) -> wrapped lit v = lit (addr v).
Proof.
  intros E lit v Hv. assert (F : Forall ismiss (trace st)) by (apply (trc_misses e _ _ _ E); constructor). rewrite Forall_forall in F. destruct (F v Hv) as [p ->]. reflexivity.
Qed.
End Off.

Section Pointers.
Context (A : Type) (same : A -> A -> bool) (ptr : nat -> expr -> A) (refs : nat -> A -> nat) (HP : pointers same ptr).
Context (isvar : ident -> bool) (fsig : string -> option (list ty * ty)) (ecall : encoding).
Lemma pt_eq p q : same p q = true -> p = q. Proof. now apply (pt_same _ _ HP). Qed.
Lemma c51_no_panic e : translatable isvar fsig e = true -> ty_of e = TBool -> exists t cs, translate_c same ptr refs isvar fsig ecall e = Ok (t, cs).
Proof. destruct (pt_heap _ _ HP) as [heap Hh]. apply (cached_no_panic same ptr refs heap pt_eq Hh). Qed.
Lemma c51_models e I t cs : translatable isvar fsig e = true -> ty_of e = TBool -> some eur_sub e = false -> interp_ok I -> translate_c same ptr refs isvar fsig ecall e = Ok (t, cs) ->
  forall M, fits fsig ecall I M -> Forall (fun c => c M = true) cs -> exists s, env_ok s /\ eval I e s = VBool (t M).
Proof. destruct (pt_heap _ _ HP) as [heap Hh]. apply (cached_models same ptr refs heap pt_eq Hh). Qed.
Lemma c51_states e I t cs : translatable isvar fsig e = true -> ty_of e = TBool -> some eur_sub e = false -> interp_ok I -> translate_c same ptr refs isvar fsig ecall e = Ok (t, cs) ->
  forall s M0, env_ok s -> fits fsig ecall I M0 -> exists M, fits fsig ecall I M /\ Forall (fun c => c M = true) cs /\ eval I e s = VBool (t M).
Proof. destruct (pt_heap _ _ HP) as [heap Hh]. apply (cached_states same ptr refs heap pt_eq Hh). Qed.
Lemma c51_same e I t cs t' cs' : translatable isvar fsig e = true -> ty_of e = TBool -> some eur_sub e = false -> interp_ok I ->
  translate_c same ptr refs isvar fsig ecall e = Ok (t, cs) -> translate isvar fsig ecall e = Ok (t', cs') -> forall M0, fits fsig ecall I M0 ->
  ((forall M, fits fsig ecall I M -> Forall (fun c => c M = true) cs -> t M = true) <-> (forall M, fits fsig ecall I M -> Forall (fun c => c M = true) cs' -> t' M = true)).
Proof.
  intros T Tb HS HI E E' M0 F. destruct (pt_heap _ _ HP) as [heap Hh].
  rewrite (cached_valid same ptr refs heap pt_eq Hh isvar fsig ecall e I t cs T Tb HS HI E M0 F).
  symmetry. apply (valid_iff_x isvar fsig ecall e I t' cs' HS) with (M0 := M0); auto. apply (translate_translated isvar fsig ecall e I t' cs' T Tb HI E').
Qed.
Lemma c51_session_no_panic cs : Forall (fun e => translatable isvar fsig e = true) (asked cs) ->
  exists ys st sc, session same ptr refs isvar fsig ecall cs cst_new = Ok (ys, st) /\ local_scope (base st) = Ok sc.
Proof. destruct (pt_heap _ _ HP) as [heap Hh]. apply (session_no_panic same ptr refs heap pt_eq Hh). Qed.
Lemma c51_session_models cs I ys st sc : Forall (fun e => translatable isvar fsig e = true) (asked cs) -> Forall (fun e => some eur_sub e = false) (asked cs) -> interp_ok I ->
  session same ptr refs isvar fsig ecall cs cst_new = Ok (ys, st) -> local_scope (base st) = Ok sc ->
  forall M, fits_all (encodings ecall cs) fsig I M -> Forall (fun c => c M = true) (scons sc) -> exists s, env_ok s /\ answers I M s (asked cs) ys.
Proof. destruct (pt_heap _ _ HP) as [heap Hh]. intros H1 H2 H3 H4 H5. eapply (session_models same ptr refs heap pt_eq Hh); eauto. Qed.
Lemma c51_session_states cs I ys st sc : Forall (fun e => translatable isvar fsig e = true) (asked cs) -> Forall (fun e => some eur_sub e = false) (asked cs) -> interp_ok I ->
  session same ptr refs isvar fsig ecall cs cst_new = Ok (ys, st) -> local_scope (base st) = Ok sc ->
  forall s M0, env_ok s -> fits_all (encodings ecall cs) fsig I M0 ->
  exists M, fits_all (encodings ecall cs) fsig I M /\ Forall (fun c => c M = true) (scons sc) /\ answers I M s (asked cs) ys.
Proof. destruct (pt_heap _ _ HP) as [heap Hh]. intros H1 H2 H3 H4 H5. eapply (session_states same ptr refs heap pt_eq Hh); eauto. Qed.
End Pointers.
Lemma c51_once (A : Type) same ptr (refs : nat -> A -> nat) : pointers same ptr -> (forall n e, ptr n e = ptr 0 e) -> (forall n p, 2 < refs n p) ->
  forall isvar fsig ecall e y st, Forall plain_at (subexprs e) -> trc same ptr refs isvar fsig ecall e cst_new = Ok (y, st) ->
  NoDup (missed (trace st)) /\ incl (missed (trace st)) (map (ptr 0) (subexprs e)) /\ forall l, incl (subexprs e) l -> List.length (missed (trace st)) <= List.length l.
Proof. intros [Hs [heap Hh]] St Mn isvar fsig ecall e y st. apply (once same ptr refs isvar fsig ecall heap Hs Hh St Mn). Qed.
