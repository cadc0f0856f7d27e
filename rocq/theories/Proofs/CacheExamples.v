(** Witnesses about the cache. *)
From Coq Require Import Bool List String Arith ZArith QArith Lia ClassicalEpsilon.
From Verif.Model Require Orders.
From Verif.Model Require Import EurEncodings Syntax AstUtil ScopeMap Translate TranslateCache.
From Verif.Spec Require Import Sem Exprs Translated Cached.
From Verif.Proofs Require Import SemLemmas CacheProofs CacheProps CacheCount.
Import ListNotations.
Local Open Scope list_scope.
Local Open Scope nat_scope.

(** * Pointers of a program in which equal expressions are one *)
Definition itself (n : nat) (e : expr) : expr := e.
Definition equal (p q : expr) : bool := holds (p = q).
Lemma holds_true (P : Prop) : P -> holds P = true.
Proof. unfold holds. now destruct (excluded_middle_informative P). Qed.
Lemma holds_false (P : Prop) : ~ P -> holds P = false.
Proof. unfold holds. now destruct (excluded_middle_informative P). Qed.
Lemma equal_pointers : pointers equal itself.
Proof.
  split.
  - intros p q. unfold equal, holds. destruct (excluded_middle_informative (p = q)); split; congruence.
  - exists (fun e => e). reflexivity.
Qed.

(** * Doubling *)
Lemma doubled_subexprs t n : exists l, List.length l = S n /\ incl (subexprs (doubled t n)) l.
Proof.
  induction n as [|n (l & L & H)]; [exists [ELit t (LFrac 1)]; split; auto; apply incl_refl|].
  exists (doubled t (S n) :: l). split; [cbn [List.length]; lia|]. cbn [doubled subexprs]. intros a [<-|Ha]; [now left|]. right. apply in_app_or in Ha. destruct Ha; auto.
Qed.
Section Doubled.
Context {A : Type} (same : A -> A -> bool) (ptr : nat -> expr -> A) (refs : nat -> A -> nat).
Context (isvar : ident -> bool) (fsig : string -> option (list ty * ty)) (ecall : encoding).
Lemma ty_doubled t n : ty_of (doubled t n) = t.
Proof. now destruct n. Qed.
Lemma visit_eureal e body st : ty_of e = TEUReal -> visit same ptr refs e body st = (let? r := body (tick st) in Ok (fst r, note (Miss (ptr (clk st) e)) (tick (snd r)))).
Proof. intros T. unfold visit, keyed. rewrite T. cbn. destruct (body (tick st)) as [[y s]| |]; reflexivity. Qed.
Lemma doubled_eureal n : forall st, exists y st', trc same ptr refs isvar fsig ecall (doubled TEUReal n) st = Ok (YEur y, st') /\
  exists new, trace st' = new ++ trace st /\ List.length (missed new) = 2 ^ S n - 1.
Proof.
  induction n as [|n IH]; intros st; cbn [doubled trc].
  - rewrite visit_eureal by reflexivity. cbn. eexists _, _. split; [reflexivity|]. exists [Miss (ptr (clk st) (ELit TEUReal (LFrac 1)))]. auto.
  - rewrite visit_eureal by reflexivity. cbn [bin_operand]. rewrite ty_doubled. change (ty_eqb TEUReal TEUReal) with true. cbn iota.
    destruct (IH (tick st)) as (y1 & s1 & E1 & n1 & T1 & L1). rewrite E1. cbn [rbind fst snd]. destruct (IH s1) as (y2 & s2 & E2 & n2 & T2 & L2). rewrite E2. cbn [rbind fst snd bin_term].
    eexists _, _. split; [reflexivity|]. exists (Miss (ptr (clk st) (doubled TEUReal (S n))) :: n2 ++ n1). cbn [note tick trace]. rewrite T2, T1. cbn [trace tick]. split; [cbn; now rewrite <- app_assoc|].
    cbn [missed flat_map app]. change (flat_map _ (n2 ++ n1)) with (missed (n2 ++ n1)). rewrite missed_app. cbn [List.length]. rewrite app_length, L1, L2.
    assert (0 < 2 ^ n) by (apply Nat.neq_0_lt_0, Nat.pow_nonzero; lia). cbn [Nat.pow]. lia.
Qed.
Lemma doubled_plain n : Forall plain_at (subexprs (doubled TUReal n)).
Proof.
  induction n as [|n IH]; cbn [doubled subexprs].
  - constructor; auto. split; [discriminate | exact I].
  - constructor; [split; [discriminate | exact I]|]. apply Forall_app. auto.
Qed.
End Doubled.
Lemma eureal_refuted : forall n, exists e, ty_of e = TEUReal /\ (exists l, List.length l = S n /\ incl (subexprs e) l) /\
  forall (A : Type) same ptr refs isvar fsig ecall, exists y (st : cst A), trc same ptr refs isvar fsig ecall e cst_new = Ok (y, st) /\ List.length (missed (trace st)) = 2 ^ S n - 1.
Proof.
  intros n. exists (doubled TEUReal n). split; [apply ty_doubled|]. split; [apply doubled_subexprs|]. intros.
  destruct (doubled_eureal same ptr refs isvar fsig ecall n cst_new) as (y & st & E & new & T & L). cbn in T. rewrite app_nil_r in T. exists (YEur y), st. subst new. auto.
Qed.
Lemma ureal_once n : forall isvar fsig ecall y (st : cst expr), trc equal itself (fun _ _ => 3) isvar fsig ecall (doubled TUReal n) cst_new = Ok (y, st) -> List.length (missed (trace st)) <= S n.
Proof.
  intros isvar fsig ecall y st E. destruct (doubled_subexprs TUReal n) as (l & <- & H).
  eapply (once equal itself (fun _ _ => 3) isvar fsig ecall (fun e => e)); eauto using doubled_plain; intros; auto. apply equal_pointers.
Qed.

(** * A literal twice *)
Definition one := ELit TUInt (LUInt 1).
Definition twice := EBin TBool OEq one one.
Lemma twice_trace isvar fsig ecall : exists y st, trc equal itself (fun _ _ => 3) isvar fsig ecall twice cst_new = Ok (y, st) /\ trace st = [Miss twice; Hit one; Miss one].
Proof.
  unfold twice. cbn [trc]. unfold visit at 1. cbn -[visit equal]. unfold visit. cbn -[equal]. unfold itself.
  change (equal (ELit TUInt (LUInt 1)) (ELit TUInt (LUInt 1))) with (equal one one). replace (equal one one) with true by (symmetry; now apply holds_true). cbn. eexists _, _. split; reflexivity.
Qed.
Lemma wrapped_refuted : forall isvar fsig ecall (lit : expr -> bool), lit one = true ->
  exists y st, trc equal itself (fun _ _ => 3) isvar fsig ecall twice cst_new = Ok (y, st) /\
  exists v w, In v (trace st) /\ In w (trace st) /\ addr v = addr w /\ lit (addr v) = true /\ wrapped lit v = true /\ wrapped lit w = false.
Proof.
  intros isvar fsig ecall lit L. destruct (twice_trace isvar fsig ecall) as (y & st & E & T). exists y, st. split; auto. exists (Miss one), (Hit one). rewrite T. cbn. auto 10.
Qed.

(** * Hits under a quantifier and across questions *)
Definition vx := mkid "x" 0 TUInt.
Definition refl_x := EBin TBool OEq (EVar vx) (EVar vx).
Definition all_x := EQuant QForall [QShadow vx] refl_x.
Lemma equal_refl e : equal e e = true. Proof. now apply holds_true. Qed.
Lemma all_x_trace fsig ecall ec : exists ys st, session equal itself (fun _ _ => 3) (fun _ => true) fsig ecall [Ask all_x; Ask all_x; Switch ec; Ask all_x] cst_new = Ok (ys, st) /\
  trace st = [Miss all_x; Miss refl_x; Hit (EVar vx); Miss (EVar vx); Hit all_x; Miss all_x; Miss refl_x; Hit (EVar vx); Miss (EVar vx)].
Proof.
  cbn -[equal]. rewrite !equal_refl. cbn -[equal]. repeat (rewrite !equal_refl; cbn -[equal]). eexists _, _. split; reflexivity.
Qed.
