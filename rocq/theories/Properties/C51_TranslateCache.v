(** C51: the cache of the translation to SMT. *)
From Coq Require Import Bool List String Arith ZArith.
From Verif.Model Require Import Syntax Translate TranslateCache.
From Verif.Spec Require Import Sem Exprs Translated Cached.
From Verif.Proofs Require Import CacheProofs CacheProps CacheCount CacheWrap CacheExamples.
Import ListNotations.

(** However pointers are shared, translatable formulas are translated. *)
Theorem C51_no_panic : forall (A : Type) same ptr (refs : nat -> A -> nat), pointers same ptr -> forall isvar fsig ecall e,
  translatable isvar fsig e = true -> ty_of e = TBool -> exists t cs, translate_c same ptr refs isvar fsig ecall e = Ok (t, cs).
Proof. exact c51_no_panic. Qed.
Print Assumptions C51_no_panic.

(** A structure that meets the constraints is a state in which the expression has the value of the term. *)
Theorem C51_models : forall (A : Type) same ptr (refs : nat -> A -> nat), pointers same ptr -> forall isvar fsig ecall e I t cs,
  translatable isvar fsig e = true -> ty_of e = TBool -> some eur_sub e = false -> interp_ok I -> translate_c same ptr refs isvar fsig ecall e = Ok (t, cs) ->
  forall M, fits fsig ecall I M -> Forall (fun c => c M = true) cs -> exists s, env_ok s /\ eval I e s = VBool (t M).
Proof. exact c51_models. Qed.
Print Assumptions C51_models.
(** Every state is such a structure. *)
Theorem C51_states : forall (A : Type) same ptr (refs : nat -> A -> nat), pointers same ptr -> forall isvar fsig ecall e I t cs,
  translatable isvar fsig e = true -> ty_of e = TBool -> some eur_sub e = false -> interp_ok I -> translate_c same ptr refs isvar fsig ecall e = Ok (t, cs) ->
  forall s M0, env_ok s -> fits fsig ecall I M0 -> exists M, fits fsig ecall I M /\ Forall (fun c => c M = true) cs /\ eval I e s = VBool (t M).
Proof. exact c51_states. Qed.
Print Assumptions C51_states.
(** So the cache does not change what is proved. *)
Theorem C51_same : forall (A : Type) same ptr (refs : nat -> A -> nat), pointers same ptr -> forall isvar fsig ecall e I t cs t' cs',
  translatable isvar fsig e = true -> ty_of e = TBool -> some eur_sub e = false -> interp_ok I ->
  translate_c same ptr refs isvar fsig ecall e = Ok (t, cs) -> translate isvar fsig ecall e = Ok (t', cs') -> forall M0, fits fsig ecall I M0 ->
  ((forall M, fits fsig ecall I M -> Forall (fun c => c M = true) cs -> t M = true) <-> (forall M, fits fsig ecall I M -> Forall (fun c => c M = true) cs' -> t' M = true)).
Proof. exact c51_same. Qed.
Print Assumptions C51_same.
(** Unless something has more than two owners, nothing is different. *)
Theorem C51_off : forall (A : Type) same ptr (refs : nat -> A -> nat) isvar fsig ecall, (forall n p, refs n p <= 2) ->
  forall e, translate_c same ptr refs isvar fsig ecall e = translate isvar fsig ecall e.
Proof. exact (@translate_off). Qed.
Print Assumptions C51_off.

(** A translator that is asked again and again, with changes to how calls are written, answers. *)
Theorem C51_session_no_panic : forall (A : Type) same ptr (refs : nat -> A -> nat), pointers same ptr -> forall isvar fsig ecall cs,
  Forall (fun e => translatable isvar fsig e = true) (asked cs) ->
  exists ys st sc, session same ptr refs isvar fsig ecall cs cst_new = Ok (ys, st) /\ local_scope (base st) = Ok sc.
Proof. exact c51_session_no_panic. Qed.
Print Assumptions C51_session_no_panic.
(** A structure that meets what the translator collected is one state for all answers. *)
Theorem C51_session_models : forall (A : Type) same ptr (refs : nat -> A -> nat), pointers same ptr -> forall isvar fsig ecall cs I ys st sc,
  Forall (fun e => translatable isvar fsig e = true) (asked cs) -> Forall (fun e => some eur_sub e = false) (asked cs) -> interp_ok I ->
  session same ptr refs isvar fsig ecall cs cst_new = Ok (ys, st) -> local_scope (base st) = Ok sc ->
  forall M, fits_all (encodings ecall cs) fsig I M -> Forall (fun c => c M = true) (scons sc) -> exists s, env_ok s /\ answers I M s (asked cs) ys.
Proof. exact c51_session_models. Qed.
Print Assumptions C51_session_models.
(** Every state is one structure for all answers. *)
Theorem C51_session_states : forall (A : Type) same ptr (refs : nat -> A -> nat), pointers same ptr -> forall isvar fsig ecall cs I ys st sc,
  Forall (fun e => translatable isvar fsig e = true) (asked cs) -> Forall (fun e => some eur_sub e = false) (asked cs) -> interp_ok I ->
  session same ptr refs isvar fsig ecall cs cst_new = Ok (ys, st) -> local_scope (base st) = Ok sc ->
  forall s M0, env_ok s -> fits_all (encodings ecall cs) fsig I M0 ->
  exists M, fits_all (encodings ecall cs) fsig I M /\ Forall (fun c => c M = true) (scons sc) /\ answers I M s (asked cs) ys.
Proof. exact c51_session_states. Qed.
Print Assumptions C51_session_states.
(** The cache is used: under a quantifier, and from question to question until calls are written differently. *)
Example C51_hits : forall fsig ecall ec, exists ys st, session equal itself (fun _ _ => 3) (fun _ => true) fsig ecall [Ask all_x; Ask all_x; Switch ec; Ask all_x] cst_new = Ok (ys, st) /\
  trace st = [Miss all_x; Miss refl_x; Hit (EVar vx); Miss (EVar vx); Hit all_x; Miss all_x; Miss refl_x; Hit (EVar vx); Miss (EVar vx)].
Proof. exact all_x_trace. Qed.
Example C51_pointers : pointers equal itself /\ translatable (fun _ => true) (fun _ => None) all_x = true /\ some eur_sub all_x = false.
Proof. exact (conj equal_pointers (conj eq_refl eq_refl)). Qed.

(** Each shared expression is translated at most once, if none has type EUReal and there are no quantifiers. *)
Theorem C51_once : forall (A : Type) same ptr (refs : nat -> A -> nat), pointers same ptr -> (forall n e, ptr n e = ptr 0 e) -> (forall n p, 2 < refs n p) ->
  forall isvar fsig ecall e y st, Forall plain_at (subexprs e) -> trc same ptr refs isvar fsig ecall e cst_new = Ok (y, st) ->
  NoDup (missed (trace st)) /\ incl (missed (trace st)) (map (ptr 0) (subexprs e)) /\ forall l, incl (subexprs e) l -> List.length (missed (trace st)) <= List.length l.
Proof. exact c51_once. Qed.
Print Assumptions C51_once.
Example C51_once_case : forall n isvar fsig ecall y st, trc equal itself (fun _ _ => 3) isvar fsig ecall (doubled TUReal n) cst_new = Ok (y, st) -> List.length (missed (trace st)) <= S n.
Proof. exact ureal_once. Qed.
(** With type EUReal, [n + 1] expressions may be translated [2 ^ (n + 1) - 1] times, however they are shared. *)
Theorem C51_eureal_refuted : forall n, exists e, ty_of e = TEUReal /\ (exists l, List.length l = S n /\ incl (subexprs e) l) /\
  forall (A : Type) same ptr refs isvar fsig ecall, exists y (st : cst A), trc same ptr refs isvar fsig ecall e cst_new = Ok (y, st) /\ List.length (missed (trace st)) = 2 ^ S n - 1.
Proof. exact eureal_refuted. Qed.
Print Assumptions C51_eureal_refuted.

(** A literal expression is not always wrapped: not when it comes from the cache. *)
Theorem C51_wrapped_refuted : forall isvar fsig ecall (lit : expr -> bool), lit one = true ->
  exists y st, trc equal itself (fun _ _ => 3) isvar fsig ecall twice cst_new = Ok (y, st) /\
  exists v w, In v (trace st) /\ In w (trace st) /\ addr v = addr w /\ lit (addr v) = true /\ wrapped lit v = true /\ wrapped lit w = false.
Proof. exact wrapped_refuted. Qed.
Print Assumptions C51_wrapped_refuted.
(** It is whenever nothing has more than two owners. *)
Theorem C51_wrapped_off : forall (A : Type) same ptr (refs : nat -> A -> nat) isvar fsig ecall, (forall n p, refs n p <= 2) ->
  forall e y st, trc same ptr refs isvar fsig ecall e cst_new = Ok (y, st) -> forall lit v, In v (trace st) -> wrapped lit v = lit (addr v).
Proof. exact (@wrapped_off). Qed.
Print Assumptions C51_wrapped_off.
