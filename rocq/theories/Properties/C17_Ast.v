(** C17: the rule for almost-sure termination. *)
From Coq Require Import List String Reals QArith.
From Verif.Model Require Import Syntax TyCtx Dist ProofRules Procs LoopProcs Encode.
From Verif.Spec Require Import Eur Sem Wp Frame Loops Calls Termination.
From Verif.Proofs Require Import AstProofs TermExamples TermNested TermDemonic TermRefuted.
Import ListNotations.
Local Open Scope list_scope.
Local Open Scope R_scope.

(** For all loops over assignments, samplings, weights, branches and further loops and all annotations: when the six procedures that [@ast] generates meet
    their specifications, the loop terminates with probability one from every state that satisfies the invariant, provided the
    two functions mention nothing but their variable and are positive where the variant is, and the variant does not mention
    variables declared in the body.  Missing: the tool checks none of these three; bodies with nondeterminism, for which it is false. *)
Theorem C17_sound_partial : forall variant cspan dspan, (forall a b, variant a = variant b -> a = b) ->
  forall I isd isf c body inv var prob decr v,
  interp_ok I -> proper_loop I isd isf c body -> clear_of_inits variant c body [inv; var] ->
  is_guard inv -> is_ureal var -> ity v = TUReal -> is_ureal prob -> is_ureal decr ->
  (forall x, fv x prob -> x = v) -> (forall x, fv x decr -> x = v) ->
  (forall s, env_ok s -> 0 < uval (s v) -> 0 < uval (eval I prob s)) ->
  (forall s, env_ok s -> 0 < uval (s v) -> 0 < uval (eval I decr s)) ->
  (forall x, fv x var -> ~ any (declares x) body) ->
  forall T base blk ps T', ast_transform variant cspan dspan T base [inv; var; EVar v; prob; decr] c body = Ok (blk, ps, T') ->
  verified I isd Least ps ->
  forall s, env_ok s -> holds I inv s = true -> terminates I isd c body s.
Proof.
  intros variant cspan dspan Vi I isd isf c body inv var prob decr v HI [G Wb Pb Tb] C Wi Wv Ev Wp Wd Fp Fd Pp Pd D T base blk ps T' E Vf s Hs J.
  exact (ast_sound variant cspan dspan Vi I isd isf c body inv var prob decr v HI Wb Pb Tb G Wi Wv Ev Wp Wd Fp Fd Pp Pd D C T base blk ps T' E Vf s Hs J).
Qed.
Print Assumptions C17_sound_partial.
(** A coin that is tossed until it shows tails: variant [b], probability 1/2, decrease 1. *)
Example C17_nonvacuous : forall I, interp_ok I -> exists c body inv var v prob decr blk ps T',
  proper_loop I is_dist (fun _ => false) c body /\ clear_of_inits S c body [inv; var] /\
  ast_transform S 1 2 T0 "main" [inv; var; EVar v; prob; decr] c body = Ok (blk, ps, T') /\ verified I is_dist Least ps /\
  List.length ps = 6%nat /\ body <> [].
Proof.
  intros I HI. exists (EVar vb), coin, tt_lit, (EIte TUReal (EVar vb) (lit 1) (lit 0)), vv, (lit (1#2)), (lit 1), [], ast_procs. eexists.
  split; [now apply coin_proper|]. split; [apply coin_clear; cbn; intuition (subst; cbn in *; tauto)|].
  split; [reflexivity|]. split; [now apply coin_ast|]. split; [reflexivity | discriminate].
Qed.

(** The same coin, tossed in a loop that is the body of another: the body has no bound on its number of steps. *)
Example C17_nested_nonvacuous : forall I, interp_ok I -> exists c inner inv var v prob decr blk ps T',
  let body := [SWhile c inner] in
  proper_loop I is_dist (fun _ => false) c body /\ clear_of_inits S c body [inv; var] /\
  ast_transform S 1 2 T0 "main" [inv; var; EVar v; prob; decr] c body = Ok (blk, ps, T') /\ verified I is_dist Least ps /\
  List.length ps = 6%nat /\ inner <> [].
Proof.
  intros I HI. exists (EVar vb), coin, tt_lit, (EIte TUReal (EVar vb) (lit 1) (lit 0)), vv, (lit (1#2)), (lit 1), [], ast_nested. eexists.
  split; [now apply tosses_proper|]. split; [apply tosses_clear; cbn; intuition (subst; cbn in *; tauto)|].
  split; [reflexivity|]. split; [now apply tosses_ast|]. split; [reflexivity | discriminate].
Qed.

(** False without the positivity of the probability: [while true {}] is accepted, with probability 0 ... *)
Theorem C17_zero_probability_refuted : exists c body inv var v prob decr blk ps T',
  ast_transform S 1 2 empty_tcx "main" [inv; var; EVar v; prob; decr] c body = Ok (blk, ps, T') /\
  is_guard c /\ is_guard inv /\ is_ureal var /\ ity v = TUReal /\ is_ureal prob /\ is_ureal decr /\
  (forall x, ~ fv x prob) /\ (forall x, ~ fv x decr) /\
  (forall I isd k, interp_ok I -> verified I isd k ps) /\
  forall I isd s, interp_ok I -> env_ok s -> holds I inv s = true /\ ~ terminates I isd c body s.
Proof. exact ast_zero_probability. Qed.
Print Assumptions C17_zero_probability_refuted.
(** ... and without the restriction on variables, even if both functions are positive in every state:
    [while 0 < x { x = 0.5 * x }] is accepted, with variant [x] and decrease [0.5 * x] (1 where [x] is 0). *)
Theorem C17_decrease_of_state_refuted : exists c body inv var v prob decr blk ps T',
  ast_transform S 1 2 T2 "main" [inv; var; EVar v; prob; decr] c body = Ok (blk, ps, T') /\
  is_guard c /\ is_guard inv /\ is_ureal var /\ ity v = TUReal /\ is_ureal prob /\ is_ureal decr /\
  (forall I s, env_ok s -> 0 < uval (eval I prob s) /\ 0 < uval (eval I decr s)) /\
  (forall I k, interp_ok I -> verified I is_dist k ps) /\
  forall I, interp_ok I -> exists s, env_ok s /\ holds I inv s = true /\ ~ terminates I is_dist c body s.
Proof. exact ast_decrease_of_state. Qed.
Print Assumptions C17_decrease_of_state_refuted.
(** False for bodies with demonic nondeterminism, even if all of these conditions hold: a walk on the naturals that goes up with
    probability 3/4 and down with 1/4, or, at the choice of the demon, down with probability one, is accepted with variant [x]. *)
Theorem C17_nondeterminism_refuted : exists c body inv var v prob decr blk ps T',
  ast_transform S 1 2 Tw "main" [inv; var; EVar v; prob; decr] c body = Ok (blk, ps, T') /\
  is_guard c /\ All (wts is_dist (fun _ => false)) body /\ clear_of_inits S c body [inv; var] /\
  is_guard inv /\ is_ureal var /\ ity v = TUReal /\ is_ureal prob /\ is_ureal decr /\ (forall x, ~ fv x prob) /\ (forall x, ~ fv x decr) /\
  (forall I s, 0 < uval (eval I prob s) /\ 0 < uval (eval I decr s)) /\ (forall x, fv x var -> ~ any (declares x) body) /\
  (forall I, interp_ok I -> subtotal I is_dist Least body /\ verified I is_dist Least ps) /\
  forall I, interp_ok I -> exists s, env_ok s /\ holds I inv s = true /\ ~ terminates I is_dist c body s.
Proof. exact ast_nondeterminism. Qed.
Print Assumptions C17_nondeterminism_refuted.
(** The loop is replaced by nothing; that is claimed to be exact and is not. *)
Theorem C17_exact_refuted : exists c body args ps T', get_approximation Ast LFP EXACT (Some Wp) = EXACT /\
  ast_transform S 1 2 T0 "main" args c body = Ok ([], ps, T') /\ (forall I k, interp_ok I -> verified I is_dist k ps) /\
  forall I, interp_ok I -> exists X s, env_ok s /\ wp_block I is_dist Least [] X s = eone /\ wp I is_dist Least (SWhile c body) X s = ebot.
Proof. exact ast_not_exact. Qed.
Print Assumptions C17_exact_refuted.
