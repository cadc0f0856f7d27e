(** C58: the translator from pGCL. *)
From Coq Require Import Bool List String NArith Reals.
From Verif.Model Require Import Syntax Builder Dist Pgcl PgclProc.
From Verif.Spec Require Import Eur Sem Wp Loops PgclSem PgclCost PgclProcSpec.
From Verif.Proofs Require Import LoopProofs PgclProofs PgclSound PgclMore PgclTicks PgclExamples PgclProcProofs PgclProcExample.
Import ListNotations.
Local Open Scope list_scope.

(** The translation that keeps loops means the same as the program, for every post-expectation that does not mention the
    variable for probabilistic choices. *)
Theorem C58_plain : forall I isd pc k l X s, interp_ok I -> isd "flip"%string = true -> ity pc = TBool ->
  All (pok isd pc) l -> free_of pc X -> env_ok s ->
  wp_block I isd k (plains pc l) X s = pwps I k l X s.
Proof. intros I isd pc k l X s HI Hf Hp O HX Hs. exact (plains_exact I isd pc k HI Hf Hp l O X HX s Hs). Qed.
Print Assumptions C58_plain.

(** Direct k-induction is sound: whatever the nesting of loops, the numbers of copies (as long as none is zero) and the
    invariants, if there is an encoding, then it is on the safe side of the program's own pre-expectation. *)
Theorem C58_k_induction : forall I isd pc kd d l st b st' X s, interp_ok I -> isd "flip"%string = true -> ity pc = TBool ->
  All (pok isd pc) l -> Forall (good_annot pc) st -> directs false pc d l st = Some (b, st') -> free_of pc X -> env_ok s ->
  dle d (wp_block I isd kd b X s) (pwps I (kind_of d) l X s).
Proof.
  intros I isd pc kd d l st b st' X s HI Hf Hp O G E HX Hs.
  exact (proj2 (proj2 (worth_directs I isd pc kd HI Hf Hp false d d (kind_of d) (or_introl (conj eq_refl (conj eq_refl eq_refl))) l O st b st' G E) X HX) s Hs).
Qed.
Print Assumptions C58_k_induction.

(** Hence a bound that the encoding proves is a bound of the program. *)
Theorem C58_bound : forall I isd pc kd d l st b st' pre post, interp_ok I -> isd "flip"%string = true -> ity pc = TBool ->
  All (pok isd pc) l -> Forall (good_annot pc) st -> directs false pc d l st = Some (b, st') -> clean pc post ->
  (forall s, env_ok s -> dle d (ev I pre s) (wp_block I isd kd b (ev I post) s)) ->
  forall s, env_ok s -> dle d (ev I pre s) (pwps I (kind_of d) l (ev I post) s).
Proof.
  intros I isd pc kd d l st b st' pre post HI Hf Hp O G E Hc H s Hs.
  exact (dle_trans d _ _ _ (H s Hs) (C58_k_induction I isd pc kd d l st b st' _ s HI Hf Hp O G E (unread_blind _ I post Hc) Hs)).
Qed.
Print Assumptions C58_bound.

(** Bounded model checking of upper bounds: what the unrolled program yields is at most the expected value, so a bound it
    exceeds is none. *)
Theorem C58_unroll : forall I isd pc kd l st b st' X s, interp_ok I -> isd "flip"%string = true -> ity pc = TBool ->
  All (pok isd pc) l -> Forall (good_annot pc) st -> directs true pc Up l st = Some (b, st') -> free_of pc X -> env_ok s ->
  ele (wp_block I isd kd b X s) (pwps I Least l X s).
Proof.
  intros I isd pc kd l st b st' X s HI Hf Hp O G E HX Hs.
  exact (proj2 (proj2 (worth_directs I isd pc kd HI Hf Hp true Up Down Least (or_intror (conj eq_refl (conj eq_refl (conj eq_refl eq_refl)))) l O st b st' G E) X HX) s Hs).
Qed.
Print Assumptions C58_unroll.

(** Non-vacuity: a program with a choice, ticks, nested loops and annotations with several copies. *)
Example C58_geo : All (pok is_dist vpc) geo /\ Forall (good_annot vpc) geo_annots /\ is_dist "flip"%string = true /\ ity vpc = TBool /\
  interp_ok I1 /\ env_ok s1 /\ (forall I pc, free_of pc (ev I one)) /\
  (exists b, directs false vpc Down geo geo_annots = Some (b, []) /\ b <> []) /\
  (exists b, directs true vpc Up geo geo_annots = Some (b, []) /\ b <> []).
Proof. exact (conj geo_ok (conj geo_good (conj eq_refl (conj eq_refl (conj I1_ok (conj s1_ok (conj one_free (conj geo_direct geo_unroll)))))))). Qed.

(** With zero copies, which the command line accepts, k-induction is unsound: no iteration is looked at. *)
Theorem C58_zero_refuted : exists I l inv b X s, interp_ok I /\ All (pok is_dist vpc) l /\ is_exp inv /\ clean vpc inv /\ free_of vpc X /\ env_ok s /\
  directs false vpc Down l [(0%nat, inv)] = Some (b, []) /\ ~ dle Down (wp_block I is_dist Greatest b X s) (pwps I Greatest l X s).
Proof. exact zero_refuted. Qed.
Print Assumptions C58_zero_refuted.

(** The same for bounded model checking: the loop is skipped. *)
Theorem C58_zero_unroll_refuted : exists I l inv b X s, interp_ok I /\ All (pok is_dist vpc) l /\ is_exp inv /\ clean vpc inv /\ free_of vpc X /\ env_ok s /\
  directs true vpc Up l [(0%nat, inv)] = Some (b, []) /\ ~ ele (wp_block I is_dist Least b X s) (pwps I Least l X s).
Proof. exact zero_unroll_refuted. Qed.
Print Assumptions C58_zero_unroll_refuted.

(** Without loops, both translations yield the same statements and use no annotation. *)
Theorem C58_loop_free : forall bmc pc d l st, list_sum (map loops l) = 0%nat -> directs bmc pc d l st = Some (plains pc l, st).
Proof. intros bmc pc d l st H. exact (loopfree_directs bmc pc d l H st). Qed.
Print Assumptions C58_loop_free.
Example C58_loop_free_case : list_sum (map loops [PChoice half [PSkip] [PAsgn vb (b_bool true)]]) = 0%nat.
Proof. reflexivity. Qed.

(** With one copy per loop, one annotation per loop is used and no more. *)
Theorem C58_single : forall bmc pc d l st, Forall (fun a => fst a = 1%nat) st -> (list_sum (map loops l) <= List.length st)%nat ->
  exists b, directs bmc pc d l st = Some (b, skipn (list_sum (map loops l)) st).
Proof. intros bmc pc d l st H L. exact (sized_directs bmc pc d l st H L). Qed.
Print Assumptions C58_single.
Example C58_single_case : list_sum (map loops geo) = 2%nat /\ Forall (fun a : annot => fst a = 1%nat) [(1%nat, one); (1%nat, b_inf)].
Proof. split; [reflexivity|]. repeat constructor. Qed.

(** With several copies of an outer loop, one annotation per loop is not enough: the translator crashes. *)
Theorem C58_single_refuted : exists l st, All (pok is_dist vpc) l /\ Forall (good_annot vpc) st /\ List.length st = list_sum (map loops l) /\
  directs false vpc Down l st = None.
Proof. exact (ex_intro _ nested (ex_intro _ two (conj nested_ok (conj two_good (conj eq_refl nested_crash))))). Qed.
Print Assumptions C58_single_refuted.

(** Annotating changes nothing but the annotations. *)
Theorem C58_erase : forall pc l st b st', annotate (plains pc l) st = Some (b, st') -> map erase b = plains pc l.
Proof. exact annotates_erase. Qed.
Print Assumptions C58_erase.

(** If no loop is below a conditional or a choice, the loops get the annotations in order, outer loops first. *)
Theorem C58_annotate : forall pc l st, All straight l -> (list_sum (map loops l) <= List.length st)%nat ->
  exists b, annotate (plains pc l) st = Some (b, skipn (list_sum (map loops l)) st) /\
            flat_map marks b = map Some (firstn (list_sum (map loops l)) st).
Proof. intros pc l st O L. exact (fitting_plains pc l O st L). Qed.
Print Assumptions C58_annotate.
Example C58_annotate_case : All straight nested /\ list_sum (map loops nested) = 2%nat.
Proof. split; [cbn; tauto | reflexivity]. Qed.

(** Otherwise a loop stays without annotation, and the next loop gets the one that was meant for it. *)
Theorem C58_annotate_refuted : exists l r1 r2 b, All (pok is_dist vpc) l /\ r1 <> r2 /\ list_sum (map loops l) = 2%nat /\
  annotate (plains vpc l) [r1; r2] = Some (b, [r2]) /\ flat_map marks b = [None; Some r1].
Proof. exact annotate_refuted. Qed.
Print Assumptions C58_annotate_refuted.

(** For a loop that assigns no variable, the direct encoding has a havoc of no variables, which the parser rejects. *)
Theorem C58_havoc_refuted : exists l st b, All (pok is_dist vpc) l /\ Forall (good_annot vpc) st /\
  directs false vpc Down l st = Some (b, []) /\ existsb has_empty_havoc b = true.
Proof. exact havoc_refuted. Qed.
Print Assumptions C58_havoc_refuted.

(** Optional stopping in direct mode: the check that invariant and post-expectation agree where the guard is false misses
    states if the guard is a conjunction, because of missing parentheses. *)
Theorem C58_harmonize_refuted : exists c I s, is_guard c /\ interp_ok I /\ env_ok s /\ is_guard (printed_not c) /\
  holds I c s = false /\ holds I (printed_not c) s = false.
Proof. exact harmonize_refuted. Qed.
Print Assumptions C58_harmonize_refuted.

(** For wp and wlp, ticks are removed: none is left, and what is left means what the program means if ticks cost nothing. *)
Theorem C58_ticks : forall I k l X, All tick_free (map remove_ticks l) /\ pwps I k (map remove_ticks l) X = pwps0 I k l X.
Proof. intros I k l X. exact (conj (All_map remove_ticks tick_free l (proj2 (Forall_forall _ l) (fun i _ => removed i))) (free_ticks_list I k l X)). Qed.
Print Assumptions C58_ticks.
(** Programs without ticks are left as they are. *)
Theorem C58_ticks_unchanged : forall i, tick_free i -> remove_ticks i = i.
Proof. exact unchanged. Qed.
Print Assumptions C58_ticks_unchanged.
Example C58_ticks_case : tick_free (PWhile (EVar vb) [PChoice half [PAsgn vb (b_bool false)] []]) /\ map remove_ticks geo <> geo.
Proof. split; [cbn; tauto | discriminate]. Qed.

(** A procedure of the k-induction mode that verifies proves the bound its comment states: the pre-expectation, which is
    checked in the initial values, bounds the program itself in the state it starts in, with ticks only if they count. *)
Theorem C58_procedure : forall I isd pc kd d ert vars l pre post st pre' b st', interp_ok I -> isd "flip"%string = true -> ity pc = TBool ->
  All (pok isd pc) l -> Forall (good_annot pc) st -> clean pc post ->
  (forall x, In x vars -> All (pok isd (init_var x)) l /\ clean (init_var x) post) ->
  (forall x y, In x vars -> In y vars -> x <> init_var y) ->
  simple pre -> (forall x, fv x pre -> In x vars) ->
  k_ind_proc pc d ert vars l pre st = Some (pre', b, st') ->
  (forall s, env_ok s -> dle d (ev I pre' s) (wp_block I isd kd b (ev I post) s)) ->
  forall s, env_ok s -> dle d (ev I pre s) ((if ert then pwps else pwps0) I (kind_of d) l (ev I post) s).
Proof. exact proc_bound. Qed.
Print Assumptions C58_procedure.
(** Non-vacuity: tossing a coin until it shows heads is verified and meets all hypotheses. *)
Example C58_procedure_case : interp_ok I1 /\ is_dist "flip"%string = true /\ ity vpc = TBool /\ toss <> [] /\ toss_body <> [] /\
  (All (pok is_dist vpc) toss /\ Forall (good_annot vpc) [(1%nat, one)] /\ clean vpc one /\
   (forall x, In x [vb] -> All (pok is_dist (init_var x)) toss /\ clean (init_var x) one) /\
   (forall x y, In x [vb] -> In y [vb] -> x <> init_var y) /\ simple one /\ (forall x, fv x one -> In x [vb])) /\
  k_ind_proc vpc Up false [vb] toss one [(1%nat, one)] = Some (one, toss_body, []) /\
  (forall s, env_ok s -> dle Up (ev I1 one s) (wp_block I1 is_dist Least toss_body (ev I1 one) s)).
Proof.
  split; [exact I1_ok|]. split; [reflexivity|]. split; [reflexivity|]. split; [discriminate|]. split; [discriminate|].
  split; [exact toss_ok|]. split; [exact toss_proc|]. intros s. exact (toss_verified I1 s I1_ok).
Qed.
