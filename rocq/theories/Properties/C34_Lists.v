(** C34: built-in lists behave as sequences; where the encoding differs. *)
From Coq Require Import Bool String List ZArith Reals.
From Verif.Model Require Import Syntax Lists.
From Verif.Spec Require Import ListVals.
From Verif.Proofs Require Import ListProofs ListShow ListExamples.
Import ListNotations.
Local Open Scope list_scope.

(** Every value has an SMT value, which satisfies the invariant and stands for no other value. *)
Theorem C34_represented : forall t v, vty t v -> exists s, rep t s v.
Proof. exact rep_total. Qed.
Print Assumptions C34_represented.
Theorem C34_invariant : forall t s v, rep t s v -> in_sort t s /\ smt_invariant t s /\ vty t v.
Proof. exact rep_good. Qed.
Print Assumptions C34_invariant.
Theorem C34_one_value : forall t s v w, rep t s v -> rep t s w -> v = w.
Proof. exact rep_fun. Qed.
Print Assumptions C34_one_value.

(** [select] and [store] at any index of any list; [store] out of bounds leaves the list as it is. *)
Theorem C34_select : forall t n f l k w, rep (LList t) (SL n f) (VL l) -> nth_error l k = Some w -> rep t (l_get n f (Z.of_nat k)) w.
Proof. exact get_rep. Qed.
Print Assumptions C34_select.
Theorem C34_store : forall t n f l k s w, rep (LList t) (SL n f) (VL l) -> rep t s w -> rep (LList t) (l_set n f (Z.of_nat k) s) (VL (put l k w)).
Proof. exact set_rep. Qed.
Print Assumptions C34_store.
Theorem C34_stored : forall l k v j, nth_error (put l k v) j = if Nat.eqb j k then (if Nat.ltb k (length l) then Some v else None) else nth_error l j.
Proof. exact put_nth. Qed.
Print Assumptions C34_stored.
Theorem C34_store_oob : forall l k v, length l <= k -> put l k v = l.
Proof. exact put_oob. Qed.
Print Assumptions C34_store_oob.

(** Equality: sound for all element types, exact unless the elements are lists. *)
Theorem C34_eq_sound : forall t n f m g l k, rep (LList t) (SL n f) (VL l) -> rep (LList t) (SL m g) (VL k) -> l_eq n f m g -> l = k.
Proof. exact l_eq_sound. Qed.
Print Assumptions C34_eq_sound.
Theorem C34_eq_complete : forall t n f m g l, (forall u, t <> LList u) ->
  rep (LList t) (SL n f) (VL l) -> rep (LList t) (SL m g) (VL l) -> l_eq n f m g.
Proof. exact l_eq_complete. Qed.
Print Assumptions C34_eq_complete.
Theorem C34_eq_trans : forall n f m g p h, l_eq n f m g -> l_eq m g p h -> l_eq n f p h.
Proof. exact l_eq_trans. Qed.
Print Assumptions C34_eq_trans.
Theorem C34_eq_sym : forall n f m g, l_eq n f m g -> l_eq m g n f.
Proof. exact l_eq_sym. Qed.
Print Assumptions C34_eq_sym.

(** For all expressions that type check: the translation does not panic if [len] is only used on lists. *)
Theorem C34_no_panic : forall G e e', check G e = Ok e' -> len_of_lists e' -> forall r, (forall x, in_sort (G x) (r x)) ->
  exists s, tr r e' = Ok s /\ in_sort (tx_ty e') s.
Proof. exact check_tr_ok. Qed.
Print Assumptions C34_no_panic.
(** If the documentation leaves an expression only one value, the translation has it. *)
Theorem C34_meaning : forall G e e', check G e = Ok e' -> len_of_lists e' -> plain e' ->
  forall r g v, related G r g -> (forall w, means g e' w -> w = v) -> exists s, tr r e' = Ok s /\ rep (tx_ty e') s v.
Proof. exact only_value. Qed.
Print Assumptions C34_meaning.
(** What the solver proves for all SMT values holds for all values. *)
Theorem C34_proved : forall G e e', check G e = Ok e' -> tx_ty e' = LBool -> len_of_lists e' -> plain e' ->
  (forall r, assigned G r -> tr r e' = Ok (SB true)) -> forall g, (forall x, vty (G x) (g x)) -> means g e' (VB true).
Proof. exact valid_means. Qed.
Print Assumptions C34_proved.

(** The invariant of lists is exact only for elements of type Bool, Int, Real or a domain. *)
Theorem C34_exact : forall t s, exact_ty t -> in_sort t s -> smt_invariant t s -> exists v, rep t s v.
Proof. exact exact_rep. Qed.
Print Assumptions C34_exact.
Theorem C34_exact_only : forall t,
  (forall n f, in_sort (LList t) (SL n f) -> smt_invariant (LList t) (SL n f) -> forall i, (0 <= i < n)%Z -> exists v, rep t (f i) v) -> free_ty t.
Proof. exact exact_only_in. Qed.
Print Assumptions C34_exact_only.
Theorem C34_elements_refuted : exists G e', check G neg_element = Ok e' /\ len_of_lists e' /\
  (forall r, tr r e' = Ok (SB true)) /\ forall g v, means g e' v -> v = VB false.
Proof. exact neg_element_proved. Qed.
Print Assumptions C34_elements_refuted.
Theorem C34_complete_refuted : exists G e', check G pos_element = Ok e' /\ len_of_lists e' /\ plain e' /\
  (exists r, assigned G r /\ tr r e' = Ok (SB false)) /\
  forall g, (forall x, vty (G x) (g x)) -> forall v, means g e' v -> v = VB true.
Proof. exact pos_element_unproved. Qed.
Print Assumptions C34_complete_refuted.
(** Lists of lists are compared with their elements out of bounds. *)
Theorem C34_nested_eq_refuted : exists G e e' r g,
  check G e = Ok e' /\ len_of_lists e' /\ related G r g /\ tr r e' = Ok (SB false) /\ forall v, means g e' v <-> v = VB true.
Proof. exact nested_eq. Qed.
Print Assumptions C34_nested_eq_refuted.
(** Equal lists cannot be replaced by each other. *)
Theorem C34_congruence_refuted : exists G (f : sx -> sx) e1 e2 r g,
  check G (XBin OpEq (XVar 0) (XVar 1)) = Ok e1 /\ check G (XBin OpEq (f (XVar 0)) (f (XVar 1))) = Ok e2 /\
  plain e2 /\ related G r g /\ tr r e1 = Ok (SB true) /\ tr r e2 = Ok (SB false).
Proof. exact not_congruent. Qed.
Print Assumptions C34_congruence_refuted.
(** [len] of anything type checks, then the translation panics. *)
Theorem C34_len_refuted : exists G e e' r, check G e = Ok e' /\ (forall x, in_sort (G x) (r x)) /\ exists w, tr r e' = Panic w.
Proof. exact len_panics. Qed.
Print Assumptions C34_len_refuted.

(** Counterexamples show the elements in bounds up to the limit, and the stores out of bounds. *)
Theorem C34_shown : forall showZ usize_max n a, (16 <= usize_max)%Z -> store_chain a -> (0 <= n)%Z ->
  exists c, from_dynamic showZ usize_max n a = Some c /\ cl_len c = n /\
    length (cl_elements c) = Z.to_nat (Z.min n 16) /\
    (forall k, k < length (cl_elements c) ->
       exists v, at_index a (Z.of_nat k) = Some v /\ nth_error (cl_elements c) k = Some (show showZ usize_max v)) /\
    cl_truncated c = (16 <? n)%Z /\
    ascending (cl_oob c) /\
    (forall i s, In (i, s) (cl_oob c) <->
       ((i < 0 \/ n <= i)%Z /\ stored a i /\ exists v, at_index a i = Some v /\ s = show showZ usize_max v)).
Proof. exact from_dynamic_ok. Qed.
Print Assumptions C34_shown.
(** Other lists, of the same or another length up to the limit, look different. *)
Theorem C34_shown_differ : forall showZ usize_max n a m b c d, (16 <= usize_max)%Z ->
  from_dynamic showZ usize_max n a = Some c -> from_dynamic showZ usize_max m b = Some d ->
  Forall clean (cl_elements c) -> Forall clean (cl_elements d) -> show_list showZ c = show_list showZ d ->
  ((n <= 16)%Z -> n = m) /\
  forall k, (0 <= k < Z.min n 16)%Z -> exists v w, at_index a k = Some v /\ at_index b k = Some w /\
    show showZ usize_max v = show showZ usize_max w.
Proof. exact shown_differ. Qed.
Print Assumptions C34_shown_differ.

Example C34_nonvacuous_related : related ex_G ex_r ex_g.
Proof. exact ex_related. Qed.
Example C34_nonvacuous_meaning : exists e', check ex_G ex_swap = Ok e' /\ len_of_lists e' /\ plain e' /\
  forall v, means ex_g e' v -> v = VL [VI 8; VI 7].
Proof. exact ex_swap_ok. Qed.
Example C34_nonvacuous_proved : exists e', check ex_all_G ex_all = Ok e' /\ tx_ty e' = LBool /\ len_of_lists e' /\ plain e' /\
  (forall r, assigned ex_all_G r -> tr r e' = Ok (SB true)).
Proof. exact ex_all_ok. Qed.
Example C34_nonvacuous_shown : store_chain ex_arr /\ (exists c, from_dynamic ex_show 1000 2 ex_arr = Some c /\ Forall clean (cl_elements c) /\
  show_list ex_show c = "[4, 10] (len=2, oob: default=4, -1 -> 12)"%string).
Proof. exact ex_shown. Qed.
