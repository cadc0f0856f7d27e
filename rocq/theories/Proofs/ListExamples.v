(** Consequences of ListProofs and ListShow, the counterexamples, and concrete cases. *)
From Coq Require Import Bool String Ascii List ZArith Reals Lra Lia ClassicalEpsilon.
From Verif.Model Require Import Syntax Translate Lists.
From Verif.Spec Require Import ListVals.
From Verif.Proofs Require Import ListProofs ListShow.
Import ListNotations.
Local Open Scope list_scope.


Lemma typed_related G g : (forall x, vty (G x) (g x)) -> exists r, related G r g.
Proof.
  intros H. exists (fun x => proj1_sig (constructive_indefinite_description _ (rep_total _ _ (H x)))).
  intros x. now destruct (constructive_indefinite_description _ _).
Qed.
Lemma valid_means G e e' : check G e = Ok e' -> tx_ty e' = LBool -> len_of_lists e' -> plain e' ->
  (forall r, assigned G r -> tr r e' = Ok (SB true)) -> forall g, (forall x, vty (G x) (g x)) -> means g e' (VB true).
Proof.
  intros C T L P V g Hg. destruct (typed_related G g Hg) as (r & R).
  destruct (tr_means G e' (check_wt _ _ _ C) L P r g R) as (s & v & E & S1 & M). rewrite T in S1.
  destruct (bool_rep _ _ S1) as (b & -> & ->). rewrite V in E; [injection E as <-; exact M|].
  intros x. destruct (rep_good _ _ _ (R x)) as (? & ? & _). tauto.
Qed.
Lemma only_value G e e' : check G e = Ok e' -> len_of_lists e' -> plain e' ->
  forall r g v, related G r g -> (forall w, means g e' w -> w = v) -> exists s, tr r e' = Ok s /\ rep (tx_ty e') s v.
Proof.
  intros C L P r g v R H. destruct (tr_means G e' (check_wt _ _ _ C) L P r g R) as (s & w & E & S1 & M).
  exists s. split; [exact E|]. now rewrite <- (H w M).
Qed.
Lemma check_tr_ok G e e' : check G e = Ok e' -> len_of_lists e' -> forall r, (forall x, in_sort (G x) (r x)) ->
  exists s, tr r e' = Ok s /\ in_sort (tx_ty e') s.
Proof. intros C. exact (tr_ok G e' (check_wt _ _ _ C)). Qed.

(** ** Counterexamples *)
Definition all_ty (t : lty) : nat -> lty := fun _ => t.

Lemma len_panics : exists G e e' r, check G e = Ok e' /\ (forall x, in_sort (G x) (r x)) /\ exists w, tr r e' = Panic w.
Proof.
  exists (all_ty LInt), (XCall ILen [XNum 5]), (TLen (TNum 5)), (fun _ => SI 0).
  split; [reflexivity|]. split; [exact (fun _ => Logic.I)|]. eexists. reflexivity.
Qed.

Definition nested (z : Z) : sval := SL 1 (fun _ => SL 0 (fun _ => SI z)).
Lemma nested_rep z : (0 <= z)%Z -> rep (LList (LList LUInt)) (nested z) (VL [VL []]).
Proof.
  intros H. cbn. split; [reflexivity|]. split.
  - intros _. exists (VL []). split; [reflexivity|]. split; [intros _; exists (VI z); lia|]. intros [|k] w; discriminate.
  - intros [|[|k]] w E; try discriminate. injection E as <-. split; [reflexivity|].
    split; [intros _; exists (VI z); lia|]. intros [|k] w; discriminate.
Qed.
Lemma nested_differ a b : a <> b -> ~ l_eq 1 (fun _ => SL 0 (fun _ => SI a)) 1 (fun _ => SL 0 (fun _ => SI b)).
Proof.
  intros N (_ & H). assert (SL 0 (fun _ => SI a) = SL 0 (fun _ => SI b)) as E.
  { apply (H 0%Z); cbn; [lia|unfold l_valid_index; lia]. }
  apply (f_equal (fun x => match x with SL _ f => f 0%Z | x => x end)) in E. congruence.
Qed.
Lemma nested_eq : exists G e e' r g,
  check G e = Ok e' /\ len_of_lists e' /\ related G r g /\ tr r e' = Ok (SB false) /\ forall v, means g e' v <-> v = VB true.
Proof.
  exists (all_ty (LList (LList LUInt))), (XBin OpEq (XVar 0) (XVar 1)).
  exists (TBin LBool OpEq (TVar (LList (LList LUInt)) 0) (TVar (LList (LList LUInt)) 1)).
  exists (fun x => nested (Z.of_nat x)), (fun _ => VL [VL []]).
  split; [reflexivity|]. split; [cbn; tauto|]. split; [intros x; apply nested_rep; lia|]. split.
  - cbn [tr rbind s_bin s_eq nested Z.of_nat]. f_equal. f_equal. apply holds_false. apply nested_differ. lia.
  - intros v. cbn [means]. split.
    + intros (va & vb & -> & -> & B). inversion B; subst. f_equal. now apply holds_true.
    + intros ->. do 2 eexists. split; [reflexivity|]. split; [reflexivity|].
      replace (VB true) with (VB (holds (VL [VL []] = VL [VL []]))) by (f_equal; now apply holds_true). constructor.
Qed.

(** [l == m] holds but [select(l, 0) == select(m, 0)] does not *)
Lemma empty_rep z : rep (LList LInt) (SL 0 (fun _ => SI z)) (VL []).
Proof. cbn. split; [reflexivity|]. split; [intros _; now exists (VI z)|]. intros [|k] w; discriminate. Qed.
Lemma not_congruent : exists G (f : sx -> sx) e1 e2 r g,
  check G (XBin OpEq (XVar 0) (XVar 1)) = Ok e1 /\ check G (XBin OpEq (f (XVar 0)) (f (XVar 1))) = Ok e2 /\
  plain e2 /\ related G r g /\ tr r e1 = Ok (SB true) /\ tr r e2 = Ok (SB false).
Proof.
  exists (all_ty (LList LInt)), (fun l => XCall ISelect [l; XNum 0]). eexists _, _.
  exists (fun x => SL 0 (fun _ => SI (Z.of_nat x))), (fun _ => VL []).
  split; [reflexivity|]. split; [reflexivity|]. split; [cbn; tauto|]. split; [intros x; apply empty_rep|].
  split; cbn; f_equal; f_equal; [apply holds_true|apply holds_false; discriminate].
  split; [reflexivity|]. intros i I V. cbn in I. unfold l_valid_index in V. lia.
Qed.

Lemma v_eq_true a b : v_bin OpEq a b (VB true) -> a = b.
Proof. intros H. inversion H as [| | | | | | | | |x y E1 E2 E| |]. now apply holds_true. Qed.
(** [exists l: []UInt. 0 < len(l) && select(l, 0) + 1 == 0] is proved but false *)
Definition neg_element : sx :=
  XQuant false 0 (XBin OpAnd (XBin OpLt (XNum 0) (XCall ILen [XVar 0]))
                             (XBin OpEq (XBin OpAdd (XCall ISelect [XVar 0; XNum 0]) (XNum 1)) (XNum 0))).
Lemma neg_element_proved : exists G e', check G neg_element = Ok e' /\ len_of_lists e' /\
  (forall r, tr r e' = Ok (SB true)) /\ forall g v, means g e' v -> v = VB false.
Proof.
  exists (all_ty (LList LUInt)). eexists. split; [reflexivity|]. split; [cbn; repeat split; eexists; reflexivity|]. split.
  - intros r. cbn [tr]. rewrite quant_ok.
    + f_equal. f_equal. apply holds_true. exists (SL 1 (fun _ => SI (-1))). split; [exact (fun _ => Logic.I)|]. split; [cbn; lia|].
      cbn. f_equal. f_equal. now apply holds_true.
    + intros s Hs. destruct (list_sort _ _ Hs) as (n & f & -> & Hf). specialize (Hf 0%Z). destruct (uint_sort _ Hf) as (z & Ez).
      cbn. unfold l_get. cbn [Z.of_N]. rewrite Ez. cbn. eexists. reflexivity.
  - intros g v (F & HF & ->). f_equal. apply holds_false. intros (w & Tw & E). specialize (HF w Tw). rewrite E in HF.
    cbn in HF. destruct HF as (va & vb & A & B & C). inversion C as [| | | | | | | | | |a b Ea Eb|]; subst.
    assert (a = true /\ b = true) as [-> ->] by (apply andb_true_iff; congruence). clear C.
    destruct A as (v0 & v1 & -> & (L & EL & ->) & A). destruct B as (v2 & v3 & (v4 & v5 & S1 & -> & B1) & -> & B2).
    destruct S1 as (L' & k & EL' & Ek & S1). injection Ek as Ek. assert (k = 0)%nat as -> by lia.
    unfold upd_s in EL, EL'. cbn in EL, EL'. rewrite <- EL' in EL. injection EL as <-.
    subst w. cbn in Tw.
    destruct L as [|h L]; [inversion A|]. cbn in S1. subst v4. inversion Tw as [|? ? Th _]; subst.
    destruct h; cbn in Th; try contradiction. inversion B1; subst. apply v_eq_true in B2. injection B2 as B2. lia.
Qed.

(** [0 < len(l) ==> 0 < select(l, 0) + 1] holds but is not proved *)
Definition pos_element : sx :=
  XBin OpImp (XBin OpLt (XNum 0) (XCall ILen [XVar 0])) (XBin OpLt (XNum 0) (XBin OpAdd (XCall ISelect [XVar 0; XNum 0]) (XNum 1))).
Lemma pos_element_unproved : exists G e', check G pos_element = Ok e' /\ len_of_lists e' /\ plain e' /\
  (exists r, assigned G r /\ tr r e' = Ok (SB false)) /\
  forall g, (forall x, vty (G x) (g x)) -> forall v, means g e' v -> v = VB true.
Proof.
  exists (all_ty (LList LUInt)). eexists. split; [reflexivity|]. split; [cbn; repeat split; eexists; reflexivity|]. split; [cbn; intuition discriminate|]. split.
  - exists (fun _ => SL 1 (fun _ => SI (-1))). split; [intros x; cbn; split; [tauto|lia]|]. reflexivity.
  - intros g Tg v (va & vb & A & B & C). inversion C as [| | | | | | | | | | |a b]; subst. f_equal.
    destruct A as (v0 & v1 & -> & (L & EL & ->) & A). destruct B as (v2 & v3 & -> & (v4 & v5 & S1 & -> & B1) & B2).
    destruct S1 as (L' & k & EL' & Ek & S1). injection Ek as Ek. assert (k = 0)%nat as -> by lia.
    cbn [means] in EL, EL'. rewrite <- EL' in EL. injection EL as <-. specialize (Tg 0%nat). rewrite <- EL' in Tg. cbn in Tg.
    destruct a; [|reflexivity]. destruct L as [|h L]; [inversion A|]. cbn in S1. subst v4. inversion Tg as [|? ? Th _]; subst.
    destruct h; cbn in Th; try contradiction. inversion B1; subst. inversion B2; subst. apply Z.ltb_lt. lia.
Qed.

(** ** Showing *)
Lemma shown_differ showZ usize_max n a m b c d : (16 <= usize_max)%Z ->
  from_dynamic showZ usize_max n a = Some c -> from_dynamic showZ usize_max m b = Some d ->
  Forall clean (cl_elements c) -> Forall clean (cl_elements d) -> show_list showZ c = show_list showZ d ->
  ((n <= 16)%Z -> n = m) /\
  forall k, (0 <= k < Z.min n 16)%Z -> exists v w, at_index a k = Some v /\ at_index b k = Some w /\
    show showZ usize_max v = show showZ usize_max w.
Proof.
  intros U Ec Ed Fc Fd E.
  assert (store_chain a /\ (0 <= n)%Z) as [Ca Nn] by (apply (from_dynamic_some showZ usize_max); congruence).
  assert (store_chain b /\ (0 <= m)%Z) as [Cb Nm] by (apply (from_dynamic_some showZ usize_max); congruence).
  destruct (from_dynamic_ok showZ usize_max n a U Ca Nn) as (c' & Ec' & _ & Lc & Kc & Tc & _).
  destruct (from_dynamic_ok showZ usize_max m b U Cb Nm) as (d' & Ed' & _ & Ld & Kd & Td & _).
  rewrite Ec in Ec'. rewrite Ed in Ed'. injection Ec' as <-. injection Ed' as <-.
  assert (cl_truncated c = cl_truncated d /\ cl_elements c = cl_elements d) as [Et El].
  { apply (show_list_inj showZ); try assumption; intros Tt E0; rewrite E0 in *; cbn in *.
    - rewrite Tc in Tt. apply Z.ltb_lt in Tt. lia.
    - rewrite Td in Tt. apply Z.ltb_lt in Tt. lia. }
  rewrite El in *. split.
  - intros H. rewrite Tc, Td in Et. assert ((16 <? n)%Z = false) as X by (apply Z.ltb_ge; lia). rewrite X in Et. symmetry in Et. apply Z.ltb_ge in Et. lia.
  - intros k Hk. destruct (Kc (Z.to_nat k)) as (v & V1 & V2); [lia|]. destruct (Kd (Z.to_nat k)) as (w & W1 & W2); [lia|].
    rewrite Z2Nat.id in * by lia. exists v, w. repeat split; congruence.
Qed.

(** ** Concrete cases *)
Definition ex_G (x : nat) : lty := match x with 0 => LList LUInt | _ => LUInt end.
Definition ex_r (x : nat) : sval := match x with 0 => SL 2 (fun i => SI (if (i =? 0)%Z then 7 else 8)) | _ => SI (Z.of_nat x) end.
Definition ex_g (x : nat) : tval := match x with 0 => VL [VI 7; VI 8] | _ => VI (Z.of_nat x) end.
(** store(store(l, 0, select(l, 1)), 1, select(l, 0)) *)
Definition ex_swap : sx :=
  XCall IStore [XCall IStore [XVar 0; XNum 0; XCall ISelect [XVar 0; XNum 1]]; XNum 1; XCall ISelect [XVar 0; XNum 0]].
Lemma ex_related : related ex_G ex_r ex_g.
Proof.
  intros [|x]; cbn; [|lia]. split; [reflexivity|]. split.
  - intros i. exists (VI (if (i =? 0)%Z then 7 else 8)). split; [reflexivity|]. destruct (i =? 0)%Z; lia.
  - intros [|[|[|k]]] w E; cbn in E; try discriminate; injection E as <-; cbn; lia.
Qed.
Lemma ex_swap_ok : exists e', check ex_G ex_swap = Ok e' /\ len_of_lists e' /\ plain e' /\
  forall v, means ex_g e' v -> v = VL [VI 8; VI 7].
Proof.
  eexists. split; [reflexivity|]. split; [cbn; tauto|]. split; [cbn; tauto|].
  intros v M. cbn in M.
  destruct M as (L & k & w & L' & (L1 & k1 & w1 & L1' & E1 & K1 & (L2 & k2 & E2 & K2 & W1) & E1' & P1) & K & (L3 & k3 & E3 & K3 & W) & -> & P).
  injection E1 as ->. injection E2 as ->. injection E3 as ->. injection K1 as K1. injection K2 as K2. injection K3 as K3. injection K as K.
  assert (k1 = 0 /\ k2 = 1 /\ k3 = 0 /\ k = 1)%nat as (-> & -> & -> & ->) by lia.
  cbn in W, W1, P1. subst. injection E1' as ->. cbn in P. now subst.
Qed.
(** forall m: []Int. m == m *)
Definition ex_all_G (x : nat) : lty := LList LInt.
Definition ex_all : sx := XQuant true 0 (XBin OpEq (XVar 0) (XVar 0)).
Lemma ex_all_ok : exists e', check ex_all_G ex_all = Ok e' /\ tx_ty e' = LBool /\ len_of_lists e' /\ plain e' /\
  (forall r, assigned ex_all_G r -> tr r e' = Ok (SB true)).
Proof.
  eexists. split; [reflexivity|]. split; [reflexivity|]. split; [cbn; tauto|]. split; [cbn; tauto|].
  intros r R. cbn [tr]. rewrite quant_ok.
  - f_equal. f_equal. apply holds_true. intros s S1 _. destruct (list_sort _ _ S1) as (n & f & -> & _).
    cbn. f_equal. f_equal. apply holds_true. apply l_eq_refl.
  - intros s S1. destruct (list_sort _ _ S1) as (n & f & -> & _). eexists. reflexivity.
Qed.
Definition ex_show (z : Z) : string := if (z =? -1)%Z then "-1"%string else if (z =? 2)%Z then "2"%string else "?"%string.
(** the test at list.rs 342-361 *)
Definition ex_arr : aterm := AStore (AStore (AConst (VAtom "4")) 1 (VAtom "10")) (-1) (VAtom "12").
Lemma ex_shown : store_chain ex_arr /\ (exists c, from_dynamic ex_show 1000 2 ex_arr = Some c /\ Forall clean (cl_elements c) /\
  show_list ex_show c = "[4, 10] (len=2, oob: default=4, -1 -> 12)"%string).
Proof.
  split; [exact Logic.I|]. eexists. split; [reflexivity|]. split; [|reflexivity].
  repeat constructor; try discriminate; intros [?|?]; discriminate.
Qed.
