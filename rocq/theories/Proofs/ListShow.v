(** Proofs about Model/Lists.v: how lists of counterexamples are shown. *)
From Coq Require Import Bool String Ascii List ZArith Lia Sorted.
From Verif.Model Require Import Syntax Translate Lists.
From Verif.Spec Require Import ListVals.
Import ListNotations.
Local Open Scope list_scope.

Lemma bt_get_insert m : forall k v j, bt_get j (bt_insert k v m) = if (j =? k)%Z then Some v else bt_get j m.
Proof.
  induction m as [|[k' v'] m IH]; intros k v j; cbn; [reflexivity|].
  destruct (Z.ltb_spec k k'); cbn; [reflexivity|].
  destruct (Z.eqb_spec k k'); cbn.
  - subst. now destruct (j =? k')%Z.
  - rewrite IH. destruct (Z.eqb_spec j k'), (Z.eqb_spec j k); try reflexivity. congruence.
Qed.
Lemma bt_insert_in m : forall k v p, In p (bt_insert k v m) -> p = (k, v) \/ In p m.
Proof.
  induction m as [|[k' v'] m IH]; intros k v p; cbn; [intuition|].
  destruct (k <? k')%Z; cbn; [intuition|]. destruct (k =? k')%Z; cbn; [intuition|]. intros [H|H]; [tauto|]. apply IH in H. tauto.
Qed.
Lemma bt_insert_sorted m : forall k v, ascending m -> ascending (bt_insert k v m).
Proof.
  unfold ascending. induction m as [|[k' v'] m IH]; intros k v S1; cbn; [repeat constructor|].
  cbn in S1. inversion S1 as [|? ? S2 F]; subst. rewrite Forall_forall in F.
  destruct (Z.ltb_spec k k'); [|destruct (Z.eqb_spec k k')]; cbn.
  - constructor; [exact S1|]. apply Forall_forall. intros x [<- | Hx]; [exact H|]. specialize (F x Hx). lia.
  - subst. exact S1.
  - constructor; [now apply IH|]. apply Forall_forall. intros x Hx. apply in_map_iff in Hx as (p & <- & Hp).
    apply bt_insert_in in Hp as [-> | Hp]; [cbn; lia|]. apply F. now apply in_map.
Qed.
Lemma bt_get_in m : ascending m -> forall k s, In (k, s) m <-> bt_get k m = Some s.
Proof.
  unfold ascending. induction m as [|[k' v'] m IH]; intros S1 k s; cbn; [easy|].
  cbn in S1. inversion S1 as [|? ? S2 F]; subst. rewrite Forall_forall in F. destruct (Z.eqb_spec k k').
  - subst. split; [intros [E|H]; [congruence|]|intros [= <-]; tauto].
    specialize (F k' (in_map fst _ _ H)). lia.
  - rewrite <- (IH S2). split; [intros [E|H]; [congruence|exact H]|tauto].
Qed.

Section Show.
  Variable showZ : Z -> string.
  Variable usize_max : Z.
  Notation show := (show showZ usize_max).
  Notation arr := (arr showZ usize_max).

  Lemma arr_chain a : store_chain a <-> arr a <> None.
  Proof.
    induction a; cbn; [easy| |easy].
    rewrite IHa. destruct (arr a); easy.
  Qed.
  Lemma arr_ok a : store_chain a -> exists c, arr a = Some c /\ ascending (ca_stores c) /\
    (forall i, exists v, at_index a i = Some v /\ match bt_get i (ca_stores c) with Some s => s = show v | None => ca_default c = show v end) /\
    (forall i, stored a i <-> bt_get i (ca_stores c) <> None).
  Proof.
    induction a as [v|a IH j v|s]; cbn; intros H; [| |contradiction].
    - eexists. split; [reflexivity|]. cbn. split; [constructor|]. split; [intros i; exists v; tauto|easy].
    - destruct (IH H) as (c & -> & S1 & A & B). eexists. split; [reflexivity|]. cbn [ca_stores ca_default].
      split; [now apply bt_insert_sorted|]. split; intros i; rewrite bt_get_insert; destruct (Z.eqb_spec i j).
      + exists v. tauto.
      + apply A.
      + split; [easy|tauto].
      + rewrite <- B. tauto.
  Qed.

  Lemma from_dynamic_some n a : (from_dynamic showZ usize_max n a <> None) <-> (store_chain a /\ (0 <= n)%Z).
  Proof.
    unfold from_dynamic. rewrite arr_chain. destruct (arr a) as [c|]; [|easy].
    unfold clist_of. destruct (Z.ltb_spec n 0); split; intros; try easy; try lia.
  Qed.

  Lemma from_dynamic_ok n a : (16 <= usize_max)%Z -> store_chain a -> (0 <= n)%Z ->
    exists c, from_dynamic showZ usize_max n a = Some c /\ cl_len c = n /\
      length (cl_elements c) = Z.to_nat (Z.min n 16) /\
      (forall k, k < length (cl_elements c) -> exists v, at_index a (Z.of_nat k) = Some v /\ nth_error (cl_elements c) k = Some (show v)) /\
      cl_truncated c = (16 <? n)%Z /\
      ascending (cl_oob c) /\
      (forall i s, In (i, s) (cl_oob c) <-> ((i < 0 \/ n <= i)%Z /\ stored a i /\ exists v, at_index a i = Some v /\ s = show v)).
  Proof.
    intros U H N. destruct (arr_ok a H) as (c & E & S1 & A & B). unfold from_dynamic. rewrite E. unfold clist_of.
    destruct (Z.ltb_spec n 0); [lia|]. eexists. split; [reflexivity|]. cbn [cl_len cl_elements cl_truncated cl_oob].
    assert ((match (if (n <=? usize_max)%Z then Some n else None) with Some n => Z.min n preview_limit | None => preview_limit end) = Z.min n 16) as ->.
    { unfold preview_limit. destruct (Z.leb_spec n usize_max); lia. }
    split; [reflexivity|]. split; [now rewrite map_length, seq_length|]. split; [|split; [|split]].
    - intros k Hk. rewrite map_length, seq_length in Hk. destruct (A (Z.of_nat k)) as (v & V1 & V2). exists v. split; [exact V1|].
      rewrite nth_error_map, (nth_error_nth' _ 0%nat) by (rewrite seq_length; exact Hk). rewrite seq_nth by exact Hk. cbn [option_map Nat.add].
      destruct (bt_get (Z.of_nat k) (ca_stores c)); congruence.
    - unfold preview_limit. destruct (Z.leb_spec n usize_max); [reflexivity|]. symmetry. apply Z.ltb_lt. lia.
    - clear -S1. unfold ascending in *. induction (ca_stores c) as [|p m IH]; cbn in *; [constructor|].
      inversion S1 as [|? ? S2 F]; subst. destruct (_ || _); cbn; [|now apply IH]. constructor; [now apply IH|].
      rewrite Forall_forall in *. intros x Hx. apply F. apply in_map_iff in Hx as (q & <- & Hq). apply filter_In in Hq. now apply in_map.
    - intros i s. rewrite filter_In. cbn [fst]. rewrite orb_true_iff, Z.ltb_lt, Z.leb_le, (bt_get_in _ S1), B.
      destruct (A i) as (v & V1 & V2). split.
      + intros [Hs O]. rewrite Hs in *. split; [exact O|]. split; [discriminate|]. exists v. split; congruence.
      + intros (O & Hb & v' & Hv' & ->). split; [|exact O]. destruct (bt_get i (ca_stores c)); [congruence|easy].
  Qed.
End Show.

(** * Different lists are shown differently *)

Lemma sep_split s : forall s' d d' x x', no_sep s -> no_sep s' -> sep d -> sep d' ->
  (s ++ String d x = s' ++ String d' x')%string -> s = s' /\ String d x = String d' x'.
Proof.
  induction s as [|c s IH]; intros [|c' s'] d d' x x' N N' D D' E; cbn in *.
  - tauto.
  - injection E as -> _. tauto.
  - injection E as -> _. tauto.
  - injection E as -> E. destruct (IH s' d d' x x') as [-> ?]; tauto.
Qed.
Lemma append_assoc (a b c : string) : ((a ++ b) ++ c = a ++ b ++ c)%string.
Proof. induction a as [|x a IH]; cbn; [reflexivity|]. now rewrite IH. Qed.
Lemma append_inj (a b c : string) : (a ++ b = a ++ c)%string -> b = c.
Proof. induction a as [|x a IH]; cbn; [auto|]. intros [= E]. auto. Qed.

Lemma join_cons s t l : (join (s :: t :: l) = s ++ ", " ++ join (t :: l))%string.
Proof. reflexivity. Qed.
Lemma join_inj l : forall m x y, Forall (fun s => no_sep s /\ s <> ""%string) l -> Forall (fun s => no_sep s /\ s <> ""%string) m ->
  (join l ++ String "]" x = join m ++ String "]" y)%string -> l = m /\ x = y.
Proof.
  assert (sep "]") as D1 by (right; reflexivity). assert (sep ",") as D2 by (left; reflexivity).
  induction l as [|s l IH]; intros m x y L M E.
  - destruct m as [|t m]; [cbn in E; injection E; tauto|]. exfalso. inversion M as [|? ? [Nt Et] _]; subst.
    destruct t as [|c t]; [congruence|]. cbn in Nt. destruct m as [|u m]; [|rewrite join_cons in E]; cbn in E; injection E as E _; subst c; tauto.
  - inversion L as [|? ? [Ns Es] L']; subst. destruct m as [|t m].
    + exfalso. destruct s as [|c s]; [congruence|]. cbn in Ns. destruct l as [|u l]; [|rewrite join_cons in E]; cbn in E; injection E as E _; subst c; tauto.
    + inversion M as [|? ? [Nt Et] M']; subst. destruct l as [|u l], m as [|w m].
      * cbn [join] in E. destruct (sep_split _ _ _ _ _ _ Ns Nt D1 D1 E) as [-> E']. injection E' as ->. tauto.
      * exfalso. rewrite join_cons, append_assoc in E. cbn [join] in E. destruct (sep_split _ _ _ _ _ _ Ns Nt D1 D2 E) as [_ E']. discriminate.
      * exfalso. rewrite join_cons, append_assoc in E. cbn [join] in E. destruct (sep_split _ _ _ _ _ _ Ns Nt D2 D1 E) as [_ E']. discriminate.
      * rewrite !join_cons, !append_assoc in E. destruct (sep_split _ _ _ _ _ _ Ns Nt D2 D2 E) as [-> E'].
        cbn [append] in E'. injection E' as E'. destruct (IH (w :: m) x y L' M' E') as [E1 ->]. split; [congruence|reflexivity].
Qed.

Lemma join_app_dots l x : l <> [] -> (join l ++ ", ...]" ++ x = join (l ++ ["..."%string]) ++ "]" ++ x)%string.
Proof.
  induction l as [|s l IH]; [congruence|]. intros _. destruct l as [|t l].
  - cbn. now rewrite append_assoc.
  - rewrite <- app_comm_cons. cbn [app]. rewrite !join_cons, !append_assoc. rewrite app_comm_cons in *.
    f_equal. cbn [append]. do 2 f_equal. apply IH. discriminate.
Qed.

Definition shown (c : clist) : list string := if cl_truncated c then cl_elements c ++ ["..."%string] else cl_elements c.
Lemma show_list_eq showZ c : (cl_truncated c = true -> cl_elements c <> []) ->
  exists x, show_list showZ c = ("[" ++ join (shown c) ++ "]" ++ x)%string.
Proof.
  intros H. unfold show_list, shown. destruct (cl_truncated c).
  - eexists. rewrite append_assoc. rewrite join_app_dots by auto. reflexivity.
  - eexists. rewrite append_assoc. reflexivity.
Qed.
Lemma show_list_inj showZ c d : (cl_truncated c = true -> cl_elements c <> []) -> (cl_truncated d = true -> cl_elements d <> []) ->
  Forall clean (cl_elements c) -> Forall clean (cl_elements d) ->
  show_list showZ c = show_list showZ d -> cl_truncated c = cl_truncated d /\ cl_elements c = cl_elements d.
Proof.
  intros Hc Hd Fc Fd E. destruct (show_list_eq showZ c Hc) as (x & Ex), (show_list_eq showZ d Hd) as (y & Ey). rewrite Ex, Ey in E.
  apply append_inj in E.
  assert (forall c, Forall clean (cl_elements c) -> Forall (fun s => no_sep s /\ s <> ""%string) (shown c)) as F.
  { clear. intros c F. unfold shown. destruct (cl_truncated c); [apply Forall_app; split|]; try (eapply Forall_impl; [|exact F]; unfold clean; tauto).
    repeat constructor; try discriminate; intros [?|?]; discriminate. }
  destruct (join_inj _ _ x y (F c Fc) (F d Fd) E) as [S1 _]. unfold shown in S1.
  assert (forall l m, Forall clean m -> l ++ ["..."%string] <> m) as D.
  { intros l m Fm <-. apply Forall_app in Fm as [_ Fm]. inversion Fm as [|? ? (_ & _ & ?) _]; congruence. }
  destruct (cl_truncated c), (cl_truncated d); try (now destruct (D _ _ Fc (eq_sym S1))); try (now destruct (D _ _ Fd S1)).
  - apply app_inj_tail in S1. tauto.
  - tauto.
Qed.
