(** What the search for verifying slices finds. *)
From Coq Require Import Bool List String Arith Lia.
From Verif.Model Require Import Syntax Prover SliceSearch Subsets.
From Verif.Spec Require Import SubsetSpec.
From Verif.Proofs Require Import SliceSearchProofs SubsetProofs.
Import ListNotations.
Local Open Scope list_scope.
Local Open Scope nat_scope.

Section S.
Variables vars ext red : vset.
Variables (proof : vset -> Prop) (check : nat -> vset -> prove_result) (core : nat -> vset -> vset).
Variables (minl : minimality) (unk : unknown_handling) (picks : nat -> list constraint -> pick).
Hypothesis vars_nodup : NoDup vars.
Hypothesis ext_vars : incl ext vars.
Hypothesis Ext : extensional proof.
Hypothesis Mono : monotone_in vars ext red proof.
Hypothesis HA : right_answer proof check.
Hypothesis HC : right_core proof check core.
Hypothesis HP : right_picks vars picks.
Notation above := (above ext red).
Notation under := (under ext red).
Notation fits := (fits vars ext red).

Lemma not_sat_cons s c cs : ~ satisfies s (c :: cs) -> c s = false \/ ~ satisfies s cs.
Proof. intros H. destruct (c s) eqn:E; auto. right. intros K. apply H. intros d [<-|Hd]; auto. Qed.
Lemma sat_cons s c cs : satisfies s (c :: cs) -> c s = true /\ satisfies s cs.
Proof. intros H. split; [apply H; now left | intros d Hd; apply H; now right]. Qed.
Lemma above_proof a s : incl a vars -> incl s vars -> above a s -> proof s -> proof a.
Proof.
  intros Ha Hs [H1 H2]. apply Mono; auto. intros v Hv N. destruct (in_dec Nat.eq_dec v red); auto. exfalso. auto.
Qed.
Lemma under_not a s : incl a vars -> incl s vars -> under a s -> ~ proof s -> ~ proof a.
Proof.
  intros Ha Hs [H1 H2] NP P. apply NP. revert P. apply Mono; auto. intros v Hv N. destruct (in_dec Nat.eq_dec v ext); auto. exfalso. auto.
Qed.

Lemma use_core_right x cur k : proof cur -> check k cur = Proof -> NoDup cur ->
  exists r, use_core x cur (core k cur) = Ok r /\ proof r /\ NoDup r.
Proof.
  intros P C N. destruct (HC k cur C) as (H1 & H2 & H3). unfold use_core. rewrite (proj2 (subset_iff _ _) H1). cbn [negb].
  destruct (diff (diff cur (core k cur)) (extensive x)); eauto.
Qed.
Lemma shrink_loop_right x : forall todo cur k, proof cur -> NoDup cur -> exists r, shrink_loop check core x todo cur k = Ok r /\ proof (fst r) /\ NoDup (fst r).
Proof.
  induction todo as [|v todo IH]; intros cur k P N; cbn [shrink_loop]; [eauto|]. destruct (mem v cur) eqn:M; [|now apply IH]. apply memb in M.
  unfold get_core. pose proof (HA k (remove v cur)) as Q.
  assert (Back : exists r, shrink_loop check core x todo (insert v (remove v cur)) (S k) = Ok r /\ proof (fst r) /\ NoDup (fst r)).
  { apply IH; [|now apply nodup_insert, nodup_remove]. revert P. apply Ext. intros w. rewrite in_insert, in_remove. destruct (Nat.eq_dec w v) as [->|]; tauto. }
  destruct (check k (remove v cur)) eqn:C; auto. destruct (use_core_right x (remove v cur) k Q C (nodup_remove _ _ N)) as (r & -> & Pr & Nr). cbn [rbind]. now apply IH.
Qed.
Lemma shrink_right x s k : fits x -> proof s -> NoDup s -> exists cur k', shrink_block_unsat check core x s k = Ok (cur, k', block_unsat cur x) /\ proof cur /\ NoDup cur.
Proof.
  intros F P N. unfold shrink_block_unsat, get_core.
  assert (C : exists c, match (match check k s with Proof => Some (core k s) | _ => None end) with Some c => use_core x s c | None => Ok s end = Ok c /\ proof c /\ NoDup c).
  { destruct (check k s) eqn:C; [|eauto|eauto]. now apply use_core_right. }
  destruct C as (c & -> & Pc & Nc). cbn [rbind]. destruct (shrink_loop_right x (inter s (extensive x)) c (S k) Pc Nc) as (r & -> & Pr & Nr). cbn [rbind]. eauto.
Qed.
Lemma grow_loop_right : forall todo cur k, incl todo ext -> incl cur vars -> ~ proof cur -> incl (fst (grow_loop check todo cur k)) vars /\ ~ proof (fst (grow_loop check todo cur k)).
Proof.
  induction todo as [|v todo IH]; intros cur k Ht Hc NP; cbn [grow_loop]; auto.
  assert (Ht' : incl todo ext) by (intros w Hw; apply Ht; now right). assert (Hv : In v ext) by (apply Ht; now left).
  assert (Hi : incl (insert v cur) vars) by (intros w Hw; apply in_insert in Hw; destruct Hw as [->|Hw]; auto).
  assert (Back : ~ proof (remove v (insert v cur))).
  { intros P. apply NP. revert P. apply Mono; auto.
    - intros w Hw. apply in_remove in Hw. apply Hi; tauto.
    - intros w Hw N. destruct (Nat.eq_dec w v) as [->|]; auto. exfalso. apply N, in_remove. rewrite in_insert. auto.
    - intros w Hw N. exfalso. apply in_remove in Hw. rewrite in_insert in Hw. tauto. }
  assert (Hr : incl (remove v (insert v cur)) vars) by (intros w Hw; apply in_remove in Hw; apply Hi; tauto).
  pose proof (HA k (insert v cur)) as Q. destruct (check k (insert v cur)); apply IH; auto.
Qed.

Definition just (found unks : list vset) (a : vset) : Prop :=
  (exists s, In s found /\ above a s) \/ ~ proof a \/ (exists u, In u unks /\ same_set a u) \/
  (minl = SubsetMinimal /\ exists s, In s found /\ ~ incl a s) \/ (minl = SizeMinimal /\ exists s, In s found /\ List.length s <= List.length a).
Record inv (x : exploration) (found unks : list vset) (best : option vset) : Prop := {
  i_fits : fits x;
  i_found : forall s, In s found -> incl s vars /\ NoDup s /\ proof s;
  i_best : match best with None => found = [] | Some b => In b found /\ forall s, In s found -> List.length b <= List.length s end;
  i_just : forall a, incl a vars -> NoDup a -> ~ satisfies (asg a) (asserted x) -> just found unks a;
  i_blocked : forall s, In s found -> ~ satisfies (asg s) (asserted x);
  i_chain : minl = SubsetMinimal -> (forall s, In s found -> forall a, incl a vars -> satisfies (asg a) (asserted x) -> incl a s) /\
    match best with Some b => forall s, In s found -> incl b s | None => True end;
  i_unks : forall u, In u unks -> exists k, check k u = ProveUnknown }.
Lemma inv_start : inv (new_exploration vars ext red) [] [] None.
Proof.
  constructor; cbn; auto; try contradiction.
  - constructor; cbn; auto.
  - intros a _ _ H. destruct H. intros c [].
  - intros _. split; auto. intros s [].
Qed.

Lemma just_more f u f' u' a : incl f f' -> incl u u' -> just f u a -> just f' u' a.
Proof. intros H1 H2 [(s & A & B)|[A|[(s & A & B)|[[E (s & A & B)]|[E (s & A & B)]]]]]; unfold just; [left|right;left|right;right;left|right;right;right;left|right;right;right;right]; eauto 6. Qed.
Lemma sat_local x a b : fits x -> same_set a b -> satisfies (asg a) (asserted x) -> satisfies (asg b) (asserted x).
Proof.
  intros F E H c Hc. rewrite <- (H c Hc). apply (proj1 (Forall_forall _ _) (f_local _ _ _ _ F) c Hc). intros v _. unfold asg.
  destruct (mem v a) eqn:M; [apply memb, E, memb in M; auto | apply memb_false; intros Q; apply E, memb in Q; congruence].
Qed.

(** One more slice that verifies. *)
Lemma inv_found x found unks best seed cur : inv x found unks best -> incl seed vars -> satisfies (asg seed) (asserted x) ->
  shrunk ext seed cur -> proof cur -> NoDup cur -> NoDup seed ->
  inv (match minl with AnySlice => block_unsat cur x | SubsetMinimal => block_non_subset cur (block_unsat cur x) | SizeMinimal => block_at_least (List.length cur) (block_unsat cur x) end)
    (cur :: found) unks (found_active best cur).
Proof.
  intros I Hs Sat [C1 C2] P N Ns. assert (Hc : incl cur vars) by (intros v Hv; auto). pose proof (i_fits _ _ _ _ I) as F.
  pose proof (fits_unsat _ _ _ x cur F Hc) as F1.
  assert (Bl : forall a, above a cur -> incl a vars -> ~ satisfies (asg a) (asserted (block_unsat cur x))).
  { intros a Ab Ha Q. pose proof (proj2 (unsat_blocks _ _ _ x cur a F Ha _ eq_refl) Ab) as E. pose proof (Q _ (or_introl eq_refl)) as E'. cbn in E'. cbn beta in E. rewrite E in E'. discriminate. }
  assert (More : forall a cs, ~ satisfies (asg a) (asserted (block_unsat cur x)) -> ~ satisfies (asg a) (cs ++ asserted (block_unsat cur x))).
  { intros a cs H Q. apply H. intros c Hc'. apply Q. apply in_app_iff. auto. }
  assert (Old : forall a, satisfies (asg a) (asserted (block_unsat cur x)) -> satisfies (asg a) (asserted x)) by (intros a Q; now apply sat_cons in Q).
  assert (J1 : forall a, incl a vars -> NoDup a -> ~ satisfies (asg a) (asserted (block_unsat cur x)) -> just (cur :: found) unks a).
  { intros a Ha Na Q. apply not_sat_cons in Q. destruct Q as [Q|Q].
    - left. exists cur. split; [now left|]. exact (proj1 (unsat_blocks _ _ _ x cur a F Ha _ eq_refl) Q).
    - apply (just_more found unks); [intros v Hv; now right | apply incl_refl | now apply (i_just _ _ _ _ I)]. }
  assert (Fnd : forall s, In s (cur :: found) -> incl s vars /\ NoDup s /\ proof s) by (intros s [<-|H]; auto; now apply (i_found _ _ _ _ I)).
  assert (Blk : forall s, In s (cur :: found) -> ~ satisfies (asg s) (asserted (block_unsat cur x))).
  { intros s [<-|H]; [apply Bl; auto; split; tauto|]. intros Q. exact (i_blocked _ _ _ _ I s H (Old s Q)). }
  assert (Bst : match found_active best cur with None => cur :: found = [] | Some b => In b (cur :: found) /\ forall s, In s (cur :: found) -> List.length b <= List.length s end).
  { pose proof (i_best _ _ _ _ I) as B. unfold found_active. destruct best as [b|].
    - destruct B as [B1 B2]. destruct (Nat.ltb_spec (List.length cur) (List.length b)).
      + split; [now left|]. intros s [<-|Hs']; auto. specialize (B2 s Hs'). unfold vset in *. lia.
      + split; [now right|]. intros s [<-|Hs']; auto.
    - subst found. split; [now left|]. intros s [<-|[]]; auto. }
  assert (App : exists cs, asserted (match minl with AnySlice => block_unsat cur x | SubsetMinimal => block_non_subset cur (block_unsat cur x) | SizeMinimal => block_at_least (List.length cur) (block_unsat cur x) end) = cs ++ asserted (block_unsat cur x)).
  { destruct minl; [exists [] | eexists [_] | eexists [_]]; reflexivity. }
  destruct App as [cs App]. constructor.
  - destruct minl; auto; [now apply fits_subset | now apply fits_least].
  - exact Fnd.
  - exact Bst.
  - intros a Ha Na Q. destruct minl eqn:Em; auto.
    + apply not_sat_cons in Q. destruct Q as [Q|Q]; auto. right. right. right. left. split; auto. exists cur. split; [now left|]. intros K.
      apply (subset_blocks _ _ _ _ cur a F1 Ha _ eq_refl) in K. cbn in K, Q. congruence.
    + apply not_sat_cons in Q. destruct Q as [Q|Q]; auto. right. right. right. right. split; auto. exists cur. split; [now left|].
      destruct (Nat.le_gt_cases (List.length cur) (List.length a)) as [|K]; auto.
      apply (least_blocks _ _ _ _ (List.length cur) a F1 vars_nodup Na Ha _ eq_refl) in K. cbn in K, Q. congruence.
  - intros s H. rewrite App. apply More. auto.
  - intros Em. destruct (i_chain _ _ _ _ I Em) as [K1 K2]. rewrite Em in *. split.
    + intros s [<-|H] a Ha Q; apply sat_cons in Q; destruct Q as [Q Q'].
      * exact (proj1 (subset_blocks _ _ _ _ cur a F1 Ha _ eq_refl) Q).
      * exact (K1 s H a Ha (Old a Q')).
    + assert (Cs : forall s, In s found -> incl cur s) by (intros s H v Hv; apply (K1 s H seed Hs Sat); auto).
      unfold found_active. pose proof (i_best _ _ _ _ I) as B. destruct best as [b|].
      * destruct B as [B1 B2]. destruct (Nat.ltb_spec (List.length cur) (List.length b)) as [L|L].
        -- intros s [<-|H]; [apply incl_refl | auto].
        -- exfalso. (* seed would be the blocked best *) apply (i_blocked _ _ _ _ I b B1). apply (sat_local x seed b F); auto.
           intros v. split; intros Hv; [exact (K1 b B1 seed Hs Sat v Hv)|]. apply C1. refine (NoDup_length_incl N _ (Cs b B1) v Hv). exact L.
      * intros s [<-|H]; [apply incl_refl | auto].
  - exact (i_unks _ _ _ _ I).
Qed.
Lemma inv_cex x found unks best cur : inv x found unks best -> incl cur vars -> ~ proof cur -> inv (block_sat cur x) found unks best.
Proof.
  intros I Hc NP. pose proof (i_fits _ _ _ _ I) as F. constructor.
  - now apply fits_sat.
  - apply (i_found _ _ _ _ I).
  - apply (i_best _ _ _ _ I).
  - intros a Ha Na Q. apply not_sat_cons in Q. destruct Q as [Q|Q]; [|now apply (i_just _ _ _ _ I)].
    right. left. apply (under_not a cur Ha Hc); auto. exact (proj1 (sat_blocks _ _ _ x cur a F Ha _ eq_refl) Q).
  - intros s H Q. apply sat_cons in Q. exact (i_blocked _ _ _ _ I s H (proj2 Q)).
  - intros Em. destruct (i_chain _ _ _ _ I Em) as [K1 K2]. split; auto. intros s H a Ha Q. apply sat_cons in Q. exact (K1 s H a Ha (proj2 Q)).
  - apply (i_unks _ _ _ _ I).
Qed.
Lemma inv_unknown x found unks best seed k : inv x found unks best -> incl seed vars -> check k seed = ProveUnknown ->
  inv (block_this seed x) found (seed :: unks) best.
Proof.
  intros I Hc U. pose proof (i_fits _ _ _ _ I) as F. constructor.
  - now apply fits_this.
  - apply (i_found _ _ _ _ I).
  - apply (i_best _ _ _ _ I).
  - intros a Ha Na Q. apply not_sat_cons in Q. destruct Q as [Q|Q].
    + right. right. left. exists seed. split; [now left|]. exact (proj1 (this_blocks _ _ _ x seed a F Ha Hc _ eq_refl) Q).
    + apply (just_more found unks); [apply incl_refl | intros v Hv; now right | now apply (i_just _ _ _ _ I)].
  - intros s H Q. apply sat_cons in Q. exact (i_blocked _ _ _ _ I s H (proj2 Q)).
  - intros Em. destruct (i_chain _ _ _ _ I Em) as [K1 K2]. split; auto. intros s H a Ha Q. apply sat_cons in Q. exact (K1 s H a Ha (proj2 Q)).
  - intros u [<-|Hu]; eauto. now apply (i_unks _ _ _ _ I).
Qed.

Lemma search_result : (unk = Accept -> forall k s, check k s <> ProveUnknown) -> forall fuel x found unks best j k, inv x found unks best -> open_sets vars x < fuel ->
  exists r x' found' unks', unsat_search check core minl unk picks fuel x best j k = Ok r /\ inv x' found' unks' r /\
    ((minl = AnySlice /\ r <> None) \/ (unk = Stop /\ unks' <> []) \/ forall s, ~ satisfies s (asserted x')).
Proof.
  intros HU. induction fuel as [|fuel IH]; intros x found unks best j k I L; [lia|].
  pose proof (i_fits _ _ _ _ I) as F. pose proof (search_step_ends vars ext red check core minl unk picks ext_vars HP (S fuel) x best j k F L) as Ends. clear Ends.
  cbn [unsat_search]. pose proof (next_ok _ _ _ _ x F (HP j (asserted x) (f_local _ _ _ _ F))) as N.
  destruct (next_set (picks j (asserted x)) x) as [[s|]| |]; cbn [rbind]; try contradiction.
  2:{ exists best, x, found, unks. auto. }
  destruct N as (N1 & N0 & N2 & N3). specialize (N0 vars_nodup). pose proof (HA k s) as Q. destruct (check k s) eqn:C.
  - destruct (shrink_right x s (S k) F Q N0) as (cur & k' & E & P & Nc). rewrite E. cbn [rbind].
    destruct (shrink_ok _ _ _ _ _ _ _ _ _ _ _ F E) as [Sh _]. pose proof (inv_found x found unks best s cur I N1 N3 Sh P Nc N0) as I'.
    assert (Ab : above s cur) by (destruct Sh; split; auto).
    pose proof (proj2 (unsat_blocks _ _ _ x cur s F N1 _ eq_refl) Ab) as Bc.
    destruct minl eqn:Em.
    + exists (found_active best cur), (block_unsat cur x), (cur :: found), unks. split; auto. split; auto. left. split; auto. unfold found_active. destruct best; [destruct (_ <? _)|]; discriminate.
    + eapply IH; [exact I'|]. enough (open_sets vars (block_non_subset cur (block_unsat cur x)) < open_sets vars x) by lia.
      eapply (open_less vars x _ [_; _]); [cbn; reflexivity | exact N2 | exact N3 |]. eexists. split; [right; left; reflexivity | exact Bc].
    + eapply IH; [exact I'|]. enough (open_sets vars (block_at_least (List.length cur) (block_unsat cur x)) < open_sets vars x) by lia.
      eapply (open_less vars x _ [_; _]); [cbn; reflexivity | exact N2 | exact N3 |]. eexists. split; [right; left; reflexivity | exact Bc].
  - destruct (grow_block_sat check x s (S k)) as [[cur k'] x'] eqn:E. destruct (grow_ok vars ext red check core x s (S k) cur k' x' F E) as [[G1 G2] ->].
    assert (K : incl cur vars /\ ~ proof cur).
    { unfold grow_block_sat in E. pose proof (grow_loop_right (diff (extensive x) s) s (S k) ltac:(intros v Hv; apply in_diff in Hv; rewrite (f_ext _ _ _ _ F) in Hv; tauto) N1 Q) as K.
      destruct (grow_loop check (diff (extensive x) s) s (S k)). injection E as <- _. exact K. }
    destruct K as [Hc NP]. eapply IH; [now apply inv_cex; [exact I|..]|]. enough (open_sets vars (block_sat cur x) < open_sets vars x) by lia.
    eapply (open_less vars x _ [_] s); [reflexivity | exact N2 | exact N3 |]. eexists. split; [now left|].
    apply (sat_blocks _ _ _ x cur s F N1 _ eq_refl). split; [|intros v Hv N; exfalso; auto].
    intros v Hv N. destruct (in_dec Nat.eq_dec v s); auto. exfalso. auto.
  - pose proof (inv_unknown x found unks best s k I N1 C) as I'. destruct unk eqn:Eu.
    + eapply IH; [exact I'|]. enough (open_sets vars (block_this s x) < open_sets vars x) by lia.
      eapply (open_less vars x _ [_] s); [reflexivity | exact N2 | exact N3 |]. eexists. split; [now left|].
      apply (this_blocks _ _ _ x s s F N1 N1 _ eq_refl). intros v. tauto.
    + exists best, (block_this s x), found, (s :: unks). split; auto. split; auto. right. left. split; auto. discriminate.
    + exfalso. exact (HU eq_refl k s C).
Qed.

Definition result (fuel : nat) := unsat_search check core minl unk picks fuel (new_exploration vars ext red) None 0 0.
Lemma start_open : open_sets vars (new_exploration vars ext red) <= 2 ^ List.length vars.
Proof.
  unfold open_sets. rewrite <- subs_length. generalize (subs vars) as l. cbn [asserted new_exploration]. induction l as [|a l IH]; cbn; auto. unfold vset in *. lia.
Qed.
Theorem enumerate_sound fuel : 2 ^ List.length vars < fuel -> (unk = Accept -> forall k s, check k s <> ProveUnknown) ->
  exists r, result fuel = Ok r /\ match r with Some s => incl s vars /\ NoDup s /\ proof s | None => True end.
Proof.
  intros L HU. pose proof start_open. destruct (search_result HU fuel _ _ _ _ 0 0 inv_start ltac:(lia)) as (r & x' & f & u & E & I & _). exists r. split; auto.
  destruct r as [s|]; auto. apply (i_found _ _ _ _ I). now apply (i_best _ _ _ _ I).
Qed.
Theorem enumerate_complete fuel : 2 ^ List.length vars < fuel -> (forall k s, check k s <> ProveUnknown) ->
  (exists a, incl a vars /\ proof a) -> result fuel <> Ok None.
Proof.
  intros L HU (a & Ha & Pa). pose proof start_open. destruct (search_result (fun _ => HU) fuel _ _ _ _ 0 0 inv_start ltac:(lia)) as (r & x' & f & u & E & I & D).
  unfold result. rewrite E. intros [= ->]. pose proof (i_best _ _ _ _ I) as B. cbn in B. subst f. destruct D as [[_ D]|[[_ D]|D]]; [congruence| |].
  - destruct u as [|u0 u]; [congruence|]. destruct (i_unks _ _ _ _ I u0 (or_introl eq_refl)) as (k & C). exact (HU k u0 C).
  - assert (Pn : proof (nodup Nat.eq_dec a)) by (revert Pa; apply Ext; intros v; now rewrite nodup_In).
    destruct (i_just _ _ _ _ I (nodup Nat.eq_dec a) ltac:(intros v Hv; apply nodup_In in Hv; auto) (NoDup_nodup _ _) (D _)) as [(s & [] & _)|[K|[(v & K & _)|[[_ (s & [] & _)]|[_ (s & [] & _)]]]]]; auto.
    destruct (i_unks _ _ _ _ I v K) as (k & C). exact (HU k v C).
Qed.
Theorem enumerate_minimal fuel s : 2 ^ List.length vars < fuel -> (forall k s, check k s <> ProveUnknown) -> (forall v, In v vars -> ~ In v red) ->
  result fuel = Ok (Some s) ->
  match minl with
  | AnySlice => True
  | SubsetMinimal => forall a, incl a s -> proof a -> incl s a
  | SizeMinimal => forall a, incl a vars -> NoDup a -> proof a -> List.length s <= List.length a
  end.
Proof.
  intros L HU NR R. pose proof start_open. destruct (search_result (fun _ => HU) fuel _ _ _ _ 0 0 inv_start ltac:(lia)) as (r & x' & f & u & E & I & D).
  unfold result in R. rewrite E in R. injection R as ->.
  assert (NU : forall v, ~ In v u) by (intros v Hv; destruct (i_unks _ _ _ _ I v Hv) as (k & C); exact (HU k v C)).
  destruct D as [[-> _]|[[_ D]|D]]; auto; [destruct u as [|u0 u]; [congruence|]; destruct (NU u0); now left|].
  pose proof (i_best _ _ _ _ I) as [B1 B2]. destruct (i_found _ _ _ _ I s B1) as (Hs & Ns & Ps).
  assert (J : forall a, incl a vars -> NoDup a -> proof a -> just f u a) by (intros a Ha Na _; apply (i_just _ _ _ _ I); auto).
  assert (Sup : forall a t, above a t -> In t f -> incl t a) by (intros a t [A _] Ht v Hv; apply A; auto; apply NR; now apply (i_found _ _ _ _ I t Ht)).
  destruct minl eqn:Em; auto.
  - destruct (i_chain _ _ _ _ I Em) as [_ K2]. intros a Ha Pa. set (a' := nodup Nat.eq_dec a). assert (Pn : proof a') by (revert Pa; apply Ext; intros v; unfold a'; now rewrite nodup_In).
    assert (Ha' : incl a' s) by (intros v Hv; apply Ha; now apply nodup_In in Hv).
    enough (Q : incl s a') by (intros v Hv; apply Q in Hv; now apply nodup_In in Hv).
    destruct (J a' ltac:(intros v Hv; auto) (NoDup_nodup _ _) Pn) as [(t & Ht & A)|[K|[(v & K & _)|[[_ (t & Ht & K)]|[K _]]]]]; try congruence.
    + intros v Hv. apply (Sup a' t A Ht). apply (K2 t Ht). exact Hv.
    + exfalso. exact (NU v K).
    + exfalso. apply K. intros v Hv. apply (K2 t Ht). auto.
  - intros a Ha Na Pa. destruct (J a Ha Na Pa) as [(t & Ht & A)|[K|[(v & K & _)|[[K _]|[_ (t & Ht & K)]]]]]; try congruence.
    + pose proof (NoDup_incl_length (proj1 (proj2 (i_found _ _ _ _ I t Ht))) (Sup a t A Ht)). specialize (B2 t Ht). unfold vset in *. lia.
    + exfalso. exact (NU v K).
    + specialize (B2 t Ht). unfold vset in *. lia.
Qed.
End S.
