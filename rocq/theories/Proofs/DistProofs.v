(** Distributions: the expectation built by the code against the documented one. *)
From Coq Require Import Bool List String ZArith NArith QArith Reals Qreals Lia Lra.
From Verif.Model Require Import Syntax Builder Dist.
From Verif.Spec Require Import Eur Sem Wp.
From Verif.Proofs Require Import EurLemmas SemLemmas WpLemmas Vandermonde.
Import ListNotations.

Lemma nnr_of_val r : (0 <= r)%R -> nval (nnr_of r) = r.
Proof. intros. unfold nval, nnr_of. simpl. apply Rmax_right; lra. Qed.

Lemma n2r_pos n : (0 <= n2r n)%R.
Proof. unfold n2r. apply IZR_le. lia. Qed.
Lemma n2r_add a b : n2r (a + b) = (n2r a + n2r b)%R.
Proof. unfold n2r. rewrite N2Z.inj_add. apply plus_IZR. Qed.
Lemma n2r_mul a b : n2r (a * b) = (n2r a * n2r b)%R.
Proof. unfold n2r. rewrite N2Z.inj_mul. apply mult_IZR. Qed.
Lemma n2r_nz a : a <> 0%N -> (n2r a > 0)%R.
Proof. intros. unfold n2r. apply IZR_lt. lia. Qed.

Lemma ratio_R a t : t <> 0%N -> Q2R (ratio a t) = (n2r a / n2r t)%R.
Proof.
  intros H. unfold ratio, Q2R, n2r. simpl. rewrite Z2Pos.id by lia. reflexivity.
Qed.
Lemma ratio_wt a t : wt (b_frac (ratio a t)) = true.
Proof. unfold ratio. apply Qle_bool_iff. unfold Qle; simpl. lia. Qed.

Definition nsum (l : list N) : N := fold_right N.add 0%N l.

Lemma from_odds_fold l t0 : (t0 + nsum (map fst l) < u128_bound)%N ->
  fold_left (fun acc (p : N * expr) => let? t := acc in u128 (t + fst p)) l (Ok t0) = Ok (t0 + nsum (map fst l))%N.
Proof.
  revert t0. induction l as [|[o e] l IH]; intros t0 H; cbn [map fst nsum fold_right fold_left] in *.
  - now rewrite N.add_0_r.
  - cbn [rbind]. unfold u128 at 2. fold (nsum (map fst l)) in *.
    assert (E : (t0 + o <? u128_bound)%N = true) by (apply N.ltb_lt; lia).
    rewrite E. rewrite IH by lia. f_equal; lia.
Qed.

Lemma mapM_ok {A B} (f : A -> res B) (g : A -> B) l :
  (forall a, In a l -> f a = Ok (g a)) -> mapM f l = Ok (map g l).
Proof.
  induction l as [|a l IH]; intros H; simpl; auto.
  rewrite H by (left; auto). simpl. rewrite IH; [reflexivity|]. intros; apply H; right; auto.
Qed.

Lemma from_odds_ok l : (nsum (map fst l) < u128_bound)%N -> nsum (map fst l) <> 0%N ->
  from_odds l = Ok (map (fun p => (b_frac (ratio (fst p) (nsum (map fst l))), snd p)) l).
Proof.
  intros H H0. unfold from_odds.
  rewrite (from_odds_fold l 0) by (rewrite N.add_0_l; auto). cbn [rbind].
  rewrite N.add_0_l. apply N.eqb_neq in H0. apply mapM_ok. intros; rewrite H0; reflexivity.
Qed.

Lemma from_odds_zero l : nsum (map fst l) = 0%N -> l <> [] -> exists w, from_odds l = Panic w.
Proof.
  intros H Hl. unfold from_odds.
  rewrite (from_odds_fold l 0) by (rewrite H; reflexivity). cbn [rbind]. rewrite N.add_0_l, H.
  destruct l; [congruence|]. simpl. eauto.
Qed.

(** The meaning of a code-level distribution in a state. *)
Definition den (I : interp) (s : env) (d : dist) : pmf := map (fun pv => (ev I (fst pv) s, eval I (snd pv) s)) d.

Definition dist_wt (t : ty) (d : dist) : Prop :=
  Forall (fun pv => wte (fst pv) /\ wt (snd pv) = true /\ ty_of (snd pv) = t) d.

Lemma dist_expectation_sound I d x post :
  interp_ok I -> d <> [] -> dist_wt (ity x) d -> wte post ->
  exists e, dist_expectation d x post = Ok e /\ wte e /\
  forall s, env_ok s -> ev I e s = expected (den I s d) (fun v => ev I post (upd s x v)).
Proof.
  intros HI Hd Hwt Hp. unfold dist_expectation.
  set (term := fun pv : expr * expr => EBin (ty_of (fst pv)) OMul (fst pv) (b_subst post [(x, snd pv)])).
  set (good := fun pv => wte (term pv) /\
     forall s, env_ok s -> ev I (term pv) s = emul (ev I (fst pv) s) (ev I post (upd s x (eval I (snd pv) s)))).
  assert (Hterm : Forall good d).
  { eapply Forall_impl; [|exact Hwt]. intros [p v] (W1 & W2 & T2). simpl in *. unfold good, term; simpl.
    rewrite (proj2 W1).
    assert (Wb : wte (ESubst x v post)) by (apply wte_subst; auto).
    split; [apply wte_bin; auto|]. intros s Hs. rewrite ev_mul by auto. reflexivity. }
  destruct d as [|pv d]; [congruence|]. cbn [map].
  (* generalise over the accumulator *)
  assert (G : forall d acc (A : env -> eur), wte acc ->
     (forall s, env_ok s -> ev I acc s = A s) -> Forall good d ->
     exists e, fold_left (fun a b => EBin (ty_of a) OAdd a b) (map term d) acc = e /\ wte e /\
       forall s, env_ok s -> ev I e s = eadd (A s) (expected (den I s d) (fun v => ev I post (upd s x v)))).
  { clear - HI. intros d. induction d as [|pv d IH]; intros acc A Wa Ea Hr; cbn [map fold_left].
    - eexists; split; [reflexivity|]. split; auto. intros s Hs. cbn [den map expected]. rewrite eadd_0_r. auto.
    - inversion Hr as [|? ? (W & E) Hr']; subst.
      destruct (IH (EBin (ty_of acc) OAdd acc (term pv))
         (fun s => eadd (A s) (emul (ev I (fst pv) s) (ev I post (upd s x (eval I (snd pv) s)))))) as (e & H1 & H2 & H3); auto.
      + rewrite (proj2 Wa). apply wte_bin; auto.
      + intros s Hs. rewrite (proj2 Wa). rewrite ev_add by auto. rewrite Ea, E by auto. reflexivity.
      + exists e. split; auto. split; auto. intros s Hs. rewrite H3 by auto. cbn [den map expected].
        now rewrite eadd_assoc. }
  inversion Hterm as [|? ? (W & E) Hrest]; subst.
  destruct (G d (term pv) _ W E Hrest) as (e & <- & H2 & H3). eexists; split; [reflexivity|]. split; auto.
Qed.

(** * Each distribution in its proper range *)
Lemma from_odds_dist_wt t l d : from_odds l = Ok d -> Forall (fun p => wt (snd p) = true /\ ty_of (snd p) = t) l ->
  nsum (map fst l) <> 0%N -> (nsum (map fst l) < u128_bound)%N -> dist_wt t d.
Proof.
  intros H Hl Hn Hb. rewrite from_odds_ok in H by auto. inversion H; subst. unfold dist_wt.
  rewrite Forall_forall in *. intros pv Hin. apply in_map_iff in Hin. destruct Hin as (p & <- & Hp).
  simpl. destruct (Hl p Hp). repeat split; auto. apply ratio_wt.
Qed.

Lemma den_from_odds I s l : (nsum (map fst l) < u128_bound)%N -> nsum (map fst l) <> 0%N ->
  exists d, from_odds l = Ok d /\
  den I s d = map (fun p => (fin (n2r (fst p) / n2r (nsum (map fst l))), eval I (snd p) s)) l.
Proof.
  intros H H0. rewrite from_odds_ok by auto. eexists; split; [reflexivity|].
  unfold den. rewrite map_map. apply map_ext. intros p. simpl. unfold ev; simpl. now rewrite ratio_R.
Qed.

Lemma range_nrange a b : range_incl a b = nrange a b.
Proof.
  unfold range_incl, nrange. destruct (N.leb_spec a b).
  - do 2 f_equal. lia.
  - replace (S (N.to_nat b) - N.to_nat a)%nat with O by lia. reflexivity.
Qed.

Lemma nsum_ones (l : list N) : nsum (map fst (map (fun v => (1%N, b_uint v)) l)) = N.of_nat (List.length l).
Proof.
  induction l as [|a l IH]; [reflexivity|]. cbn [map fst List.length]. unfold nsum in *. cbn [fold_right].
  rewrite IH. lia.
Qed.
Lemma range_length a b : (a <= b)%N -> N.of_nat (List.length (range_incl a b)) = (b - a + 1)%N.
Proof. intros H. unfold range_incl. apply N.leb_le in H as E. rewrite E. rewrite map_length, seq_length. lia. Qed.

(** What it means that the code's distribution is the documented one. *)
Definition dist_correct (name : string) (args : list expr) (t : ty) : Prop :=
  exists d, apply_dist name args = Ok d /\ d <> [] /\ dist_wt t d /\
  forall I s, interp_ok I -> env_ok s -> dist_sem name (map (fun a => eval I a s) args) = Some (den I s d).

Lemma lit_u128_ok n : (n < u128_bound)%N -> lit_u128 (b_uint n) = Ok n.
Proof. intros H. unfold lit_u128, b_uint. apply N.ltb_lt in H. now rewrite H. Qed.

Lemma dist_from_odds name args t l :
  apply_dist name args = from_odds l -> l <> [] ->
  (nsum (map fst l) < u128_bound)%N -> nsum (map fst l) <> 0%N ->
  Forall (fun p => wt (snd p) = true /\ ty_of (snd p) = t) l ->
  (forall I s, interp_ok I -> env_ok s -> dist_sem name (map (fun a => eval I a s) args) =
     Some (map (fun p => (fin (n2r (fst p) / n2r (nsum (map fst l))), eval I (snd p) s)) l)) ->
  dist_correct name args t.
Proof.
  intros Ha Hl Hb Hz Hw Hd. pose proof (from_odds_ok l Hb Hz) as E.
  eexists. rewrite Ha. split; [exact E|]. split; [|split].
  - destruct l; [congruence | discriminate].
  - eapply from_odds_dist_wt; eauto.
  - intros I s HI Hs. rewrite Hd by auto. f_equal. destruct (den_from_odds I s l Hb Hz) as (d & E1 & E2).
    rewrite E in E1. inversion E1; subst. now rewrite E2.
Qed.

Lemma ber_correct a b : (a + b <> 0)%N -> (a + b < u128_bound)%N ->
  dist_correct "ber" [b_uint a; b_uint b] TBool.
Proof.
  intros Hz Hb. eapply (dist_from_odds _ _ _ [(a, b_bool true); (b, b_bool false)]).
  - unfold apply_dist. cbn [String.eqb Ascii.eqb Bool.eqb]. rewrite !lit_u128_ok by lia. reflexivity.
  - discriminate.
  - simpl. unfold nsum; simpl. lia.
  - simpl. unfold nsum; simpl. lia.
  - repeat constructor.
  - intros I s HI Hs. cbn [map eval b_uint eval_lit]. unfold dist_sem. cbn [String.eqb Ascii.eqb Bool.eqb].
    apply N.eqb_neq in Hz as E. rewrite E. cbn [fst snd map]. unfold nsum. cbn [fold_right].
    rewrite N.add_0_r. reflexivity.
Qed.

Lemma unif_correct a b : (a <= b)%N -> (b < u128_bound)%N -> (b - a + 1 < u128_bound)%N ->
  dist_correct "unif" [b_uint a; b_uint b] TUInt.
Proof.
  intros Hab Hb Hs. eapply (dist_from_odds _ _ _ (map (fun v => (1%N, b_uint v)) (range_incl a b))).
  - unfold apply_dist. cbn [String.eqb Ascii.eqb Bool.eqb]. rewrite !lit_u128_ok by lia. reflexivity.
  - unfold range_incl. apply N.leb_le in Hab as E. rewrite E. discriminate.
  - rewrite nsum_ones, range_length by auto. exact Hs.
  - rewrite nsum_ones, range_length by auto. lia.
  - apply Forall_forall. intros p Hp. apply in_map_iff in Hp. destruct Hp as (v & <- & _). split; reflexivity.
  - intros I s HI Hss. cbn [map eval b_uint eval_lit]. unfold dist_sem. cbn [String.eqb Ascii.eqb Bool.eqb].
    f_equal. rewrite nsum_ones, range_length by auto. rewrite map_map, <- range_nrange.
    apply map_ext. intros v. reflexivity.
Qed.

Lemma flip_correct p : wt p = true -> ty_of p = TUReal -> dist_correct "flip" [p] TBool.
Proof.
  intros W T. eexists. split; [reflexivity|]. split; [discriminate|]. split.
  - unfold b_cast. cbn [ty_of]. rewrite T. cbn [ty_eqb]. repeat constructor; cbn [fst snd wt ty_of]; try rewrite W, T; reflexivity.
  - intros I s HI Hs. pose proof (eval_ty I HI p W s Hs) as E. rewrite T in E. inv_ty E.
    unfold b_cast. cbn [ty_of]. rewrite T. cbn [ty_eqb]. unfold den, ev. cbn [map fst snd eval]. rewrite E.
    unfold dist_sem. cbn [String.eqb Ascii.eqb Bool.eqb]. do 3 f_equal.
    cbn [b_uint ty_of ty_eqb eval eval_lit eval_cast eval_bin]. f_equal. unfold fin. rewrite nnr_of_val by apply n2r_pos. reflexivity.
Qed.

(** ** Hypergeometric and binomial *)
Lemma nsum_app l l' : nsum (l ++ l') = (nsum l + nsum l')%N.
Proof. induction l as [|a l IH]; unfold nsum in *; cbn [app fold_right]; [lia | rewrite IH; lia]. Qed.
Lemma nsum_zero l : Forall (fun x => x = 0%N) l -> nsum l = 0%N.
Proof. induction 1; unfold nsum in *; cbn [fold_right]; lia. Qed.
Lemma nsum_in x l : In x l -> (x <= nsum l)%N.
Proof.
  induction l as [|a l IH]; intros H; [destruct H|]. unfold nsum in *; cbn [fold_right].
  destruct H as [->|H]; [lia | specialize (IH H); lia].
Qed.

Lemma choose_pos n k : (k <= n)%nat -> (1 <= choose_nat n k)%N.
Proof.
  revert k. induction n; intros [|k] H; cbn [choose_nat]; try lia.
  specialize (IHn k). lia.
Qed.

(** Summing over a sub-interval outside of which the terms vanish. *)
Lemma nsum_sub f lo hi m : (lo <= S hi)%nat -> (hi <= m)%nat ->
  (forall i, (i < lo)%nat -> f i = 0%N) -> (forall i, (hi < i <= m)%nat -> f i = 0%N) ->
  nsum (map f (seq lo (S hi - lo))) = nsum (map f (seq 0 (S m))).
Proof.
  intros H1 H2 Hl Hh.
  replace (S m) with (lo + ((S hi - lo) + (m - hi)))%nat by lia.
  rewrite !seq_app, !map_app, !nsum_app. cbn [Nat.add].
  rewrite (nsum_zero (map f (seq 0 lo))).
  2:{ apply Forall_forall. intros x Hx. apply in_map_iff in Hx. destruct Hx as (i & <- & Hi). apply in_seq in Hi. apply Hl; lia. }
  rewrite (nsum_zero (map f (seq (lo + (S hi - lo)) (m - hi)))).
  2:{ apply Forall_forall. intros x Hx. apply in_map_iff in Hx. destruct Hx as (i & <- & Hi). apply in_seq in Hi. apply Hh; lia. }
  lia.
Qed.

Lemma nrange_nat a b : nrange a b = map N.of_nat (seq (N.to_nat a) (S (N.to_nat b) - N.to_nat a)).
Proof.
  unfold nrange.
  assert (G : forall len st, map (fun i => (a + N.of_nat i)%N) (seq st len) = map N.of_nat (seq (N.to_nat a + st) len)).
  { induction len as [|len IH]; intros st; cbn [seq map]; [reflexivity|]. f_equal; [lia|].
    rewrite IH. now rewrite Nat.add_succ_r. }
  rewrite G, Nat.add_0_r. reflexivity.
Qed.

Lemma hyper_total n x y : (x <= n)%N -> (y <= n)%N ->
  nsum (map (fun k => choose x k * choose (n - x) (y - k))%N (range_incl (y + x - n) (N.min y x))) = choose n y.
Proof.
  intros Hx Hy. rewrite range_nrange, nrange_nat, map_map.
  set (f := fun i => (choose_nat (N.to_nat x) i * choose_nat (N.to_nat (n - x)) (N.to_nat y - i))%N).
  rewrite (map_ext _ f).
  2:{ intros i. unfold f, choose. rewrite Nnat.Nat2N.id. do 2 f_equal. lia. }
  rewrite (nsum_sub f _ _ (N.to_nat y)); try lia.
  - transitivity (choose_nat (N.to_nat x + N.to_nat (n - x)) (N.to_nat y)).
    + rewrite <- vandermonde. reflexivity.
    + unfold choose. f_equal. lia.
  - intros i Hi. unfold f. rewrite (choose_0 (N.to_nat (n - x))) by lia. lia.
  - intros i Hi. unfold f. rewrite (choose_0 (N.to_nat x)) by lia. lia.
Qed.

Lemma u128_ok n : (n < u128_bound)%N -> u128 n = Ok n.
Proof. intros H. unfold u128. apply N.ltb_lt in H. now rewrite H. Qed.
Lemma usub_ok a b : (b <= a)%N -> usub a b = Ok (a - b)%N.
Proof. intros H. unfold usub. apply N.leb_le in H. now rewrite H. Qed.

Lemma in_range k a b : In k (range_incl a b) <-> (a <= k <= b)%N.
Proof.
  unfold range_incl. destruct (N.leb_spec a b).
  - rewrite in_map_iff. split.
    + intros (i & <- & Hi). apply in_seq in Hi. lia.
    + intros Hk. exists (N.to_nat (k - a)). rewrite in_seq. lia.
  - simpl. lia.
Qed.

Lemma hyper_correct n x y : (x <= n)%N -> (y <= n)%N -> (n < u128_bound)%N -> (y + x < u128_bound)%N ->
  (choose n y < u128_bound)%N -> dist_correct "hyper" [b_uint n; b_uint x; b_uint y] TUInt.
Proof.
  intros Hx Hy Hn Hs Hc.
  assert (Hrange : forall k, In k (range_incl (y + x - n) (N.min y x)) ->
     (k <= x)%N /\ (k <= y)%N /\ (y - k <= n - x)%N /\ (1 <= choose x k)%N /\ (1 <= choose (n - x) (y - k))%N /\
     (choose x k * choose (n - x) (y - k) <= choose n y)%N).
  { intros k Hk. pose proof Hk as Hk'. apply in_range in Hk.
    assert (k <= x /\ k <= y /\ y - k <= n - x)%N as (A & B & C) by lia. repeat split; auto.
    - apply choose_pos; lia.
    - apply choose_pos; lia.
    - rewrite <- (hyper_total n x y) by auto. apply nsum_in. apply in_map_iff. exists k; auto. }
  eapply (dist_from_odds _ _ _ (map (fun k => ((choose x k * choose (n - x) (y - k))%N, b_uint k)) (range_incl (y + x - n) (N.min y x)))).
  - unfold apply_dist. cbn [String.eqb Ascii.eqb Bool.eqb]. rewrite !lit_u128_ok by lia. cbn [rbind].
    unfold dist_hyper. rewrite (u128_ok (y + x)) by auto. cbn [rbind].
    rewrite (mapM_ok _ (fun k => ((choose x k * choose (n - x) (y - k))%N, b_uint k))); [reflexivity|].
    intros k Hk. apply Hrange in Hk. destruct Hk as (A & B & C & D & E & F).
    rewrite (u128_ok (choose x k)) by nia. cbn [rbind]. rewrite usub_ok by lia. cbn [rbind].
    rewrite usub_ok by lia. cbn [rbind]. rewrite (u128_ok (choose (n - x) (y - k))) by nia. cbn [rbind].
    rewrite u128_ok by lia. reflexivity.
  - intros E. assert (H : In (N.min y x) (range_incl (y + x - n) (N.min y x))) by (apply in_range; lia).
    destruct (range_incl (y + x - n) (N.min y x)); [destruct H | discriminate].
  - rewrite map_map. cbn [fst]. rewrite hyper_total by auto. exact Hc.
  - rewrite map_map. cbn [fst]. rewrite hyper_total by auto. pose proof (choose_pos (N.to_nat n) (N.to_nat y)). unfold choose. lia.
  - apply Forall_forall. intros p Hp. apply in_map_iff in Hp. destruct Hp as (v & <- & _). split; reflexivity.
  - intros I s HI Hss. cbn [map eval b_uint eval_lit]. unfold dist_sem. cbn [String.eqb Ascii.eqb Bool.eqb].
    f_equal. rewrite (map_map _ fst). cbn [fst]. rewrite hyper_total by auto. rewrite map_map, <- range_nrange.
    apply map_ext_in. intros k Hk. apply Hrange in Hk. destruct Hk as (A & B & C & D & E & F). cbn [fst snd eval b_uint eval_lit].
    do 2 f_equal. rewrite n2r_mul. unfold n2r, choose, binomial. rewrite !choose_C by lia. reflexivity.
Qed.

Lemma pow_N2R a k : n2r (a ^ N.of_nat k) = (n2r a ^ k)%R.
Proof.
  induction k; [reflexivity|]. rewrite Nnat.Nat2N.inj_succ, N.pow_succ_r', n2r_mul, IHk. reflexivity.
Qed.

Lemma pow_N2R' a k : n2r (a ^ k) = (n2r a ^ N.to_nat k)%R.
Proof. rewrite <- pow_N2R, Nnat.N2Nat.id. reflexivity. Qed.

Lemma nsum_R (f : nat -> N) n : n2r (nsum (map f (seq 0 (S n)))) = sum_f_R0 (fun i => n2r (f i)) n.
Proof.
  induction n.
  - simpl. unfold nsum; simpl. now rewrite N.add_0_r.
  - rewrite seq_S, map_app, nsum_app, n2r_add, IHn. cbn [sum_f_R0 Nat.add map]. f_equal.
    unfold nsum; cbn [fold_right]. now rewrite N.add_0_r.
Qed.

(** Total weight of the odds C(n,k) a^k: this is what the code's formula amounts to. *)
Lemma binom_total n a : n2r (nsum (map (fun k => choose n k * a ^ k)%N (range_incl 0 n))) = ((n2r a + 1) ^ N.to_nat n)%R.
Proof.
  rewrite range_nrange, nrange_nat, map_map. rewrite Nat.sub_0_r.
  change (N.to_nat 0) with 0%nat. rewrite nsum_R. rewrite Reals.Binomial.binomial.
  apply sum_eq. intros i Hi. rewrite pow1, Rmult_1_r. rewrite n2r_mul, pow_N2R. f_equal.
  unfold choose, n2r. rewrite Nnat.Nat2N.id. apply choose_C; lia.
Qed.

Lemma binom_correct n a : (a <= 1)%N -> (n < 128)%N -> dist_correct "binom" [b_uint n; b_uint a; b_uint 1] TUInt.
Proof.
  intros Ha Hn.
  set (l := map (fun k => ((choose n k * a ^ k)%N, b_uint k)) (range_incl 0 n)).
  assert (Htot : n2r (nsum (map fst l)) = ((n2r a + 1) ^ N.to_nat n)%R).
  { unfold l. rewrite map_map. cbn [fst]. apply binom_total. }
  assert (Hpow : nsum (map fst l) = ((a + 1) ^ n)%N).
  { assert (E : n2r (nsum (map fst l)) = n2r ((a + 1) ^ n)).
    { rewrite Htot. rewrite <- (Nnat.N2Nat.id n) at 2. rewrite pow_N2R, n2r_add. reflexivity. }
    unfold n2r in E. apply eq_IZR in E. lia. }
  assert (Hb : (nsum (map fst l) < u128_bound)%N).
  { rewrite Hpow. apply N.le_lt_trans with (2 ^ n)%N.
    - apply N.pow_le_mono_l. lia.
    - unfold u128_bound. apply N.pow_lt_mono_r; lia. }
  assert (Hone : forall m, (0 < m \/ a = 1)%N -> (a ^ m <= 1)%N).
  { intros m Hm. assert (a = 0 \/ a = 1)%N as [-> | ->] by lia.
    - rewrite N.pow_0_l by lia. lia.
    - rewrite N.pow_1_l. lia. }
  eapply (dist_from_odds _ _ _ l).
  - unfold apply_dist. cbn [String.eqb Ascii.eqb Bool.eqb].
    assert (B1 : (129 < u128_bound)%N) by reflexivity.
    rewrite !lit_u128_ok by lia. cbn [rbind].
    unfold dist_binom. rewrite (mapM_ok _ (fun k => ((choose n k * a ^ k)%N, b_uint k))); [reflexivity|].
    intros k Hk. apply in_range in Hk.
    assert (Hu : as_u32 k = k) by (unfold as_u32; apply N.mod_small; apply N.lt_trans with 128%N; [lia | reflexivity]).
    rewrite Hu. clear Hu.
    assert (Hck : (choose n k < u128_bound)%N).
    { assert (Hc2 : (choose n k <= nsum (map (fun k => choose n k * 1 ^ k)%N (range_incl 0 n)))%N).
      { apply nsum_in. apply in_map_iff. exists k. split; [rewrite N.pow_1_l; lia | apply in_range; lia]. }
      assert (E : n2r (nsum (map (fun k => choose n k * 1 ^ k)%N (range_incl 0 n))) = n2r (2 ^ n)).
      { rewrite binom_total. rewrite <- (Nnat.N2Nat.id n) at 2. rewrite pow_N2R. unfold n2r; simpl. f_equal; lra. }
      unfold n2r in E. apply eq_IZR in E. apply N2Z.inj in E. rewrite E in Hc2.
      apply N.le_lt_trans with (2 ^ n)%N; auto. unfold u128_bound. apply N.pow_lt_mono_r; lia. }
    assert (Hak : (a ^ k <= 1)%N).
    { assert (a = 0 \/ a = 1)%N as [-> | ->] by lia; [|rewrite N.pow_1_l; lia].
      destruct k; [cbn; lia | rewrite N.pow_0_l; lia]. }
    rewrite (u128_ok (choose n k)) by auto. cbn [rbind]. rewrite (u128_ok (a ^ k)) by lia. cbn [rbind].
    assert ((choose n k * a ^ k <= choose n k * 1)%N) by (apply N.mul_le_mono_l; auto).
    rewrite (u128_ok (choose n k * a ^ k)) by lia. cbn [rbind]. rewrite usub_ok by lia. cbn [rbind].
    rewrite N.pow_1_l. rewrite (u128_ok 1) by lia. cbn [rbind]. rewrite N.mul_1_r. rewrite u128_ok by lia. reflexivity.
  - unfold l, range_incl. destruct (N.leb_spec 0 n); [discriminate | lia].
  - exact Hb.
  - rewrite Hpow. apply N.pow_nonzero. lia.
  - apply Forall_forall. intros p Hp. apply in_map_iff in Hp. destruct Hp as (v & <- & _). split; reflexivity.
  - intros I s HI Hs. cbn [map eval b_uint eval_lit]. unfold dist_sem. cbn [String.eqb Ascii.eqb Bool.eqb].
    assert (E : (a + 1 =? 0)%N = false) by (apply N.eqb_neq; lia). rewrite E. f_equal.
    rewrite Htot. unfold l. rewrite map_map, <- range_nrange. apply map_ext_in. intros k Hk. apply in_range in Hk.
    cbn [fst snd eval b_uint eval_lit]. do 2 f_equal. rewrite n2r_mul.
    assert (Ck : n2r (choose n k) = binomial n k) by (unfold n2r, choose, binomial; apply choose_C; lia).
    rewrite Ck, pow_N2R'. rewrite n2r_add. change (n2r 1) with 1%R.
    pose proof (n2r_pos a) as Hpa. set (A := n2r a) in *.
    assert (Hn1 : (A + 1 <> 0)%R) by lra.
    replace (1 - A / (A + 1))%R with (/ (A + 1))%R by (field; auto).
    unfold Rdiv. rewrite Rpow_mult_distr. rewrite !pow_inv.
    replace (N.to_nat n) with (N.to_nat k + N.to_nat (n - k))%nat by lia. rewrite pow_add.
    rewrite Rinv_mult. ring.
Qed.

(** ** Where the code departs from the documentation *)
(** The mass a distribution gives to the values satisfying a test. *)
Definition mass (d : pmf) (P : val -> bool) : eur := expected d (fun v => if P v then eone else ebot).
Definition is_one (v : val) : bool := match v with VUInt n => N.eqb n 1 | _ => false end.

Lemma expected_two p q f v w : expected [(p, v); (q, w)] f = eadd (emul p (f v)) (emul q (f w)).
Proof. cbn [expected]. now rewrite eadd_0_r. Qed.

Lemma binom_refuted : exists n pa pb d D, apply_dist "binom" [b_uint n; b_uint pa; b_uint pb] = Ok d /\
  dist_sem "binom" [VUInt n; VUInt pa; VUInt pb] = Some D /\
  forall I s, mass (den I s d) is_one = fin (1/2) /\ mass D is_one = fin (1/3).
Proof.
  exists 1%N, 1%N, 2%N. eexists _, _. split; [vm_compute; reflexivity|]. split; [reflexivity|].
  intros I s. split.
  - unfold mass, den. cbn [map fst snd eval eval_lit ev]. unfold ev. cbn [eval eval_lit].
    rewrite expected_two. cbn [is_one N.eqb Pos.eqb].
    rewrite emul_0_r, emul_1_r, eadd_0_l. f_equal. unfold Q2R; simpl. lra.
  - change (nrange 0 1) with [0%N; 1%N]. change (1 + 2 =? 0)%N with false. cbv iota. cbn [map].
    unfold mass. rewrite expected_two. cbn [is_one N.eqb Pos.eqb].
    rewrite emul_0_r, emul_1_r, eadd_0_l. f_equal. unfold binomial, Binomial.C, n2r; simpl. lra.
Qed.

Lemma unif_empty a b x post : (b < a)%N -> (a < u128_bound)%N ->
  dist_sem "unif" [VUInt a; VUInt b] = Some [] /\ exists w, dist_vcgen "unif" [b_uint a; b_uint b] [x] post = Panic w.
Proof.
  intros H Ha. split.
  - unfold dist_sem. cbn [String.eqb Ascii.eqb Bool.eqb]. rewrite <- range_nrange. unfold range_incl.
    destruct (N.leb_spec a b); [lia|]. reflexivity.
  - unfold dist_vcgen, apply_dist. cbn [String.eqb Ascii.eqb Bool.eqb]. rewrite !lit_u128_ok by lia. cbn [rbind].
    unfold dist_unif, range_incl. destruct (N.leb_spec a b); [lia|]. cbn. eauto.
Qed.

Lemma ber_zero x post : dist_sem "ber" [VUInt 0; VUInt 0] = Some [] /\
  exists w, dist_vcgen "ber" [b_uint 0; b_uint 0] [x] post = Panic w.
Proof. split; [reflexivity|]. cbn. eauto. Qed.

Lemma hyper_too_many n x y v post : (n < y)%N -> (x <= n)%N -> (y + x < u128_bound)%N ->
  exists w, dist_vcgen "hyper" [b_uint n; b_uint x; b_uint y] [v] post = Panic w.
Proof.
  intros H Hx Hb. unfold dist_vcgen, apply_dist. cbn [String.eqb Ascii.eqb Bool.eqb].
  rewrite !lit_u128_ok by lia. cbn [rbind]. unfold dist_hyper. rewrite (u128_ok (y + x)) by auto. cbn [rbind].
  unfold range_incl. destruct (N.leb_spec (y + x - n) (N.min y x)); [lia|]. cbn. eauto.
Qed.

Lemma hyper_underflow n x y v post : (n < x)%N -> (y + x < u128_bound)%N -> (y <= n)%N ->
  exists w, dist_vcgen "hyper" [b_uint n; b_uint x; b_uint y] [v] post = Panic w.
Proof.
  intros H Hb Hy. unfold dist_vcgen, apply_dist. cbn [String.eqb Ascii.eqb Bool.eqb].
  rewrite !lit_u128_ok by lia. cbn [rbind]. unfold dist_hyper. rewrite (u128_ok (y + x)) by auto. cbn [rbind].
  assert (E : range_incl (y + x - n) (N.min y x) = [] \/ exists k l, range_incl (y + x - n) (N.min y x) = k :: l)
    by (destruct (range_incl (y + x - n) (N.min y x)); eauto).
  destruct E as [E | (k & l & E)]; rewrite E; cbn [mapM rbind].
  - cbn. eauto.
  - unfold u128 at 1. destruct (choose x k <? u128_bound)%N; cbn [rbind]; [|eauto].
    unfold usub at 1. destruct (N.leb_spec x n); [lia|]. cbn. eauto.
Qed.

(** Probabilities sum to one. *)
Lemma expected_const_from_odds I s l : (nsum (map fst l) < u128_bound)%N -> nsum (map fst l) <> 0%N ->
  exists d, from_odds l = Ok d /\ expected (den I s d) (fun _ => eone) = eone.
Proof.
  intros Hb Hz. destruct (den_from_odds I s l Hb Hz) as (d & E & Ed). exists d. split; auto. rewrite Ed.
  set (T := nsum (map fst l)) in *. pose proof (n2r_nz T Hz) as HT.
  assert (G : forall l, expected (map (fun p => (fin (n2r (fst p) / n2r T), eval I (snd p) s)) l) (fun _ => eone)
     = fin (n2r (nsum (map fst l)) / n2r T)).
  { clearbody T. clear - HT. intros l. induction l as [|[o e] l IH]; cbn [map expected fst snd].
    - change (nsum []) with 0%N. change (n2r 0) with 0%R. unfold Rdiv. rewrite Rmult_0_l. reflexivity.
    - rewrite IH. rewrite emul_1_r.
      assert (P : forall o, (0 <= n2r o / n2r T)%R).
      { intros o'. pose proof (n2r_pos o'). apply Rmult_le_pos; auto. left. now apply Rinv_0_lt_compat. }
      rewrite eadd_fin by apply P. f_equal. unfold nsum; cbn [fold_right]. rewrite n2r_add. field. lra. }
  rewrite G. fold T. unfold eone. f_equal. field. lra.
Qed.

Definition is_prob (d : pmf) : Prop := expected d (fun _ => eone) = eone.

Lemma from_odds_inv l d : from_odds l = Ok d -> d <> [] ->
  (nsum (map fst l) < u128_bound)%N /\ nsum (map fst l) <> 0%N.
Proof.
  intros H Hd.
  assert (G : forall l t0 t, fold_left (fun acc (p : N * expr) => let? t := acc in u128 (t + fst p)) l (Ok t0) = Ok t ->
     (t0 < u128_bound)%N -> t = (t0 + nsum (map fst l))%N /\ (t < u128_bound)%N).
  { clear. induction l as [|[o e] l IH]; intros t0 t H Ht; cbn [fold_left map fst] in *.
    - inversion H; subst. unfold nsum; cbn [fold_right]. split; [lia | auto].
    - cbn [rbind] in H. unfold u128 at 2 in H. destruct (N.ltb_spec (t0 + o) u128_bound).
      + apply IH in H; auto. unfold nsum in *; cbn [fold_right]. destruct H; split; [lia | auto].
      + exfalso. clear - H. induction l as [|p l IH]; cbn [fold_left rbind] in H; [discriminate | auto]. }
  unfold from_odds in H.
  destruct (fold_left _ l (Ok 0%N)) as [t|w|w] eqn:E; cbn [rbind] in H; try discriminate.
  apply G in E; [|reflexivity]. rewrite N.add_0_l in E. destruct E as [-> Hb]. split; auto.
  intros E. rewrite E in H. destruct l as [|p l]; cbn in H; [inversion H; congruence | discriminate].
Qed.

Lemma from_odds_prob l d I s : from_odds l = Ok d -> d <> [] -> is_prob (den I s d).
Proof.
  intros H Hd. destruct (from_odds_inv l d H Hd) as [Hb Hz].
  destruct (expected_const_from_odds I s l Hb Hz) as (d' & E1 & E2). rewrite H in E1. inversion E1; subst. exact E2.
Qed.

Lemma rbind_ok {A B} (m : res A) (f : A -> res B) b : rbind m f = Ok b -> exists a, m = Ok a /\ f a = Ok b.
Proof. destruct m; cbn; intros; try discriminate. eauto. Qed.

(** Whatever list of outcomes the code produces, the probabilities sum to one (flip
    needs its argument to be a probability). *)
Lemma mass_one name args d I s : apply_dist name args = Ok d -> d <> [] -> name <> "flip"%string -> is_prob (den I s d).
Proof.
  unfold apply_dist. intros H Hd Hf.
  destruct (String.eqb_spec name "ber").
  { destruct args as [|a [|b [|? ?]]]; try discriminate. apply rbind_ok in H. destruct H as (x & _ & H).
    apply rbind_ok in H. destruct H as (y & _ & H). eapply from_odds_prob; eauto. }
  destruct (String.eqb_spec name "flip"); [congruence|].
  destruct (String.eqb_spec name "unif").
  { destruct args as [|a [|b [|? ?]]]; try discriminate. apply rbind_ok in H. destruct H as (x & _ & H).
    apply rbind_ok in H. destruct H as (y & _ & H). eapply from_odds_prob; eauto. }
  destruct (String.eqb_spec name "binom").
  { destruct args as [|a [|b [|c [|? ?]]]]; try discriminate. apply rbind_ok in H. destruct H as (x & _ & H).
    apply rbind_ok in H. destruct H as (y & _ & H). apply rbind_ok in H. destruct H as (z & _ & H).
    apply rbind_ok in H. destruct H as (l & _ & H). eapply from_odds_prob; eauto. }
  destruct (String.eqb_spec name "hyper"); [|discriminate].
  destruct args as [|a [|b [|c [|? ?]]]]; try discriminate. apply rbind_ok in H. destruct H as (x & _ & H).
  apply rbind_ok in H. destruct H as (y & _ & H). apply rbind_ok in H. destruct H as (z & _ & H).
  apply rbind_ok in H. destruct H as (ds & _ & H).
  apply rbind_ok in H. destruct H as (l & _ & H). eapply from_odds_prob; eauto.
Qed.

Lemma flip_prob p d I s : apply_dist "flip" [p] = Ok d -> wt p = true -> ty_of p = TUReal -> interp_ok I -> env_ok s ->
  (is_prob (den I s d) <-> exists x, eval I p s = VUReal x /\ (nval x <= 1)%R).
Proof.
  intros H W T HI Hs. destruct (flip_correct p W T) as (d' & E1 & _ & _ & E2).
  rewrite H in E1. assert (d' = d) by congruence. subst d'. clear E1 H. specialize (E2 I s HI Hs).
  pose proof (eval_ty I HI p W s Hs) as E. rewrite T in E. inv_ty E. cbn [map] in E2. rewrite E in E2.
  unfold dist_sem in E2. cbn [String.eqb Ascii.eqb Bool.eqb] in E2. assert (E3 := f_equal (fun o => match o with Some x => x | None => [] end) E2). cbv beta iota in E3. unfold is_prob. rewrite <- E3.
  rewrite expected_two, !emul_1_r. rewrite E.
  pose proof (nval_nonneg b) as Hr. rewrite (Fin_fin b). split.
  - intros H0. exists b; split; [reflexivity|].
    destruct (Rle_dec (nval b) 1); auto. exfalso.
    replace (fin (1 - nval b)) with (fin 0) in H0.
    2:{ unfold fin. f_equal. apply nnr_eq. rewrite !nval_of_max. rewrite !Rmax_left; lra. }
    rewrite eadd_fin in H0 by lra. unfold eone in H0. apply fin_inj in H0; lra.
  - intros (x & Ex & Hx). inversion Ex; subst x. rewrite eadd_fin by lra. unfold eone. f_equal. lra.
Qed.
