(** Proofs about reading numbers: literals and values of the solver. *)
From Coq Require Import Bool List String Arith ZArith NArith Lia.
From Verif.Model Require Import Syntax Numerals.
From Verif.Spec Require Import Decimal.
From Verif.Proofs Require Import NumeralProofs.
Import ListNotations.
Local Open Scope list_scope.
Local Open Scope Z_scope.

Lemma read_digits_ok ds : forall acc, read_digits acc (map GD ds) = Some (acc * 10 ^ Z.of_nat (List.length ds) + dval ds).
Proof.
  induction ds as [|x ds IH]; intros acc; cbn [map read_digits dval List.length]; [f_equal; cbn; lia|].
  rewrite IH, Nat2Z.inj_succ, Z.pow_succ_r by lia. f_equal. ring.
Qed.
Lemma read_nat_ok ds : ds <> [] -> read_nat (map GD ds) = Some (dval ds).
Proof. intros H. unfold read_nat. destruct ds as [|x ds]; [congruence|]. cbn [map]. exact (read_digits_ok (x :: ds) 0). Qed.
Lemma read_int_ok ds : ds <> [] -> read_int (map GD ds) = Some (dval ds).
Proof. intros H. rewrite <- read_nat_ok by exact H. destruct ds; [congruence|reflexivity]. Qed.
Lemma digits_ne n : 0 <= n -> digits n <> [].
Proof. intros H. apply (digits_ok n H). Qed.
Lemma read_digits_of n : 0 <= n -> read_int (map GD (digits n)) = Some n.
Proof. intros H. rewrite read_int_ok by (apply digits_ne, H). f_equal. apply digits_ok, H. Qed.

Lemma split_dot_ok ds t : split_dot (map GD ds ++ GDot :: t) = Some (map GD ds, t).
Proof. induction ds as [|x ds IH]; [reflexivity|]. cbn [map app split_dot]. rewrite IH. reflexivity. Qed.

(** Every text of the form of a decimal literal is read, as the number that it is. *)
Theorem parse_decimal_exact ds fs : ds <> [] ->
  exists q, parse_decimal (map GD ds ++ GDot :: map GD fs) = Some (dval (ds ++ fs), q) /\ Zpos q = 10 ^ Z.of_nat (List.length fs).
Proof.
  intros H. unfold parse_decimal. rewrite split_dot_ok, <- map_app, read_int_ok by (destruct ds; [congruence|discriminate]).
  eexists. split; [reflexivity|]. rewrite map_length. apply Z2Pos.id, pow10_pos.
Qed.

Theorem parse_big_int_exact z : parse_big_int (smt_int z) = Some z.
Proof.
  unfold parse_big_int, smt_int. destruct (Z.ltb_spec z 0).
  - cbn [read_int read_nat read_digits strip_prefix glyph_eqb]. unfold strip_suffix.
    rewrite rev_app_distr. cbn [rev app strip_prefix glyph_eqb option_map]. rewrite rev_involutive, read_digits_of by lia.
    cbn. f_equal. lia.
  - rewrite read_digits_of by lia. reflexivity.
Qed.

(** A terminating decimal that is shown for a number that is not negative is a literal for this number. *)
Theorem shown_is_literal limit n d t q : limit <> O -> 0 <= n -> parse_decimal (pretty limit n d) = Some (t, q) ->
  t * Zpos d = n * Zpos q.
Proof.
  intros L P E. destruct (pretty_denotes limit n d L).
  all: destruct H as [[? ->]|[_ ->]]; [lia|]; cbn [app] in E.
  - exfalso. clear - E. unfold parse_decimal in E.
    assert (split_dot (map GD ds) = None) as N by (clear; induction ds as [|x ds IH]; [reflexivity|]; cbn; rewrite IH; reflexivity).
    rewrite N in E. discriminate.
  - destruct (parse_decimal_exact ds fs (proj1 H0)) as (q' & E' & Q). rewrite E' in E. injection E as <- <-. rewrite Q, H3. f_equal. lia.
  - exfalso. clear - E. unfold parse_decimal in E. rewrite split_dot_ok in E.
    match type of E with match read_int ?t with _ => _ end = _ => assert (read_int t = None) as N end.
    { set (tail := map GO rs ++ GSpace :: GOpen :: u ++ [GClose]).
      assert (forall acc, read_digits acc tail = None) as A by (intros; unfold tail; destruct rs; reflexivity).
      assert (forall acc, read_digits acc (map GD ds ++ map GD fs ++ tail) = None) as B.
      { rewrite app_assoc, <- map_app. generalize (ds ++ fs). intros l. induction l as [|x l IH]; intros acc; cbn; auto. }
      unfold read_int, read_nat. destruct ds; [|exact (B 0)]. destruct fs; [|exact (B 0)]. cbn [map app] in *.
      unfold tail in *. destruct rs; reflexivity. }
    rewrite N in E. discriminate.
  - exfalso. clear - E. unfold parse_decimal in E. rewrite split_dot_ok in E.
    match type of E with match read_int ?t with _ => _ end = _ => assert (read_int t = None) as N end.
    { set (tail := GDots :: GSpace :: GOpen :: u ++ [GClose]).
      assert (forall acc, read_digits acc (map GD ds ++ map GD fs ++ tail) = None) as B.
      { rewrite app_assoc, <- map_app. generalize (ds ++ fs). intros l. induction l as [|x l IH]; intros acc; cbn; auto. }
      unfold read_int, read_nat. destruct ds; [|exact (B 0)]. destruct fs; [|exact (B 0)]. reflexivity. }
    rewrite N in E. discriminate.
Qed.

(** ** Values of the solver *)
Lemma words_digits ds : forall cur t, words_go cur (map GD ds ++ t) = words_go (rev (map GD ds) ++ cur) t.
Proof.
  induction ds as [|x ds IH]; intros cur t; [reflexivity|]. cbn [map app words_go rev]. rewrite IH, <- app_assoc. reflexivity.
Qed.
Lemma remove2_ok ds : remove2 (map GD ds ++ [GDot; GD 0]) = map GD ds.
Proof. induction ds as [|x ds IH]; [reflexivity|]. cbn [map app remove2]. rewrite IH. reflexivity. Qed.
Lemma remove3_ok ds : remove3 (map GD ds ++ [GDot; GD 0; GClose]) = map GD ds.
Proof. induction ds as [|x ds IH]; [reflexivity|]. cbn [map app remove3]. rewrite IH. reflexivity. Qed.

Lemma words_quotient n d : 
  words (GOpen :: GSlash :: GSpace :: smt_nat n ++ GSpace :: smt_nat d ++ [GClose]) =
  [[GOpen; GSlash]; map GD (digits n) ++ [GDot; GD 0]; map GD (digits d) ++ [GDot; GD 0; GClose]].
Proof.
  unfold words, smt_nat. cbn [words_go rev app]. f_equal.
  rewrite <- app_assoc, words_digits, app_nil_r. cbn [app words_go rev]. rewrite rev_involutive, <- app_assoc. f_equal.
  rewrite <- app_assoc, words_digits, app_nil_r. cbn [app words_go rev]. rewrite rev_involutive, <- !app_assoc. reflexivity.
Qed.

(** Where a numeral can be read. *)
Definition readable (n : Z) (d : positive) : bool :=
  (fits n && fits (Zpos d)) || ((0 <=? n) && negb (Pos.eqb d 1)).

Theorem eval_real_numeral inner n d :
  eval_real inner (ZNum n d) = if readable n d then Ok (n, d) else Err "ParseError"%string.
Proof.
  unfold eval_real, readable. cbn [as_real ztext]. destruct (fits n && fits (Zpos d)); [reflexivity|]. cbn [orb].
  unfold smt_real. destruct (Pos.eqb_spec d 1) as [->|ND]; cbn [negb]; rewrite ?andb_false_r, ?andb_true_r.
  - destruct (Z.ltb_spec n 0); [reflexivity|]. unfold smt_nat. pose proof (digits_ne n ltac:(lia)).
    destruct (digits n); [congruence|]. reflexivity.
  - destruct (Z.ltb_spec n 0).
    + rewrite (proj2 (Z.leb_gt 0 n)) by lia. destruct inner; [|reflexivity].
      cbn [neg app]. unfold words. cbn [words_go rev app]. 
      match goal with |- (if ?c then _ else _) = _ => destruct c; [reflexivity|] end.
      unfold smt_nat. rewrite <- !app_assoc. cbn [words_go].
      match goal with |- context [words_go [] ?t] => destruct (words_go [] t); reflexivity end.
    + rewrite (proj2 (Z.leb_le 0 n)) by lia.
      rewrite words_quotient.
      assert (ends_with [GDot; GD 0; GClose] (GOpen :: GSlash :: GSpace :: smt_nat n ++ GSpace :: smt_nat (Zpos d) ++ [GClose]) = true) as EW.
      { unfold ends_with, smt_nat.
        replace (GOpen :: GSlash :: GSpace :: (map GD (digits n) ++ [GDot; GD 0]) ++ GSpace :: (map GD (digits (Zpos d)) ++ [GDot; GD 0]) ++ [GClose])
          with ((GOpen :: GSlash :: GSpace :: (map GD (digits n) ++ [GDot; GD 0]) ++ GSpace :: map GD (digits (Zpos d))) ++ [GDot; GD 0; GClose])
          by (cbn [app]; rewrite <- !app_assoc; cbn [app]; rewrite <- ?app_assoc; reflexivity).
        rewrite rev_app_distr. reflexivity. }
      rewrite EW. cbn [starts_with strip_prefix glyph_eqb negb orb andb List.length Nat.eqb].
      rewrite remove2_ok, remove3_ok, !read_digits_of by lia. reflexivity.
Qed.

Theorem eval_real_exact inner n d n' d' : eval_real inner (ZNum n d) = Ok (n', d') -> n' * Zpos d = n * Zpos d'.
Proof. rewrite eval_real_numeral. destruct (readable n d); [|discriminate]. intros [= <- <-]. reflexivity. Qed.
Theorem eval_real_small inner n d : fits n = true -> fits (Zpos d) = true -> eval_real inner (ZNum n d) = Ok (n, d).
Proof. intros A B. rewrite eval_real_numeral. unfold readable. rewrite A, B. reflexivity. Qed.
Theorem eval_real_no_panic inner n d p : eval_real inner (ZNum n d) <> Panic p.
Proof. rewrite eval_real_numeral. destruct (readable n d); discriminate. Qed.
Theorem eval_real_total_refuted : exists n d, forall inner, eval_real inner (ZNum n d) = Err "ParseError"%string.
Proof. exists (2 ^ 63), 1%positive. intros inner. rewrite eval_real_numeral. reflexivity. Qed.
Theorem eval_real_negative_refuted : exists n d, forall inner,
  eval_real inner (ZNum n d) = Err "ParseError"%string /\ eval_real inner (ZNum (- n) d) = Ok (- n, d).
Proof. exists (- (2 ^ 63 + 1)), 2%positive. intros inner. rewrite !eval_real_numeral. split; reflexivity. Qed.
Theorem eval_real_term_refuted : exists t, forall inner, eval_real inner (ZTerm t) = Panic "denominator == 0"%string.
Proof. exists (GOpen :: GSlash :: GSpace :: smt_nat 1 ++ GSpace :: smt_nat 0 ++ [GClose]). intros inner. reflexivity. Qed.
Theorem eval_int_exact n d z : eval_int (ZNum n d) = Ok z -> d = 1%positive /\ z = n.
Proof. unfold eval_int. cbn. destruct d; try discriminate. destruct (fits n); [|discriminate]. intros [= <-]. auto. Qed.
Theorem eval_eureal_exact inner b n d v : eval_eureal inner (Some b) (ZNum n d) = Ok v ->
  v = if b then None else Some (n, d).
Proof.
  unfold eval_eureal. rewrite eval_real_numeral. cbn. destruct (readable n d); [|discriminate]. cbn. intros [= <-]. reflexivity.
Qed.
Theorem eval_eureal_infinite_refuted : exists number, forall inner,
  eval_eureal inner (Some true) number = Err "ParseError"%string.
Proof. exists (ZTerm [GOther 0]). intros inner. reflexivity. Qed.
