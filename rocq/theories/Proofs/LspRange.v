(** The language server: ranges of spans. *)
From Coq Require Import Bool List String ZArith NArith Arith Lia.
From Verif.Model Require Import Syntax Driver LspServer.
From Verif.Spec Require Import LspSpec.
From Verif.Proofs Require Import LspBasic.
Import ListNotations.

Lemma utf8_len_pos c : 1 <= utf8_len c.
Proof. unfold utf8_len. destruct (_ <? _)%N; [lia|]. destruct (_ <? _)%N; [lia|]. destruct (_ <? _)%N; lia. Qed.
Lemma bytes_app a b : bytes (a ++ b) = bytes a + bytes b.
Proof. unfold bytes. now rewrite map_app, list_sum_app. Qed.
Lemma bytes_cons c t : bytes (c :: t) = utf8_len c + bytes t.
Proof. reflexivity. Qed.
Lemma place_snoc a c : place (a ++ [c]) = advance c (place a).
Proof. unfold place. now rewrite fold_left_app. Qed.
Lemma filter_seq_shift (p q : nat -> bool) k n m : (forall i, n <= i < n + m -> p (k + i) = q i) ->
  List.length (filter p (seq (k + n) m)) = List.length (filter q (seq n m)).
Proof.
  revert n. induction m as [|m IH]; cbn [seq filter]; intros n H; auto. rewrite H by lia.
  replace (S (k + n)) with (k + S n) by lia. specialize (IH (S n)). destruct (q n); cbn [List.length]; rewrite IH; auto; intros; apply H; lia.
Qed.
Lemma inner_boundaries c t m : forall n, 1 <= n -> n + m <= utf8_len c -> filter (is_boundary (c :: t)) (seq n m) = [].
Proof.
  induction m as [|m IH]; cbn [seq filter]; intros n A B; auto. rewrite IH by lia. cbn [is_boundary].
  destruct (Nat.eqb_spec n 0); [lia|]. destruct (Nat.leb_spec (utf8_len c) n); [lia|]. reflexivity.
Qed.
(** The bytes of the first [k] characters contain [k] boundaries. *)
Lemma count_prefix a : forall b, count_boundaries (a ++ b) 0 (bytes a) = List.length a.
Proof.
  induction a as [|c a IH]; intros b; cbn [app]. reflexivity.
  unfold count_boundaries. rewrite bytes_cons. pose proof (utf8_len_pos c). rewrite seq_app, filter_app, app_length.
  destruct (utf8_len c) as [|k] eqn:K; [lia|]. cbn [seq filter]. assert (Z : is_boundary (c :: a ++ b) 0 = true) by (destruct a; reflexivity). rewrite Z.
  rewrite inner_boundaries by lia. cbn [List.length]. replace (0 + S k) with (S k + 0) by lia.
  rewrite (filter_seq_shift _ (is_boundary (a ++ b))).
  - unfold count_boundaries in IH. rewrite IH. cbn. lia.
  - intros i _. cbn [is_boundary]. rewrite K. destruct (Nat.eqb_spec (S k + i) 0); [lia|]. destruct (Nat.leb_spec (S k) (S k + i)); [|lia].
    cbn [orb andb]. f_equal. lia.
Qed.
Lemma count_split t n m : count_boundaries t 0 (n + m) = count_boundaries t 0 n + count_boundaries t n m.
Proof. unfold count_boundaries. now rewrite seq_app, filter_app, app_length. Qed.
Lemma count_middle a b c : count_boundaries (a ++ b ++ c) (bytes a) (bytes b) = List.length b.
Proof.
  pose proof (count_prefix (a ++ b) c) as H. rewrite bytes_app, count_split, app_length, <- app_assoc, (count_prefix a (b ++ c)) in H. lia.
Qed.
Lemma scan_stop t c : forall i here start from to, from < i -> to = i + List.length t ->
  scan i (t ++ c) from to start here = (start, fold_left (fun p c => advance c p) t here).
Proof.
  induction t as [|x t IH]; cbn; intros i here start from to L T.
  - destruct c; cbn; auto. rewrite Nat.add_0_r in T. subst. now rewrite Nat.eqb_refl.
  - destruct (Nat.eqb_spec i to); [lia|]. destruct (Nat.eqb_spec i from); [lia|]. apply IH; lia.
Qed.
Lemma scan_range a : forall b c i here start, b <> [] ->
  scan i (a ++ b ++ c) (i + List.length a) (i + List.length a + List.length b) start here =
  (fold_left (fun p c => advance c p) a here, fold_left (fun p c => advance c p) (a ++ b) here).
Proof.
  induction a as [|x a IH]; intros b c i here start NB; cbn [app List.length].
  - rewrite Nat.add_0_r. destruct b as [|x b]; [congruence|]. cbn [app scan List.length fold_left].
    destruct (Nat.eqb_spec i (i + S (List.length b))); [lia|]. rewrite Nat.eqb_refl. apply scan_stop; lia.
  - cbn [scan fold_left]. destruct (Nat.eqb_spec i (i + S (List.length a) + List.length b)); [lia|].
    destruct (Nat.eqb_spec i (i + S (List.length a))); [lia|]. replace (i + S (List.length a)) with (S i + List.length a) by lia. apply IH; auto.
Qed.
Lemma to_lsp_range fs s f d r : get_file (s_file s) fs = Ok f -> f_path f = PLsp d -> text_range (f_source f) s r -> to_lsp fs s = Ok (Some (d, r)).
Proof.
  intros G P (a & b & c & T & NB & A & B & ->). unfold to_lsp. rewrite G. cbn [rbind]. unfold char_span. rewrite A, B, T, bytes_app.
  destruct (Nat.leb_spec (bytes a) (bytes a + bytes b)); [|lia]. replace (bytes a + bytes b - bytes a) with (bytes b) by lia.
  rewrite count_prefix, count_middle. cbn [rbind]. rewrite P. do 3 f_equal.
  pose proof (scan_range a b c 0 (0, 0) (0, 0) NB) as K. cbn in K. rewrite K. reflexivity.
Qed.
