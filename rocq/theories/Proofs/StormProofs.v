(** Reading Storm's output. *)
From Coq Require Import Bool List String Arith ZArith Lia.
From Verif.Model Require Import Syntax Numerals Driver Storm.
From Verif.Spec Require Import Decimal StormSpec.
From Verif.Proofs Require Import NumeralProofs NumeralUnique.
Import ListNotations.
Local Open Scope list_scope.
Local Open Scope nat_scope.

Lemma glyph_eqb_iff a b : glyph_eqb a b = true <-> a = b.
Proof.
  split.
  - destruct a, b; cbn; try discriminate; try reflexivity; intros H; f_equal; try (now apply Z.eqb_eq); now apply Nat.eqb_eq.
  - intros <-. destruct a; cbn; auto using Z.eqb_refl, Nat.eqb_refl.
Qed.
Lemma strip_prefix_iff p : forall t u, strip_prefix p t = Some u <-> t = p ++ u.
Proof.
  induction p as [|g p IH]; intros t u; cbn.
  - split; [now intros [= ->]|now intros ->].
  - destruct t as [|g' t]; [split; discriminate|]. destruct (glyph_eqb g g') eqn:E.
    + apply glyph_eqb_iff in E. subst g'. rewrite IH. split; [now intros ->|now intros [= ->]].
    + split; [discriminate|]. intros [= <- _]. rewrite (proj2 (glyph_eqb_iff g' g')) in E; [discriminate|reflexivity].
Qed.
Lemma starts_iff p t : starts_with p t = true <-> exists u, t = p ++ u.
Proof.
  unfold starts_with. destruct (strip_prefix p t) eqn:E.
  - apply strip_prefix_iff in E. split; eauto.
  - split; [discriminate|]. intros (u & H). apply strip_prefix_iff in H. congruence.
Qed.

Lemma find_first p : forall t u, find p t = Some u -> exists a b, first p t a b /\ u = p ++ b.
Proof.
  induction t as [|g t IH]; intros u; cbn [find]; destruct (starts_with p _) eqn:S.
  1, 3: intros [= <-]; apply starts_iff in S as (b & E); exists [], b; split; [split; [exact E|cbn; lia]|exact E].
  - discriminate.
  - intros H. destruct (IH _ H) as (a & b & [E F] & ->). exists (g :: a), b. split; [|reflexivity]. split; [cbn; congruence|].
    intros [|h a'] b' E'.
    + assert (X : starts_with p (g :: t) = true) by (apply starts_iff; eauto). congruence.
    + cbn in E'. injection E' as -> E'. specialize (F _ _ E'). cbn. lia.
Qed.
Lemma find_none p : forall t, find p t = None <-> ~ occurs p t.
Proof.
  unfold occurs. induction t as [|g t IH]; cbn [find]; destruct (starts_with p _) eqn:S.
  1, 3: split; [discriminate|]; intros N; destruct N; apply starts_iff in S as (b & E); now exists [], b.
  - split; [|reflexivity]. intros _ (a & b & E). destruct a; [|discriminate]. assert (X : starts_with p [] = true) by (apply starts_iff; eauto). congruence.
  - rewrite IH. split; intros N (a & b & E); apply N.
    + destruct a as [|h a]; [|injection E as -> E; eauto]. assert (X : starts_with p (g :: t) = true) by (apply starts_iff; eauto). congruence.
    + exists (g :: a), b. cbn. congruence.
Qed.
Lemma first_unique p t a b a' b' : first p t a b -> first p t a' b' -> a = a' /\ b = b'.
Proof.
  intros [E F] [E' F']. pose proof (F _ _ E'). pose proof (F' _ _ E). assert (L : List.length a = List.length a') by lia.
  rewrite E in E'. clear F F' E. revert a' E' L H H0. induction a as [|g a IH]; intros [|g' a'] E' L; cbn in *; try discriminate; intros _ _.
  - split; [reflexivity|]. now apply app_inv_head in E'.
  - injection E' as -> E'. destruct (IH a' E') as [-> ->]; auto; lia.
Qed.
Lemma find_iff p t u : find p t = Some u <-> exists a b, first p t a b /\ u = p ++ b.
Proof.
  split; [apply find_first|]. intros (a & b & F & ->). destruct (find p t) as [u'|] eqn:E.
  - destruct (find_first _ _ _ E) as (a' & b' & F' & ->). destruct (first_unique _ _ _ _ _ _ F F') as [-> ->]. reflexivity.
  - apply find_none in E. destruct E. exists a, b. apply F.
Qed.
Lemma before_first p : forall t, occurs p t -> exists b, first p t (before p t) b.
Proof.
  induction t as [|g t IH]; intros (a & b & E); cbn [before]; destruct (starts_with p _) eqn:S.
  1, 3: apply starts_iff in S as (u & S); exists u; split; [exact S|cbn; lia].
  - destruct a; [|discriminate]. assert (X : starts_with p [] = true) by (apply starts_iff; eauto). congruence.
  - destruct a as [|h a]. { assert (X : starts_with p (g :: t) = true) by (apply starts_iff; eauto). congruence. }
    injection E as -> E. destruct IH as (u & [E1 F1]); [exists a, b; auto|]. exists u. split; [cbn; congruence|].
    intros [|h' a'] b' E'. { assert (X : starts_with p (h :: t) = true) by (apply starts_iff; eauto). congruence. }
    injection E' as -> E'. specialize (F1 _ _ E'). cbn. lia.
Qed.
Lemma line_iff t : forall r, line_of t = Some r <-> exists rest, t = r ++ newline :: rest /\ ~ In newline r.
Proof.
  induction t as [|g t IH]; intros r; cbn.
  - split; [discriminate|]. intros (rest & E & _). destruct r; discriminate.
  - destruct (glyph_eqb g newline) eqn:E.
    + apply glyph_eqb_iff in E. subst g. split.
      * intros [= <-]. exists t. split; auto.
      * intros (rest & E & N). destruct r as [|h r]; [reflexivity|]. injection E as <- _. destruct N. now left.
    + destruct (line_of t) as [l|] eqn:L; cbn; split.
      * intros [= <-]. destruct (proj1 (IH l) eq_refl) as (rest & -> & N). exists rest. split; [reflexivity|].
        intros [->|H]; auto. rewrite (proj2 (glyph_eqb_iff newline newline)) in E; [discriminate|reflexivity].
      * intros (rest & E' & N). destruct r as [|h r]; injection E' as -> E'.
        { rewrite (proj2 (glyph_eqb_iff newline newline)) in E; [discriminate|reflexivity]. }
        assert (X : Some l = Some r) by (apply IH; exists rest; split; [exact E'|intros H; apply N; now right]). injection X as ->. reflexivity.
      * discriminate.
      * intros (rest & E' & N). destruct r as [|h r]; injection E' as -> E'.
        { rewrite (proj2 (glyph_eqb_iff newline newline)) in E; [discriminate|reflexivity]. }
        assert (X : None = Some r) by (apply IH; exists rest; split; [exact E'|intros H; apply N; now right]). discriminate.
Qed.

Lemma trim_start_spec t : exists l, blank l /\ t = l ++ trim_start t /\ forall g t', trim_start t = g :: t' -> white g = false.
Proof.
  induction t as [|g t (l & B & E & F)]; cbn.
  - exists []. repeat split; auto; [constructor|discriminate].
  - destruct (white g) eqn:W.
    + exists (g :: l). split; [now constructor|]. split; [cbn; congruence|exact F].
    + exists []. split; [constructor|]. split; [reflexivity|]. intros g' t' [= <- <-]. exact W.
Qed.
Lemma blank_rev l : blank l -> blank (rev l).
Proof. unfold blank. rewrite !Forall_forall. intros H x K. apply H. now apply in_rev. Qed.
Lemma trim_spec t : exists l m, blank l /\ blank m /\ t = l ++ trim t ++ m /\ trimmed (trim t).
Proof.
  destruct (trim_start_spec t) as (l & B & E & F). destruct (trim_start_spec (rev (trim_start t))) as (m & B' & E' & F').
  exists l, (rev m). split; [exact B|]. split; [now apply blank_rev|]. unfold trim.
  assert (T : trim_start t = rev (trim_start (rev (trim_start t))) ++ rev m) by (rewrite <- rev_app_distr, <- E', rev_involutive; reflexivity).
  split; [rewrite <- T; exact E|]. split.
  - intros g t' H. rewrite H in T. cbn in T. apply (F g (t' ++ rev m)). exact T.
  - intros g t' H. apply (F' g (rev t')). rewrite <- (rev_involutive (trim_start _)), H, rev_app_distr. reflexivity.
Qed.

(** The part of a line that is shown. *)
Definition result_of (line : text) : text := trim (if contains (lit "(approx. ") line then before (lit "(approx. ") line else line).
Lemma result_of_in line : result_in line (result_of line).
Proof.
  unfold result_of, contains. destruct (find (lit "(approx. ") line) as [u|] eqn:E.
  - destruct (find_first _ _ _ E) as (a & b & F & _). destruct (before_first (lit "(approx. ") line) as (b' & F'); [exists a, b; apply F|].
    destruct (trim_spec (before (lit "(approx. ") line)) as (l & m & Bl & Bm & T & Tr). split; [exact Tr|].
    exists l, m, (lit "(approx. " ++ b'). split; [exact Bl|]. split; [exact Bm|]. split; [destruct F' as [X _]; rewrite X at 1; rewrite T at 1; now rewrite !app_assoc|].
    right. exists b'. split; [reflexivity|]. now rewrite <- T.
  - destruct (trim_spec line) as (l & m & Bl & Bm & T & Tr). split; [exact Tr|]. exists l, m, []. split; [exact Bl|]. split; [exact Bm|].
    split; [now rewrite app_nil_r|]. left. split; [now apply find_none|reflexivity].
Qed.

Lemma skipn_len {A} (p b : list A) : skipn (List.length p) (p ++ b) = b.
Proof. induction p; cbn; auto. Qed.
Lemma found_iff o out property t : find_property_result o out property = Value t <-> exists line, announced property out line /\ t = show_result o line.
Proof.
  unfold find_property_result, announced. split.
  - destruct (find (header property) out) as [u|] eqn:E1; [|discriminate]. apply find_iff in E1 as (a & b & F & ->).
    destruct (find result_text (header property ++ b)) as [v|] eqn:E2; [|discriminate]. apply find_iff in E2 as (c & d & F2 & ->). rewrite skipn_len.
    destruct (line_of d) as [r|] eqn:E3; [|discriminate]. apply line_iff in E3 as (rest & -> & N). intros [= <-]. exists r. split; [|reflexivity].
    exists a, b, c, r, rest. auto.
  - intros (line & (a & b & c & r & rest & F & F2 & -> & N) & ->). rewrite (proj2 (find_iff _ _ (header property ++ b))) by eauto.
    rewrite (proj2 (find_iff _ _ (result_text ++ r ++ newline :: rest))) by eauto. rewrite skipn_len.
    now rewrite (proj2 (line_iff (r ++ newline :: rest) r)) by eauto.
Qed.
Lemma found_or_not o out property : (exists t, find_property_result o out property = Value t) \/ find_property_result o out property = NotFound.
Proof. unfold find_property_result. destruct (find _ _); auto. destruct (find _ _); auto. destruct (line_of _); eauto. Qed.

(** * Numbers *)
Lemma split_free a : free GSlash a -> forall b, split_slash (a ++ GSlash :: b) = (a, Some b).
Proof. unfold free. induction 1 as [|g a Hg _ IH]; intros b; [reflexivity|]. destruct g; cbn [app split_slash]; rewrite ?IH; try reflexivity. cbn in Hg. discriminate. Qed.
Lemma split_free_none a : free GSlash a -> split_slash a = (a, None).
Proof. unfold free. induction 1 as [|g a Hg _ IH]; [reflexivity|]. destruct g; cbn [split_slash]; rewrite ?IH; try reflexivity. cbn in Hg. discriminate. Qed.
Lemma read_fraction t n d : shows_fraction t n d -> read_ratio t = Some (reduce n (Zpos d)).
Proof.
  unfold read_ratio. intros [[-> H]|(a & b & -> & Ha & Hb)].
  - destruct (shows_int_read _ _ H) as [R F]. rewrite (split_free_none _ F), R. reflexivity.
  - destruct (shows_int_read _ _ Ha) as [R F]. destruct (shows_int_read _ _ Hb) as [R' _]. rewrite (split_free _ F), R, R'. reflexivity.
Qed.
Lemma reduce_ok n d : let (n', d') := reduce n (Zpos d) in (n * Zpos d' = n' * Zpos d)%Z /\ Z.gcd n' (Zpos d') = 1%Z.
Proof.
  unfold reduce. change (Zpos d <? 0)%Z with false. cbv iota. change (Z.abs (Zpos d)) with (Zpos d). set (g := Z.gcd n (Zpos d)).
  assert (Hg : (0 < g)%Z). { pose proof (Z.gcd_nonneg n (Zpos d)) as H. assert (g <> 0%Z); [|unfold g in *; lia]. intros E. apply Z.gcd_eq_0_r in E. lia. }
  destruct (Z.gcd_divide_l n (Zpos d)) as [u Hu]. destruct (Z.gcd_divide_r n (Zpos d)) as [v Hv]. fold g in Hu, Hv.
  assert (Ev : (Zpos d / g)%Z = v) by (rewrite Hv; apply Z.div_mul; lia). assert (Eu : (n / g)%Z = u) by (rewrite Hu; apply Z.div_mul; lia).
  assert (Pv : (0 < v)%Z) by nia. rewrite Ev, Eu, Z2Pos.id by exact Pv. split; [clear Ev Eu; clearbody g; nia|].
  rewrite <- Ev, <- Eu. apply Z.gcd_div_gcd; [lia|reflexivity].
Qed.
Lemma no_digit_read t : (forall d, ~ In (GD d) t) -> read_int t = None.
Proof.
  assert (R : forall t acc, (forall d, ~ In (GD d) t) -> t <> [] -> read_digits acc t = None).
  { intros [|[] u] acc H N; try reflexivity; [now destruct N|]. destruct (H d). now left. }
  intros H. destruct t as [|g t]; [reflexivity|]. assert (H' : forall d, ~ In (GD d) t) by (intros d K; apply (H d); now right).
  destruct g; cbn [read_int read_nat]; try (apply R; [exact H|discriminate]).
  destruct t as [|h t]; [reflexivity|]. cbn [read_nat]. rewrite R; [reflexivity|exact H'|discriminate].
Qed.
Lemma split_in t : forall g, In g (fst (split_slash t)) -> In g t.
Proof. induction t as [|h t IH]; intros g; cbn; [auto|]. destruct h; cbn; try (destruct (split_slash t) as [a b]; cbn in *; intros [->|H]; auto). tauto. Qed.
Lemma no_digit_ratio t : (forall d, ~ In (GD d) t) -> read_ratio t = None.
Proof.
  intros H. unfold read_ratio. pose proof (split_in t) as I. destruct (split_slash t) as [a b]. cbn in I.
  rewrite no_digit_read; [reflexivity|]. intros d K. apply (H d), I, K.
Qed.

(** * What is shown *)
Theorem found o out property t : find_property_result o out property = Value t ->
  exists line r t', announced property out line /\ result_in line r /\ t = mark (o_exact o) (o_limit o) ++ t' /\
    (o_exact o = false -> t' = r) /\ ((forall d, ~ In (GD d) r) -> t' = r) /\
    (o_exact o = true -> forall n d, shows_fraction r n d -> exists n' d', (n * Zpos d' = n' * Zpos d)%Z /\ Z.gcd n' (Zpos d') = 1%Z /\ denotes t' n' d').
Proof.
  intros H. apply found_iff in H as (line & A & ->). exists line, (result_of line).
  exists (if o_exact o then match read_ratio (result_of line) with Some (n, d) => pretty decimal_limit n d | None => result_of line end else result_of line).
  split; [exact A|]. split; [apply result_of_in|]. split; [reflexivity|]. split; [now intros ->|]. split.
  - intros N. rewrite (no_digit_ratio _ N). now destruct (o_exact o).
  - intros -> n d S. rewrite (read_fraction _ _ _ S). pose proof (reduce_ok n d) as R. destruct (reduce n (Zpos d)) as [n' d']. destruct R as [R1 R2].
    exists n', d'. repeat split; auto. apply pretty_denotes. discriminate.
Qed.
Theorem not_found o out property : find_property_result o out property = NotFound <-> ~ exists line, announced property out line.
Proof.
  destruct (found_or_not o out property) as [(t & H)|H].
  - split; [congruence|]. intros N. destruct N. apply found_iff in H as (line & A & _). eauto.
  - split; [|auto]. intros _ (line & A). assert (X : find_property_result o out property = Value (show_result o line)) by (apply found_iff; eauto). congruence.
Qed.
Theorem announced_unique property out l l' : announced property out l -> announced property out l' -> l = l'.
Proof.
  intros (a & b & c & r & rest & F & F2 & -> & N) (a' & b' & c' & r' & rest' & F' & F2' & -> & N').
  destruct (first_unique _ _ _ _ _ _ F F') as [-> ->]. destruct (first_unique _ _ _ _ _ _ F2 F2') as [-> E].
  assert (X : line_of (r ++ newline :: rest) = Some r) by (apply line_iff; eauto). rewrite E in X.
  assert (Y : line_of (r' ++ newline :: rest') = Some r') by (apply line_iff; eauto). congruence.
Qed.
