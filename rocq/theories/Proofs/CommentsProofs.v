(** Removing comments. *)
From Coq Require Import String Ascii List Bool Arith NArith Lia.
From Verif.Model Require Import Comments.
From Verif.Spec Require Import CommentText.
Import ListNotations.
Local Open Scope char_scope.

(** Induction along the function: one or two bytes at a time. *)
Lemma two_step (P : list ascii -> Prop) : P [] -> (forall c, P [c]) -> (forall c d l, P (d :: l) -> P l -> P (c :: d :: l)) -> forall l, P l.
Proof.
  intros H0 H1 H2 l. cut (P l /\ forall c, P (c :: l)); [tauto|].
  induction l as [|c l [IH IH']]; [auto|]. split; [apply IH'|]. intros b. apply H2; auto.
Qed.

Lemma blank_two m c d l : blank m (c :: d :: l) =
  match m with
  | MText =>
      if Ascii.eqb c slash then
        if Ascii.eqb d slash then space :: space :: blank MLine l
        else if Ascii.eqb d star then space :: space :: blank (MBlock 1) l else c :: d :: blank MText l
      else c :: blank MText (d :: l)
  | MLine => if Ascii.eqb c newline then c :: blank MText (d :: l) else space :: blank MLine (d :: l)
  | MBlock n =>
      if Ascii.eqb c star && Ascii.eqb d slash then space :: space :: blank (if Nat.eqb n 1 then MText else MBlock (n - 1)) l
      else if Ascii.eqb c slash && Ascii.eqb d star then space :: space :: blank (MBlock (n + 1)) l
      else space :: blank (MBlock n) (d :: l)
  end.
Proof. destruct m; reflexivity. Qed.

Ltac bool_cases := repeat match goal with |- context [if ?b then _ else _] => let E := fresh "E" in destruct b eqn:E end.

Lemma blank_length l : forall m, List.length (blank m l) = List.length l.
Proof.
  induction l as [|c|c d l IH1 IH2] using two_step; intros m; [reflexivity| |].
  - destruct m; cbn; bool_cases; reflexivity.
  - rewrite blank_two. destruct m; bool_cases; cbn [List.length]; rewrite ?IH2, ?IH1; reflexivity.
Qed.
Lemma blank_pointwise l : forall m, Forall2 (fun c c' => c' = c \/ c' = " ") l (blank m l).
Proof.
  induction l as [|c|c d l IH1 IH2] using two_step; intros m; [constructor| |].
  - destruct m; cbn; bool_cases; constructor; auto.
  - rewrite blank_two. destruct m; bool_cases; repeat (constructor; [auto; fail|]); auto.
Qed.

Lemma occurs_cons a b c l : occurs a b l -> occurs a b (c :: l).
Proof. intros (u & v & ->). exists (c :: u), v. reflexivity. Qed.
Lemma occurs_here a b l : occurs a b (a :: b :: l).
Proof. exists [], l. reflexivity. Qed.
Lemma occurs_inv a b c d l : occurs a b (c :: d :: l) -> (c = a /\ d = b) \/ occurs a b (d :: l).
Proof. intros ([|x u] & v & E); cbn in E; injection E; intros; [left; auto|right; exists u, v; assumption]. Qed.
Lemma occurs_nil a b : ~ occurs a b [].
Proof. intros ([|? ?] & v & E); discriminate. Qed.
Lemma occurs_one a b c : ~ occurs a b [c].
Proof. intros ([|? [|? ?]] & v & E); discriminate. Qed.

Lemma text_plain l : no_opener l -> blank MText l = l.
Proof.
  induction l as [|c|c d l IH1 IH2] using two_step; intros [N1 N2]; [reflexivity| |].
  - cbn. destruct (Ascii.eqb c slash); reflexivity.
  - assert (T : no_opener (d :: l)) by (split; intros O; [apply N1|apply N2]; apply occurs_cons; exact O).
    assert (T' : no_opener l) by (destruct T as [T1 T2]; split; intros O; [apply T1|apply T2]; apply occurs_cons; exact O).
    rewrite blank_two. destruct (Ascii.eqb c slash) eqn:E.
    + apply Ascii.eqb_eq in E. subst c.
      destruct (Ascii.eqb d slash) eqn:E1; [apply Ascii.eqb_eq in E1; subst d; destruct N1; apply occurs_here|].
      destruct (Ascii.eqb d star) eqn:E2; [apply Ascii.eqb_eq in E2; subst d; destruct N2; apply occurs_here|].
      rewrite (IH2 T'). reflexivity.
    + f_equal. apply IH1. exact T.
Qed.

(** The first byte of the result. *)
Lemma blank_head m c l : exists c' r, blank m (c :: l) = c' :: r /\ (c' = c \/ c' = " ").
Proof. pose proof (blank_pointwise (c :: l) m) as H. inversion H; subst. eauto. Qed.
Lemma no_opener_cons c l : (forall d r, l = d :: r -> c = "/" -> d <> "/" /\ d <> "*") -> no_opener l -> no_opener (c :: l).
Proof.
  intros H [N1 N2]. destruct l as [|d r]; [split; apply occurs_one|].
  split; intros O; apply occurs_inv in O as [[-> ->]|O]; try tauto; destruct (H _ _ eq_refl eq_refl) as [A B]; congruence.
Qed.
Lemma blank_no_opener l : forall m, no_opener (blank m l).
Proof.
  induction l as [|c|c d l IH1 IH2] using two_step; intros m.
  - split; apply occurs_nil.
  - destruct m; cbn; bool_cases; split; apply occurs_one.
  - assert (SP : forall r, no_opener r -> no_opener (" " :: r)) by (intros r R; apply no_opener_cons; [discriminate|exact R]).
    rewrite blank_two. destruct m as [| |n].
    + destruct (Ascii.eqb c slash) eqn:E.
      * bool_cases; try (apply SP, SP, IH2). apply no_opener_cons.
        -- intros d' r [=<- _] ->. split; intros ->; discriminate.
        -- apply no_opener_cons; [|apply IH2]. intros d' r E' Hd. subst d. discriminate.
      * apply no_opener_cons; [|apply (IH1 MText)]. intros d' r _ ->. discriminate.
    + destruct (Ascii.eqb c newline) eqn:E.
      * apply no_opener_cons; [|apply (IH1 MText)]. intros d' r _ ->. discriminate.
      * apply SP, (IH1 MLine).
    + bool_cases; try (apply SP, SP, IH2). apply SP, (IH1 (MBlock n)).
Qed.
Lemma twice l : remove_comments (remove_comments l) = remove_comments l.
Proof. apply text_plain, blank_no_opener. Qed.

(** * Where the text goes on *)
Lemma text_app u v : no_opener (u ++ ["/"]) -> blank MText (u ++ v) = u ++ blank MText v.
Proof.
  induction u as [|c|c d u IH1 IH2] using two_step; intros N; [reflexivity| |].
  - cbn [app]. assert (Ascii.eqb c slash = false) as E.
    { apply Ascii.eqb_neq. intros ->. destruct N as [N _]. apply N. exists [], []. reflexivity. }
    cbn [blank]. rewrite E. reflexivity.
  - assert (T : no_opener ((d :: u) ++ ["/"])) by (destruct N as [N1 N2]; split; intros O; [apply N1|apply N2]; apply (occurs_cons _ _ c) in O; exact O).
    assert (T' : no_opener (u ++ ["/"])) by (destruct T as [N1 N2]; split; intros O; [apply N1|apply N2]; apply (occurs_cons _ _ d) in O; exact O).
    change ((c :: d :: u) ++ v)%list with (c :: d :: (u ++ v)). rewrite blank_two. destruct (Ascii.eqb c slash) eqn:E.
    + apply Ascii.eqb_eq in E. subst c. destruct N as [N1 N2].
      destruct (Ascii.eqb d slash) eqn:E1; [apply Ascii.eqb_eq in E1; subst d; destruct N1; apply occurs_here|].
      destruct (Ascii.eqb d star) eqn:E2; [apply Ascii.eqb_eq in E2; subst d; destruct N2; apply occurs_here|].
      rewrite (IH2 T'). reflexivity.
    + cbn [app]. f_equal. apply (IH1 T).
Qed.
Lemma line_app b v : ~ In lf b -> blank MLine (b ++ lf :: v) = spaces (List.length b) ++ lf :: blank MText v.
Proof.
  induction b as [|c b IH]; intros N; [reflexivity|]. cbn [app blank]. assert (Ascii.eqb c newline = false) as -> by (apply Ascii.eqb_neq; intros ->; apply N; left; reflexivity).
  rewrite IH; [reflexivity|]. intros I. apply N. right. exact I.
Qed.
Lemma line_end b : ~ In lf b -> blank MLine b = spaces (List.length b).
Proof.
  induction b as [|c b IH]; intros N; [reflexivity|]. cbn [app blank]. assert (Ascii.eqb c newline = false) as -> by (apply Ascii.eqb_neq; intros ->; apply N; left; reflexivity).
  rewrite IH; [reflexivity|]. intros I. apply N. right. exact I.
Qed.
Theorem line_comment u b v : no_opener (u ++ ["/"]) -> ~ In lf b ->
  remove_comments (u ++ ["/"; "/"] ++ b ++ lf :: v) = u ++ spaces (2 + List.length b) ++ lf :: remove_comments v.
Proof. intros N L. unfold remove_comments. rewrite text_app by exact N. cbn. rewrite line_app by exact L. reflexivity. Qed.
Theorem line_comment_end u b : no_opener (u ++ ["/"]) -> ~ In lf b -> remove_comments (u ++ ["/"; "/"] ++ b) = u ++ spaces (2 + List.length b).
Proof. intros N L. unfold remove_comments. rewrite text_app by exact N. cbn. rewrite line_end by exact L. reflexivity. Qed.

Lemma quiet_tail c l : quiet (c :: l) -> quiet l.
Proof. intros [A B]. split; intros O; [apply A|apply B]; apply occurs_cons; exact O. Qed.
(** Quiet text in a comment, before a delimiter that starts with [x]. *)
Lemma block_quiet n p x v : (x = "*" \/ x = "/") -> quiet (p ++ [x]) -> blank (MBlock n) (p ++ x :: v) = spaces (List.length p) ++ blank (MBlock n) (x :: v).
Proof.
  intros Hx. induction p as [|c p IH]; intros Q; [reflexivity|].
  assert (exists d r, (p ++ x :: v)%list = d :: r /\ exists r', (p ++ [x])%list = d :: r') as (d & r & E & r' & E').
  { destruct p as [|d p]; cbn; eauto. }
  change ((c :: p) ++ x :: v)%list with (c :: (p ++ x :: v)). cbn [blank List.length spaces repeat app]. rewrite E.
  assert (Q' := Q). cbn in Q'. rewrite E' in Q'. destruct Q' as [Q1 Q2].
  destruct (Ascii.eqb c star && Ascii.eqb d slash) eqn:E1.
  { apply andb_true_iff in E1 as [A B]. apply Ascii.eqb_eq in A, B. subst. destruct Q2. apply occurs_here. }
  destruct (Ascii.eqb c slash && Ascii.eqb d star) eqn:E2.
  { apply andb_true_iff in E2 as [A B]. apply Ascii.eqb_eq in A, B. subst. destruct Q1. apply occurs_here. }
  rewrite <- E. unfold space. f_equal. apply IH. exact (quiet_tail _ _ Q).
Qed.
Lemma spaces_app a b : spaces (a + b) = spaces a ++ spaces b.
Proof. apply repeat_app. Qed.
Lemma block_body b : body b -> forall n v, blank (MBlock (S n)) (b ++ ["*"; "/"] ++ v) =
  spaces (List.length b + 2) ++ blank (if Nat.eqb (S n) 1 then MText else MBlock n) v.
Proof.
  induction 1 as [p Q|p b c Q _ IHb _ IHc]; intros n v.
  - cbn [app]. rewrite block_quiet by auto. rewrite spaces_app, <- app_assoc. f_equal. cbn -[Nat.eqb]. rewrite Nat.sub_0_r. reflexivity.
  - replace ((p ++ ["/"; "*"] ++ b ++ ["*"; "/"] ++ c) ++ ["*"; "/"] ++ v) with (p ++ "/" :: "*" :: (b ++ ["*"; "/"] ++ (c ++ ["*"; "/"] ++ v)))
      by (cbn; rewrite <- !app_assoc; cbn; rewrite <- !app_assoc; reflexivity).
    rewrite block_quiet by auto. change (blank (MBlock (S n)) ("/" :: "*" :: ?l)) with (" " :: " " :: blank (MBlock (S n + 1)) l).
    replace (S n + 1) with (S (S n)) by lia. rewrite IHb. cbn [Nat.eqb]. rewrite IHc.
    rewrite !app_length. cbn [List.length]. replace (List.length p + S (S (List.length b + S (S (List.length c)))) + 2) with
      (List.length p + (2 + ((List.length b + 2) + (List.length c + 2)))) by lia.
    rewrite !spaces_app. cbn [spaces repeat app]. rewrite <- !app_assoc. cbn [app]. rewrite <- !app_assoc. reflexivity.
Qed.
Theorem block_comment u b v : no_opener (u ++ ["/"]) -> body b ->
  remove_comments (u ++ ["/"; "*"] ++ b ++ ["*"; "/"] ++ v) = u ++ spaces (List.length b + 4) ++ remove_comments v.
Proof.
  intros N B. unfold remove_comments. rewrite text_app by exact N. f_equal.
  change (blank MText (["/"; "*"] ++ ?l)) with (" " :: " " :: blank (MBlock 1) l). rewrite (block_body b B 0 v).
  replace (List.length b + 4) with (2 + (List.length b + 2)) by lia. rewrite (spaces_app 2). reflexivity.
Qed.
(** Comments that are not closed. *)
Lemma block_quiet_end n p : quiet p -> blank (MBlock n) p = spaces (List.length p).
Proof.
  induction p as [|c|c d l IH1 IH2] using two_step; intros Q; [reflexivity|reflexivity|].
  assert (T := quiet_tail _ _ Q). destruct Q as [Q1 Q2]. rewrite blank_two.
  destruct (Ascii.eqb c star && Ascii.eqb d slash) eqn:E1.
  { apply andb_true_iff in E1 as [A B]. apply Ascii.eqb_eq in A, B. subst. destruct Q2. apply occurs_here. }
  destruct (Ascii.eqb c slash && Ascii.eqb d star) eqn:E2.
  { apply andb_true_iff in E2 as [A B]. apply Ascii.eqb_eq in A, B. subst. destruct Q1. apply occurs_here. }
  rewrite IH1 by exact T. reflexivity.
Qed.
Lemma block_open b : open_body b -> forall n, blank (MBlock (S n)) b = spaces (List.length b).
Proof.
  induction 1 as [p Q|p b Q _ IH|p b c Q B _ IH]; intros n.
  - apply block_quiet_end. exact Q.
  - change (p ++ ["/"; "*"] ++ b) with (p ++ "/" :: "*" :: b). rewrite block_quiet by auto.
    change (blank (MBlock (S n)) ("/" :: "*" :: b)) with (" " :: " " :: blank (MBlock (S n + 1)) b). rewrite Nat.add_1_r, IH, app_length, spaces_app. reflexivity.
  - change (p ++ ["/"; "*"] ++ b ++ ["*"; "/"] ++ c) with (p ++ "/" :: "*" :: (b ++ ["*"; "/"] ++ c)). rewrite block_quiet by auto.
    change (blank (MBlock (S n)) ("/" :: "*" :: ?l)) with (" " :: " " :: blank (MBlock (S n + 1)) l). rewrite Nat.add_1_r, (block_body b B). cbn [Nat.eqb].
    rewrite IH, !app_length. cbn [List.length]. rewrite !app_length. cbn [List.length].
    match goal with |- _ = spaces ?k => replace k with (List.length p + (2 + ((List.length b + 2) + List.length c))) by lia end.
    rewrite !spaces_app. reflexivity.
Qed.
Theorem unclosed u l : no_opener (u ++ ["/"]) -> open_body l -> remove_comments (u ++ ["/"; "*"] ++ l) = u ++ spaces (2 + List.length l).
Proof.
  intros N B. unfold remove_comments. rewrite text_app by exact N. f_equal.
  change (blank MText (["/"; "*"] ++ l)) with (" " :: " " :: blank (MBlock 1) l). rewrite block_open by exact B. reflexivity.
Qed.

(** * Every text *)
Lemma quiet_cons c d l : ~ (c = "/" /\ d = "*") -> ~ (c = "*" /\ d = "/") -> quiet (d :: l) -> quiet (c :: d :: l).
Proof. intros A B [Q1 Q2]. split; intros O; apply occurs_inv in O as [O|O]; tauto. Qed.
Lemma delimiter l : quiet l \/ (exists p v, l = p ++ "/" :: "*" :: v /\ quiet (p ++ ["/"])) \/ (exists p v, l = p ++ "*" :: "/" :: v /\ quiet (p ++ ["*"])).
Proof.
  induction l as [|c|c d l IH _] using two_step.
  - left. split; apply occurs_nil.
  - left. split; apply occurs_one.
  - destruct (ascii_dec c "/") as [->|N1]; [destruct (ascii_dec d "*") as [->|N2]|].
    + right. left. exists [], l. split; [reflexivity|]. split; apply occurs_one.
    + destruct IH as [Q|[(p & v & E & Q)|(p & v & E & Q)]].
      * left. apply quiet_cons; auto; intros [? ?]; congruence.
      * right. left. exists ("/" :: p), v. rewrite E. split; [reflexivity|]. destruct p as [|x p]; injection E as -> ->;
          [split; intros O; apply occurs_inv in O as [[? ?]|O]; try discriminate; exact (occurs_one _ _ _ O)|]. apply quiet_cons; auto; intros [? ?]; congruence.
      * right. right. exists ("/" :: p), v. rewrite E. split; [reflexivity|]. destruct p as [|x p]; injection E as -> ->; [congruence|]. apply quiet_cons; auto; intros [? ?]; congruence.
    + destruct (ascii_dec c "*") as [->|N2]; [destruct (ascii_dec d "/") as [->|N3]|].
      * right. right. exists [], l. split; [reflexivity|]. split; apply occurs_one.
      * destruct IH as [Q|[(p & v & E & Q)|(p & v & E & Q)]].
        -- left. apply quiet_cons; auto; intros [? ?]; congruence.
        -- right. left. exists ("*" :: p), v. rewrite E. split; [reflexivity|]. destruct p as [|x p]; injection E as -> ->; [congruence|]. apply quiet_cons; auto; intros [? ?]; congruence.
        -- right. right. exists ("*" :: p), v. rewrite E. split; [reflexivity|]. destruct p as [|x p]; injection E as -> ->;
             [split; intros O; apply occurs_inv in O as [[? ?]|O]; try discriminate; exact (occurs_one _ _ _ O)|]. apply quiet_cons; auto; intros [? ?]; congruence.
      * destruct IH as [Q|[(p & v & E & Q)|(p & v & E & Q)]].
        -- left. apply quiet_cons; auto; intros [? ?]; congruence.
        -- right. left. exists (c :: p), v. rewrite E. split; [reflexivity|]. destruct p as [|x p]; injection E as -> ->; apply quiet_cons; auto; intros [? ?]; congruence.
        -- right. right. exists (c :: p), v. rewrite E. split; [reflexivity|]. destruct p as [|x p]; injection E as -> ->; apply quiet_cons; auto; intros [? ?]; congruence.
Qed.
Lemma opener l : no_opener l \/ exists p x v, l = p ++ "/" :: x :: v /\ (x = "/" \/ x = "*") /\ no_opener (p ++ ["/"]).
Proof.
  induction l as [|c|c d l IH _] using two_step.
  - left. split; apply occurs_nil.
  - left. split; apply occurs_one.
  - destruct (ascii_dec c "/") as [->|N1].
    + destruct (ascii_dec d "/") as [->|N2]; [right; exists [], "/", l; repeat split; auto; apply occurs_one|].
      destruct (ascii_dec d "*") as [->|N3]; [right; exists [], "*", l; repeat split; auto; apply occurs_one|].
      destruct IH as [N|(p & x & v & E & X & N)].
      * left. apply no_opener_cons; [|exact N]. intros d' r [=<- <-] _. auto.
      * right. exists ("/" :: p), x, v. rewrite E. split; [reflexivity|]. split; [exact X|]. cbn [app]. apply no_opener_cons; [|exact N].
        intros d' r E' _. destruct p as [|y p]; injection E as -> ->; [congruence|]. injection E' as <- _. auto.
    + destruct IH as [N|(p & x & v & E & X & N)].
      * left. apply no_opener_cons; [|exact N]. congruence.
      * right. exists (c :: p), x, v. rewrite E. split; [reflexivity|]. split; [exact X|]. cbn [app]. apply no_opener_cons; [|exact N]. congruence.
Qed.
Lemma closed_or_open l : (exists b v, l = b ++ "*" :: "/" :: v /\ body b) \/ open_body l.
Proof.
  remember (List.length l) as k eqn:K. assert (K' : List.length l <= k) by lia. clear K. revert l K'.
  induction k as [|k IH]; intros l K.
  { destruct l; [|cbn in K; lia]. right. apply open_quiet. split; apply occurs_nil. }
  destruct (delimiter l) as [Q|[(p & v & -> & Q)|(p & v & -> & Q)]].
  - right. apply open_quiet. exact Q.
  - rewrite app_length in K. cbn in K. destruct (IH v ltac:(lia)) as [(b & w & -> & B)|O].
    + rewrite app_length in K. cbn in K. destruct (IH w ltac:(lia)) as [(c & w' & -> & C)|O].
      * left. exists (p ++ ["/"; "*"] ++ b ++ ["*"; "/"] ++ c), w'. split; [|apply body_nested; assumption].
        cbn. rewrite <- !app_assoc. cbn. rewrite <- !app_assoc. reflexivity.
      * right. exact (open_after p b w Q B O).
    + right. exact (open_nested p v Q O).
  - left. exists p, v. split; [reflexivity|]. apply body_quiet. exact Q.
Qed.
Lemma line_split l : (exists b v, l = b ++ lf :: v /\ ~ In lf b) \/ ~ In lf l.
Proof.
  induction l as [|c l IH]; [right; auto|]. destruct (ascii_dec c lf) as [->|N]; [left; exists [], l; auto|].
  destruct IH as [(b & v & -> & I)|I]; [left; exists (c :: b), v; split; [reflexivity|]|right]; intros [E|E]; auto.
Qed.
Lemma commented_total l : exists l', commented l l'.
Proof.
  remember (List.length l) as k eqn:K. assert (K' : List.length l <= k) by lia. clear K. revert l K'.
  induction k as [|k IH]; intros l K.
  { destruct l; [|cbn in K; lia]. exists []. apply cm_none. split; apply occurs_nil. }
  destruct (opener l) as [N|(p & x & v & -> & [->| ->] & N)].
  - eexists. apply cm_none. exact N.
  - destruct (line_split v) as [(b & w & -> & I)|I].
    + repeat (rewrite app_length in K; cbn in K). destruct (IH w ltac:(lia)) as [w' W]. eexists. exact (cm_line p b w w' N I W).
    + eexists. exact (cm_last_line p v N I).
  - destruct (closed_or_open v) as [(b & w & -> & B)|O].
    + repeat (rewrite app_length in K; cbn in K). destruct (IH w ltac:(lia)) as [w' W]. eexists. exact (cm_block p b w w' N B W).
    + eexists. exact (cm_open p v N O).
Qed.
Lemma commented_fun l l' : commented l l' -> remove_comments l = l'.
Proof.
  induction 1 as [l N|u b v v' N I _ IH|u b N I|u b v v' N B _ IH|u b N O].
  - apply text_plain. exact N.
  - rewrite line_comment, IH by assumption. reflexivity.
  - apply line_comment_end; assumption.
  - rewrite block_comment, IH by assumption. reflexivity.
  - apply unclosed; assumption.
Qed.
Theorem removes l l' : remove_comments l = l' <-> commented l l'.
Proof.
  split; [|apply commented_fun]. intros <-. destruct (commented_total l) as [l' C]. rewrite (commented_fun _ _ C). exact C.
Qed.

(** * UTF-8 *)
Definition high (c : ascii) : Prop := (128 <= N_of_ascii c)%N.
Lemma high_not c d : high c -> N.ltb (N_of_ascii d) 128 = true -> Ascii.eqb c d = false.
Proof. intros H L. apply Ascii.eqb_neq. intros ->. apply N.ltb_lt in L. unfold high in H. lia. Qed.
Lemma char_cases cs : utf8_char cs = true -> (exists a, cs = [a] /\ (N_of_ascii a < 128)%N) \/ (cs <> [] /\ Forall high cs).
Proof.
  assert (B : forall a b c, between a b c = true -> (a <= N_of_ascii c <= b)%N).
  { intros a b c. unfold between. intros H. apply andb_true_iff in H as [H1 H2]. apply N.leb_le in H1, H2. lia. }
  assert (T : forall c, tail c = true -> high c) by (intros c H; apply B in H; unfold high; lia).
  destruct cs as [|a [|b [|c [|d [|]]]]]; cbn; try discriminate; intros H.
  - left. exists a. split; [reflexivity|]. apply B in H. lia.
  - right. split; [discriminate|]. apply andb_true_iff in H as [H1 H2]. apply B in H1. repeat constructor; auto. unfold high; lia.
  - right. split; [discriminate|]. apply andb_true_iff in H as [H H3].
    rewrite !orb_true_iff, !andb_true_iff in H. assert (high a /\ high b).
    { destruct H as [[[[H1 H2]|[H1 H2]]|[H1 H2]]|[H1 H2]]; apply B in H1; try apply T in H2; try apply B in H2; unfold high in *; lia. }
    destruct H0. repeat constructor; auto.
  - right. split; [discriminate|]. apply andb_true_iff in H as [H H4]. apply andb_true_iff in H as [H H3].
    rewrite !orb_true_iff, !andb_true_iff in H. assert (high a /\ high b).
    { destruct H as [[[H1 H2]|[H1 H2]]|[H1 H2]]; apply B in H1; try apply T in H2; try apply B in H2; unfold high in *; lia. }
    destruct H0. repeat constructor; auto.
Qed.
Lemma utf8_nil : utf8 [].
Proof. exists []. auto. Qed.
Lemma utf8_low c l : (N_of_ascii c < 128)%N -> utf8 l -> utf8 (c :: l).
Proof.
  intros L (cs & -> & V). exists ([c] :: cs). split; [reflexivity|]. cbn [forallb utf8_char]. rewrite V, andb_true_r.
  unfold between. apply andb_true_iff. split; apply N.leb_le; lia.
Qed.
Lemma utf8_char_app cs l : utf8_char cs = true -> utf8 l -> utf8 (cs ++ l).
Proof. intros C (ds & -> & V). exists (cs :: ds). split; [reflexivity|]. cbn [forallb]. rewrite C. exact V. Qed.
Lemma utf8_spaces n l : utf8 l -> utf8 (spaces n ++ l).
Proof. intros V. induction n as [|n IH]; [exact V|]. apply utf8_low; [reflexivity|exact IH]. Qed.
(** A character that is not in ASCII is copied or blanked as a whole. *)
Lemma blank_high hs : Forall high hs -> forall m v, blank m (hs ++ v) = (match m with MText => hs | _ => spaces (List.length hs) end) ++ blank m v.
Proof.
  induction 1 as [|c hs H _ IH]; intros m v; [destruct m; reflexivity|].
  assert (E1 : Ascii.eqb c slash = false) by (apply high_not; [exact H|reflexivity]).
  assert (E2 : Ascii.eqb c star = false) by (apply high_not; [exact H|reflexivity]).
  assert (E3 : Ascii.eqb c newline = false) by (apply high_not; [exact H|reflexivity]).
  specialize (IH m v). destruct m as [| |n]; cbn [app blank]; rewrite ?E1, ?E2, ?E3; cbn [andb].
  - rewrite IH. reflexivity.
  - rewrite IH. reflexivity.
  - destruct (hs ++ v)%list as [|d r] eqn:E; [|rewrite IH; reflexivity].
    apply app_eq_nil in E as [-> ->]. reflexivity.
Qed.
Lemma blank_utf8 cs : forallb utf8_char cs = true -> forall m, utf8 (blank m (concat cs)).
Proof.
  remember (List.length cs) as k eqn:K. assert (K' : List.length cs <= k) by lia. clear K. revert cs K'.
  induction k as [|k IH]; intros cs K V m.
  { destruct cs; [apply utf8_nil|cbn in K; lia]. }
  destruct cs as [|c cs]; [apply utf8_nil|]. cbn in K, V. apply andb_true_iff in V as [Vc V]. cbn [concat].
  destruct (char_cases c Vc) as [(a & -> & La)|[Ne Hi]].
  - (* an ASCII byte *)
    assert (SP : forall l, utf8 l -> utf8 (" " :: l)) by (intros; apply utf8_low; [reflexivity|assumption]).
    assert (IHm : forall m, utf8 (blank m (concat cs))) by (intros m'; apply IH; [lia|exact V]).
    destruct cs as [|c2 cs]; [cbn; destruct m; bool_cases; apply utf8_low; auto using utf8_nil; reflexivity|].
    cbn in V. apply andb_true_iff in V as [V2 V]. destruct (char_cases c2 V2) as [(d & -> & Ld)|[Ne Hi]].
    + assert (IHm' : forall m, utf8 (blank m (concat cs))) by (intros m'; apply IH; [cbn in K; lia|exact V]).
      change ([a] ++ concat ([d] :: cs)) with (a :: d :: concat cs). change (concat ([d] :: cs)) with (d :: concat cs) in IHm.
      rewrite blank_two. destruct m as [| |n]; bool_cases; auto using utf8_low.
    + cbn [concat app]. destruct c2 as [|d hs]; [congruence|]. cbn [app]. cbn [concat app] in IHm. inversion Hi as [|? ? Hd Hh]; subst.
      assert (E1 : Ascii.eqb d slash = false) by (apply high_not; [exact Hd|reflexivity]).
      assert (E2 : Ascii.eqb d star = false) by (apply high_not; [exact Hd|reflexivity]).
      rewrite blank_two. destruct m as [| |n]; rewrite ?E1, ?E2, ?andb_false_r.
      * destruct (Ascii.eqb a slash) eqn:E; [|apply utf8_low; auto].
        apply utf8_low; [exact La|]. specialize (IHm MText). change (d :: hs ++ concat cs) with ((d :: hs) ++ concat cs) in IHm.
        rewrite blank_high in IHm by exact Hi. rewrite blank_high by exact Hh. exact IHm.
      * destruct (Ascii.eqb a newline); [apply utf8_low; auto|apply SP; auto].
      * apply SP. apply IHm.
  - rewrite blank_high by exact Hi. assert (U : utf8 (blank m (concat cs))) by (apply IH; [lia|exact V]).
    destruct m; [apply utf8_char_app; assumption|apply utf8_spaces; exact U|apply utf8_spaces; exact U].
Qed.
Theorem utf8_kept l : utf8 l -> utf8 (remove_comments l).
Proof. intros (cs & -> & V). apply blank_utf8. exact V. Qed.

Definition txt : string -> list ascii := list_ascii_of_string.
Lemma ex_nested : remove_comments (txt "a /* b /* c */ // */ d / e // f") = txt "a                    d / e     ".
Proof. reflexivity. Qed.
Lemma ex_string : remove_comments (txt "assert ""a//b""; assert 0") = txt "assert ""a" ++ spaces 14.
Proof. reflexivity. Qed.
Lemma ex_proc : remove_comments (txt "/* todo: proc f() -> () { assert 0 }") = spaces 36.
Proof. reflexivity. Qed.
Definition ex_bytes : list ascii := txt "x " ++ List.map ascii_of_nat [226; 138; 147] ++ txt " y // " ++ List.map ascii_of_nat [195; 164].
Lemma ex_utf8 : utf8 ex_bytes /\ remove_comments ex_bytes <> ex_bytes.
Proof.
  split; [|discriminate]. unfold ex_bytes, txt. cbn [list_ascii_of_string app List.map].
  repeat (apply utf8_low; [reflexivity|]). apply (utf8_char_app (List.map ascii_of_nat [226; 138; 147])); [reflexivity|].
  cbn [app]. repeat (apply utf8_low; [reflexivity|]). apply (utf8_char_app (List.map ascii_of_nat [195; 164]) []); [reflexivity|apply utf8_nil].
Qed.
Lemma strings_refuted : exists rest, remove_comments (txt ("assert ""a//b""" ++ rest)) = txt "assert ""a" ++ spaces (4 + String.length rest) /\ rest <> ""%string.
Proof. exists "; assert 0"%string. split; [reflexivity|discriminate]. Qed.
