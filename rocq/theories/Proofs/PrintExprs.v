(** Printed expressions read back as themselves up to brackets. *)
From Coq Require Import Bool List String Arith ZArith QArith Lia.
From Verif.Model Require Import Syntax Tycheck Precedence Printing.
From Verif.Spec Require Import Reading Printed.
From Verif.Proofs Require Import GrammarProofs GroupingProofs.
Import ListNotations.
Local Open Scope list_scope.
Local Open Scope nat_scope.

Section Ind.
Variable P : rexpr -> Prop.
Hypothesis H1 : forall o x, P (RVar o x).
Hypothesis H2 : forall o f args, Forall P args -> P (RCall o f args).
Hypothesis H3 : forall o c a b, P c -> P a -> P b -> P (RIte o c a b).
Hypothesis H4 : forall o op a b, P a -> P b -> P (RBin o op a b).
Hypothesis H5 : forall o op a, P a -> P (RUn o op a).
Hypothesis H6 : forall o a, P a -> P (RCast o a).
Hypothesis H7 : forall o op xs a, P a -> P (RQuant o op xs a).
Hypothesis H8 : forall o x v a, P v -> P a -> P (RSubst o x v a).
Hypothesis H9 : forall o l, P (RLit o l).
Fixpoint rexpr_all (e : rexpr) : P e :=
  match e with
  | RVar o x => H1 o x
  | RCall o f args => H2 o f args ((fix go l : Forall P l := match l with [] => Forall_nil _ | a :: l' => Forall_cons a (rexpr_all a) (go l') end) args)
  | RIte o c a b => H3 o c a b (rexpr_all c) (rexpr_all a) (rexpr_all b)
  | RBin o op a b => H4 o op a b (rexpr_all a) (rexpr_all b)
  | RUn o op a => H5 o op a (rexpr_all a)
  | RCast o a => H6 o a (rexpr_all a)
  | RQuant o op xs a => H7 o op xs a (rexpr_all a)
  | RSubst o x v a => H8 o x v a (rexpr_all v) (rexpr_all a)
  | RLit o l => H9 o l
  end.
End Ind.

(** The tree that a printed expression is read as *)
Fixpoint shown (e : rexpr) : rexpr :=
  match e with
  | RVar _ x => RVar None x
  | RCall _ f args => RCall None f (map shown args)
  | RIte _ c a b => RIte None (shown c) (shown a) (shown b)
  | RBin _ op a b => RUn None OParens (RBin None op (shown a) (shown b))
  | RUn _ OIverson a => RUn None OIverson (shown a)
  | RUn _ OParens a => RUn None OParens (shown a)
  | RUn _ op a => RUn None op (RUn None OParens (shown a))
  | RCast _ a => RCast None (shown a)
  | RQuant _ op xs a => RQuant None op xs (shown a)
  | RSubst _ x v a => RSubst None x (shown v) (shown a)
  | RLit _ l => RLit None l
  end.
Lemma shown_unbr e : unbr (shown e) = unbr e.
Proof.
  induction e using rexpr_all; cbn; try congruence.
  - f_equal. rewrite map_map. apply map_ext_in. intros a Ha. rewrite Forall_forall in H. auto.
  - destruct op; cbn; congruence.
Qed.
Lemma shown_bin e : is_bin (shown e) = false.
Proof. destruct e; try reflexivity. destruct op; reflexivity. Qed.
Lemma shown_quant e : is_quant (shown e) = is_quant e.
Proof. destruct e; try reflexivity. destruct op; reflexivity. Qed.

Lemma pqvars xs : nonempty xs = true -> forallb Printed.fresh xs = true -> qvars (commas KComma (map pqvar xs)) xs.
Proof.
  induction xs as [|v xs IH]; cbn; [discriminate|]. intros _ H. apply andb_true_iff in H as [H1 H2]. destruct v; [discriminate|].
  destruct xs as [|w xs]; cbn [map commas app]; [apply qv_one|]. apply (qv_more x). now apply IH.
Qed.
Lemma writes_commas l : Forall (fun e => writes (shown e) (pexpr e)) l -> writes_args (map shown l) (commas KComma (map pexpr l)).
Proof.
  induction 1 as [|e l He Hl IH]; cbn; [constructor|]. destruct l as [|e' l]; cbn [map] in *; [now constructor|]. now apply wra_more.
Qed.
Theorem shown_writes e : printable e = true -> writes (shown e) (pexpr e).
Proof.
  induction e using rexpr_all; cbn [printable shown pexpr]; intros Hp; rewrite ?andb_true_iff in Hp.
  - constructor.
  - apply wr_call. apply writes_commas. rewrite forallb_forall in Hp. rewrite Forall_forall in *. auto.
  - destruct Hp as [[? ?] ?]. cbn [commas]. unfold par. rewrite <- !app_assoc. cbn [app]. rewrite <- !app_assoc. cbn [app]. apply wr_ite; auto.
  - destruct Hp as [[[Q1 Q2] ?] ?]. apply negb_true_iff in Q1, Q2. apply wr_parens, wr_bin; rewrite ?shown_quant; auto.
  - destruct op; try (apply wr_prefix; [tauto|split; reflexivity|apply wr_parens; auto]); [apply wr_iverson|apply wr_parens]; auto.
  - discriminate.
  - destruct Hp as [[Q1 Q2] Q3]. apply wr_quant; auto. apply pqvars; auto. destruct xs; auto.
  - discriminate.
  - destruct l; try discriminate; constructor.
Qed.
Lemma shown_bracketed e : bracketed (shown e) \/ printable e = false.
Proof.
  enough (H : printable e = true -> bracketed (shown e)) by (destruct (printable e); auto).
  assert (N : forall a op, bracketed a -> bracketed (RUn None op a)) by (intros a op Ha; constructor; [exact Logic.I|]; cbn; intros k [<-|[]]; auto).
  induction e using rexpr_all; cbn [printable shown]; intros Hp; rewrite ?andb_true_iff in Hp.
  - constructor; [exact Logic.I|intros a []].
  - constructor; [exact Logic.I|]. cbn. intros a Ha. apply in_map_iff in Ha as (b & <- & Hb). rewrite Forall_forall in H. rewrite forallb_forall in Hp. auto.
  - constructor; [exact Logic.I|]. cbn. intros a [<-|[<-|[<-|[]]]]; tauto.
  - destruct Hp as [[[Q1 Q2] ?] ?]. apply negb_true_iff in Q1, Q2. apply N. constructor.
    + rewrite !shown_bin, !shown_quant. auto.
    + cbn. intros a [<-|[<-|[]]]; tauto.
  - destruct op; auto.
  - discriminate.
  - constructor; [exact Logic.I|]. cbn. intros a [<-|[]]. tauto.
  - discriminate.
  - constructor; [exact Logic.I|intros a []].
Qed.
Theorem printed_reads e : printable e = true -> gexpr new_levels (pexpr e) (shown e) /\ gexpr old_levels (pexpr e) (shown e).
Proof.
  intros H. apply brackets_help; [now apply shown_writes|]. destruct (shown_bracketed e); [auto|congruence].
Qed.
(** However a printed expression is read, it is the printed one up to brackets. *)
Theorem printed_expr e : printable e = true -> (exists e', gexpr new_levels (pexpr e) e') /\
  forall e', gexpr new_levels (pexpr e) e' \/ gexpr old_levels (pexpr e) e' -> unbr e' = unbr e.
Proof.
  intros H. destruct (printed_reads e H) as [N O]. split; [eauto|]. intros e' [X|X].
  - rewrite (new_unique _ _ _ X N). apply shown_unbr.
  - rewrite (old_unique _ _ _ X O). apply shown_unbr.
Qed.
(** Whatever the parser returns can be printed, unless it has decimal literals or [let]. *)
Lemma writes_printable : (forall e t, writes e t -> plain e = true -> printable e = true) /\
  (forall es t, writes_args es t -> forallb plain es = true -> forallb printable es = true).
Proof.
  apply writes_ind2; intros; cbn [plain printable forallb] in *; rewrite ?andb_true_iff in *; try tauto; try discriminate.
  - rewrite H, H0. cbn. tauto.
  - split; [|auto]. clear - H. induction H; cbn; auto. split; auto. destruct IHqvars. destruct xs; cbn in *; auto.
Qed.
Theorem parsed_printable G t e : (G = new_levels \/ G = old_levels) -> gexpr G t e -> plain e = true -> printable e = true.
Proof. intros [->| ->] H; [apply new_reads in H|apply old_reads in H]; eapply (proj1 writes_printable); apply H. Qed.
