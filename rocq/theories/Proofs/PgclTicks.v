(** Removing ticks. *)
From Coq Require Import Bool List String ZArith NArith Reals Lia Lra Classical.
From Verif.Model Require Import Syntax Builder ProofRules Pgcl.
From Verif.Spec Require Import Eur Sem Wp Frame Loops PgclSem PgclCost.
From Verif.Proofs Require Import EurLemmas SemLemmas WpLemmas FrameProofs LoopProofs PgclProofs.
Import ListNotations.
Local Open Scope list_scope.

Lemma map_same (f : pinstr -> pinstr) l : Forall (fun i => f i = i) l -> map f l = l.
Proof. induction 1 as [|i l Hi Hl IH]; cbn; congruence. Qed.
Lemma All_map {A B} (f : A -> B) (P : B -> Prop) l : Forall (fun a => P (f a)) l -> All P (map f l).
Proof. induction 1; cbn; auto. Qed.
Lemma All_Forall {A} (P Q : A -> Prop) l : Forall (fun a => P a -> Q a) l -> All P l -> Forall Q l.
Proof. induction 1 as [|a l Ha Hl IH]; intros O; constructor; destruct O; auto. Qed.

Lemma removed i : tick_free (remove_ticks i).
Proof. induction i using pinstr_all; cbn; auto using All_map. Qed.
Lemma unchanged i : tick_free i -> remove_ticks i = i.
Proof.
  induction i as [|c b IH|c a b IHa IHb|x e|p a b IHa IHb|e] using pinstr_all; cbn [remove_ticks tick_free]; intros H; auto.
  - now rewrite (map_same remove_ticks b (All_Forall _ _ _ IH H)).
  - destruct H as [Ha Hb]. now rewrite (map_same remove_ticks a (All_Forall _ _ _ IHa Ha)), (map_same remove_ticks b (All_Forall _ _ _ IHb Hb)).
  - destruct H as [Ha Hb]. now rewrite (map_same remove_ticks a (All_Forall _ _ _ IHa Ha)), (map_same remove_ticks b (All_Forall _ _ _ IHb Hb)).
  - destruct H.
Qed.

Section Free.
  Variables (I : interp) (isd : string -> bool) (pc : ident) (k : fixkind).
  Hypothesis HI : interp_ok I.

  (** The program without ticks means what the program means if ticks cost nothing. *)
  Lemma free_ticks i : forall X, pwp I k (remove_ticks i) X = pwp0 I k i X.
  Proof.
    assert (HB : forall l, Forall (fun i => forall X, pwp I k (remove_ticks i) X = pwp0 I k i X) l ->
      forall X, fold_right (pwp I k) X (map remove_ticks l) = fold_right (pwp0 I k) X l).
    { induction 1 as [|j l Hj Hl IH]; intros X; [reflexivity|]. cbn [map fold_right]. now rewrite Hj, IH. }
    induction i as [|c b IH|c a b IHa IHb|x e|p a b IHa IHb|e] using pinstr_all; intros X; cbn [remove_ticks pwp pwp0]; try reflexivity.
    - assert (E : (fun (Y : exp) s => if holds I c s then fold_right (pwp I k) Y (map remove_ticks b) s else X s) =
                  (fun (Y : exp) s => if holds I c s then fold_right (pwp0 I k) Y b s else X s)).
      { apply FunctionalExtensionality.functional_extensionality. intros Y. now rewrite (HB b IH). }
      now rewrite E.
    - now rewrite (HB a IHa), (HB b IHb).
    - now rewrite (HB a IHa), (HB b IHb).
  Qed.
End Free.
Lemma free_ticks_list I k l X : pwps I k (map remove_ticks l) X = pwps0 I k l X.
Proof. induction l as [|i l IH]; [reflexivity|]. cbn [map pwps pwps0 fold_right] in *. unfold pwps, pwps0 in *. now rewrite IH, free_ticks. Qed.
