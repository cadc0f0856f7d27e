(** Facts about expectations denoted by expressions, fixpoints, monotonicity. *)
From Coq Require Import Bool List String ZArith NArith QArith Reals Lia Lra.
From Verif.Model Require Import Syntax.
From Verif.Spec Require Import Eur Sem Wp.
From Verif.Proofs Require Import EurLemmas SemLemmas.
Import ListNotations.

(** A well-typed expectation expression. *)
Definition wte (e : expr) : Prop := wt e = true /\ ty_of e = TEUReal.
Definition wtb (e : expr) : Prop := wt e = true /\ ty_of e = TBool.

Lemma ev_spec I e s : interp_ok I -> wte e -> env_ok s -> eval I e s = VEur (ev I e s).
Proof. intros HI [W T] Hs. unfold ev. destruct (eval_eur I e s HI W T Hs) as [r ->]. reflexivity. Qed.
Lemma holds_spec I e s : interp_ok I -> wtb e -> env_ok s -> eval I e s = VBool (holds I e s).
Proof. intros HI [W T] Hs. unfold holds. destruct (eval_bool I e s HI W T Hs) as [r ->]. reflexivity. Qed.

Lemma ty_eqb_refl t : ty_eqb t t = true.
Proof. now apply ty_eqb_eq. Qed.

Lemma wte_bin op a b : bin_ok TEUReal op TEUReal TEUReal = true -> wte a -> wte b -> wte (EBin TEUReal op a b).
Proof. intros Ho [Wa Ta] [Wb Tb]. split; [|reflexivity]. cbn [wt]. rewrite Wa, Wb, Ta, Tb. exact Ho. Qed.
Lemma wte_un op a : un_ok TEUReal op TEUReal = true -> wte a -> wte (EUn TEUReal op a).
Proof. intros Ho [Wa Ta]. split; [|reflexivity]. cbn [wt]. rewrite Wa, Ta. exact Ho. Qed.
Lemma wte_ite c a b : wtb c -> wte a -> wte b -> wte (EIte TEUReal c a b).
Proof.
  intros [Wc Tc] [Wa Ta] [Wb Tb]. split; [|reflexivity]. cbn [wt]. rewrite Wc, Wa, Wb, Ta, Tb, Tc. reflexivity.
Qed.
Lemma wte_subst x b e : wt b = true -> ty_of b = ity x -> wte e -> wte (ESubst x b e).
Proof. intros Wb Tb [W T]. split; [|exact T]. cbn [wt]. rewrite Wb, W, Tb, ty_eqb_refl. reflexivity. Qed.
Lemma wte_quant op xs e : quant_ok op TEUReal = true -> wte e -> wte (EQuant op xs e).
Proof. intros Ho [W T]. split; [|exact T]. cbn [wt]. rewrite W, T. exact Ho. Qed.

Section Ev.
  Variables (I : interp) (HI : interp_ok I) (s : env) (Hs : env_ok s).

  Lemma ev_bin op a b : wte a -> wte b ->
    ev I (EBin TEUReal op a b) s =
    match eval_bin I TEUReal op (VEur (ev I a s)) (VEur (ev I b s)) with VEur r => r | _ => ebot end.
  Proof.
    intros Ha Hb. unfold ev at 1. cbn [eval].
    rewrite (ev_spec I a s HI Ha Hs), (ev_spec I b s HI Hb Hs). reflexivity.
  Qed.
  Lemma ev_add a b : wte a -> wte b -> ev I (EBin TEUReal OAdd a b) s = eadd (ev I a s) (ev I b s).
  Proof. intros; now rewrite ev_bin. Qed.
  Lemma ev_mul a b : wte a -> wte b -> ev I (EBin TEUReal OMul a b) s = emul (ev I a s) (ev I b s).
  Proof. intros; now rewrite ev_bin. Qed.
  Lemma ev_inf a b : wte a -> wte b -> ev I (EBin TEUReal OInf a b) s = emin (ev I a s) (ev I b s).
  Proof. intros; now rewrite ev_bin. Qed.
  Lemma ev_sup a b : wte a -> wte b -> ev I (EBin TEUReal OSup a b) s = emax (ev I a s) (ev I b s).
  Proof. intros; now rewrite ev_bin. Qed.
  Lemma ev_un op a : wte a ->
    ev I (EUn TEUReal op a) s = match eval_un TEUReal op (VEur (ev I a s)) with VEur r => r | _ => ebot end.
  Proof. intros Ha. unfold ev at 1. cbn [eval]. rewrite (ev_spec I a s HI Ha Hs). reflexivity. Qed.
  Lemma ev_ite c a b : wtb c -> wte a -> wte b ->
    ev I (EIte TEUReal c a b) s = if holds I c s then ev I a s else ev I b s.
  Proof.
    intros Hc Ha Hb. unfold ev at 1. cbn [eval]. rewrite (holds_spec I c s HI Hc Hs).
    destruct (holds I c s); rewrite ev_spec; auto.
  Qed.
  Lemma ev_subst x b e : ev I (ESubst x b e) s = ev I e (upd s x (eval I b s)).
  Proof. reflexivity. Qed.
  Lemma ev_quant_inf xs e : wte e ->
    ev I (EQuant QInf xs e) s = einf (fun r => exists s', havocked (map qname xs) s s' /\ r = ev I e s').
  Proof.
    intros He. unfold ev at 1. cbn [eval]. rewrite (proj2 He). apply einf_ext. intros r; split; intros (s' & H & E);
      exists s'; split; auto; pose proof (havocked_ok _ _ _ Hs H);
      rewrite ev_spec in * by auto; congruence.
  Qed.
  Lemma ev_quant_sup xs e : wte e ->
    ev I (EQuant QSup xs e) s = esup (fun r => exists s', havocked (map qname xs) s s' /\ r = ev I e s').
  Proof.
    intros He. unfold ev at 1. cbn [eval]. rewrite (proj2 He). apply esup_ext. intros r; split; intros (s' & H & E);
      exists s'; split; auto; pose proof (havocked_ok _ _ _ Hs H);
      rewrite ev_spec in * by auto; congruence.
  Qed.
End Ev.

Lemma exp_le_refl X : exp_le X X.
Proof. intros s _. apply ele_refl. Qed.
Lemma exp_le_trans X Y Z : exp_le X Y -> exp_le Y Z -> exp_le X Z.
Proof. intros H1 H2 s Hs. exact (ele_trans _ (Y s) _ (H1 s Hs) (H2 s Hs)). Qed.

(** Knaster-Tarski. *)
Definition mono (F : exp -> exp) : Prop := forall X Y, exp_le X Y -> exp_le (F X) (F Y).

Lemma lfp_least F Y : exp_le (F Y) Y -> exp_le (lfp F) Y.
Proof. intros H s Hs. apply einf_lb. eauto. Qed.
Lemma lfp_prefix F : mono F -> exp_le (F (lfp F)) (lfp F).
Proof.
  intros HF s Hs. apply einf_glb. intros r (Y & HY & ->).
  apply ele_trans with (F Y s); [|apply HY; auto]. apply HF; auto. now apply lfp_least.
Qed.
Lemma lfp_postfix F : mono F -> exp_le (lfp F) (F (lfp F)).
Proof. intros HF. apply lfp_least. apply HF. now apply lfp_prefix. Qed.
Lemma gfp_greatest F Y : exp_le Y (F Y) -> exp_le Y (gfp F).
Proof. intros H s Hs. apply esup_ub. eauto. Qed.
Lemma gfp_postfix F : mono F -> exp_le (gfp F) (F (gfp F)).
Proof.
  intros HF s Hs. apply esup_lub. intros r (Y & HY & ->).
  apply ele_trans with (F Y s); [apply HY; auto|]. apply HF; auto. now apply gfp_greatest.
Qed.
Lemma gfp_prefix F : mono F -> exp_le (F (gfp F)) (gfp F).
Proof. intros HF. apply gfp_greatest. apply HF. now apply gfp_postfix. Qed.
Lemma lfp_le_gfp F : mono F -> exp_le (lfp F) (gfp F).
Proof. intros HF. apply lfp_least. now apply gfp_prefix. Qed.
Lemma lfp_mono F G : (forall X, exp_le (F X) (G X)) -> exp_le (lfp F) (lfp G).
Proof.
  intros H s Hs. apply einf_glb. intros r (Y & HY & ->). apply lfp_least; auto.
  exact (exp_le_trans _ _ _ (H Y) HY).
Qed.
Lemma gfp_mono F G : (forall X, exp_le (F X) (G X)) -> exp_le (gfp F) (gfp G).
Proof.
  intros H s Hs. apply esup_lub. intros r (Y & HY & ->). apply gfp_greatest; auto.
  exact (exp_le_trans _ _ _ HY (H Y)).
Qed.
