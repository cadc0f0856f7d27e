(** Soundness of the translation from pGCL. *)
From Coq Require Import Bool List String ZArith NArith Reals Lia Lra Classical.
From Verif.Model Require Import Syntax Builder ProofRules Pgcl.
From Verif.Spec Require Import Eur Sem Wp Frame Loops PgclSem.
From Verif.Proofs Require Import EurLemmas SemLemmas WpLemmas DistProofs MonoProofs SubstProofs FrameProofs LoopProofs OmegaProofs.
Import ListNotations.
Local Open Scope list_scope.

Section Ind.
  Variable P : pinstr -> Prop.
  Hypothesis Hskip : P PSkip.
  Hypothesis Hwhile : forall c b, Forall P b -> P (PWhile c b).
  Hypothesis Hif : forall c a b, Forall P a -> Forall P b -> P (PIf c a b).
  Hypothesis Hasgn : forall x e, P (PAsgn x e).
  Hypothesis Hchoice : forall p a b, Forall P a -> Forall P b -> P (PChoice p a b).
  Hypothesis Htick : forall e, P (PTick e).
  Fixpoint pinstr_all (i : pinstr) : P i :=
    let block := fix block (l : list pinstr) : Forall P l :=
      match l with [] => Forall_nil P | i :: l' => Forall_cons i (pinstr_all i) (block l') end in
    match i with
    | PSkip => Hskip
    | PWhile c b => Hwhile c b (block b)
    | PIf c a b => Hif c a b (block a) (block b)
    | PAsgn x e => Hasgn x e
    | PChoice p a b => Hchoice p a b (block a) (block b)
    | PTick e => Htick e
    end.
End Ind.

Lemma All_In {A} (P : A -> Prop) l : All P l <-> forall x, In x l -> P x.
Proof.
  induction l as [|a l IH]; cbn; [tauto|]. rewrite IH. split.
  - intros [Ha Hl] x [<-|Hx]; auto.
  - intros H. split; auto.
Qed.

Section Sem.
  Variables (I : interp) (isd : string -> bool) (pc : ident).
  Hypothesis HI : interp_ok I.

  (** * The pGCL semantics *)
  Definition body_map k c b (X Y : exp) : exp := fun s => if holds I c s then pwps I k b Y s else X s.

  Lemma pwps_local M k l : Forall (fun i => local_mono M (pwp I k i)) l -> local_mono M (pwps I k l).
  Proof.
    induction 1 as [|i l Hi Hl IH]; intros s0 X Y Hs0 H; [exact H|]. cbn [pwps fold_right].
    apply (Hi s0); auto. apply (IH s0); auto.
  Qed.
  Lemma local_all F : local_mono (fun _ => True) F -> mono F.
  Proof.
    intros H X Y L s Hs. apply (H s X Y Hs); [|split; auto; tauto].
    intros t [Ht _]. now apply L.
  Qed.

  Lemma pwp_local k i : forall M : ident -> Prop, pok isd pc i -> (forall x, In x (modified i) -> M x) -> local_mono M (pwp I k i).
  Proof.
    assert (HB : forall l, Forall (fun i => forall M : ident -> Prop, pok isd pc i -> (forall x, In x (modified i) -> M x) -> local_mono M (pwp I k i)) l ->
      forall M : ident -> Prop, All (pok isd pc) l -> (forall x, In x (flat_map modified l) -> M x) -> local_mono M (pwps I k l)).
    { intros l F M O Hm. apply pwps_local. rewrite Forall_forall in *. intros j Hin. apply F; auto.
      - now apply (proj1 (All_In _ _) O).
      - intros x Hx. apply Hm. apply in_flat_map. eauto. }
    induction i as [|c b IH|c a b IHa IHb|x e|p a b IHa IHb|e] using pinstr_all; intros M O Hm s0 X Y Hs0 H s Hs; cbn [pwp].
    - now apply H.
    - destruct O as (_ & G & O).
      assert (L : forall N : ident -> Prop, (forall x, In x (flat_map modified b) -> N x) -> local_mono N (pwps I k b)) by (intros; now apply HB).
      assert (Mo : forall X, mono (body_map k c b X)).
      { intros Z U V HUV t Ht. unfold body_map. destruct (holds I c t); [|apply ele_refl].
        apply (local_all _ (L (fun _ => True) (fun _ _ => Logic.I))); auto. }
      assert (LM : forall U V, (forall t, only_changes M s0 t -> ele (U t) (V t)) ->
                forall t, only_changes M s0 t -> ele (body_map k c b X U t) (body_map k c b Y V t)).
      { intros U V HUV t Ht. unfold body_map. destruct (holds I c t); [|now apply H].
        apply (L M Hm s0); auto. }
      destruct k; [apply (lfp_local M (body_map Least c b X) (body_map Least c b Y) s0) | apply (gfp_local M (body_map Greatest c b X) (body_map Greatest c b Y) s0)]; auto.
    - destruct O as (_ & _ & Oa & Ob). destruct (holds I c s).
      + apply (HB a IHa M Oa) with (s0 := s0); auto. intros y Hy. apply Hm. cbn. apply in_or_app. auto.
      + apply (HB b IHb M Ob) with (s0 := s0); auto. intros y Hy. apply Hm. cbn. apply in_or_app. auto.
    - destruct O as (_ & _ & W & Ty & _). apply H. apply only_upd; auto; [apply Hm; cbn; auto|].
      rewrite <- Ty. apply eval_ty; auto. apply Hs.
    - destruct O as (_ & _ & _ & Oa & Ob). destruct (eval I p s); try apply ele_refl.
      apply eadd_mono; (apply emul_mono; [apply ele_refl|]).
      + apply (HB a IHa M Oa) with (s0 := s0); auto. intros y Hy. apply Hm. cbn. apply in_or_app. auto.
      + apply (HB b IHb M Ob) with (s0 := s0); auto. intros y Hy. apply Hm. cbn. apply in_or_app. auto.
    - apply eadd_mono; [now apply H | apply ele_refl].
  Qed.

  Lemma pwps_local' k l (M : ident -> Prop) : All (pok isd pc) l -> (forall x, In x (flat_map modified l) -> M x) -> local_mono M (pwps I k l).
  Proof.
    intros O Hm. apply pwps_local. rewrite Forall_forall. intros i Hin. apply pwp_local.
    - now apply (proj1 (All_In _ _) O).
    - intros y Hy. apply Hm. apply in_flat_map. eauto.
  Qed.
  Lemma pwp_mono k i : pok isd pc i -> mono (pwp I k i).
  Proof. intros O. apply local_all, pwp_local; auto. Qed.
  Lemma pwps_mono k l : All (pok isd pc) l -> mono (pwps I k l).
  Proof. intros O. apply local_all, pwps_local'; auto. Qed.
  Lemma body_mono k c b X : All (pok isd pc) b -> mono (body_map k c b X).
  Proof.
    intros O U V HUV t Ht. unfold body_map. destruct (holds I c t); [|apply ele_refl]. now apply (pwps_mono k b O).
  Qed.
  Lemma body_local k c b X : All (pok isd pc) b -> local_mono (fun x => In x (flat_map modified b)) (body_map k c b X).
  Proof.
    intros O s0 U V Hs0 HUV t Ht. unfold body_map. destruct (holds I c t); [|apply ele_refl].
    apply (pwps_local' k b _ O (fun _ h => h) s0); auto.
  Qed.

  Let free := free_of pc.
  Lemma upd_pc X s v : free X -> env_ok s -> has_ty v (ity pc) -> X (upd s pc v) = X s.
  Proof. intros HX Hs Hv. apply HX; auto; [now apply upd_ok|]. intros x Hx. apply upd_other. congruence. Qed.
  Lemma agree_upd s s' x v : (forall y, y <> pc -> s y = s' y) -> forall y, y <> pc -> upd s x v y = upd s' x v y.
  Proof.
    intros H y Hy. destruct (ident_dec y x) as [->|N].
    - now rewrite !upd_same.
    - rewrite !upd_other; auto.
  Qed.

  Lemma free_if c A B : clean pc c -> free A -> free B -> free (fun s => if holds I c s then A s else B s).
  Proof.
    intros Hc HA HB s s' Hs Hs' E. rewrite (unread_holds (fun x => x = pc) I c s s' Hc E).
    destruct (holds I c s'); [apply HA | apply HB]; auto.
  Qed.

  Lemma pwp_free k i : pok isd pc i -> forall X, free X -> free (pwp I k i X).
  Proof.
    assert (HB : forall l, Forall (fun i => pok isd pc i -> forall X, free X -> free (pwp I k i X)) l ->
      All (pok isd pc) l -> forall X, free X -> free (pwps I k l X)).
    { intros l F. induction F as [|j l Hi Hl IH]; intros O X HX; [exact HX|]. destruct O as [Oi Ol]. cbn [pwps fold_right].
      apply Hi; auto. now apply IH. }
    induction i as [|c b IH|c a b IHa IHb|x e|p a b IHa IHb|e] using pinstr_all; intros O X HX; cbn [pwp].
    - exact HX.
    - destruct O as (Hc & _ & O).
      assert (Bl : forall Y, free Y -> free (body_map k c b X Y)).
      { intros Y HY. apply free_if; auto. }
      destruct k; [apply (lfp_blind _ (body_map Least c b X)) | apply (gfp_blind _ (body_map Greatest c b X))]; auto; now apply body_mono.
    - destruct O as (Hc & _ & Oa & Ob). apply free_if; auto; apply HB; auto.
    - destruct O as (Hx & Hc & W & Ty & _). intros s s' Hs Hs' E.
      rewrite (unread_eval (fun y => y = pc) I e s s' Hc E).
      apply HX; try (apply upd_ok; auto; rewrite <- Ty; now apply eval_ty). now apply agree_upd.
    - destruct O as (Hc & _ & _ & Oa & Ob). intros s s' Hs Hs' E. rewrite (unread_eval (fun y => y = pc) I p s s' Hc E).
      destruct (eval I p s'); auto.
      change (fold_right (pwp I k) X a) with (pwps I k a X). change (fold_right (pwp I k) X b) with (pwps I k b X).
      now rewrite (HB a IHa Oa X HX s s' Hs Hs' E), (HB b IHb Ob X HX s s' Hs Hs' E).
    - destruct O as (Hc & _). intros s s' Hs Hs' E. rewrite (HX s s' Hs Hs' E).
      now rewrite (unread_blind (fun y => y = pc) I e Hc s s' Hs Hs' E).
  Qed.
  Lemma pwps_free k l : All (pok isd pc) l -> forall X, free X -> free (pwps I k l X).
  Proof.
    induction l as [|i l IH]; intros O X HX; [exact HX|]. destruct O as [Oi Ol]. cbn [pwps fold_right].
    apply pwp_free; auto. now apply IH.
  Qed.

  (** * Statements of the translation *)
  Hypothesis Hflip : isd "flip"%string = true.
  Hypothesis Hpc : ity pc = TBool.

  Lemma wp_asgn kd x e X s : match e with ECall _ f _ => isd f = false | _ => True end ->
    wp I isd kd (SAssign [x] e) X s = X (upd s x (eval I e s)).
  Proof. intros H. cbn [wp]. unfold assign_sem. destruct e; auto. now rewrite H. Qed.

  Lemma eval_ureal p s : env_ok s -> wt p = true -> ty_of p = TUReal -> exists q, eval I p s = VUReal q.
  Proof.
    intros Hs W Ty. assert (V : has_ty (eval I p s) (ty_of p)) by (apply eval_ty; auto). rewrite Ty in V.
    destruct (eval I p s); cbn in V; try discriminate V; try contradiction; eauto.
  Qed.

  Lemma wp_choice kd p a b X s : env_ok s -> wt p = true -> ty_of p = TUReal ->
    free (wp_block I isd kd a X) -> free (wp_block I isd kd b X) ->
    wp_block I isd kd [SAssign [pc] (ECall TBool "flip" [p]); SIf (EVar pc) a b] X s =
    match eval I p s with
    | VUReal q => eadd (emul (Fin q) (wp_block I isd kd a X s)) (emul (fin (1 - nval q)) (wp_block I isd kd b X s))
    | _ => ebot
    end.
  Proof.
    intros Hs W Ty Fa Fb. unfold wp_block at 1. cbn [fold_right wp]. unfold assign_sem. rewrite Hflip. cbn [map].
    destruct (eval_ureal p s Hs W Ty) as [q E]. rewrite E.
    unfold dist_sem. cbn [expected String.eqb Ascii.eqb Bool.eqb].
    unfold holds. cbn [eval]. rewrite !upd_same.
    change (fold_right (wp I isd kd) X a) with (wp_block I isd kd a X).
    change (fold_right (wp I isd kd) X b) with (wp_block I isd kd b X).
    rewrite !upd_pc; auto; try (rewrite Hpc; reflexivity).
    now rewrite eadd_0_r.
  Qed.
End Sem.
