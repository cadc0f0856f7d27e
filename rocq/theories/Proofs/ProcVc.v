(** The verification condition and the solver question of a procedure. *)
From Coq Require Import Bool List String.
From Verif.Model Require Import Syntax Builder VcGen TyCtx Procs Unfolder Pipeline.
From Verif.Spec Require Import Eur Sem Wp Linear Valid Reach Calls.
From Verif.Proofs Require Import EurLemmas SemLemmas WpLemmas VcGenProofs LoopVc SubstProofs QelimProofs PipelineProofs CallProofs.
Import ListNotations.
Local Open Scope list_scope.

Section Vc.
Variables (C : tcx) (I : interp) (isd isf A : string -> bool) (k : fixkind).
Hypothesis HC : tcx_ok C isd isf A.

Local Notation proc_wf := (proc_wf isd isf A).
Lemma all_map {B} (P : stmt -> Prop) (f : B -> stmt) l : (forall x, In x l -> P (f x)) -> All P (map f l).
Proof. intros H. rewrite All_Forall. apply Forall_forall. intros s Hs. apply in_map_iff in Hs. destruct Hs as (x & <- & Hx). auto. Qed.
Lemma all_app (P : stmt -> Prop) a b : All P a -> All P b -> All P (a ++ b).
Proof. rewrite !All_Forall. intros. apply Forall_app. auto. Qed.
Lemma vguard_map {B} (f : B -> stmt) l : (forall x, vguard (f x)) -> (forall x d, f x <> SValidate d) -> vguard_block (map f l).
Proof.
  intros H N. induction l as [|x l IH]; cbn [map vguard_block]; auto. split; auto. specialize (H x). specialize (N x).
  destruct (f x); auto. now destruct (N d).
Qed.
Lemma encoded_wf p body d b : proc_wf p body -> encode_proc_verify p = Some (d, b) ->
  d = pdir p /\ wts isd isf (SSeq b) /\ every not_while (SSeq b) /\ vguard (SSeq b) /\ every (anns_in A) (SSeq b).
Proof.
  intros (B & W & NW & V & An & A1 & A2 & P1 & P2) E. unfold encode_proc_verify in E. rewrite B in E. injection E as <- <-.
  split; auto. cbn [wts every vguard not_while anns_in]. rewrite vguard_block_eq.
  split; [|split; [split; auto|split; [|split; auto]]].
  - apply all_app; [|apply all_app; auto]; apply all_map; intros e He; cbn; auto.
  - apply all_app; [|apply all_app; auto]; apply all_map; intros e He; cbn; auto.
  - apply vguard_app; [|apply vguard_app; auto]; apply vguard_map; cbn; auto; discriminate.
  - apply all_app; [|apply all_app; auto]; apply all_map; intros e He; cbn; auto.
Qed.

Lemma terminal_exp d : is_exp (terminal d). Proof. destruct d; split; reflexivity. Qed.
Lemma terminal_top d s : ev I (terminal d) s = dtop d.
Proof. destruct d; [reflexivity|]. unfold ev, terminal. cbn. unfold eleb. reflexivity. Qed.

Theorem proc_vc_correct p body d b : interp_ok I -> proc_wf p body -> encode_proc_verify p = Some (d, b) ->
  exists e, vcgen_block C b (terminal d) = Ok e /\ is_exp e /\
    ((forall s, env_ok s -> ev I e s = match d with Down => etop | Up => ebot end) <-> meets I p (wp_block I isd k body)).
Proof.
  intros HI W E. destruct (encoded_wf p body d b W E) as (Hd & H1 & H2 & H3 & H4).
  destruct (vcgen_correct C I isd isf A k HC HI (SSeq b) H1 H2 H3 H4 (terminal d) (terminal_exp d)) as (e & E1 & E2 & E3).
  cbn [vcgen] in E1. rewrite vcgen_block_eq in E1. exists e. split; auto. split; auto.
  destruct (proc_verified_iff I isd k p d b body E (proj1 W)) as [_ Q]. rewrite <- Q. change (match d with Down => etop | Up => ebot end) with (dtop d).
  assert (K : forall s, env_ok s -> ev I e s = wp_block I isd k b (fun _ => dtop d) s).
  { intros s Hs. apply (E3 (fun _ => dtop d)); auto. intros. apply terminal_top. }
  split; intros H s Hs; [rewrite <- K | rewrite K]; auto.
Qed.
End Vc.

Theorem proc_question_correct o orc qs C isd isf A T k p body d b :
  tcx_ok C isd isf A -> proc_wf isd isf A p body -> encode_proc_verify p = Some (d, b) ->
  every (fun st => forall x, In x (node_ids st) -> is_var T x) (SSeq b) -> every guarded_node (SSeq b) ->
  (strict o = false -> sound_oracle orc) -> opt_rel o = false ->
  exists q, question o orc qs C d T b = Ok q /\ wt q = true /\ ty_of q = TBool /\
    forall I, interp_ok I -> ((forall s, env_ok s -> eval I q s = VBool true) <-> meets I p (wp_block I isd k body)).
Proof.
  intros HC W E Hid Hg Ho Hr. destruct (encoded_wf isd isf A p body d b W E) as (Hd & H1 & H2 & H3 & H4).
  destruct (question_correct o orc qs C isd isf A d T k b HC H1 H2 H3 H4 Hid Hg Ho Hr) as (q & Q1 & Q2 & Q3 & Q4).
  exists q. split; auto. split; auto. split; auto. intros I HI. rewrite (Q4 I HI).
  destruct (proc_verified_iff I isd k p d b body E (proj1 W)) as [_ Q]. exact Q.
Qed.
