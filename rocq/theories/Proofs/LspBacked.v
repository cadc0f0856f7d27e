(** The language server: claims about procedures are backed by verifications, and what the client shows after one. *)
From Coq Require Import Bool List String ZArith NArith Arith Lia.
From Verif.Model Require Import Syntax Driver LspServer.
From Verif.Spec Require Import LspSpec.
From Verif.Proofs Require Import LspBasic LspSession LspSafe LspStatus LspRange LspView.
Import ListNotations.

Section backed.
Variable W : verifier.
Hypothesis Here : forall n c f d t, run_here f (W n c f d t).

(** Why a claim about a unit of a file is made *)
Definition backing (fs : files) (seen : list (docid * text)) (id : nat) (n : uname) (s : status) : Prop :=
  exists k c d t w fl d', In (d, t) seen /\ In w (run_units (W k c id d t)) /\ u_uname w = n /\ justified w s /\
    get_file id fs = Ok fl /\ f_path fl = PLsp d' /\ d_uri d' = d_uri d.
Definition rec_ok (V : lserver) : Prop := forall id st n s, In (id, st) (v_status V) -> In (n, s) (t_statuses st) -> claim s = true ->
  backing (v_files V) (v_seen V) id n s.
Definition msg_ok (V : lserver) : Prop := forall d ty l r s, In (MStatus d ty l) (v_sent V) -> In (r, s) l -> claim s = true ->
  exists k c f d0 t w, In (d0, t) (v_seen V) /\ d_uri d0 = d_uri d /\ In w (run_units (W k c f d0 t)) /\ justified w s.
Definition backed (V : lserver) : Prop := rec_ok V /\ msg_ok V.

Lemma combine_claim a b : claim (combine_status a b) = true -> a = combine_status a b /\ b = combine_status a b.
Proof. destruct a, b; cbn; intros H; auto; discriminate. Qed.
Lemma insert_span_in p s l q r : In (q, r) (insert_span p s l) -> claim r = true -> In (q, r) l \/ (q = p /\ r = s).
Proof.
  induction l as [|[x y] l IH]; cbn; intros I C.
  - destruct I as [I|[]]. inv I. auto.
  - destruct (span_eqb x p) eqn:E.
    + apply span_eqb_eq in E. subst x. destruct I as [I|I]; [|auto]. inv I. apply combine_claim in C as (A & B). right. auto.
    + destruct I as [I|I]; [auto|]. destruct (IH I C); auto.
Qed.
Lemma by_span_in l q r : In (q, r) (by_span l) -> claim r = true -> exists n, In (n, r) l /\ n_span n = q.
Proof.
  unfold by_span. intros I C. enough (K : forall acc, In (q, r) (fold_left (fun acc p => insert_span (n_span (fst p)) (snd p) acc) l acc) ->
    In (q, r) acc \/ exists n, In (n, r) l /\ n_span n = q) by (destruct (K _ I) as [[]|?]; auto).
  clear I. induction l as [|[n s] l IH]; cbn; intros acc I; auto. destruct (IH _ I) as [J|(m & J & E)]; [|eauto].
  apply insert_span_in in J as [J|(-> & ->)]; eauto.
Qed.
Lemma ranged_in {A} fs (sp : A -> span) l o a r : rmap (ranged fs sp) l = Ok o -> In (r, a) (somes o) -> In a l.
Proof.
  intros H I. apply somes_in in I. destruct (rmap_in _ _ _ H _ I) as (b & J & E). unfold ranged in E. okbind E. destruct a0; cbn in E; inv E; auto.
Qed.
Lemma publish_statuses_backed V V' : publish_statuses V = Ok V' -> backed V -> backed V'.
Proof.
  intros H (R & M). destruct (publish_files _ _ _ H) as (FE & SE). apply publish_status in H as Q. destruct Q as (_ & _ & NE). split.
  - unfold rec_ok. rewrite SE, FE, NE. exact R.
  - unfold publish_statuses, publish in H. okbind H. inv H. intros d ty l r s I J C. cbn in I. apply in_app_or in I as [I|I]; [exact (M _ _ _ _ _ I J C)|].
    apply somes_in in I. destruct (rmap_in _ _ _ E _ I) as ([id st] & K & F). cbn in F. okbind F. destruct (f_path a0) as [e|] eqn:P; [okbind F|]; inv F.
    unfold status_message in E1. okbind E1. inv E1. apply in_map_iff in J as ([r' [q s']] & X & J). cbn in X. inv X.
    apply (ranged_in _ _ _ _ _ _ E2) in J. apply by_span_in in J as (n & J & _); auto.
    destruct (R _ _ _ _ K J C) as (k & c & d0 & t & w & fl & d' & A1 & A2 & A3 & A4 & A5 & A6 & A7). cbn in E0. rewrite E0 in A5. inv A5. rewrite P in A6. inv A6.
    exists k, c, id, d0, t, w. auto.
Qed.
Lemma publish_other_backed mk V V' : (forall d s fs m, mk d s fs = Ok m -> forall e ty l, m <> MStatus e ty l) -> publish mk V = Ok V' -> backed V -> backed V'.
Proof.
  intros O H (R & M). destruct (publish_files _ _ _ H) as (FE & SE). apply publish_status in H as Q. destruct Q as (_ & _ & NE). split.
  - unfold rec_ok. rewrite SE, FE, NE. exact R.
  - unfold publish in H. okbind H. inv H. intros d ty l r s I J C. cbn in I. apply in_app_or in I as [I|I]; [exact (M _ _ _ _ _ I J C)|].
    apply somes_in in I. destruct (rmap_in _ _ _ E _ I) as ([id st] & K & F). cbn in F. okbind F. destruct (f_path a0) as [e|] eqn:P; [okbind F|]; inv F.
    exfalso. eapply O; eauto.
Qed.
Lemma publish_diagnostics_backed V V' : publish_diagnostics V = Ok V' -> backed V -> backed V'.
Proof. apply publish_other_backed. intros d s fs m H. unfold diag_message in H. okbind H. inv H. discriminate. Qed.
Lemma publish_explanations_backed V V' : publish_explanations V = Ok V' -> backed V -> backed V'.
Proof. apply publish_other_backed. intros d s fs m H. unfold expl_message in H. okbind H. inv H. discriminate. Qed.

(** Where recorded statuses come from *)
Definition from (E : nat -> uname -> status -> Prop) (l l' : list (nat * fstatus)) : Prop :=
  forall id st n s, In (id, st) l' -> In (n, s) (t_statuses st) -> (exists st0, In (id, st0) l /\ In (n, s) (t_statuses st0)) \/ E id n s.
Lemma change_backed E l V : from E (v_status V) l -> (forall id n s, E id n s -> claim s = true -> backing (v_files V) (v_seen V) id n s) -> backed V -> backed (with_status l V).
Proof.
  intros F B (R & M). split; [|exact M]. intros id st n s I J C. destruct (F _ _ _ _ I J) as [(st0 & I0 & J0)|K]; [exact (R _ _ _ _ I0 J0 C)|]. exact (B _ _ _ K C).
Qed.
Lemma in_modify id g l i st : In (i, st) (modify id g l) -> In (i, st) l \/ (i = id /\ exists s, In (id, s) l /\ st = g s).
Proof.
  induction l as [|[j s] l IH]; cbn; intros I; [contradiction|]. destruct (Nat.eqb_spec j id) as [->|].
  - destruct I as [I|I]; auto. inv I. right. split; auto. exists s. auto.
  - destruct I as [I|I]; auto. destruct (IH I) as [J|(-> & s' & J & ->)]; auto. right. split; auto. exists s'. auto.
Qed.
Lemma lookup_some_in id l s : lookup id l = Some s -> In (id, s) l.
Proof. unfold lookup. destruct (find _ l) as [[i r]|] eqn:F; [|discriminate]. cbn. intros H. inv H. apply find_some in F as (F & E). cbn in E. apply Nat.eqb_eq in E. now subst. Qed.
Lemma from_modify E id g l : (forall s, incl (t_statuses (g s)) (t_statuses s)) -> from E l (modify id g l).
Proof. intros H i st n s I J. left. apply in_modify in I as [I|(-> & s' & I & ->)]; eauto. exists s'. split; auto. now apply H. Qed.
Lemma from_entry E id g l : (forall s, incl (t_statuses (g s)) (t_statuses s)) -> from E l (entry_or_default id g l).
Proof.
  intros H. unfold entry_or_default. destruct (lookup id l). now apply from_modify. intros i st n s I J. apply in_app_or in I as [I|[I|[]]]; [eauto|]. inv I.
  apply H in J. contradiction.
Qed.
Lemma from_trans E a b c : from E a b -> from E b c -> from E a c.
Proof. intros A B i st n s I J. destruct (B _ _ _ _ I J) as [(st0 & I0 & J0)|K]; [|now right]. exact (A _ _ _ _ I0 J0). Qed.
Lemma insert_status_in n s l l' m r : insert_status n s l = Some l' -> In (m, r) l' -> In (m, r) l \/ (m = n /\ r = s).
Proof.
  revert l'. induction l as [|[x y] l IH]; cbn; intros l' H I; [discriminate|]. destruct (name_eqb x n) eqn:E.
  - inv H. apply name_eqb_eq in E. destruct I as [I|I]; [inv I|]; auto.
  - destruct (insert_status n s l); [|discriminate]. cbn in H. inv H. destruct I as [I|I]; auto. destruct (IH _ eq_refl I); auto.
Qed.
Lemma from_on_statuses n st l l' : on_statuses n st l = Ok l' -> from (fun id m r => id = s_file (n_span n) /\ m = n /\ r = st) l l'.
Proof.
  unfold on_statuses. intros H. okbind H. inv H.
  assert (U : forall m r, In (m, r) a -> In (m, r) (t_statuses (found (s_file (n_span n)) l)) \/ (m = n /\ r = st)).
  { intros m r I. replace (match lookup (s_file (n_span n)) l with Some s => t_statuses s | None => [] end) with (t_statuses (found (s_file (n_span n)) l)) in E
      by (unfold found; destruct (lookup _ _); auto). unfold update_status in E. destruct (insert_status _ _ _) eqn:X.
    - inv E. eapply insert_status_in; eauto.
    - destruct st; inv E. apply in_app_or in I as [I|[I|[]]]; auto. inv I. auto. }
  intros i s m r I J. unfold entry_or_default in I. unfold found in U. destruct (lookup (s_file (n_span n)) l) as [s0|] eqn:L.
  - apply in_modify in I as [I|(-> & s' & I & ->)]; [eauto|]. cbn in J. destruct (U _ _ J) as [K|(-> & ->)]; auto. left. exists s0. split; auto. now apply lookup_some_in.
  - apply in_app_or in I as [I|[I|[]]]; [eauto|]. inv I. cbn in J. destruct (U _ _ J) as [K|(-> & ->)]; auto. contradiction.
Qed.
Definition nothing (id : nat) (n : uname) (s : status) : Prop := False.
Lemma quiet_change l V : from nothing (v_status V) l -> backed V -> backed (with_status l V).
Proof. intros F. eapply change_backed; [exact F|]. intros ? ? ? []. Qed.

Lemma add_diagnostic_backed g V V' : lsp_add_diagnostic g V = Ok V' -> backed V -> backed V'.
Proof. intros H B. eapply publish_diagnostics_backed; [exact H|]. apply quiet_change; auto. apply from_entry. intros s. apply incl_refl. Qed.
Lemma add_diagnostics_backed l : forall V V', add_diagnostics l V = Ok V' -> backed V -> backed V'.
Proof. induction l as [|g l IH]; cbn; intros V V' H B. now inv H. okbind H. eauto using add_diagnostic_backed. Qed.
Lemma add_explanation_backed l V V' : lsp_add_explanation l V = Ok V' -> backed V -> backed V'.
Proof.
  intros H B. eapply publish_explanations_backed; [exact H|]. apply quiet_change; auto. clear. generalize (v_status V). clear. induction l as [|x l IH]; intros st; cbn.
  - intros i s n r I J. eauto.
  - eapply from_trans; [|apply IH]. apply from_entry. intros s. apply incl_refl.
Qed.
Lemma core_backed l V V' : match l with [] => Ok V | e :: k => lsp_add_explanation (e :: k) V end = Ok V' -> backed V -> backed V'.
Proof. destruct l; intros H B. now inv H. eapply add_explanation_backed; eauto. Qed.
Lemma set_status_backed n st V l : on_statuses n st (v_status V) = Ok l -> (claim st = true -> backing (v_files V) (v_seen V) (s_file (n_span n)) n st) -> backed V -> backed (with_status l V).
Proof. intros H K. eapply change_backed; [eapply from_on_statuses; eauto|]. cbn. intros id m r (-> & -> & ->). auto. Qed.
Lemma register_backed n k V V' : lsp_register n k V = Ok V' -> backed V -> backed V'.
Proof.
  unfold lsp_register. intros H B. assert (K : backed (with_status (entry_or_default (s_file (n_span n)) (fun s => s) (v_status V)) V)).
  { apply quiet_change; auto. apply from_entry. intros s. apply incl_refl. }
  destruct k as [[]| |]; try (injection H as <-; exact K). okbind H. eapply publish_statuses_backed; eauto. eapply set_status_backed; eauto. discriminate.
Qed.
Lemma register_all_backed l : forall V V', register_all l V = Ok V' -> backed V -> backed V'.
Proof. induction l as [|u l IH]; cbn; intros V V' H B. now inv H. okbind H. eauto using register_backed. Qed.
Lemma set_type_backed id ty V V' : lsp_set_type id ty V = Ok V' -> backed V -> backed V'.
Proof. intros H B. eapply publish_statuses_backed; [exact H|]. apply quiet_change; auto. apply from_entry. intros s. apply incl_refl. Qed.
Lemma set_ongoing_backed n V V' : lsp_set_ongoing n V = Ok V' -> backed V -> backed V'.
Proof.
  unfold lsp_set_ongoing. intros H B. okbind H. okbind H. eapply publish_statuses_backed; eauto. eapply set_type_backed; eauto. eapply set_status_backed; eauto. discriminate.
Qed.
Lemma result_backed n l st V V' : lsp_result n l st V = Ok V' -> (claim st = true -> backing (v_files V) (v_seen V) (s_file (n_span n)) n st) -> backed V -> backed V'.
Proof.
  unfold lsp_result. intros H K B. okbind H. okbind H. pose proof (add_diagnostics_grows _ _ _ E) as (SE & _ & FE & _). apply add_diagnostics_backed in E; auto.
  eapply publish_statuses_backed; [exact H|]. rewrite <- FE, <- SE in K.
  eapply (change_backed (fun id m r => id = s_file (n_span n) /\ m = n /\ r = st)).
  - eapply from_trans; [eapply from_on_statuses; eauto|]. destruct (lookup _ a0); [destruct (forallb _ _)|]; try (intros i s0 m r I J; eauto; fail).
    apply from_modify. intros s. apply incl_refl.
  - cbn. intros id m r (-> & -> & ->). auto.
  - exact E.
Qed.
Lemma clear_backed id V V' : clear_reported id V = Ok V' -> backed V -> backed V'.
Proof.
  unfold clear_reported. intros H B. okbind H. eapply publish_statuses_backed; eauto. eapply publish_diagnostics_backed; [exact E|]. apply quiet_change; auto.
  apply from_modify. intros s x [].
Qed.
Lemma handle_timeout_backed V V' : handle_timeout V = Ok V' -> backed V -> backed V'.
Proof.
  unfold handle_timeout. intros H B. okbind H. eapply publish_statuses_backed; eauto. eapply add_diagnostics_backed; eauto.
  eapply (change_backed (fun id n s => s = STimeout)); auto; [|intros id n s -> C; discriminate].
  intros i st n s I J. apply in_map_iff in I as ([j st0] & X & I). inv X. cbn in J. apply in_map_iff in J as ([m r] & X & J). unfold timeout_status in X. cbn in X.
  destruct (is_completed r); inv X; eauto.
Qed.

(** Stages *)
Definition stage_backed (m : stage) : Prop := forall V' e, m = Ok (V', e) -> backed V'.
Lemma raise_backed e V : backed V -> stage_backed (raise e V).
Proof. intros B V' e' H. apply raise_ok in H as (-> & _). exact B. Qed.
Lemma done_backed e V : backed V -> stage_backed (Ok (V, e)).
Proof. intros B V' e' H. now inv H. Qed.
Lemma add_or_throw_backed l : forall V, backed V -> stage_backed (add_or_throw_all l V).
Proof.
  induction l as [|g l IH]; intros V B; cbn [add_or_throw_all]. now apply done_backed. intros V' e H. apply andthen_ok in H as [(V1 & E & F)|(x & E & _)]; unfold lsp_add_or_throw in E;
    destruct (_ || _); try (inv E; auto; fail); try (apply good_ok in E as (E & ?)); try discriminate. eapply IH; [|exact F]. eapply add_diagnostic_backed; eauto.
Qed.
(** The current verification *)
Definition current (V : lserver) (k : nat) (c : bool) (f : nat) (d : docid) (t : text) : Prop :=
  In (d, t) (v_seen V) /\ exists fl, get_file f (v_files V) = Ok fl /\ f_path fl = PLsp d.
Lemma current_grows V V' k c f d t : grows V V' -> current V k c f d t -> current V' k c f d t.
Proof. intros (A & _ & B & _) (C & D). unfold current. rewrite A, B. auto. Qed.
Lemma verify_unit_backed k c f d t n u V : current V k c f d t -> In u (run_units (W k c f d t)) -> unit_here f u -> backed V -> stage_backed (verify_unit (W k c f d t) n u V).
Proof.
  intros C I ((Hu & _) & _) B V' e H. set (R := W k c f d t) in *. unfold verify_unit in H.
  apply andthen_ok in H as [(V1 & E & H)|(x & E & _)]; apply raise_ok in E as (-> & E & _); [|exact B]. clear E.
  apply andthen_ok in H as [(V2 & E & H)|(x & E & _)]; apply good_ok in E as (E & X); [|discriminate].
  pose proof (current_grows _ _ _ _ _ _ _ (set_ongoing_grows _ _ _ E) C) as C2. apply set_ongoing_backed in E as B2; auto.
  apply andthen_ok in H as [(V3 & E3 & H)|(x & E3 & _)]; [|eapply add_or_throw_backed; eauto].
  pose proof (current_grows _ _ _ _ _ _ _ (add_or_throw_grows _ _ _ _ E3) C2) as C3. apply add_or_throw_backed in E3 as B3; auto.
  apply andthen_ok in H as [(V4 & E4 & H)|(x & E4 & _)]; apply good_ok in E4 as (E4 & X4); [|discriminate].
  pose proof (current_grows _ _ _ _ _ _ _ (core_grows _ _ _ E4) C3) as C4. apply (core_backed (u_core u)) in E4 as B4; auto.
  apply andthen_ok in H as [(V5 & E5 & H)|(x & E5 & _)]; apply raise_ok in E5 as (-> & E5 & _); [|exact B4].
  destruct (u_solved u) as [r|er] eqn:S.
  2:{ apply raise_ok in H as (-> & _). exact B4. }
  apply andthen_ok in H as [(V6 & E6 & H)|(x & E6 & _)]; apply good_ok in E6 as (E6 & X6); [|discriminate].
  assert (B6 : backed V6).
  { eapply result_backed; [exact E6 | | exact B4]. intros CL. destruct C4 as (SE & fl & G & P). rewrite Hu. exists k, c, d, t, u, fl, d. repeat apply conj; auto.
    destruct r as [| |?]; unfold justified; destruct (u_sound u) as [[] []]; cbn in *; try discriminate; auto. }
  destruct r as [| |[]]; inv H; exact B6.
Qed.
Lemma verify_all_backed k c f d t l : forall n V, current V k c f d t -> (forall u, In u l -> In u (run_units (W k c f d t)) /\ unit_here f u) -> backed V ->
  stage_backed (verify_all (W k c f d t) n l V).
Proof.
  induction l as [|u l IH]; intros n V C I B; cbn [verify_all]. now apply done_backed. destruct (I u (or_introl eq_refl)) as (Iu & Hu).
  intros V' e H. apply andthen_ok in H as [(V1 & E & H)|(x & E & _)].
  - eapply IH; [| | |exact H]. eapply current_grows; [eapply verify_unit_grows; eauto | auto]. intros; apply I; cbn; auto. eapply verify_unit_backed; eauto.
  - eapply verify_unit_backed; eauto.
Qed.
Lemma backing_mono fs fs' seen seen' id n s : incl seen seen' ->
  (forall id fl d, get_file id fs = Ok fl -> f_path fl = PLsp d -> exists fl' d', get_file id fs' = Ok fl' /\ f_path fl' = PLsp d' /\ d_uri d' = d_uri d) ->
  backing fs seen id n s -> backing fs' seen' id n s.
Proof.
  intros I G (k & c & d & t & w & fl & d' & A1 & A2 & A3 & A4 & A5 & A6 & A7). destruct (G _ _ _ A5 A6) as (fl' & d2 & X & Y & Z).
  exists k, c, d, t, w, fl', d2. repeat split; auto. congruence.
Qed.
Lemma backed_files V fs : (forall id fl d, get_file id (v_files V) = Ok fl -> f_path fl = PLsp d -> exists fl' d', get_file id fs = Ok fl' /\ f_path fl' = PLsp d' /\ d_uri d' = d_uri d) ->
  backed V -> backed (with_files fs V).
Proof. intros G (R & M). split; [|exact M]. intros id st n s I J C. eapply backing_mono; [apply incl_refl | exact G | exact (R _ _ _ _ I J C)]. Qed.
Lemma backed_seeing d t V : backed V -> backed (seeing d t V).
Proof.
  intros (R & M). split.
  - intros id st n s I J C. cbn. eapply backing_mono; [| | exact (R _ _ _ _ I J C)]. apply incl_appl, incl_refl. eauto.
  - intros e ty l r s I J C. destruct (M _ _ _ _ _ I J C) as (k & c & f & d0 & t0 & w & A & B). exists k, c, f, d0, t0, w. split; auto. apply in_or_app. auto.
Qed.
Lemma builtins_get fs fs' : add_builtins builtins fs = Ok fs' -> forall id fl d, get_file id fs = Ok fl -> f_path fl = PLsp d ->
  exists fl' d', get_file id fs' = Ok fl' /\ f_path fl' = PLsp d' /\ d_uri d' = d_uri d.
Proof. intros B id fl d G P. apply add_builtins_ok in B as ->. exists fl, d. split; auto. now apply get_file_app. Qed.
Lemma verify_main_backed k c f d t V : current V k c f d t -> backed V -> stage_backed (verify_main (W k c f d t) V).
Proof.
  intros C B V' e H. destruct (Here k c f d t) as (_ & _ & _ & UH & GH). set (R := W k c f d t) in *. unfold verify_main in H.
  apply andthen_ok in H as [(V1 & E & H)|(x & E & _)]; apply raise_ok in E as (-> & E & _); [|exact B]. clear E.
  apply andthen_ok in H as [(V1 & E & H)|(x & E & _)]; apply good_ok in E as (E & X); [|discriminate]. okbind E. inv E.
  assert (C1 : current (with_files a V) k c f d t).
  { destruct C as (S & fl & G & P). split; auto. exists fl. split; auto. apply add_builtins_ok in E0 as ->. now apply get_file_app. }
  assert (B1 : backed (with_files a V)) by (apply backed_files; auto; now apply builtins_get).
  revert C1 B1 H. generalize (with_files a V). clear -UH GH Here. intros V C B H.
  apply andthen_ok in H as [(V1 & E1 & H)|(x & E1 & _)]; [|eapply add_or_throw_backed; eauto].
  pose proof (current_grows _ _ _ _ _ _ _ (add_or_throw_grows _ _ _ _ E1) C) as C1. apply add_or_throw_backed in E1 as B1; auto.
  apply andthen_ok in H as [(V2 & E & H)|(x & E & _)]; apply raise_ok in E as (-> & E & _); [|exact B1]. clear E.
  apply andthen_ok in H as [(V3 & E3 & H)|(x & E3 & _)]; apply good_ok in E3 as (E3 & X3); [|discriminate].
  pose proof (current_grows _ _ _ _ _ _ _ (register_all_grows _ _ _ E3) C1) as C3. apply register_all_backed in E3 as B3; auto.
  apply andthen_ok in H as [(V4 & E4 & H)|(x & E4 & _)]; apply good_ok in E4 as (E4 & X4); [|discriminate].
  pose proof (current_grows _ _ _ _ _ _ _ (core_grows _ _ _ E4) C3) as C4. apply (core_backed (r_expl R)) in E4 as B4; auto.
  apply andthen_ok in H as [(V5 & E5 & H)|(x & E5 & _)]; apply good_ok in E5 as (E5 & X5); [|discriminate].
  pose proof (current_grows _ _ _ _ _ _ _ (add_diagnostics_grows _ _ _ E5) C4) as C5. apply add_diagnostics_backed in E5 as B5; auto.
  apply andthen_ok in H as [(V6 & E & H)|(x & E & _)]; apply raise_ok in E as (-> & E & _); [|exact B5]. clear E.
  destruct (r_gen R) as [g|er] eqn:G.
  2:{ apply raise_ok in H as (-> & _). exact B5. }
  apply andthen_ok in H as [(V7 & E7 & H)|(x & E7 & _)]; apply good_ok in E7 as (E7 & X7); [|discriminate].
  pose proof (current_grows _ _ _ _ _ _ _ (register_all_grows _ _ _ E7) C5) as C7. apply register_all_backed in E7 as B7; auto.
  destruct (r_quiet R). { inv H. exact B7. }
  apply andthen_ok in H as [(V8 & E & H)|(x & E & _)]; apply raise_ok in E as (-> & E & _); [|exact B7]. clear E.
  eapply verify_all_backed; [exact C7 | | exact B7 | exact H]. intros u I. apply filter_In in I as (I & _). fold R. unfold run_units. rewrite G. split; auto.
  specialize (GH _ eq_refl). rewrite Forall_forall in UH, GH. apply in_app_or in I as [I|I]; auto.
Qed.
Lemma backed_reply id r V : backed V -> backed (send [MReply id r] V).
Proof. intros (R & M). split; [exact R|]. intros d ty l q s I J C. cbn in I. apply in_app_or in I as [I|[I|[]]]; [exact (M _ _ _ _ _ I J C) | discriminate]. Qed.
Lemma run_request_backed k c id d V V' : run_request W k c id d V = Ok V' -> backed V -> backed V'.
Proof.
  unfold run_request. intros H B. destruct (find_file _ _) as [f|] eqn:F; [|discriminate]. apply find_file_ok in F as (fl & G & P & _). apply is_doc_true in P.
  okbind H. pose proof (clear_grows _ _ _ E) as (_ & _ & FE & _). apply clear_backed in E as B1; auto. rewrite FE, G in H. cbn [rbind] in H. okbind H. destruct a0 as [V1 e].
  apply (backed_seeing d (f_source fl)) in B1.
  assert (B2 : backed V1).
  { unfold verify_with_limits in E0. destruct (r_early _); [inv E0; exact B1|]. okbind E0. destruct a0 as [V2 e2]. injection E0 as <- _.
    eapply verify_main_backed; [| exact B1 | exact E1]. split. cbn. apply in_or_app. cbn. auto. exists fl. cbn. rewrite FE. auto. }
  clear E0. assert (K : (let? V := handle_timeout V1 in let? V := lsp_set_type f FTimeout V in Ok (send [MReply id RepOk] V)) = Ok V' -> backed V').
  { clear H. intros H. okbind H. okbind H. inv H. apply backed_reply. eapply set_type_backed; eauto. eapply handle_timeout_backed; eauto. }
  destruct e as [[g|[]| |]|]; cbn in H; auto; try (inv H; now apply backed_reply).
  okbind H. okbind H. inv H. apply backed_reply. eapply set_type_backed; eauto. eapply add_diagnostic_backed; eauto.
Qed.
Lemma handle_notification_backed n V V' : handle_notification n V = Ok V' -> backed V -> backed V'.
Proof.
  intros H B. destruct n as [d lang t|d ts|u| |]; cbn in H.
  - destruct (String.eqb lang "heyvl"); [|now inv H]. okbind H. inv H. apply backed_files; auto. eapply update_get; eauto.
  - destruct ts as [|t [|]]; try discriminate. okbind H. inv H. apply backed_files; auto. eapply update_get; eauto.
  - destruct (find_file _ _); [|discriminate]. eapply clear_backed; eauto.
  - now inv H.
  - discriminate.
Qed.
Lemma handle_all_backed q : forall V V', handle_all q V = Ok V' -> backed V -> backed V'.
Proof. induction q as [|n q IH]; cbn; intros V V' H B. now inv H. okbind H. eauto using handle_notification_backed. Qed.
Lemma process_backed c L L' : process W c L = Ok L' -> backed (l_server L) -> backed (l_server L').
Proof.
  unfold process. intros H F. okbind H. okbind H. inv H. cbn. eapply handle_all_backed; eauto. destruct (l_active L) as [[[n id] [d|]]|].
  - eapply run_request_backed; eauto.
  - discriminate.
  - now inv E.
Qed.
Lemma lstep_backed L i L' : lstep W L i = Ok L' -> backed (l_server L) -> backed (l_server L').
Proof.
  unfold lstep, start_task. intros H F. okbind H.
  assert (F1 : backed (l_server a)). { destruct (_ && _); [eapply process_backed; eauto | now inv E]. }
  destruct (fst i) as [n|id d|id|id|id|].
  - destruct (l_active a); [now inv H|]. okbind H. inv H. eapply handle_notification_backed; eauto.
  - okbind H. inv H. cbn. eapply process_backed; eauto.
  - okbind H. inv H. cbn. eapply process_backed; eauto.
  - okbind H. inv H. cbn. apply backed_reply. eapply process_backed; eauto.
  - now inv H.
  - discriminate.
Qed.
Lemma lrun_backed l : forall L L', lrun W L l = Ok L' -> backed (l_server L) -> backed (l_server L').
Proof. induction l as [|i l IH]; cbn; intros L L' H F. now inv H. okbind H. eauto using lstep_backed. Qed.
Lemma session_backed we l L : session W we l = Ok L -> backed (l_server L).
Proof.
  unfold session. intros H. okbind H. eapply process_backed; eauto. eapply lrun_backed; eauto. split; [intros ? ? ? ? [] | intros ? ? ? ? ? []].
Qed.
End backed.

(** Every claim the client has ever been shown about a document comes from a sound answer for a verification of a version of it. *)
Lemma session_claims W we l L : (forall n c f d t, run_here f (W n c f d t)) -> session W we l = Ok L ->
  forall d ty k r s, In (MStatus d ty k) (v_sent (l_server L)) -> In (r, s) k -> claim s = true ->
  exists n c f e t u, In (e, Some (e, t)) (wanted [] (map fst l)) /\ d_uri e = d_uri d /\ In u (run_units (W n c f e t)) /\ justified u s.
Proof.
  intros Hr H d ty k r s I J C. destruct (session_backed W Hr we l L H) as (_ & M). destruct (M _ _ _ _ _ I J C) as (n & c & f & e & t & u & A & B & D & E).
  exists n, c, f, e, t, u. repeat split; auto. destruct (session_latest _ _ _ _ H) as (S & _). rewrite <- S. apply in_map_iff. exists (e, t). split; auto.
Qed.

(** What the client shows after a finished verification *)
Lemma lrun_app W a b : forall L, lrun W L (a ++ b) = let? M := lrun W L a in lrun W M b.
Proof. induction a as [|i a IH]; cbn; intros L; auto. destruct (lstep W L i); cbn; auto. Qed.
Lemma holds_find V l d t : holds V l -> latest (d_uri d) l = Some (d, t) -> forall f fl, find_file (is_doc d) (v_files V) = Some f -> get_file f (v_files V) = Ok fl -> f_source fl = t.
Proof.
  intros (N & L) T f fl F G. apply find_file_ok in F as (fl' & G' & P & I). rewrite G in G'. inv G'. apply is_doc_true in P.
  pose proof (lookup_unique _ _ _ N I P) as K. rewrite L, T in K. now inv K.
Qed.
Lemma session_last W we l id d b r fin L : session W we (l ++ [(IVerify id d, b); (IRequest r, fin)]) = Ok L ->
  exists n V t f fl, holds V (notifs (map fst l)) /\ fine we V /\ run_request W n (negb fin) id d V = Ok (l_server L) /\
    latest (d_uri d) (notifs (map fst l)) = Some (d, t) /\ find_file (is_doc d) (v_files V) = Some f /\ get_file f (v_files V) = Ok fl /\ f_source fl = t /\ f_path fl = PLsp d.
Proof.
  unfold session. intros H. okbind H. rewrite lrun_app in E. okbind E. cbn [lrun] in E. okbind E. okbind E. inv E.
  pose proof (lrun_ok _ _ _ _ [] E0 (start_inv we)) as I. cbn [app] in I. pose proof (lrun_fine we _ _ _ _ E0 (start_fine we)) as F.
  unfold lstep in E1. cbn [fst snd] in E1. okbind E1.
  assert (K : inv_loop (map fst l) a2 /\ fine we (l_server a2)).
  { destruct (b && _); [|inv E; auto]. split; [eapply process_ok in E; [|eauto]; tauto | eapply process_fine; eauto]. }
  destruct K as (I1 & F1). clear E I F. unfold start_task in E1. okbind E1. inv E1. pose proof (process_fine we _ _ _ _ E F1) as F2.
  destruct (process_ok _ _ _ _ _ E I1) as ((dn & A & _ & C & _) & AC & Q & _). rewrite Q, app_nil_r in A. subst dn. set (V := l_server a3) in *.
  assert (RR : exists c n, c = negb fin /\ run_request W n c id d V = Ok (l_server L)).
  { unfold lstep in E2. cbn [fst snd l_active] in E2. rewrite andb_true_r in E2. destruct fin; cbn [negb].
    - unfold process in E2. cbn [l_active l_server l_queued] in E2. rewrite Q in E2. okbind E2. cbn [handle_all rbind] in E2.
      destruct (run_request _ _ _ _ _ _) eqn:RR; cbn in E1; try discriminate. inv E1. inv E2. exists false, (l_count a3). split; auto.
      unfold process in H. cbn in H. inv H. cbn. exact RR.
    - cbn in E2. inv E2. unfold process in H. cbn [l_active l_server l_queued] in H. rewrite Q in H. okbind H. cbn in H. inv H. cbn. eauto. }
  destruct RR as (c & n & -> & RR). destruct (run_request_ok _ _ _ _ _ _ _ _ RR C) as (t & f & T & _ & _ & _ & FF & _).
  pose proof FF as FF'. apply find_file_ok in FF as (fl & G & P & _). apply is_doc_true in P. exists n, V, t, f, fl. repeat split; auto; try apply C; try apply F2.
  eapply holds_find; eauto.
Qed.
Lemma map_pair_fst {A B C} (g : A -> B) (h : A -> C) l : map (fun p : B * (A * C) => (fst p, snd (snd p))) (map (fun q : A => (g q, (q, h q))) l) = map (fun q => (g q, h q)) l.
Proof. rewrite map_map. reflexivity. Qed.
Lemma session_shown W we l id d b r fin L : session W we (l ++ [(IVerify id d, b); (IRequest r, fin)]) = Ok L ->
  exists n f t, latest (d_uri d) (notifs (map fst l)) = Some (d, t) /\
  forall g, run_here f (W n (negb fin) f d t) -> finishes we (W n (negb fin) f d t) g -> NoDup (map u_uname (r_units (W n (negb fin) f d t) ++ g)) ->
  (forall rg, (forall u, In u (tasks (W n (negb fin) f d t) g) -> text_range t (n_span (u_uname u)) (rg u)) -> NoDup (map (fun u => n_span (u_uname u)) (tasks (W n (negb fin) f d t) g)) ->
    shown_status (d_uri d) (v_sent (l_server L)) =
      (match tasks (W n (negb fin) f d t) g with [] => FTodo | _ => FDone end, map (fun u => (rg u, final u)) (tasks (W n (negb fin) f d t) g))) /\
  (forall rg, (forall x, In x (t_diags (report (W n (negb fin) f d t) g)) -> s_file (g_span x) = f /\ text_range t (g_span x) (rg x)) ->
    shown_diags (d_uri d) (v_sent (l_server L)) = map (fun x => (rg x, x)) (t_diags (report (W n (negb fin) f d t) g))) /\
  (forall rg, t_expls (report (W n (negb fin) f d t) g) <> [] ->
    (forall x, In x (t_expls (report (W n (negb fin) f d t) g)) -> s_file (x_span x) = f /\ text_range t (x_span x) (rg x)) ->
    shown_expls (d_uri d) (v_sent (l_server L)) = map (fun x => (rg x, x)) (t_expls (report (W n (negb fin) f d t) g))).
Proof.
  intros H. apply session_last in H as (n & V & t & f & fl & C & F & RR & T & FF & G & S & P). exists n, f, t. split; auto. intros g HR FI ND. rewrite <- S in HR, FI, ND.
  pose proof F as (WE & _). rewrite <- WE in FI.
  destruct (run_request_record _ _ _ _ _ _ _ _ _ _ RR FF G HR FI ND) as (RE & _). rewrite S in RE.
  pose proof (run_request_view we _ _ _ _ _ _ _ _ _ RR C F FF) as (CX & VS0 & VD0 & VP0). rewrite S in *. set (R := W n (negb fin) f d t) in *.
  assert (G' : get_file f (v_files (l_server L)) = Ok fl).
  { destruct (run_request_ok _ _ _ _ _ _ _ _ RR C) as (_ & _ & _ & _ & _ & _ & _ & _ & [(X & _)|X]). now rewrite X. apply add_builtins_ok in X. rewrite X. now apply get_file_app. }
  repeat split.
  - intros rg TR NS. destruct VS0 as (rr & A & B). rewrite RE in A, B. cbn [t_statuses report t_type] in A, B. rewrite B. f_equal.
    rewrite by_span_distinct in A by (rewrite map_map; exact NS). rewrite map_map in A. cbn [fst snd] in A.
    assert (X : exists rg', forall u, In u (tasks R g) -> rg' (n_span (u_uname u), final u) = rg u).
    { exists (fun q : span * status => match find (fun u => span_eqb (n_span (u_uname u)) (fst q)) (tasks R g) with Some u => rg u | None => ((0, 0), (0, 0)) end).
      intros u I. cbn. clear -I NS. induction (tasks R g) as [|v ts IH]; [contradiction|]. cbn in *. inv NS. destruct (span_eqb (n_span (u_uname v)) (n_span (u_uname u))) eqn:E.
      - apply span_eqb_eq in E. destruct I as [->|I]; auto. exfalso. apply H1. rewrite E. apply in_map_iff. eauto.
      - destruct I as [->|I]; auto. assert (Y : span_eqb (n_span (u_uname u)) (n_span (u_uname u)) = true) by now apply span_eqb_eq. congruence. }
    destruct X as (rg' & X). assert (Y := fun Z => ranged_exact (l_server L) d fl f fst rg' _ G' P Z _ A). rewrite Y.
    + rewrite map_map. cbn. rewrite map_map. apply map_ext_in. intros u I. cbn. now rewrite X.
    + intros q I. apply in_map_iff in I as (u & <- & I). cbn. split; [|rewrite X by auto; rewrite S; auto].
      destruct HR as (_ & _ & _ & UH & GH). destruct FI as (_ & _ & _ & _ & _ & _ & GE & _). specialize (GH _ GE). unfold tasks in I. apply filter_In in I as (I & _).
      rewrite Forall_forall in UH, GH. apply in_app_or in I as [I|I]; [destruct (UH _ I) as ((Z & _) & _) | destruct (GH _ I) as ((Z & _) & _)]; exact Z.
  - intros rg TR. unfold VD in VD0. rewrite RE in VD0. eapply ranged_exact; eauto. rewrite S. exact TR.
  - intros rg NE TR. unfold VP in VP0. rewrite RE in VP0. destruct VP0 as [Z|Z]; [contradiction|]. eapply ranged_exact; eauto. rewrite S. exact TR.
Qed.

(** After a limit, nothing is shown as left to do. *)
Lemma run_request_limit W n c id d V V' f fl e : run_request W n c id d V = Ok V' -> find_file (is_doc d) (v_files V) = Some f -> get_file f (v_files V) = Ok fl ->
  r_early (W n c f d (f_source fl)) = Some e \/ r_early (W n c f d (f_source fl)) = None /\ r_hard (W n c f d (f_source fl)) = Some e -> e <> LInterrupted ->
  settled V' /\ t_type (record_of f V') = FTimeout.
Proof.
  unfold run_request. intros H F G K N. rewrite F in H. okbind H. pose proof (clear_grows _ _ _ E) as (_ & _ & FE & _). rewrite FE, G in H. cbn [rbind] in H. okbind H. destruct a0 as [V1 e1].
  assert (e1 = Some (VLimit e)).
  { unfold verify_with_limits in E0. destruct K as [K|(K & K')]; rewrite K in E0. now inv E0. rewrite K' in E0. okbind E0. destruct a0. now inv E0. }
  subst e1. eapply handle_result_timeout; eauto.
Qed.
Lemma insert_span_completed p s l : is_completed s = true -> Forall (fun q : span * status => is_completed (snd q) = true) l ->
  Forall (fun q => is_completed (snd q) = true) (insert_span p s l).
Proof.
  intros S. induction 1 as [|[q r] l A B IH]; cbn; auto. cbn in A. destruct (span_eqb q p); constructor; auto. cbn. destruct r, s; auto; discriminate.
Qed.
Lemma by_span_completed l : Forall (fun q : uname * status => is_completed (snd q) = true) l -> Forall (fun q => is_completed (snd q) = true) (by_span l).
Proof.
  unfold by_span. intros H. assert (G : Forall (fun q : span * status => is_completed (snd q) = true) []) by constructor. revert G. generalize (@nil (span * status)).
  induction H as [|[n s] l A B IH]; cbn; intros acc G; auto. apply IH. now apply insert_span_completed.
Qed.
Lemma session_limit W we l id d b r fin L : session W we (l ++ [(IVerify id d, b); (IRequest r, fin)]) = Ok L ->
  exists n f t, latest (d_uri d) (notifs (map fst l)) = Some (d, t) /\
  forall e, e <> LInterrupted ->
  r_early (W n (negb fin) f d t) = Some e \/ r_early (W n (negb fin) f d t) = None /\ r_hard (W n (negb fin) f d t) = Some e ->
  exists k, shown_status (d_uri d) (v_sent (l_server L)) = (FTimeout, k) /\ Forall (fun p => is_completed (snd p) = true) k.
Proof.
  intros H. apply session_last in H as (n & V & t & f & fl & C & F & RR & T & FF & G & S & P). exists n, f, t. split; auto. intros e N K. subst t.
  destruct (run_request_limit _ _ _ _ _ _ _ _ _ _ RR FF G K N) as (ST & TY). pose proof (run_request_view we _ _ _ _ _ _ _ _ _ RR C F FF) as (CX & (q & A & B) & _).
  rewrite B, TY. eexists. split; [reflexivity|]. destruct A as (o & A & ->). apply Forall_forall. intros [x s] I. cbn. apply in_map_iff in I as ([y [p s']] & X & I). cbn in X. inv X.
  apply (ranged_in _ _ _ _ _ _ A) in I.
  assert (Z : Forall (fun q : uname * status => is_completed (snd q) = true) (t_statuses (record_of f (l_server L)))).
  { unfold record_of, found. destruct (lookup f (v_status (l_server L))) as [st|] eqn:Lk; [|constructor]. apply lookup_some_in in Lk. unfold settled in ST. rewrite Forall_forall in ST. exact (ST _ Lk). }
  apply by_span_completed in Z. rewrite Forall_forall in Z. exact (Z _ I).
Qed.

(** An error that ends the verification early: only it and the warnings before it are shown. *)
Lemma run_request_invalid W n c id d V V' f fl g : run_request W n c id d V = Ok V' -> find_file (is_doc d) (v_files V) = Some f -> get_file f (v_files V) = Ok fl ->
  let R := W n c f d (f_source fl) in run_here f R -> r_early R = None -> r_hard R = None ->
  (forall ws, r_parse R = Some (VDiag g) /\ ws = [] \/ r_parse R = None /\ calm (v_werr V) (r_warn R) /\ r_front R = Some (VDiag g) /\ ws = r_warn R ->
   record_of f V' = mkfs FInvalid [] (ws ++ [g]) []).
Proof.
  cbv zeta. unfold run_request. intros H F G (EH & WH & _) RE RH ws K. rewrite F in H. okbind H. pose proof (clear_grows _ _ _ E) as (_ & WE & FE & _). rewrite FE, G in H. cbn [rbind] in H.
  apply clear_record in E. set (R := W n c f d (f_source fl)) in *. okbind H. destruct a0 as [V1 e]. unfold verify_with_limits in E0. rewrite RE, RH in E0. okbind E0. destruct a0 as [V2 e2]. injection E0 as <- <-.
  assert (GH : s_file (g_span g) = f). { destruct K as [(K & _)|(_ & _ & K & _)]; [destruct (EH (VDiag g) (or_introl K)) | destruct (EH (VDiag g) (or_intror (or_introl K)))]; auto. }
  assert (X : e2 = Some (VDiag g) /\ record_of f V2 = mkfs FTodo [] ws []).
  { unfold verify_main in E1. destruct K as [(K & ->)|(K & CA & FR & ->)]; rewrite K in E1.
    - cbn in E1. inv E1. split; auto.
    - rewrite FR in E1. apply andthen_ok in E1 as [(V3 & E0 & E1)|(x & E0 & X)]; [|discriminate]. apply raise_ok in E0 as (-> & _).
      apply andthen_ok in E1 as [(V3 & E0 & E1)|(x & E0 & X)]; apply good_ok in E0 as (E0 & X'); [|discriminate]. okbind E0. injection E0 as <-. rename a0 into a1.
      rewrite (calm_good (v_werr V)) in E1 by (cbn; auto). unfold good in E1. destruct (add_diagnostics (r_warn R) _) as [V4| |] eqn:AD; cbn in E1; try discriminate. injection E1 as <- <-.
      split; auto. apply add_diagnostics_record with (f := f) in AD; [|apply Forall_app in WH; tauto]. rewrite AD. change (record_of f (with_files a1 (seeing d (f_source fl) a))) with (record_of f a). rewrite E. reflexivity. }
  destruct X as (-> & X). rewrite (handle_result_error _ _ _ _ _ H GH), X. reflexivity.
Qed.
Lemma session_invalid W we l id d b r fin L : session W we (l ++ [(IVerify id d, b); (IRequest r, fin)]) = Ok L ->
  exists n f t, latest (d_uri d) (notifs (map fst l)) = Some (d, t) /\
  let R := W n (negb fin) f d t in run_here f R -> r_early R = None -> r_hard R = None ->
  forall g ws rg, r_parse R = Some (VDiag g) /\ ws = [] \/ r_parse R = None /\ calm we (r_warn R) /\ r_front R = Some (VDiag g) /\ ws = r_warn R ->
  (forall x, In x (ws ++ [g]) -> text_range t (g_span x) (rg x)) ->
  shown_status (d_uri d) (v_sent (l_server L)) = (FInvalid, []) /\ shown_diags (d_uri d) (v_sent (l_server L)) = map (fun x => (rg x, x)) (ws ++ [g]).
Proof.
  intros H. apply session_last in H as (n & V & t & f & fl & C & F & RR & T & FF & G & S & P). exists n, f, t. split; auto. cbv zeta. intros HR RE RH g ws rg K TR. subst t.
  pose proof F as (WE & _). rewrite <- WE in K.
  pose proof (run_request_invalid _ _ _ _ _ _ _ _ _ g RR FF G HR RE RH ws K) as RC.
  pose proof (run_request_view we _ _ _ _ _ _ _ _ _ RR C F FF) as (CX & (q & A & B) & VD0 & _). rewrite RC in A, B. cbn in A. destruct A as (o & A & ->). cbn in A. inv A. split; auto.
  unfold VD in VD0. rewrite RC in VD0. cbn [t_diags] in VD0.
  assert (G' : get_file f (v_files (l_server L)) = Ok fl).
  { destruct (run_request_ok _ _ _ _ _ _ _ _ RR C) as (_ & _ & _ & _ & _ & _ & _ & _ & [(X & _)|X]). now rewrite X. apply add_builtins_ok in X. rewrite X. now apply get_file_app. }
  eapply ranged_exact; eauto. intros x I. split; [|auto]. destruct HR as (EH & WH & _). apply in_app_or in I as [I|[<-|[]]].
  - destruct K as [(_ & ->)|(_ & _ & _ & ->)]; [contradiction|]. apply Forall_app in WH as (WH & _). rewrite Forall_forall in WH. now apply WH.
  - destruct K as [(K & _)|(_ & _ & K & _)]; [destruct (EH (VDiag g) (or_introl K)) | destruct (EH (VDiag g) (or_intror (or_introl K)))]; auto.
Qed.

(** The statements of the properties *)
Lemma session_verified W we l L : session W we l = Ok L ->
  map (fun p : docid * text => (fst p, Some p)) (v_seen (l_server L)) = wanted [] (map fst l) /\ forall u, lookup_uri u (v_files (l_server L)) = latest u (notifs (map fst l)).
Proof. intros H. destruct (session_latest _ _ _ _ H) as (A & _ & B). split; auto. Qed.
Lemma session_replies W we l L : session W we l = Ok L -> replies (v_sent (l_server L)) = requests (map fst l).
Proof. intros H. now destruct (session_latest _ _ _ _ H) as (_ & A & _). Qed.
Lemma session_budget W we l L : session W we l = Ok L -> (forall n c f d t, r_early (W n c f d t) = None /\ r_parse (W n c f d t) = None) ->
  (13 * N.of_nat (verifications (map fst l)) <= 65535)%N.
Proof. intros H K. eapply session_lifetime; eauto. intros n c f d t. unfold past_parsing. destruct (K n c f d t) as (-> & ->). reflexivity. Qed.
