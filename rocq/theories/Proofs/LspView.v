(** The language server: what the client shows. *)
From Coq Require Import Bool List String ZArith NArith Arith Lia.
From Verif.Model Require Import Syntax Driver LspServer.
From Verif.Spec Require Import LspSpec.
From Verif.Proofs Require Import LspBasic LspSession LspSafe LspStatus LspRange.
Import ListNotations.

(** The last message of a kind *)
Definition last_pick {A} (pick : message -> option A) (acc : A) (l : list message) : A :=
  fold_left (fun acc m => match pick m with Some a => a | None => acc end) l acc.
Definition pick_status (u : string) (m : message) := match m with MStatus d ty s => if String.eqb (d_uri d) u then Some (ty, s) else None | _ => None end.
Definition pick_diags (u : string) (m : message) := match m with MDiag d s => if String.eqb (d_uri d) u then Some s else None | _ => None end.
Definition pick_expls (u : string) (m : message) := match m with MPre d s => if String.eqb (d_uri d) u then Some s else None | _ => None end.
Lemma fold_left_ext {A B} (f g : A -> B -> A) l : (forall a b, f a b = g a b) -> forall a, fold_left f l a = fold_left g l a.
Proof. intros H. induction l as [|b l IH]; cbn; auto. intros a. now rewrite H. Qed.
Lemma shown_status_pick u l : shown_status u l = last_pick (pick_status u) (FTodo, []) l.
Proof. apply fold_left_ext. intros a m. destruct m; cbn; auto. now destruct (String.eqb _ _). Qed.
Lemma shown_diags_pick u l : shown_diags u l = last_pick (pick_diags u) [] l.
Proof. apply fold_left_ext. intros a m. destruct m; cbn; auto. now destruct (String.eqb _ _). Qed.
Lemma shown_expls_pick u l : shown_expls u l = last_pick (pick_expls u) [] l.
Proof. apply fold_left_ext. intros a m. destruct m; cbn; auto. now destruct (String.eqb _ _). Qed.
Lemma last_pick_app {A} (pick : message -> option A) acc l k : last_pick pick acc (l ++ k) = last_pick pick (last_pick pick acc l) k.
Proof. unfold last_pick. now rewrite fold_left_app. Qed.
Lemma last_pick_none {A} (pick : message -> option A) acc l : (forall m, In m l -> pick m = None) -> last_pick pick acc l = acc.
Proof. revert acc. induction l as [|m l IH]; cbn; intros acc H; auto. rewrite H by auto. apply IH. auto. Qed.

Lemma get_file_uri fs : forall i fl d, get_file i fs = Ok fl -> f_path fl = PLsp d -> In (d_uri d) (uris fs).
Proof.
  intros i fl d G P. destruct i; [discriminate|]. cbn in G. destruct (nth_error fs i) eqn:E; [|discriminate]. inv G. apply nth_error_In in E.
  unfold uris. apply in_flat_map. exists fl. rewrite P. cbn. auto.
Qed.
Lemma file_unique fs : NoDup (uris fs) -> forall i j f g d e, get_file i fs = Ok f -> get_file j fs = Ok g -> f_path f = PLsp d -> f_path g = PLsp e -> d_uri d = d_uri e -> i = j.
Proof.
  intros N i j f g d e. destruct i as [|i]; [discriminate|]. destruct j as [|j]; [discriminate|]. cbn. intros A B P Q U. f_equal.
  destruct (nth_error fs i) eqn:A'; [|discriminate]. destruct (nth_error fs j) eqn:B'; [|discriminate]. inv A. inv B. revert i j A' B'.
  induction fs as [|h fs IH]; intros i j A B. now destruct i.
  assert (X : forall k h', nth_error fs k = Some h' -> forall d', f_path h' = PLsp d' -> In (d_uri d') (uris fs)).
  { intros k h' K d' P'. apply nth_error_In in K. unfold uris. apply in_flat_map. exists h'. rewrite P'. cbn. auto. }
  cbn in N. destruct i, j; cbn in A, B; auto.
  - inv A. rewrite P in N. cbn in N. inv N. exfalso. apply H1. rewrite U. eapply X; eauto.
  - inv B. rewrite Q in N. cbn in N. inv N. exfalso. apply H1. rewrite <- U. eapply X; eauto.
  - f_equal. apply IH; auto. destruct (f_path h); cbn in N; auto. now inv N.
Qed.

(** The document of file [f] *)
Definition ctx (f : nat) (d : docid) (V : lserver) : Prop :=
  NoDup (keys (v_status V)) /\ NoDup (uris (v_files V)) /\ exists fl, get_file f (v_files V) = Ok fl /\ f_path fl = PLsp d.
Lemma ctx_grows f d V V' : grows V V' -> ctx f d V -> ctx f d V'.
Proof. intros (_ & _ & E & _ & T & _) (A & B & C). unfold ctx. rewrite E. auto. Qed.
Lemma ctx_status f d V l : tidy (v_status V) l -> ctx f d V -> ctx f d (with_status l V).
Proof. intros (T & _) (A & B & C). repeat split; auto. Qed.
Lemma publish_pick {A} (pick : message -> option A) (val : fstatus -> option A) mk f d V V' acc :
  ctx f d V -> publish mk V = Ok V' ->
  (forall s m, mk d s (v_files V) = Ok m -> pick m = val s) ->
  (forall e s m, mk e s (v_files V) = Ok m -> d_uri e <> d_uri d -> pick m = None) ->
  last_pick pick acc (v_sent V') = match lookup f (v_status V) with Some s => match val s with Some a => a | None => last_pick pick acc (v_sent V) end | None => last_pick pick acc (v_sent V) end.
Proof.
  intros (N & NU & fl & G & P) H MV MN. unfold publish in H. okbind H. inv H. cbn [v_sent send]. rewrite last_pick_app.
  generalize (last_pick pick acc (v_sent V)). clear acc. revert a E. generalize dependent (v_status V). intros l. induction l as [|[i s] l IH]; intros N a E acc; cbn in E.
  - inv E. reflexivity.
  - okbind E. okbind E. inv E. cbn in N. inv N. change (somes (a0 :: a1)) with (match a0 with Some x => [x] | None => [] end ++ somes a1). rewrite last_pick_app, (IH H2 _ eq_refl).
    rewrite lookup_cons. okbind E0. destruct (Nat.eqb_spec i f) as [->|NF].
    + assert (L : lookup f l = None) by now apply lookup_keys. rewrite L. rewrite G in E. inv E. rewrite P in E0. okbind E0. inv E0. cbn.
      rewrite (MV _ _ E). reflexivity.
    + replace (last_pick pick acc match a0 with Some x => [x] | None => [] end) with acc; auto. destruct (f_path a) as [e|] eqn:Q.
      * okbind E0. inv E0. cbn. rewrite (MN _ _ _ E2); auto. intros U. apply NF. symmetry. eapply (file_unique _ NU f i); eauto.
      * inv E0. reflexivity.
Qed.

(** The client shows the statuses, diagnostics and explanations that are recorded. *)
Definition rendered {A} (V : lserver) (sp : A -> span) (l : list A) (r : list (range * A)) : Prop := exists o, rmap (ranged (v_files V) sp) l = Ok o /\ r = somes o.
Definition VS (f : nat) (u : string) (V : lserver) : Prop :=
  exists r, rendered V fst (by_span (t_statuses (record_of f V))) r /\
    shown_status u (v_sent V) = (t_type (record_of f V), map (fun p : range * (span * status) => (fst p, snd (snd p))) r).
Definition VD (f : nat) (u : string) (V : lserver) : Prop := rendered V g_span (t_diags (record_of f V)) (shown_diags u (v_sent V)).
Definition VP (f : nat) (u : string) (V : lserver) : Prop := t_expls (record_of f V) = [] \/ rendered V x_span (t_expls (record_of f V)) (shown_expls u (v_sent V)).
Definition view (f : nat) (d : docid) (V : lserver) : Prop := ctx f d V /\ VS f (d_uri d) V /\ VD f (d_uri d) V /\ VP f (d_uri d) V.

Lemma publish_files mk V V' : publish mk V = Ok V' -> v_files V' = v_files V /\ v_status V' = v_status V.
Proof. intros H. apply publish_status in H. tauto. Qed.
Lemma publish_entry {mk V V'} f d st : publish mk V = Ok V' -> ctx f d V -> lookup f (v_status V) = Some st -> exists m, mk d st (v_files V) = Ok m.
Proof.
  intros H (_ & _ & fl & G & P) L. unfold publish in H. okbind H. clear H. unfold lookup in L. destruct (find _ (v_status V)) as [[i s]|] eqn:F; [|discriminate]. cbn in L. inv L.
  apply find_some in F as (F & Q). cbn in Q. apply Nat.eqb_eq in Q. subst i. revert a E. induction (v_status V) as [|q l IH]; cbn; intros a E; [contradiction|].
  okbind E. okbind E. destruct F as [->|F]; [|eauto]. cbn in E0. rewrite G in E0. cbn in E0. rewrite P in E0. okbind E0. eauto.
Qed.
Lemma publish_statuses_view f d V V' : publish_statuses V = Ok V' -> ctx f d V ->
  (lookup f (v_status V) = None -> VS f (d_uri d) V) -> VS f (d_uri d) V' /\ (VD f (d_uri d) V -> VD f (d_uri d) V') /\ (VP f (d_uri d) V -> VP f (d_uri d) V').
Proof.
  intros H C N. destruct (publish_files _ _ _ H) as (FE & SE). unfold VS, VD, VP, rendered, record_of in *. rewrite FE, SE.
  assert (D0 : shown_diags (d_uri d) (v_sent V') = shown_diags (d_uri d) (v_sent V)).
  { rewrite !shown_diags_pick. rewrite (publish_pick (pick_diags (d_uri d)) (fun _ => None) _ f d V V' [] C H).
    - now destruct (lookup f (v_status V)).
    - intros s m E. unfold status_message in E. okbind E. now inv E.
    - intros e s m E _. unfold status_message in E. okbind E. now inv E. }
  assert (E0 : shown_expls (d_uri d) (v_sent V') = shown_expls (d_uri d) (v_sent V)).
  { rewrite !shown_expls_pick. rewrite (publish_pick (pick_expls (d_uri d)) (fun _ => None) _ f d V V' [] C H).
    - now destruct (lookup f (v_status V)).
    - intros s m E. unfold status_message in E. okbind E. now inv E.
    - intros e s m E _. unfold status_message in E. okbind E. now inv E. }
  rewrite D0, E0. split; [|auto].
  assert (S0 := publish_pick (pick_status (d_uri d)) (fun s => match status_message d s (v_files V) with Ok m => pick_status (d_uri d) m | _ => None end) _ f d V V' (FTodo, []) C H).
  rewrite shown_status_pick. rewrite S0.
  2:{ intros s m E. now rewrite E. }
  2:{ intros e s m E U. unfold status_message in E. okbind E. inv E. cbn. destruct (String.eqb_spec (d_uri e) (d_uri d)); congruence. }
  unfold found in *. destruct (lookup f (v_status V)) as [st|] eqn:L.
  - destruct (publish_entry f d st H C L) as (m & M). rewrite M. unfold status_message in M. okbind M. inv M. cbn. rewrite String.eqb_refl. eexists. split; [eexists; split; eauto|]. reflexivity.
  - specialize (N eq_refl). destruct N as (r & A & B). exists r. split; auto. now rewrite <- shown_status_pick.
Qed.
Lemma publish_diagnostics_view f d V V' : publish_diagnostics V = Ok V' -> ctx f d V ->
  (lookup f (v_status V) = None -> VD f (d_uri d) V) -> VD f (d_uri d) V' /\ (VS f (d_uri d) V -> VS f (d_uri d) V') /\ (VP f (d_uri d) V -> VP f (d_uri d) V').
Proof.
  intros H C N. destruct (publish_files _ _ _ H) as (FE & SE). unfold VS, VD, VP, rendered, record_of in *. rewrite FE, SE.
  assert (D0 : shown_status (d_uri d) (v_sent V') = shown_status (d_uri d) (v_sent V)).
  { rewrite !shown_status_pick. rewrite (publish_pick (pick_status (d_uri d)) (fun _ => None) _ f d V V' (FTodo, []) C H).
    - now destruct (lookup f (v_status V)).
    - intros s m E. unfold diag_message in E. okbind E. now inv E.
    - intros e s m E _. unfold diag_message in E. okbind E. now inv E. }
  assert (E0 : shown_expls (d_uri d) (v_sent V') = shown_expls (d_uri d) (v_sent V)).
  { rewrite !shown_expls_pick. rewrite (publish_pick (pick_expls (d_uri d)) (fun _ => None) _ f d V V' [] C H).
    - now destruct (lookup f (v_status V)).
    - intros s m E. unfold diag_message in E. okbind E. now inv E.
    - intros e s m E _. unfold diag_message in E. okbind E. now inv E. }
  rewrite D0, E0. split; [|auto].
  assert (S0 := publish_pick (pick_diags (d_uri d)) (fun s => match diag_message d s (v_files V) with Ok m => pick_diags (d_uri d) m | _ => None end) _ f d V V' [] C H).
  rewrite shown_diags_pick. rewrite S0.
  2:{ intros s m E. now rewrite E. }
  2:{ intros e s m E U. unfold diag_message in E. okbind E. inv E. cbn. destruct (String.eqb_spec (d_uri e) (d_uri d)); congruence. }
  unfold found in *. destruct (lookup f (v_status V)) as [st|] eqn:L.
  - destruct (publish_entry f d st H C L) as (m & M). rewrite M. unfold diag_message in M. okbind M. inv M. cbn. rewrite String.eqb_refl. eexists. split; eauto.
  - specialize (N eq_refl). now rewrite <- shown_diags_pick.
Qed.
Lemma publish_explanations_view f d V V' : publish_explanations V = Ok V' -> ctx f d V ->
  VP f (d_uri d) V' /\ (VS f (d_uri d) V -> VS f (d_uri d) V') /\ (VD f (d_uri d) V -> VD f (d_uri d) V').
Proof.
  intros H C. destruct (publish_files _ _ _ H) as (FE & SE). unfold VS, VD, VP, rendered, record_of in *. rewrite FE, SE.
  assert (D0 : shown_status (d_uri d) (v_sent V') = shown_status (d_uri d) (v_sent V)).
  { rewrite !shown_status_pick. rewrite (publish_pick (pick_status (d_uri d)) (fun _ => None) _ f d V V' (FTodo, []) C H).
    - now destruct (lookup f (v_status V)).
    - intros s m E. unfold expl_message in E. okbind E. now inv E.
    - intros e s m E _. unfold expl_message in E. okbind E. now inv E. }
  assert (E0 : shown_diags (d_uri d) (v_sent V') = shown_diags (d_uri d) (v_sent V)).
  { rewrite !shown_diags_pick. rewrite (publish_pick (pick_diags (d_uri d)) (fun _ => None) _ f d V V' [] C H).
    - now destruct (lookup f (v_status V)).
    - intros s m E. unfold expl_message in E. okbind E. now inv E.
    - intros e s m E _. unfold expl_message in E. okbind E. now inv E. }
  rewrite D0, E0. split; [|auto].
  assert (S0 := publish_pick (pick_expls (d_uri d)) (fun s => match expl_message d s (v_files V) with Ok m => pick_expls (d_uri d) m | _ => None end) _ f d V V' [] C H).
  rewrite shown_expls_pick. rewrite S0.
  2:{ intros s m E. now rewrite E. }
  2:{ intros e s m E U. unfold expl_message in E. okbind E. inv E. cbn. destruct (String.eqb_spec (d_uri e) (d_uri d)); congruence. }
  unfold found. destruct (lookup f (v_status V)) as [st|] eqn:L; [|auto].
  destruct (publish_entry f d st H C L) as (m & M). rewrite M. unfold expl_message in M. okbind M. inv M. cbn. rewrite String.eqb_refl. right. eexists. split; eauto.
Qed.

(** Operations *)
Lemma lookup_tidy l l' f : tidy l l' -> lookup f l' = None -> lookup f l = None.
Proof. intros (_ & T) H. apply lookup_keys. apply lookup_keys in H. intros I. apply H. auto. Qed.
Lemma none_record f V : lookup f (v_status V) = None -> record_of f V = no_status.
Proof. unfold record_of, found. now intros ->. Qed.
Lemma VS_same f u V l : t_statuses (found f l) = t_statuses (record_of f V) -> t_type (found f l) = t_type (record_of f V) -> VS f u V -> VS f u (with_status l V).
Proof. intros A B (r & C & D). exists r. unfold record_of at 1 2. cbn. rewrite A, B. auto. Qed.
Lemma VD_same f u V l : t_diags (found f l) = t_diags (record_of f V) -> VD f u V -> VD f u (with_status l V).
Proof. intros A D. unfold VD, record_of. cbn. rewrite A. exact D. Qed.
Lemma VP_same f u V l : t_expls (found f l) = t_expls (record_of f V) -> VP f u V -> VP f u (with_status l V).
Proof. intros A D. unfold VP, record_of. cbn. rewrite A. exact D. Qed.
(** A change of statuses that is then published *)
Lemma statuses_view f d V V' l : publish_statuses (with_status l V) = Ok V' -> tidy (v_status V) l -> view f d V ->
  t_diags (found f l) = t_diags (record_of f V) -> t_expls (found f l) = t_expls (record_of f V) -> view f d V'.
Proof.
  intros H T (C & S & D & P) DE PE. pose proof (ctx_status _ _ _ _ T C) as C1. pose proof (ctx_grows _ _ _ _ (publish_statuses_grows _ _ H) C1) as C2.
  destruct (publish_statuses_view f d _ _ H C1) as (A & B & Q).
  - intros L. cbn in L. apply VS_same; auto; rewrite (none_record f V) by (eapply lookup_tidy; eauto); unfold found; rewrite L; reflexivity.
  - repeat split; auto; try apply C2. apply B. now apply VD_same. apply Q. now apply VP_same.
Qed.
Lemma diags_view f d V V' l : publish_diagnostics (with_status l V) = Ok V' -> tidy (v_status V) l -> view f d V ->
  t_statuses (found f l) = t_statuses (record_of f V) -> t_type (found f l) = t_type (record_of f V) -> t_expls (found f l) = t_expls (record_of f V) -> view f d V'.
Proof.
  intros H T (C & S & D & P) SE TE PE. pose proof (ctx_status _ _ _ _ T C) as C1. pose proof (ctx_grows _ _ _ _ (publish_diagnostics_grows _ _ H) C1) as C2.
  destruct (publish_diagnostics_view f d _ _ H C1) as (A & B & Q).
  - intros L. cbn in L. apply VD_same; auto; rewrite (none_record f V) by (eapply lookup_tidy; eauto); unfold found; rewrite L; reflexivity.
  - repeat split; auto; try apply C2. apply B. now apply VS_same. apply Q. now apply VP_same.
Qed.
Lemma add_diagnostic_view f d g V V' : lsp_add_diagnostic g V = Ok V' -> view f d V -> view f d V'.
Proof.
  intros H W. eapply diags_view; [exact H | apply tidy_entry | exact W | | |]; rewrite found_entry; unfold record_of; destruct (Nat.eqb_spec f (s_file (g_span g))) as [->|]; auto.
Qed.
Lemma add_diagnostics_view f d l : forall V V', add_diagnostics l V = Ok V' -> view f d V -> view f d V'.
Proof. induction l as [|g l IH]; cbn; intros V V' H W. now inv H. okbind H. eauto using add_diagnostic_view. Qed.
Lemma expl_fold f l : forall st, let st' := fold_left (fun st x => entry_or_default (s_file (x_span x)) (fun s => mkfs (t_type s) (t_statuses s) (t_diags s) (t_expls s ++ [x])) st) l st in
  tidy st st' /\ t_type (found f st') = t_type (found f st) /\ t_statuses (found f st') = t_statuses (found f st) /\ t_diags (found f st') = t_diags (found f st).
Proof.
  induction l as [|x l IH]; intros st; cbn. repeat split; auto using incl_refl. specialize (IH (entry_or_default (s_file (x_span x)) (fun s => mkfs (t_type s) (t_statuses s) (t_diags s) (t_expls s ++ [x])) st)).
  cbn in IH. destruct IH as (T & A & B & C). split; [eapply tidy_trans; [apply tidy_entry | exact T]|]. rewrite A, B, C, found_entry.
  destruct (Nat.eqb_spec f (s_file (x_span x))) as [->|]; auto.
Qed.
Lemma add_explanation_view f d l V V' : lsp_add_explanation l V = Ok V' -> view f d V -> view f d V'.
Proof.
  intros H (C & S & D & P). destruct (expl_fold f l (v_status V)) as (T & A & B & Q). unfold lsp_add_explanation in H.
  set (st := fold_left _ l (v_status V)) in *. pose proof (ctx_status _ _ _ _ T C) as C1. pose proof (ctx_grows _ _ _ _ (publish_explanations_grows _ _ H) C1) as C2.
  destruct (publish_explanations_view f d _ _ H C1) as (X & Y & Z). repeat split; auto; try apply C2. apply Y. now apply VS_same. apply Z. now apply VD_same.
Qed.
Lemma core_view f d l V V' : match l with [] => Ok V | e :: k => lsp_add_explanation (e :: k) V end = Ok V' -> view f d V -> view f d V'.
Proof. destruct l; intros H W. now inv H. eapply add_explanation_view; eauto. Qed.
Lemma on_statuses_found f n st l l' : on_statuses n st l = Ok l' -> t_diags (found f l') = t_diags (found f l) /\ t_expls (found f l') = t_expls (found f l).
Proof. unfold on_statuses. intros H. okbind H. inv H. rewrite found_entry. destruct (Nat.eqb_spec f (s_file (n_span n))) as [->|]; auto. Qed.
Lemma register_view f d n k V V' : lsp_register n k V = Ok V' -> view f d V -> view f d V'.
Proof.
  intros H W. assert (K : view f d (with_status (entry_or_default (s_file (n_span n)) (fun s => s) (v_status V)) V)).
  { destruct W as (C & S & D & P). assert (E : found f (entry_or_default (s_file (n_span n)) (fun s => s) (v_status V)) = record_of f V).
    { rewrite found_entry. destruct (Nat.eqb_spec f (s_file (n_span n))) as [->|]; auto. }
    split; [apply ctx_status; auto using tidy_entry|]. split; [apply VS_same|split; [apply VD_same|apply VP_same]]; auto; now rewrite E. }
  unfold lsp_register in H. destruct k as [[]| |]; try (injection H as <-; exact K).
  okbind H. destruct (on_statuses_found f _ _ _ _ E) as (A & B). eapply statuses_view; [exact H | eapply tidy_on_statuses; eauto | exact W | exact A | exact B].
Qed.
Lemma register_all_view f d l : forall V V', register_all l V = Ok V' -> view f d V -> view f d V'.
Proof. induction l as [|u l IH]; cbn; intros V V' H W. now inv H. okbind H. eauto using register_view. Qed.
Lemma set_type_view f d id ty V V' : lsp_set_type id ty V = Ok V' -> view f d V -> view f d V'.
Proof.
  intros H W. eapply statuses_view; [exact H | apply tidy_entry | exact W | |]; rewrite found_entry; unfold record_of; destruct (Nat.eqb_spec f id) as [->|]; auto.
Qed.
Lemma publish_again f d V V' : publish_statuses V = Ok V' -> view f d V -> view f d V'.
Proof. intros H W. destruct V as [we fs st se sn]. eapply (statuses_view f d (mksv we fs st se sn) V' st); eauto using tidy_refl. Qed.
Lemma set_ongoing_view f d n V V' : lsp_set_ongoing n V = Ok V' -> view f d V -> view f d V'.
Proof.
  unfold lsp_set_ongoing. intros H (C & S & D & P). okbind H. okbind H. apply (publish_again f d) in H; auto. clear H.
  unfold lsp_set_type in E0. destruct (on_statuses_found f _ _ _ _ E) as (A & B). apply tidy_on_statuses in E.
  eapply (statuses_view f d V); [exact E0 | cbn; eapply tidy_trans; [exact E | apply tidy_entry] | repeat split; auto; apply C | |];
    cbn; rewrite found_entry; destruct (Nat.eqb_spec f (s_file (n_span n))) as [->|]; auto.
Qed.
Lemma found_modify id g l f : found f (modify id g l) = if Nat.eqb f id then match lookup id l with Some s => g s | None => no_status end else found f l.
Proof. unfold found. rewrite lookup_modify. destruct (Nat.eqb_spec f id) as [->|]; auto. now destruct (lookup id l). Qed.
Lemma result_view f d n l st V V' : lsp_result n l st V = Ok V' -> view f d V -> view f d V'.
Proof.
  unfold lsp_result. intros H W. okbind H. okbind H. apply (add_diagnostics_view f d) in E; auto. clear W.
  destruct (on_statuses_found f _ _ _ _ E0) as (A & B). apply tidy_on_statuses in E0.
  destruct (lookup (s_file (n_span n)) a0) as [s|] eqn:L; [destruct (forallb _ _)|].
  - eapply (statuses_view f d a); [exact H | eapply tidy_trans; [exact E0 | apply tidy_keys, keys_modify] | exact E | |];
      rewrite found_modify, L; destruct (Nat.eqb_spec f (s_file (n_span n))) as [->|]; auto; cbn; unfold record_of; [rewrite <- A | rewrite <- B]; unfold found; now rewrite L.
  - eapply (statuses_view f d a); eauto.
  - eapply (statuses_view f d a); eauto.
Qed.
Lemma handle_timeout_view f d V V' : handle_timeout V = Ok V' -> view f d V -> ctx f d V' /\ VS f (d_uri d) V' /\ VD f (d_uri d) V' /\ VP f (d_uri d) V'.
Proof.
  unfold handle_timeout. intros H (C & S & D & P).
  set (l := map _ (v_status V)) in H. set (ds := flat_map _ (v_status V)) in H.
  assert (T : tidy (v_status V) l) by (apply tidy_keys; unfold keys, l; now rewrite map_map).
  assert (FO : lookup f l = option_map (fun s => mkfs (t_type s) (map timeout_status (t_statuses s)) (t_diags s) (t_expls s)) (lookup f (v_status V))).
  { unfold l. clear. induction (v_status V) as [|[i s] k IH]; cbn [map]; auto. rewrite !lookup_cons. cbn. destruct (Nat.eqb i f); auto. }
  okbind H.
  assert (K : forall V0 V1, add_diagnostics ds V0 = Ok V1 -> ctx f d V0 -> (lookup f (v_status V0) = None -> VS f (d_uri d) V0) -> VD f (d_uri d) V0 -> VP f (d_uri d) V0 ->
    ctx f d V1 /\ (lookup f (v_status V1) = None -> VS f (d_uri d) V1) /\ VD f (d_uri d) V1 /\ VP f (d_uri d) V1).
  { clear. induction ds as [|g ds IH]; cbn; intros V0 V1 E C N D P. inv E; auto. okbind E. eapply (IH a V1); auto; clear IH E.
    - eapply ctx_grows; [eapply add_diagnostic_grows; eauto | auto].
    - unfold lsp_add_diagnostic in E0. intros L. destruct (publish_files _ _ _ E0) as (_ & SE). rewrite SE in L. cbn in L.
      pose proof (lookup_tidy _ _ _ (tidy_entry _ _ _) L) as L0.
      destruct (publish_diagnostics_view f d _ _ E0) as (_ & Q & _).
      + apply ctx_status; auto using tidy_entry.
      + intros _. apply VD_same; auto. rewrite (none_record f V0 L0). unfold found. now rewrite L.
      + apply Q. apply VS_same; auto; rewrite (none_record f V0 L0); unfold found; now rewrite L.
    - destruct (publish_diagnostics_view f d _ _ E0) as (Q & _); auto; [apply ctx_status; auto using tidy_entry|]. cbn. intros L.
      pose proof (lookup_tidy _ _ _ (tidy_entry _ _ _) L) as L0. apply VD_same; auto. rewrite (none_record f V0 L0). unfold found. now rewrite L.
    - destruct (publish_diagnostics_view f d _ _ E0) as (_ & _ & Q); [apply ctx_status; auto using tidy_entry| |].
      + cbn. intros L. pose proof (lookup_tidy _ _ _ (tidy_entry _ _ _) L) as L0. apply VD_same; auto. rewrite (none_record f V0 L0). unfold found. now rewrite L.
      + apply Q. apply VP_same; auto. rewrite found_entry. unfold record_of. destruct (Nat.eqb_spec f (s_file (g_span g))) as [->|]; auto. }
  destruct (K _ _ E) as (C1 & N1 & D1 & P1).
  - now apply ctx_status.
  - cbn. rewrite FO. intros L. destruct (lookup f (v_status V)) eqn:L0; [discriminate|]. apply VS_same; auto; rewrite (none_record f V L0); unfold found; rewrite FO; reflexivity.
  - apply VD_same; auto. unfold record_of, found. rewrite FO. destruct (lookup f (v_status V)); auto.
  - apply VP_same; auto. unfold record_of, found. rewrite FO. destruct (lookup f (v_status V)); auto.
  - pose proof (ctx_grows _ _ _ _ (publish_statuses_grows _ _ H) C1). destruct (publish_statuses_view f d _ _ H C1 N1) as (A & B & Q). auto.
Qed.

(** Stages *)
Definition stage_view (f : nat) (d : docid) (m : stage) : Prop := forall V' e, m = Ok (V', e) -> view f d V'.
Lemma andthen_view f d m k : stage_view f d m -> (forall V, view f d V -> stage_view f d (k V)) -> stage_view f d (andthen m k).
Proof. intros Hm Hf V' e H. destruct (andthen_ok _ _ _ _ H) as [(V1 & E & F) | (x & E & _)]; [eapply Hf; eauto | eauto]. Qed.
Lemma good_view f d m : (forall V', m = Ok V' -> view f d V') -> stage_view f d (good m).
Proof. intros H V' e E. apply good_ok in E as (E & _). auto. Qed.
Lemma raise_view f d e V : view f d V -> stage_view f d (raise e V).
Proof. intros W V' e' H. apply raise_ok in H as (-> & _). exact W. Qed.
Lemma done_view f d e V : view f d V -> stage_view f d (Ok (V, e)).
Proof. intros W V' e' H. now inv H. Qed.
Lemma add_or_throw_view f d l : forall V, view f d V -> stage_view f d (add_or_throw_all l V).
Proof.
  induction l as [|g l IH]; intros V W; cbn [add_or_throw_all]. now apply done_view. apply andthen_view; auto. unfold lsp_add_or_throw.
  destruct (_ || _). now apply done_view. apply good_view. intros. eapply add_diagnostic_view; eauto.
Qed.
Lemma verify_unit_view f d R n u V : view f d V -> stage_view f d (verify_unit R n u V).
Proof.
  intros W. unfold verify_unit. apply andthen_view; [now apply raise_view|]. clear V W. intros V W.
  apply andthen_view; [apply good_view; intros; eapply set_ongoing_view; eauto|]. clear V W. intros V W.
  apply andthen_view; [now apply add_or_throw_view|]. clear V W. intros V W.
  apply andthen_view; [apply good_view; intros V' H; eapply core_view; [exact H | exact W]|]. clear V W. intros V W.
  apply andthen_view; [now apply raise_view|]. clear V W. intros V W.
  destruct (u_solved u) as [r|e]; [|now apply (raise_view f d (Some e))].
  apply andthen_view; [apply good_view; intros; eapply result_view; eauto|]. clear V W. intros V W. destruct r as [| |[]]; now apply done_view.
Qed.
Lemma verify_all_view f d R l : forall n V, view f d V -> stage_view f d (verify_all R n l V).
Proof.
  induction l as [|u l IH]; intros n V W; cbn [verify_all]. now apply done_view. apply andthen_view; auto. now apply verify_unit_view.
Qed.
Lemma view_builtins f d V fs : view f d V -> record_of f V = no_status -> add_builtins builtins (v_files V) = Ok fs -> view f d (with_files fs V).
Proof.
  intros ((N & U & fl & G & P) & S & D & _) E F. apply add_builtins_ok in F. assert (E' : record_of f (with_files fs V) = no_status) by exact E.
  destruct S as (r & (o & SA & ->) & SB). destruct D as (o' & DA & DB). rewrite E in *. cbn in SA, DA. inv SA. inv DA.
  split; [|split; [|split]].
  - repeat split; auto; cbn [v_files with_files v_status]; rewrite ?F.
    + rewrite uris_app, uris_builtin, app_nil_r. exact U.
    + exists fl. split; auto. unfold get_file in *. destruct f; [discriminate|]. destruct (nth_error (v_files V) f) eqn:NE; [|discriminate].
      rewrite nth_error_app1 by (apply nth_error_Some; congruence). now rewrite NE.
  - exists []. rewrite E'. split; [exists []; auto | exact SB].
  - exists []. rewrite E'. split; auto.
  - left. now rewrite E'.
Qed.
Lemma verify_main_view f d R V : view f d V -> record_of f V = no_status -> stage_view f d (verify_main R V).
Proof.
  intros W E V' e H. unfold verify_main in H. apply andthen_ok in H as [(V1 & E1 & H) | (x & E1 & ->)]; apply raise_ok in E1 as (-> & _); auto.
  apply andthen_ok in H as [(V1 & E1 & H) | (x & E1 & ->)]; apply good_ok in E1 as (E1 & X); [|discriminate]. okbind E1. inv E1. pose proof (view_builtins _ _ _ _ W E E0) as W1. clear W E E0.
  revert V' e H. change (stage_view f d (let!! V := add_or_throw_all (r_warn R) (with_files a V) in
  let!! V := raise (r_front R) V in
  let!! V := good (register_all (r_units R) V) in
  let!! V := good (match r_expl R with [] => Ok V | l => lsp_add_explanation l V end) in
  let!! V := good (add_diagnostics (r_mid_diags R) V) in
  let!! V := raise (r_mid R) V in
  match r_gen R with
  | inr e => raise (Some e) V
  | inl g =>
      let!! V := good (register_all g V) in
      if r_quiet R then Ok (V, None)
      else
        let!! V := raise (r_depgraph R) V in
        verify_all R 0 (filter task (r_units R ++ g)) V
  end)).
  revert W1. generalize (with_files a V). clear. intros V W.
  apply andthen_view; [now apply add_or_throw_view|]. clear V W. intros V W.
  apply andthen_view; [now apply raise_view|]. clear V W. intros V W.
  apply andthen_view; [apply good_view; intros; eapply register_all_view; eauto|]. clear V W. intros V W.
  apply andthen_view; [apply good_view; intros V' H; eapply core_view; [exact H | exact W]|]. clear V W. intros V W.
  apply andthen_view; [apply good_view; intros; eapply add_diagnostics_view; eauto|]. clear V W. intros V W.
  apply andthen_view; [now apply raise_view|]. clear V W. intros V W.
  destruct (r_gen R) as [g|e]; [|now apply (raise_view f d (Some e))].
  apply andthen_view; [apply good_view; intros; eapply register_all_view; eauto|]. clear V W. intros V W.
  destruct (r_quiet R); [now apply done_view|]. apply andthen_view; [now apply raise_view|]. intros. now apply verify_all_view.
Qed.
Lemma view_reply f d V id r : view f d V -> view f d (send [MReply id r] V).
Proof.
  intros (C & S & D & P).
  assert (ES : shown_status (d_uri d) (v_sent V ++ [MReply id r]) = shown_status (d_uri d) (v_sent V)) by (unfold shown_status; now rewrite fold_left_app).
  assert (ED : shown_diags (d_uri d) (v_sent V ++ [MReply id r]) = shown_diags (d_uri d) (v_sent V)) by (unfold shown_diags; now rewrite fold_left_app).
  assert (EP : shown_expls (d_uri d) (v_sent V ++ [MReply id r]) = shown_expls (d_uri d) (v_sent V)) by (unfold shown_expls; now rewrite fold_left_app).
  split; [exact C|]. unfold VS, VD, VP in *. cbn [v_sent send]. rewrite ES, ED, EP. auto.
Qed.
Lemma handle_result_view id f0 e f d V V' : handle_result id f0 e V = Ok V' -> view f d V -> view f d V'.
Proof.
  intros H W. assert (K : (let? V := handle_timeout V in let? V := lsp_set_type f0 FTimeout V in Ok (send [MReply id RepOk] V)) = Ok V' -> view f d V').
  { clear H. intros H. okbind H. okbind H. inv H. apply view_reply. eapply set_type_view; eauto. eapply handle_timeout_view; eauto. }
  destruct e as [[g|[]| |]|]; cbn in H; auto; try (inv H; now apply view_reply).
  okbind H. okbind H. inv H. apply view_reply. eapply set_type_view; eauto. eapply add_diagnostic_view; eauto.
Qed.

(** Messages are about files with a record. *)
Definition uri_of (m : message) : option string := match m with MReply _ _ => None | MDiag d _ | MStatus d _ _ | MPre d _ => Some (d_uri d) end.
Definition heard (V : lserver) : Prop := forall m u, In m (v_sent V) -> uri_of m = Some u ->
  exists id fl d, In id (keys (v_status V)) /\ get_file id (v_files V) = Ok fl /\ f_path fl = PLsp d /\ d_uri d = u.
Lemma heard_grows V V' : grows V V' -> heard V -> heard V'.
Proof.
  intros (_ & _ & FE & (l & SE & A) & _ & T) H m u I U. rewrite SE in I. apply in_app_or in I as [I|I].
  - destruct (H _ _ I U) as (id & fl & d & X & Y). exists id, fl, d. rewrite FE. split; auto.
  - rewrite Forall_forall in A. specialize (A _ I). destruct m; cbn in A, U; try discriminate; destruct A as (id & fl & X & Y & Z); inv U; exists id, fl, d; rewrite FE; auto.
Qed.
Lemma heard_files V fs : heard V -> (forall id fl d, get_file id (v_files V) = Ok fl -> f_path fl = PLsp d -> exists fl' d', get_file id fs = Ok fl' /\ f_path fl' = PLsp d' /\ d_uri d' = d_uri d) ->
  heard (with_files fs V).
Proof.
  intros H K m u I U. destruct (H _ _ I U) as (id & fl & d & X & Y & Z & T). destruct (K _ _ _ Y Z) as (fl' & d' & A & B & C). exists id, fl', d'. repeat split; auto. congruence.
Qed.
Lemma get_file_app id fs l fl : get_file id fs = Ok fl -> get_file id (fs ++ l) = Ok fl.
Proof.
  destruct id; [discriminate|]. cbn. intros H. destruct (nth_error fs id) eqn:E; [|discriminate]. rewrite nth_error_app1 by (apply nth_error_Some; congruence). now rewrite E.
Qed.
Lemma replace_get d t fs : forall fs', replace_uri (d_uri d) (mkfile (PLsp d) t) fs = Some fs' -> forall i fl e, nth_error fs i = Some fl -> f_path fl = PLsp e ->
  exists fl' e', nth_error fs' i = Some fl' /\ f_path fl' = PLsp e' /\ d_uri e' = d_uri e.
Proof.
  induction fs as [|g fs IH]; cbn; intros fs' H i fl e N P; [discriminate|]. destruct (has_uri (d_uri d) g) eqn:G.
  - inv H. destruct i; cbn in N; [|eauto]. inv N. apply has_uri_true in G as (e' & P' & U). rewrite P in P'. inv P'. eexists _, _. cbn. repeat split; eauto.
  - destruct (replace_uri _ _ fs) as [fs1|] eqn:R; [|discriminate]. cbn in H. inv H. destruct i; cbn in N |- *. inv N; eauto. eapply (IH _ eq_refl); eauto.
Qed.
Lemma update_get d t fs fs' : add_or_update d t fs = Ok fs' -> forall id fl e, get_file id fs = Ok fl -> f_path fl = PLsp e ->
  exists fl' e', get_file id fs' = Ok fl' /\ f_path fl' = PLsp e' /\ d_uri e' = d_uri e.
Proof.
  unfold add_or_update. intros H id fl e G P. destruct (replace_uri _ _ fs) as [fs1|] eqn:R.
  - inv H. destruct id; [discriminate|]. cbn in *. destruct (nth_error fs id) eqn:N; [|discriminate]. inv G.
    destruct (replace_get _ _ _ _ R _ _ _ N P) as (fl' & e' & A & B). exists fl', e'. rewrite A. auto.
  - apply add_file_ok in H as (-> & _). exists fl, e. split; auto. now apply get_file_app.
Qed.
(** The invariant of servers *)
Definition fine (we : bool) (V : lserver) : Prop := v_werr V = we /\ NoDup (keys (v_status V)) /\ heard V.
Lemma fine_grows we V V' : grows V V' -> fine we V -> fine we V'.
Proof. intros G (A & B & C). pose proof G as (_ & W & _ & _ & T & _). repeat split; [congruence | auto | eapply heard_grows; eauto]. Qed.
Lemma handle_notification_fine we n V V' : handle_notification n V = Ok V' -> fine we V -> fine we V'.
Proof.
  intros H F. assert (K : forall d t fs, add_or_update d t (v_files V) = Ok fs -> fine we (with_files fs V)).
  { intros d t fs E. destruct F as (A & B & C). repeat split; auto. apply heard_files; auto. eapply update_get; eauto. }
  destruct n as [d lang t|d ts|u| |]; cbn in H.
  - destruct (String.eqb lang "heyvl"); [|now inv H]. okbind H. inv H. eauto.
  - destruct ts as [|t [|]]; try discriminate. okbind H. inv H. eauto.
  - destruct (find_file _ _); [|discriminate]. eapply fine_grows; [eapply clear_grows; eauto | auto].
  - now inv H.
  - discriminate.
Qed.
Lemma handle_all_fine we q : forall V V', handle_all q V = Ok V' -> fine we V -> fine we V'.
Proof. induction q as [|n q IH]; cbn; intros V V' H F. now inv H. okbind H. eauto using handle_notification_fine. Qed.
Lemma fine_reply we V id r : fine we V -> fine we (send [MReply id r] V).
Proof.
  intros (A & B & C). repeat split; auto. intros m u I U. cbn in I. apply in_app_or in I as [I|[<-|[]]]; [|discriminate]. exact (C _ _ I U).
Qed.
Lemma run_request_fine we W n c id d V V' : run_request W n c id d V = Ok V' -> fine we V -> fine we V'.
Proof.
  unfold run_request. intros H F. destruct (find_file _ _) as [f|]; [|discriminate]. okbind H. okbind H. okbind H. destruct a1 as [V1 e].
  apply clear_grows in E. apply (fine_grows we) in E; auto. assert (F1 : fine we (seeing d (f_source a0) a)) by exact E.
  apply handle_result_grows in H as (V2 & r & G & ->). apply fine_reply. eapply fine_grows; [exact G|].
  apply verify_with_limits_grows in E1 as [(G1 & _) | (fs & B & G1)].
  - eapply fine_grows; eauto.
  - eapply fine_grows; [exact G1|]. destruct F1 as (A1 & A2 & A3). repeat split; auto. apply heard_files; auto. apply add_builtins_ok in B as ->.
    intros i fl dd X Y. exists fl, dd. split; auto. now apply get_file_app.
Qed.
Lemma process_fine we W c L L' : process W c L = Ok L' -> fine we (l_server L) -> fine we (l_server L').
Proof.
  unfold process. intros H F. okbind H. okbind H. inv H. cbn. eapply handle_all_fine; eauto. destruct (l_active L) as [[[n id] [d|]]|].
  - eapply run_request_fine; eauto.
  - discriminate.
  - now inv E.
Qed.
Lemma lstep_fine we W L i L' : lstep W L i = Ok L' -> fine we (l_server L) -> fine we (l_server L').
Proof.
  unfold lstep, start_task. intros H F. okbind H.
  assert (F1 : fine we (l_server a)). { destruct (_ && _); [eapply process_fine; eauto | now inv E]. }
  destruct (fst i) as [n|id d|id|id|id|].
  - destruct (l_active a); [now inv H|]. okbind H. inv H. eapply handle_notification_fine; eauto.
  - okbind H. inv H. eapply (process_fine we) in E0; eauto.
  - okbind H. inv H. eapply (process_fine we) in E0; eauto.
  - okbind H. inv H. eapply (process_fine we) in E0; eauto. cbn. now apply fine_reply.
  - now inv H.
  - discriminate.
Qed.
Lemma lrun_fine we W l : forall L L', lrun W L l = Ok L' -> fine we (l_server L) -> fine we (l_server L').
Proof. induction l as [|i l IH]; cbn; intros L L' H F. now inv H. okbind H. eauto using lstep_fine. Qed.
Lemma start_fine we : fine we (l_server (lstart we)).
Proof. repeat split. constructor. intros m u []. Qed.

(** A request *)
Lemma run_request_view we W n c id d V V' l f : run_request W n c id d V = Ok V' -> holds V l -> fine we V -> find_file (is_doc d) (v_files V) = Some f -> view f d V'.
Proof.
  unfold run_request. intros H (NU & _) (_ & NK & HE) F. rewrite F in H. apply find_file_ok in F as (fl & G & P & _). apply is_doc_true in P.
  okbind H. pose proof (clear_grows _ _ _ E) as GR. pose proof (clear_record _ _ _ E) as RE.
  assert (C0 : ctx f d V) by (repeat split; eauto).
  assert (W0 : view f d a).
  { assert (Z : lookup f (v_status V) = None -> forall m, In m (v_sent V) -> uri_of m <> Some (d_uri d)).
    { intros L m I U. destruct (HE _ _ I U) as (j & fl' & d' & X & Y & Q & T). apply lookup_keys in L. apply L. replace f with j; auto. eapply (file_unique _ NU j f); eauto. }
    assert (ZS : lookup f (v_status V) = None -> VS f (d_uri d) V).
    { intros L. exists []. rewrite (none_record _ _ L). split; [exists []; auto|]. rewrite shown_status_pick. apply last_pick_none. intros m I. specialize (Z L m I).
      destruct m; cbn in *; auto. destruct (String.eqb_spec (d_uri d0) (d_uri d)); congruence. }
    assert (ZD : lookup f (v_status V) = None -> VD f (d_uri d) V).
    { intros L. exists []. rewrite (none_record _ _ L). split; auto. rewrite shown_diags_pick. apply last_pick_none. intros m I. specialize (Z L m I).
      destruct m; cbn in *; auto. destruct (String.eqb_spec (d_uri d0) (d_uri d)); congruence. }
    unfold clear_reported in E. okbind E.
    set (V1 := with_status (modify f (fun _ => no_status) (v_status V)) V) in *.
    assert (C1 : ctx f d V1) by (apply ctx_status; auto; apply tidy_keys, keys_modify).
    assert (R1 : record_of f V1 = no_status). { unfold record_of, V1. cbn. rewrite found_modify, Nat.eqb_refl. now destruct (lookup f (v_status V)). }
    assert (L1 : lookup f (v_status V1) = None -> lookup f (v_status V) = None).
    { unfold V1. cbn. rewrite lookup_modify, Nat.eqb_refl. now destruct (lookup f (v_status V)). }
    destruct (publish_diagnostics_view f d _ _ E0 C1) as (D2 & S2 & _).
    { intros L. apply L1 in L. apply VD_same; auto. unfold record_of in R1. cbn in R1. rewrite R1, (none_record _ _ L). reflexivity. }
    pose proof (ctx_grows _ _ _ _ (publish_diagnostics_grows _ _ E0) C1) as C2.
    destruct (publish_files _ _ _ E0) as (FE & SE).
    destruct (publish_statuses_view f d _ _ E C2) as (S3 & D3 & P3).
    { intros L. rewrite SE in L. apply L1 in L. apply S2. apply VS_same; auto; unfold record_of in R1; cbn in R1; rewrite R1, (none_record _ _ L); reflexivity. }
    split; [eapply ctx_grows; eauto|]. split; auto. split; auto. left. rewrite RE. reflexivity. }
  okbind H. okbind H. destruct a1 as [V1 e]. eapply handle_result_view; [exact H|].
  assert (W1 : view f d (seeing d (f_source a0) a)) by exact W0. assert (R1 : record_of f (seeing d (f_source a0) a) = no_status) by exact RE.
  unfold verify_with_limits in E1. destruct (r_early _); [now inv E1|]. okbind E1. destruct a1 as [V2 e2]. injection E1 as <- _. eapply verify_main_view; eauto.
Qed.

(** Ranges of what is shown *)
Lemma ranged_exact {A} V d fl f (sp : A -> span) (rg : A -> range) l : get_file f (v_files V) = Ok fl -> f_path fl = PLsp d ->
  (forall a, In a l -> s_file (sp a) = f /\ text_range (f_source fl) (sp a) (rg a)) -> forall r, rendered V sp l r -> r = map (fun a => (rg a, a)) l.
Proof.
  intros G P H r (o & E & ->). revert o E. induction l as [|a l IH]; cbn; intros o E. inv E; reflexivity.
  okbind E. okbind E. inv E. cbn. rewrite <- (IH (fun x I => H x (or_intror I)) _ eq_refl). unfold ranged in E0. destruct (H a (or_introl eq_refl)) as (F & T).
  rewrite <- F in G. rewrite (to_lsp_range _ _ _ _ _ G P T) in E0. cbn in E0. inv E0. reflexivity.
Qed.
Lemma insert_span_new p s l : ~ In p (map fst l) -> insert_span p s l = l ++ [(p, s)].
Proof.
  induction l as [|[q r] l IH]; cbn; auto. intros H. destruct (span_eqb q p) eqn:E. apply span_eqb_eq in E. tauto. rewrite IH; auto.
Qed.
Lemma by_span_distinct l : NoDup (map (fun p => n_span (fst p)) l) -> by_span l = map (fun p => (n_span (fst p), snd p)) l.
Proof.
  unfold by_span. enough (K : forall acc, NoDup (map fst acc ++ map (fun p => n_span (fst p)) l) ->
    fold_left (fun acc p => insert_span (n_span (fst p)) (snd p) acc) l acc = acc ++ map (fun p : uname * status => (n_span (fst p), snd p)) l) by (intros H; apply (K []); exact H).
  induction l as [|p l IH]; cbn; intros acc N. now rewrite app_nil_r.
  rewrite insert_span_new, IH.
  - now rewrite <- app_assoc.
  - rewrite map_app. cbn. rewrite <- app_assoc. exact N.
  - intros I. apply NoDup_remove_2 in N. apply N, in_or_app. auto.
Qed.
