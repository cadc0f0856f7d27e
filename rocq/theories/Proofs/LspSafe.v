(** The language server does not panic with well-behaved clients and verifiers. *)
From Coq Require Import Bool List String ZArith NArith Arith Lia.
From Verif.Model Require Import Syntax Driver LspServer.
From Verif.Spec Require Import LspSpec.
From Verif.Proofs Require Import LspBasic LspSession.
Import ListNotations.

Definition span_in (n : nat) (s : span) : Prop := 1 <= s_file s <= n /\ s_start s <= s_end s.
Definition status_in (n : nat) (p : nat * fstatus) : Prop :=
  1 <= fst p <= n /\ Forall (fun q => span_in n (n_span (fst q))) (t_statuses (snd p)) /\
  Forall (fun g => span_in n (g_span g)) (t_diags (snd p)) /\ Forall (fun x => span_in n (x_span x)) (t_expls (snd p)).
Definition sane (V : lserver) : Prop := Forall (status_in (List.length (v_files V))) (v_status V).

Lemma here_in f n s : here f s -> 1 <= f <= n -> span_in n s.
Proof. intros (A & B) C. split; lia. Qed.
Lemma get_file_total id fs : 1 <= id <= List.length fs -> exists f, get_file id fs = Ok f.
Proof.
  intros H. destruct id as [|n]; [lia|]. cbn. destruct (nth_error fs n) eqn:E; eauto. apply nth_error_None in E. lia.
Qed.
Lemma to_lsp_total fs s : span_in (List.length fs) s -> exists o, to_lsp fs s = Ok o.
Proof.
  intros (A & B). unfold to_lsp. destruct (get_file_total _ _ A) as (f & ->). cbn [rbind]. unfold char_span.
  destruct (Nat.leb_spec (s_start s) (s_end s)); [|lia]. cbn [rbind]. eauto.
Qed.
Lemma rmap_total {A B} (f : A -> res B) l : Forall (fun a => exists b, f a = Ok b) l -> exists r, rmap f l = Ok r.
Proof. induction 1 as [|a l [b E] _ [r F]]; cbn; eauto. rewrite E. cbn. rewrite F. cbn. eauto. Qed.
Lemma ranged_total {A} fs (sp : A -> span) l : Forall (fun a => span_in (List.length fs) (sp a)) l -> exists r, rmap (ranged fs sp) l = Ok r.
Proof.
  intros H. apply rmap_total. eapply Forall_impl; [|exact H]. intros a I. unfold ranged. destruct (to_lsp_total _ _ I) as (o & ->). cbn. eauto.
Qed.
Lemma insert_span_spans n p s l : span_in n p -> Forall (fun q => span_in n (fst q)) l -> Forall (fun q => span_in n (fst q)) (insert_span p s l).
Proof.
  intros P. induction 1 as [|[q r] l Q Q0 IH]; cbn.
  - constructor; auto.
  - cbn in Q. destruct (span_eqb q p); constructor; auto.
Qed.
Lemma by_span_spans n l : Forall (fun q => span_in n (n_span (fst q))) l -> Forall (fun q => span_in n (fst q)) (by_span l).
Proof.
  unfold by_span. intros H. enough (K : forall acc, Forall (fun q : span * status => span_in n (fst q)) acc ->
    Forall (fun q => span_in n (fst q)) (fold_left (fun acc p => insert_span (n_span (fst p)) (snd p) acc) l acc)) by (apply K; constructor).
  induction H as [|p l P _ IH]; cbn; auto. intros acc A. apply IH. now apply insert_span_spans.
Qed.
Lemma publish_total mk V : sane V -> (forall d p, status_in (List.length (v_files V)) p -> exists m, mk d (snd p) (v_files V) = Ok m) ->
  exists V', publish mk V = Ok V'.
Proof.
  intros S M. unfold publish.
  destruct (rmap_total (fun p : nat * fstatus =>
    let? f := get_file (fst p) (v_files V) in
    match f_path f with
    | PBuiltin => Ok None
    | PLsp d => let? m := mk d (snd p) (v_files V) in Ok (Some m)
    end) (v_status V)) as (r & ->); [|cbn; eauto].
  eapply Forall_impl; [|exact S]. intros p P. destruct (get_file_total _ _ (proj1 P)) as (f & ->). cbn. destruct (f_path f) as [d|]; eauto.
  destruct (M d _ P) as (m & ->). cbn. eauto.
Qed.
Lemma publish_diagnostics_total V : sane V -> exists V', publish_diagnostics V = Ok V'.
Proof.
  intros S. apply publish_total; auto. intros d p (_ & _ & P & _). unfold diag_message. destruct (ranged_total _ g_span _ P) as (r & ->). cbn. eauto.
Qed.
Lemma publish_explanations_total V : sane V -> exists V', publish_explanations V = Ok V'.
Proof.
  intros S. apply publish_total; auto. intros d p (_ & _ & _ & P). unfold expl_message. destruct (ranged_total _ x_span _ P) as (r & ->). cbn. eauto.
Qed.
Lemma publish_statuses_total V : sane V -> exists V', publish_statuses V = Ok V'.
Proof.
  intros S. apply publish_total; auto. intros d p (_ & P & _). unfold status_message. apply by_span_spans in P.
  destruct (ranged_total _ fst _ P) as (r & ->). cbn. eauto.
Qed.

(** Recorded statuses *)
Lemma modify_forall (P : nat * fstatus -> Prop) id f l : (forall s, P (id, s) -> P (id, f s)) -> Forall P l -> Forall P (modify id f l).
Proof.
  intros H. induction 1 as [|[i s] l Q R IH]; cbn; auto. destruct (Nat.eqb_spec i id) as [->|]; constructor; auto.
Qed.
Lemma entry_forall (P : nat * fstatus -> Prop) id f l : (forall s, P (id, s) -> P (id, f s)) -> P (id, no_status) -> Forall P l -> Forall P (entry_or_default id f l).
Proof.
  intros H N F. unfold entry_or_default. destruct (lookup id l). now apply modify_forall. apply Forall_app. split; auto.
Qed.
Lemma lookup_cons id i s l : lookup id ((i, s) :: l) = if Nat.eqb i id then Some s else lookup id l.
Proof. unfold lookup. cbn. now destruct (Nat.eqb i id). Qed.
Lemma lookup_modify id f l i : lookup i (modify id f l) = if Nat.eqb i id then option_map f (lookup id l) else lookup i l.
Proof.
  induction l as [|[j s] l IH]; cbn [modify].
  - unfold lookup; cbn. now destruct (Nat.eqb i id).
  - destruct (Nat.eqb_spec j id) as [->|N].
    + rewrite !lookup_cons, Nat.eqb_refl, Nat.eqb_sym. destruct (Nat.eqb_spec i id); auto.
    + rewrite !lookup_cons, IH. apply Nat.eqb_neq in N. destruct (Nat.eqb i id) eqn:E; auto. apply Nat.eqb_eq in E. rewrite E, !N. reflexivity.
Qed.
Lemma lookup_snoc id i s l : lookup id (l ++ [(i, s)]) = match lookup id l with Some x => Some x | None => if Nat.eqb i id then Some s else None end.
Proof.
  induction l as [|[j r] l IH]. { cbn [app]. now rewrite lookup_cons. }
  cbn [app]. rewrite !lookup_cons, IH. now destruct (Nat.eqb j id).
Qed.
Definition found (id : nat) (l : list (nat * fstatus)) : fstatus := match lookup id l with Some s => s | None => no_status end.
Lemma lookup_entry id f l i : lookup i (entry_or_default id f l) = if Nat.eqb i id then Some (f (found id l)) else lookup i l.
Proof.
  unfold entry_or_default, found. destruct (lookup id l) eqn:E.
  - rewrite lookup_modify, E. reflexivity.
  - rewrite lookup_snoc, Nat.eqb_sym. destruct (Nat.eqb_spec i id) as [->|]. now rewrite E. now destruct (lookup i l).
Qed.
Lemma lookup_forall (P : nat * fstatus -> Prop) id l : (forall i, P (i, no_status) \/ i <> id) -> Forall P l -> P (id, found id l).
Proof.
  intros N F. unfold found. induction F as [|[i s] l Q F IH]. cbn. destruct (N id); tauto.
  rewrite lookup_cons. destruct (Nat.eqb_spec i id) as [->|]; auto.
Qed.

(** Registered names *)
Definition has (V : lserver) (n : uname) : Prop := In n (map fst (t_statuses (found (s_file (n_span n)) (v_status V)))).
Definition keeps (V V' : lserver) : Prop := forall n, has V n -> has V' n.
Lemma keeps_refl V : keeps V V.
Proof. intros n; auto. Qed.
Lemma keeps_trans a b c : keeps a b -> keeps b c -> keeps a c.
Proof. intros H K n I. auto. Qed.
Lemma span_eqb_eq a b : span_eqb a b = true <-> a = b.
Proof.
  unfold span_eqb. rewrite !andb_true_iff, !Nat.eqb_eq. destruct a, b; cbn. split; [intros [[-> ->] ->] | intros H; inv H]; auto.
Qed.
Lemma name_eqb_eq a b : name_eqb a b = true <-> a = b.
Proof.
  unfold name_eqb. rewrite andb_true_iff, String.eqb_eq, span_eqb_eq. destruct a, b; cbn. split; [intros [-> ->] | intros H; inv H]; auto.
Qed.
Lemma keeps_entry id f V : (forall s, incl (map fst (t_statuses s)) (map fst (t_statuses (f s)))) -> keeps V (with_status (entry_or_default id f (v_status V)) V).
Proof.
  intros H n. unfold has, found at 2. cbn. rewrite lookup_entry. destruct (Nat.eqb_spec (s_file (n_span n)) id) as [->|]; auto. intros I. now apply H.
Qed.
Lemma insert_status_names n s l l' : insert_status n s l = Some l' -> map fst l' = map fst l /\ In n (map fst l).
Proof.
  revert l'. induction l as [|[m r] l IH]; cbn; intros l' H; [discriminate|]. destruct (name_eqb m n) eqn:E.
  - inv H. apply name_eqb_eq in E. cbn. auto.
  - destruct (insert_status n s l); [|discriminate]. cbn in H. inv H. destruct (IH _ eq_refl) as (A & B). cbn. rewrite A. auto.
Qed.
Lemma insert_status_total n s l : In n (map fst l) -> exists l', insert_status n s l = Some l'.
Proof.
  induction l as [|[m r] l IH]; cbn; [contradiction|]. intros I. destruct (name_eqb m n) eqn:E; eauto.
  destruct I as [->|I]. assert (name_eqb n n = true) by now apply name_eqb_eq. congruence. destruct (IH I) as (l' & ->). cbn. eauto.
Qed.
Lemma update_status_names n s l l' : update_status n s l = Ok l' -> incl (map fst l) (map fst l') /\ In n (map fst l') /\ incl (map fst l') (n :: map fst l).
Proof.
  unfold update_status. destruct (insert_status n s l) as [k|] eqn:E.
  - intros H. inv H. apply insert_status_names in E as (A & B). rewrite A. repeat split; auto using incl_refl, incl_tl.
  - destruct s; intros H; inv H. rewrite map_app. cbn. repeat split; [apply incl_appl, incl_refl | apply in_or_app; cbn; auto |].
    intros x I. apply in_app_or in I. cbn in *. tauto.
Qed.
Lemma on_statuses_ok n st V l : on_statuses n st (v_status V) = Ok l -> span_in (List.length (v_files V)) (n_span n) -> sane V ->
  sane (with_status l V) /\ keeps V (with_status l V) /\ has (with_status l V) n.
Proof.
  unfold on_statuses. intros H I S. okbind H. inv H.
  replace (match lookup (s_file (n_span n)) (v_status V) with Some s => t_statuses s | None => [] end)
    with (t_statuses (found (s_file (n_span n)) (v_status V))) in E by (unfold found; destruct (lookup _ _); auto).
  apply update_status_names in E as (A & B & C). repeat split.
  - unfold sane in *. cbn. apply entry_forall; auto.
    + intros s (P & Q & R & T). repeat split; cbn in *; try lia; auto. apply Forall_forall. intros [m r] M.
      assert (N : In m (n :: map fst (t_statuses (found (s_file (n_span n)) (v_status V))))) by (apply C; apply in_map_iff; exists (m, r); auto).
      cbn. destruct N as [<-|N]; auto.
      assert (K : status_in (List.length (v_files V)) (s_file (n_span n), found (s_file (n_span n)) (v_status V))).
      { apply lookup_forall; auto. intros i. destruct (Nat.eq_dec i (s_file (n_span n))) as [->|]; auto. left. repeat split; cbn; auto; apply I. }
      destruct K as (_ & K & _). rewrite Forall_forall in K. apply in_map_iff in N as ([m' r'] & <- & N). apply (K _ N).
    + repeat split; cbn; auto; apply I.
  - intros m. unfold has, found at 2. cbn. rewrite lookup_entry. destruct (Nat.eqb_spec (s_file (n_span m)) (s_file (n_span n))) as [->|]; auto.
  - unfold has, found. cbn. rewrite lookup_entry, Nat.eqb_refl. cbn. exact B.
Qed.

(** Operations that succeed *)
Definition safe (V : lserver) (m : res lserver) : Prop := exists V', m = Ok V' /\ sane V' /\ keeps V V' /\ v_files V' = v_files V.
Lemma publish_sane mk V V' : publish mk V = Ok V' -> sane V -> sane V' /\ keeps V V' /\ v_files V' = v_files V.
Proof. intros H S. apply publish_status in H as (A & B & _). unfold sane, keeps, has. rewrite A, B. auto. Qed.
Lemma publish_safe mk V0 V : (forall W, sane W -> exists V', publish mk W = Ok V') -> sane V -> keeps V0 V -> v_files V = v_files V0 -> safe V0 (publish mk V).
Proof.
  intros T S K F. destruct (T _ S) as (V' & E). exists V'. destruct (publish_sane _ _ _ E S) as (A & B & C). repeat split; auto. eapply keeps_trans; eauto. congruence.
Qed.
Lemma safe_bind V m f : safe V m -> (forall V', sane V' -> keeps V V' -> v_files V' = v_files V -> safe V' (f V')) -> safe V (rbind m f).
Proof.
  intros (V1 & -> & S & K & F) H. cbn. destruct (H _ S K F) as (V2 & E & S2 & K2 & F2). exists V2. repeat split; auto. eapply keeps_trans; eauto. congruence.
Qed.
Lemma entry_sane id f V : 1 <= id <= List.length (v_files V) -> (forall s, status_in (List.length (v_files V)) (id, s) -> status_in (List.length (v_files V)) (id, f s)) ->
  sane V -> sane (with_status (entry_or_default id f (v_status V)) V).
Proof. intros I H S. apply entry_forall; auto. repeat split; cbn; auto; lia. Qed.
Lemma forall_snoc {A} (P : A -> Prop) l a : Forall P l -> P a -> Forall P (l ++ [a]).
Proof. intros. apply Forall_app. auto. Qed.
Lemma add_diagnostic_safe g V : sane V -> span_in (List.length (v_files V)) (g_span g) -> safe V (lsp_add_diagnostic g V).
Proof.
  intros S G. apply publish_safe; [apply publish_diagnostics_total | | | reflexivity].
  - apply entry_sane; auto. apply G. intros s (A & B & C & D). repeat split; cbn in *; try lia; auto. now apply forall_snoc.
  - apply keeps_entry. intros s. apply incl_refl.
Qed.
Lemma add_diagnostics_safe l : forall V, sane V -> Forall (fun g => span_in (List.length (v_files V)) (g_span g)) l -> safe V (add_diagnostics l V).
Proof.
  induction l as [|g l IH]; intros V S F; cbn [add_diagnostics].
  - exists V. repeat split; auto using keeps_refl.
  - inv F. apply safe_bind. now apply add_diagnostic_safe. intros V' S' _ E. apply IH; auto. now rewrite E.
Qed.
Lemma expl_fold_sane l V0 : forall st, Forall (fun x => span_in (List.length (v_files V0)) (x_span x)) l -> Forall (status_in (List.length (v_files V0))) st ->
  Forall (status_in (List.length (v_files V0))) (fold_left (fun st x => entry_or_default (s_file (x_span x)) (fun s => mkfs (t_type s) (t_statuses s) (t_diags s) (t_expls s ++ [x])) st) l st).
Proof.
  induction l as [|x l IH]; cbn; intros st F S; auto. inv F. apply IH; auto. apply entry_forall; auto.
  - intros s (A & B & C & D). repeat split; cbn in *; try lia; auto. now apply forall_snoc.
  - repeat split; cbn; auto; apply H1.
Qed.
Lemma expl_fold_keeps l V : forall st, keeps (with_status st V)
  (with_status (fold_left (fun st x => entry_or_default (s_file (x_span x)) (fun s => mkfs (t_type s) (t_statuses s) (t_diags s) (t_expls s ++ [x])) st) l st) V).
Proof.
  induction l as [|x l IH]; cbn; intros st. apply keeps_refl. eapply keeps_trans; [|apply IH].
  apply (keeps_entry (s_file (x_span x)) (fun s => mkfs (t_type s) (t_statuses s) (t_diags s) (t_expls s ++ [x])) (with_status st V)). intros s. apply incl_refl.
Qed.
Lemma add_explanation_safe l V : sane V -> Forall (fun x => span_in (List.length (v_files V)) (x_span x)) l -> safe V (lsp_add_explanation l V).
Proof.
  intros S G. apply publish_safe; [apply publish_explanations_total | | | reflexivity].
  - unfold sane. cbn. now apply expl_fold_sane.
  - pose proof (expl_fold_keeps l V (v_status V)) as K. destruct V; cbn in *. exact K.
Qed.
Lemma core_safe l V : sane V -> Forall (fun x => span_in (List.length (v_files V)) (x_span x)) l ->
  safe V (match l with [] => Ok V | e :: k => lsp_add_explanation (e :: k) V end).
Proof. intros S F. destruct l. exists V. repeat split; auto using keeps_refl. now apply add_explanation_safe. Qed.
Lemma update_total n st l : st = STodo \/ In n (map fst l) -> exists l', update_status n st l = Ok l'.
Proof.
  intros H. unfold update_status. destruct (insert_status n st l) eqn:E; eauto. destruct H as [->|H]; eauto.
  destruct (insert_status_total n st l H). congruence.
Qed.
Lemma on_statuses_total n st V : st = STodo \/ has V n -> exists l, on_statuses n st (v_status V) = Ok l.
Proof.
  intros H. unfold on_statuses.
  replace (match lookup (s_file (n_span n)) (v_status V) with Some s => t_statuses s | None => [] end)
    with (t_statuses (found (s_file (n_span n)) (v_status V))) by (unfold found; destruct (lookup _ _); auto).
  destruct (update_total n st (t_statuses (found (s_file (n_span n)) (v_status V)))) as (l & ->); auto. cbn. eauto.
Qed.
Lemma register_safe n k V : sane V -> span_in (List.length (v_files V)) (n_span n) ->
  safe V (lsp_register n k V) /\ (k = UProc true -> forall V', lsp_register n k V = Ok V' -> has V' n).
Proof.
  intros S G.
  assert (K : safe V (Ok (with_status (entry_or_default (s_file (n_span n)) (fun s => s) (v_status V)) V))).
  { eexists. split; [reflexivity|]. split; [|split; [|reflexivity]]. apply entry_sane; auto; apply G. apply keeps_entry. intros s. apply incl_refl. }
  destruct k as [[]| |]; cbn [lsp_register]; try (split; [exact K | discriminate]).
  destruct (on_statuses_total n STodo V) as (l & E); auto. destruct (on_statuses_ok _ _ _ _ E G S) as (A & B & C). rewrite E. cbn. split.
  - apply publish_safe; auto. apply publish_statuses_total.
  - intros _ V' H. apply publish_sane in H as (_ & H & _); auto.
Qed.
Lemma register_all_safe l : forall V, sane V -> Forall (fun u => span_in (List.length (v_files V)) (n_span (u_uname u))) l ->
  safe V (register_all l V) /\ forall V', register_all l V = Ok V' -> forall u, In u l -> u_ukind u = UProc true -> has V' (u_uname u).
Proof.
  induction l as [|u l IH]; intros V S F; cbn [register_all].
  - split; [exists V; repeat split; auto using keeps_refl | intros ? _ ? []].
  - inv F. destruct (register_safe _ (u_ukind u) V S H1) as (R & R'). split.
    + apply safe_bind; auto. intros V' S' _ E. apply IH; auto. now rewrite E.
    + intros V' H. okbind H. destruct R as (V1 & X & S1 & _ & F1). inv X. specialize (IH V1 S1). rewrite F1 in IH. destruct (IH H2) as (R2 & R2').
      intros w [<-|I] K; [|eauto]. destruct R2 as (V2 & X & _ & K2 & _). rewrite H in X. inv X. apply K2. auto.
Qed.
Lemma set_type_safe id ty V : sane V -> 1 <= id <= List.length (v_files V) -> safe V (lsp_set_type id ty V).
Proof.
  intros S I. apply publish_safe; [apply publish_statuses_total | | | reflexivity].
  - apply entry_sane; auto.
  - apply keeps_entry. intros s. apply incl_refl.
Qed.
Lemma set_ongoing_safe n V : sane V -> span_in (List.length (v_files V)) (n_span n) -> has V n -> safe V (lsp_set_ongoing n V).
Proof.
  intros S G H. unfold lsp_set_ongoing. destruct (on_statuses_total n SOngoing V) as (l & E); auto. rewrite E. cbn [rbind].
  destruct (on_statuses_ok _ _ _ _ E G S) as (A & B & C).
  assert (K : safe V (lsp_set_type (s_file (n_span n)) FOngoing (with_status l V))).
  { destruct (set_type_safe (s_file (n_span n)) FOngoing (with_status l V) A) as (V' & X & Y & Z & T). apply G.
    exists V'. repeat split; auto. eapply keeps_trans; eauto. }
  apply safe_bind; auto. intros V' S' _ F. apply publish_safe; auto using keeps_refl. apply publish_statuses_total.
Qed.
Lemma modify_sane id f V : (forall s, status_in (List.length (v_files V)) (id, s) -> status_in (List.length (v_files V)) (id, f s)) ->
  sane V -> sane (with_status (modify id f (v_status V)) V).
Proof. intros H S. now apply modify_forall. Qed.
Lemma keeps_modify id f V : (forall s, incl (map fst (t_statuses s)) (map fst (t_statuses (f s)))) -> keeps V (with_status (modify id f (v_status V)) V).
Proof.
  intros H n. unfold has, found. cbn. rewrite lookup_modify. destruct (Nat.eqb_spec (s_file (n_span n)) id) as [->|]; auto.
  destruct (lookup id (v_status V)); cbn; auto. intros I. now apply H.
Qed.
Lemma result_safe n l st V : sane V -> span_in (List.length (v_files V)) (n_span n) -> Forall (fun g => span_in (List.length (v_files V)) (g_span g)) l ->
  has V n -> safe V (lsp_result n l st V).
Proof.
  intros S G F H. unfold lsp_result. apply safe_bind. now apply add_diagnostics_safe. intros V1 S1 K1 F1.
  apply K1 in H. rewrite <- F1 in G. destruct (on_statuses_total n st V1) as (fl & E); auto. rewrite E. cbn [rbind].
  destruct (on_statuses_ok _ _ _ _ E G S1) as (A & B & C).
  assert (D : forall fl', fl' = fl \/ fl' = modify (s_file (n_span n)) (fun s => mkfs FDone (t_statuses s) (t_diags s) (t_expls s)) fl ->
    safe V1 (publish_statuses (with_status fl' V1))).
  { intros fl' [->| ->]; (apply publish_safe; [apply publish_statuses_total | | | reflexivity]); auto.
    - apply (modify_sane (s_file (n_span n)) (fun s => mkfs FDone (t_statuses s) (t_diags s) (t_expls s)) (with_status fl V1)); auto.
    - eapply keeps_trans; [exact B|]. apply (keeps_modify (s_file (n_span n)) (fun s => mkfs FDone (t_statuses s) (t_diags s) (t_expls s)) (with_status fl V1)).
      intros s. apply incl_refl. }
  destruct (lookup _ fl); [|auto]. destruct (forallb _ _); auto.
Qed.

(** Stages *)
Definition error_in (n : nat) (e : option verror) : Prop := match e with Some (VDiag g) => span_in n (g_span g) | Some VPanic => False | _ => True end.
Definition safe_stage (V : lserver) (m : stage) : Prop :=
  exists V' e, m = Ok (V', e) /\ sane V' /\ keeps V V' /\ v_files V' = v_files V /\ error_in (List.length (v_files V)) e.
Lemma good_safe V m : safe V m -> safe_stage V (good m).
Proof. intros (V' & -> & A & B & C). exists V', None. repeat split; auto. Qed.
Lemma raise_safe e V : sane V -> error_in (List.length (v_files V)) e -> safe_stage V (raise e V).
Proof. intros S E. exists V, e. destruct e as [[]|]; cbn in *; repeat split; auto using keeps_refl; try tauto; apply E. Qed.
Lemma andthen_safe V m f : safe_stage V m -> (forall V', m = Ok (V', None) -> sane V' -> keeps V V' -> v_files V' = v_files V -> safe_stage V' (f V')) -> safe_stage V (andthen m f).
Proof.
  intros (V1 & e & -> & A & B & C & D) H. cbn. destruct e as [x|].
  - exists V1, (Some x). repeat split; auto.
  - destruct (H _ eq_refl A B C) as (V2 & e & -> & A2 & B2 & C2 & D2). exists V2, e. rewrite <- C. repeat split; auto. eapply keeps_trans; eauto.
Qed.
Lemma ok_safe V e : sane V -> error_in (List.length (v_files V)) e -> safe_stage V (Ok (V, e)).
Proof. intros. exists V, e. repeat split; auto using keeps_refl. Qed.
Lemma add_or_throw_safe l : forall V, sane V -> Forall (fun g => span_in (List.length (v_files V)) (g_span g)) l -> safe_stage V (add_or_throw_all l V).
Proof.
  induction l as [|g l IH]; intros V S F; cbn [add_or_throw_all]. now apply ok_safe.
  inv F. apply andthen_safe.
  - unfold lsp_add_or_throw. destruct (_ || _). now apply ok_safe. now apply good_safe, add_diagnostic_safe.
  - intros V' _ S' _ E. apply IH; auto. now rewrite E.
Qed.
Lemma error_here_in f n e : error_here f e -> 1 <= f <= n -> error_in n (Some e).
Proof. destruct e; cbn; auto. intros. eapply here_in; eauto. Qed.
Lemma forall_here {A} (sp : A -> span) f n l : Forall (fun a => here f (sp a)) l -> 1 <= f <= n -> Forall (fun a => span_in n (sp a)) l.
Proof. intros H I. eapply Forall_impl; [|exact H]. intros a J. exact (here_in _ _ _ J I). Qed.
Lemma verify_unit_safe R n f u V : sane V -> 1 <= f <= List.length (v_files V) -> unit_here f u -> has V (u_uname u) -> safe_stage V (verify_unit R n u V).
Proof.
  intros S I (A & _ & B & C & D & E) H. apply Forall_app in B as (B & B'). unfold verify_unit.
  apply andthen_safe. { apply raise_safe; auto. destruct (r_limits R n); exact Logic.I. }
  intros V1 _ S1 K1 F1. rewrite <- F1 in I. apply andthen_safe. { apply good_safe, set_ongoing_safe; auto. exact (here_in _ _ _ A I). }
  intros V2 _ S2 K2 F2. rewrite <- F2 in I. apply andthen_safe. { apply add_or_throw_safe; auto. exact (forall_here g_span _ _ _ B I). }
  intros V3 _ S3 K3 F3. rewrite <- F3 in I. apply andthen_safe. { apply good_safe, core_safe; auto. exact (forall_here x_span _ _ _ C I). }
  intros V4 _ S4 K4 F4. rewrite <- F4 in I. apply andthen_safe. { apply raise_safe; auto. destruct (u_lower u); [|exact Logic.I]. exact (error_here_in _ _ _ (D _ eq_refl) I). }
  intros V5 _ S5 K5 F5. rewrite <- F5 in I.
  destruct (u_solved u) as [r|e].
  - apply andthen_safe. { apply good_safe, result_safe; auto. exact (here_in _ _ _ A I). exact (forall_here g_span _ _ _ B' I). now apply K5, K4, K3, K2, K1. }
    intros V6 _ S6 _ _. destruct r as [| |[]]; apply ok_safe; auto; exact Logic.I.
  - apply raise_safe; auto. exact (error_here_in _ _ _ (E _ eq_refl) I).
Qed.
Lemma verify_all_safe R f l : forall n V, sane V -> 1 <= f <= List.length (v_files V) -> Forall (unit_here f) l -> (forall u, In u l -> has V (u_uname u)) ->
  safe_stage V (verify_all R n l V).
Proof.
  induction l as [|u l IH]; intros n V S I F H; cbn [verify_all]. apply ok_safe; auto; exact Logic.I.
  inv F. apply andthen_safe. { eapply verify_unit_safe; eauto. apply H. cbn; auto. }
  intros V' _ S' K' E. apply IH; auto. now rewrite E. intros w W. apply K', H. cbn; auto.
Qed.
Lemma registered_span f n l : Forall (unit_here f) l -> 1 <= f <= n -> Forall (fun u => span_in n (n_span (u_uname u))) l.
Proof. intros H I. eapply Forall_impl; [|exact H]. intros u (A & _). exact (here_in _ _ _ A I). Qed.
Lemma span_mono {A} (sp : A -> span) n m l : n <= m -> Forall (fun a => span_in n (sp a)) l -> Forall (fun a => span_in m (sp a)) l.
Proof. intros L H. eapply Forall_impl; [|exact H]. intros a (B & C). split; lia. Qed.
Lemma sane_mono V V' : List.length (v_files V) <= List.length (v_files V') -> v_status V' = v_status V -> sane V -> sane V'.
Proof.
  intros L E S. unfold sane. rewrite E. eapply Forall_impl; [|exact S]. intros p (A & B & C & D).
  split; [lia|]. split; [|split]; eapply span_mono; eauto.
Qed.
Lemma verify_main_safe R f V : sane V -> 1 <= f <= List.length (v_files V) -> run_here f R -> (N.of_nat (List.length (v_files V) + builtins) <= 65535)%N ->
  exists V' e, verify_main R V = Ok (V', e) /\ sane V' /\ List.length (v_files V) <= List.length (v_files V') <= List.length (v_files V) + builtins /\
    error_in (List.length (v_files V')) e.
Proof.
  intros S I (E & W & X & U & G) B. unfold verify_main.
  assert (E1 : error_in (List.length (v_files V)) (r_parse R)). { destruct (r_parse R); [|exact Logic.I]. eapply error_here_in; eauto. }
  destruct (r_parse R) as [x|]. { exists V, (Some x). destruct x; cbn in E1 |- *; try tauto; repeat split; auto; lia || apply E1. }
  cbn [raise andthen rbind]. destruct (add_builtins_total _ _ B) as (fs & F). rewrite F. cbn [rbind good andthen].
  apply add_builtins_ok in F. assert (L : List.length fs = List.length (v_files V) + builtins) by now rewrite F, app_length, repeat_length.
  set (V0 := with_files fs V). assert (S0 : sane V0) by (apply (sane_mono V); auto; cbn; lia).
  assert (I0 : 1 <= f <= List.length (v_files V0)) by (cbn; lia).
  apply Forall_app in W as (W & W').
  match goal with |- exists V' e, ?m = _ /\ _ => enough (K : safe_stage V0 m) end.
  { destruct K as (V' & e & -> & A & _ & C & D). exists V', e. rewrite C. repeat split; auto; cbn; lia. }
  apply andthen_safe. { apply add_or_throw_safe; auto. exact (forall_here g_span _ _ _ W I0). }
  intros V1 _ S1 _ F1. rewrite <- F1 in I0. apply andthen_safe. { apply raise_safe; auto. destruct (r_front R); [|exact Logic.I]. eapply error_here_in; eauto. }
  intros V2 _ S2 _ F2. rewrite <- F2 in I0. destruct (register_all_safe (r_units R) V2 S2 (registered_span _ _ _ U I0)) as (Rg & Rg').
  apply andthen_safe. { now apply good_safe. }
  intros V3 E3 S3 _ F3. rewrite <- F3 in I0. apply good_ok in E3 as (E3 & _). specialize (Rg' _ E3).
  apply andthen_safe. { apply good_safe, core_safe; auto. exact (forall_here x_span _ _ _ X I0). }
  intros V4 _ S4 K4 F4. rewrite <- F4 in I0. apply andthen_safe. { apply good_safe, add_diagnostics_safe; auto. exact (forall_here g_span _ _ _ W' I0). }
  intros V5 _ S5 K5 F5. rewrite <- F5 in I0. apply andthen_safe. { apply raise_safe; auto. destruct (r_mid R); [|exact Logic.I]. eapply error_here_in; eauto. }
  intros V6 _ S6 K6 F6. rewrite <- F6 in I0. destruct (r_gen R) as [g|e].
  2:{ apply (raise_safe (Some e)); auto. eapply error_here_in; eauto. apply E. auto. }
  pose proof (G g eq_refl) as Hg. destruct (register_all_safe g V6 S6 (registered_span _ _ _ Hg I0)) as (Rgg & Rgg').
  apply andthen_safe. { now apply good_safe. }
  intros V7 E7 S7 K7 F7. rewrite <- F7 in I0. apply good_ok in E7 as (E7 & _). specialize (Rgg' _ E7).
  destruct (r_quiet R). { apply ok_safe; auto; exact Logic.I. }
  apply andthen_safe. { apply raise_safe; auto. destruct (r_depgraph R); [|exact Logic.I]. eapply error_here_in; eauto. apply E; auto. }
  intros V8 _ S8 K8 F8. rewrite <- F8 in I0.
  assert (HU : Forall (unit_here f) (r_units R ++ g)) by (apply Forall_app; auto).
  apply verify_all_safe with (f := f); auto.
  - apply Forall_forall. intros u IU. apply filter_In in IU as (IU & _). rewrite Forall_forall in HU. auto.
  - intros u IU. apply filter_In in IU as (IU & T). rewrite Forall_forall in HU. destruct (HU _ IU) as (_ & NR & _).
    assert (KU : u_ukind u = UProc true). { unfold task in T. destruct (u_ukind u); subst; auto; congruence. }
    apply in_app_or in IU as [IU|IU].
    + apply K8, K7, K6, K5, K4. now apply Rg'.
    + apply K8. now apply Rgg'.
Qed.
Lemma timeout_diags_in n s : Forall (fun q => span_in n (n_span (fst q))) (t_statuses s) -> Forall (fun g => span_in n (g_span g)) (timeout_diags s).
Proof.
  unfold timeout_diags. induction 1 as [|p l P _ IH]; cbn; auto. apply Forall_app. split; auto. destruct (snd p); repeat constructor; apply P.
Qed.
Lemma handle_timeout_safe V : sane V -> exists V', handle_timeout V = Ok V' /\ sane V' /\ v_files V' = v_files V.
Proof.
  intros S. unfold handle_timeout.
  set (l := map _ (v_status V)). set (ds := flat_map _ (v_status V)).
  assert (S1 : sane (with_status l V)).
  { unfold sane, l. cbn. apply Forall_forall. intros p I. apply in_map_iff in I as (q & <- & I). unfold sane in S. rewrite Forall_forall in S.
    destruct (S _ I) as (A & B & C & D). repeat split; cbn; auto; try lia. apply Forall_forall. intros r R. apply in_map_iff in R as (r' & <- & R).
    cbn. rewrite Forall_forall in B. now apply B. }
  assert (D : Forall (fun g => span_in (List.length (v_files V)) (g_span g)) ds).
  { apply Forall_forall. intros g I. apply in_flat_map in I as (q & I & J). unfold sane in S. rewrite Forall_forall in S.
    destruct (S _ I) as (_ & B & _). apply timeout_diags_in in B. rewrite Forall_forall in B. auto. }
  destruct (add_diagnostics_safe ds (with_status l V) S1 D) as (V1 & -> & S2 & _ & F2). cbn [rbind].
  destruct (publish_statuses_total V1 S2) as (V2 & E). destruct (publish_sane _ _ _ E S2) as (A & _ & B). exists V2. repeat split; auto. rewrite B, F2. reflexivity.
Qed.
Lemma clear_reported_safe id V : sane V -> exists V', clear_reported id V = Ok V' /\ sane V' /\ v_files V' = v_files V.
Proof.
  intros S. unfold clear_reported.
  assert (S1 : sane (with_status (modify id (fun _ => no_status) (v_status V)) V)).
  { apply modify_sane; auto. intros s (A & _). repeat split; cbn; auto; apply A. }
  destruct (publish_diagnostics_total _ S1) as (V1 & E). rewrite E. cbn [rbind]. destruct (publish_sane _ _ _ E S1) as (S2 & _ & F2).
  destruct (publish_statuses_total _ S2) as (V2 & E2). rewrite E2. destruct (publish_sane _ _ _ E2 S2) as (S3 & _ & F3).
  exists V2. repeat split; auto. rewrite F3, F2. reflexivity.
Qed.
Lemma handle_result_safe id f e V : sane V -> 1 <= f <= List.length (v_files V) -> error_in (List.length (v_files V)) e ->
  exists V', handle_result id f e V = Ok V' /\ sane V' /\ v_files V' = v_files V.
Proof.
  intros S I E.
  assert (T : exists V', (let? V := handle_timeout V in let? V := lsp_set_type f FTimeout V in Ok (send [MReply id RepOk] V)) = Ok V' /\ sane V' /\ v_files V' = v_files V).
  { destruct (handle_timeout_safe V S) as (V1 & -> & S1 & F1). cbn [rbind]. rewrite <- F1 in I.
    destruct (set_type_safe f FTimeout V1 S1 I) as (V2 & -> & S2 & _ & F2). cbn [rbind]. eexists. split; [reflexivity|]. split; auto. cbn. congruence. }
  destruct e as [[g|[]| |]|]; cbn [handle_result]; auto; try (eexists; split; [reflexivity|]; split; auto).
  destruct (add_diagnostic_safe g V S E) as (V1 & -> & S1 & _ & F1). cbn [rbind]. rewrite <- F1 in I.
  destruct (set_type_safe f FInvalid V1 S1 I) as (V2 & -> & S2 & _ & F2). cbn [rbind]. eexists. split; [reflexivity|]. split; auto. cbn. congruence.
Qed.
Lemma find_total fs p f : In f fs -> p f = true -> exists id, find_file p fs = Some id.
Proof.
  intros I P. unfold find_file. destruct (find_from 1 p fs) eqn:E; eauto. pose proof (find_from_none _ _ _ E _ I). congruence.
Qed.
Lemma get_file_bound id fs f : get_file id fs = Ok f -> 1 <= id <= List.length fs.
Proof.
  destruct id; cbn; [discriminate|]. destruct (nth_error fs id) eqn:E; [|discriminate]. intros _. assert (id < List.length fs) by (apply nth_error_Some; congruence). lia.
Qed.
Lemma run_request_safe W n c id d t l V : (forall n c f d t, run_here f (W n c f d t)) -> sane V -> holds V l -> latest (d_uri d) l = Some (d, t) ->
  (N.of_nat (List.length (v_files V) + builtins) <= 65535)%N ->
  exists V', run_request W n c id d V = Ok V' /\ sane V' /\ List.length (v_files V') <= List.length (v_files V) + builtins.
Proof.
  intros H S (A & B) T C. rewrite <- B in T. apply lookup_in in T as (f & I & P & _). apply is_doc_true in P. unfold run_request.
  destruct (find_total _ (is_doc d) _ I P) as (fid & F). rewrite F. apply find_file_ok in F as (fl & G & _ & _).
  destruct (clear_reported_safe fid V S) as (V1 & -> & S1 & F1). cbn [rbind]. rewrite F1, G. cbn [rbind]. apply get_file_bound in G as K.
  set (V2 := seeing d (f_source fl) V1). assert (S2 : sane V2) by exact S1. specialize (H n c fid d (f_source fl)). set (R := W n c fid d (f_source fl)) in *.
  assert (F2 : v_files V2 = v_files V) by exact F1.
  assert (X : exists V' e, verify_with_limits R V2 = Ok (V', e) /\ sane V' /\ List.length (v_files V) <= List.length (v_files V') <= List.length (v_files V) + builtins /\
    error_in (List.length (v_files V')) e).
  { unfold verify_with_limits. destruct (r_early R). { exists V2, (Some (VLimit l0)). rewrite F2. repeat split; auto; try lia; exact Logic.I. }
    destruct (verify_main_safe R fid V2) as (V' & e & -> & X & Y & Z); auto; rewrite ?F2; auto. cbn [rbind]. rewrite F2 in Y.
    destruct (r_hard R); eexists _, _; (split; [reflexivity|]); repeat split; auto; try lia; exact Logic.I. }
  destruct X as (V3 & e & -> & S3 & L3 & E3). cbn [rbind]. destruct (handle_result_safe id fid e V3 S3) as (V4 & -> & S4 & F4); auto; [lia|].
  exists V4. repeat split; auto. rewrite F4. lia.
Qed.

(** Notifications *)
Lemma handle_notification_safe n l rest V : sane V -> holds V l -> polite l (INotif n :: rest) -> (N.of_nat (List.length (v_files V) + 1) <= 65535)%N ->
  exists V', handle_notification n V = Ok V' /\ sane V'.
Proof.
  intros S (A & B) (P & _) L.
  assert (K : forall d t, exists fs, add_or_update d t (v_files V) = Ok fs).
  { intros d t. unfold add_or_update. destruct (replace_uri _ _ _); eauto. unfold add_file. destruct (N.leb_spec (N.of_nat (List.length (v_files V)) + 1) 65535); eauto. lia. }
  assert (U : forall d t fs, add_or_update d t (v_files V) = Ok fs -> sane (with_files fs V)).
  { intros d t fs E. apply (sane_mono V); auto. apply add_or_update_length in E. cbn. lia. }
  destruct n as [d lang t|d ts|u| |]; cbn.
  - destruct (String.eqb lang "heyvl"); eauto. destruct (K d t) as (fs & E). rewrite E. cbn. eauto.
  - destruct ts as [|t [|]]; try discriminate. destruct (K d t) as (fs & E). rewrite E. cbn. eauto.
  - rewrite <- B in P. destruct (lookup_uri u (v_files V)) as [[d t]|] eqn:E; [|congruence].
    apply lookup_in in E as (f & I & Q & _ & R). destruct (find_total _ (has_uri u) _ I) as (id & ->). { apply has_uri_true. eauto. }
    destruct (clear_reported_safe id V S) as (V' & -> & S' & _). eauto.
  - eauto.
  - contradiction.
Qed.
Lemma polite_app a : forall b rest, polite b (a ++ rest) <-> polite b a /\ polite (b ++ notifs a) rest.
Proof.
  induction a as [|i a IH]; intros b rest; cbn [app polite notifs flat_map].
  - rewrite app_nil_r. tauto.
  - destruct i; cbn [app]; fold (notifs a); rewrite ?IH; try tauto. rewrite <- app_assoc. cbn. tauto.
Qed.
Lemma notifs_map q : notifs (map INotif q) = q.
Proof. induction q as [|n q IH]; cbn; auto. unfold notifs in IH. now rewrite IH. Qed.
Lemma handle_all_safe q : forall V l, sane V -> holds V l -> polite l (map INotif q) -> (N.of_nat (List.length (v_files V) + List.length q) <= 65535)%N ->
  exists V', handle_all q V = Ok V' /\ sane V'.
Proof.
  induction q as [|n q IH]; intros V l S H P L; cbn [handle_all]. eauto.
  cbn [map] in P. cbn [List.length] in L. destruct (handle_notification_safe n l (map INotif q) V S H P) as (V1 & E & S1). lia.
  rewrite E. cbn [rbind]. destruct (handle_notification_ok _ _ _ _ E H) as (H1 & _ & _ & _ & B & _). apply IH with (l := l ++ [n]); auto. apply P. lia.
Qed.

(** The loop *)
Definition budget (L : lsp) : nat :=
  List.length (v_files (l_server L)) + match l_active L with Some _ => builtins | None => 0 end + List.length (l_queued L).
Definition safe_loop (pre : list input) (L : lsp) : Prop :=
  sane (l_server L) /\ budget L <= builtins * verifications pre + List.length (notifs pre) /\
  exists done, notifs pre = done ++ l_queued L /\ (l_active L = None -> l_queued L = []) /\ holds (l_server L) done /\ polite done (map INotif (l_queued L)) /\
    match l_active L with None => True | Some (_, _, Some d) => exists t, latest (d_uri d) done = Some (d, t) | Some (_, _, None) => False end.
Lemma process_safe W c L pre : (forall n c f d t, run_here f (W n c f d t)) -> safe_loop pre L ->
  (N.of_nat (builtins * verifications pre + List.length (notifs pre)) <= 65535)%N ->
  exists L', process W c L = Ok L' /\ safe_loop pre L' /\ l_active L' = None /\ l_queued L' = [].
Proof.
  intros H (S & B & dn & A & Q & C & P & D) K. unfold process. unfold budget in B.
  assert (X : exists V, match l_active L with
    | None => Ok (l_server L)
    | Some (n, id, Some d) => run_request W n c id d (l_server L)
    | Some (_, _, None) => Err "ServerError"
    end = Ok V /\ sane V /\ holds V dn /\ List.length (v_files V) + List.length (l_queued L) <= builtins * verifications pre + List.length (notifs pre)).
  { destruct (l_active L) as [[[n id] [d|]]|].
    - destruct D as (t & T). destruct (run_request_safe W n c id d t dn (l_server L)) as (V & E & S1 & L1); auto. lia.
      exists V. repeat split; auto; try (destruct (run_request_ok _ _ _ _ _ _ _ _ E C) as (? & ? & _ & X & _); apply X). lia.
    - contradiction.
    - exists (l_server L). repeat split; auto; try apply C. lia. }
  destruct X as (V & -> & S1 & C1 & L1). cbn [rbind]. destruct (handle_all_safe (l_queued L) V dn S1 C1 P) as (V2 & E & S2). lia. rewrite E. cbn [rbind].
  destruct (handle_all_ok _ _ _ _ E C1) as (C2 & _ & _ & _ & L2 & _).
  eexists. split; [reflexivity|]. split; [|auto]. split; [exact S2|]. split; [unfold budget; cbn -[builtins Nat.mul]; lia|].
  exists (notifs pre). cbn. rewrite app_nil_r. rewrite <- A in C2. repeat split; auto; apply C2.
Qed.
Lemma verifications_app a b : verifications (a ++ b) = verifications a + verifications b.
Proof. unfold verifications. now rewrite flat_map_app, app_length. Qed.
Lemma lstep_safe W L i pre rest : (forall n c f d t, run_here f (W n c f d t)) -> safe_loop pre L -> polite (notifs pre) (fst i :: rest) ->
  (N.of_nat (builtins * verifications (pre ++ [fst i]) + List.length (notifs (pre ++ [fst i]))) <= 65535)%N ->
  exists L', lstep W L i = Ok L' /\ safe_loop (pre ++ [fst i]) L'.
Proof.
  intros H S P K. destruct i as [i fin]. cbn [fst snd] in *. unfold lstep. cbn [fst snd].
  assert (K0 : (N.of_nat (builtins * verifications pre + List.length (notifs pre)) <= 65535)%N).
  { rewrite verifications_app, notifs_app, app_length in K. nia. }
  assert (X : exists L', (if fin && match l_active L with Some _ => true | None => false end then process W false L else Ok L) = Ok L' /\ safe_loop pre L').
  { destruct (fin && _); [|eauto]. destruct (process_safe W false L pre) as (L' & E & S' & _); eauto. }
  destruct X as (L1 & -> & S1). cbn [rbind]. clear L S. rename L1 into L. unfold start_task.
  destruct i as [n|id d|id|id|id|].
  - destruct S1 as (S & B & dn & A & Q & C & PQ & D). destruct (l_active L) as [ac|] eqn:AC.
    + eexists. split; [reflexivity|]. split; [exact S|]. split.
      { unfold budget in *. cbn -[builtins Nat.mul]. rewrite AC in B. rewrite verifications_app, notifs_app, !app_length. cbn -[builtins Nat.mul]. lia. }
      exists dn. cbn. rewrite notifs_app, A, <- app_assoc. cbn. repeat split; auto; try apply C; try discriminate.
      rewrite map_app. apply polite_app. rewrite notifs_map. split; auto. cbn [map polite]. rewrite A in P. split; auto. apply P.
    + rewrite (Q eq_refl) in *. rewrite app_nil_r in A. subst dn.
      destruct (handle_notification_safe n (notifs pre) rest (l_server L)) as (V & E & SV); auto.
      { unfold budget in B. rewrite AC, (Q eq_refl) in B. cbn in B. rewrite verifications_app, notifs_app, app_length in K. cbn in K. lia. }
      rewrite E. cbn [rbind]. destruct (handle_notification_ok _ _ _ _ E C) as (C' & _ & _ & _ & L' & _).
      eexists. split; [reflexivity|]. split; [exact SV|]. split.
      { unfold budget in *. rewrite AC, (Q eq_refl) in B. cbn -[builtins Nat.mul] in B |- *. rewrite verifications_app, notifs_app, app_length. cbn -[builtins Nat.mul]. lia. }
      exists (notifs pre ++ [n]). cbn. rewrite notifs_app, app_nil_r. repeat split; auto; apply C'.
  - destruct (process_safe W true L pre) as (L1 & -> & (S & B & dn & A & Q & C & PQ & D) & AC & QU); auto. cbn [rbind].
    eexists. split; [reflexivity|]. split; [exact S|]. unfold budget in *. rewrite AC, QU in *. cbn -[builtins Nat.mul] in B, A |- *. split.
    { rewrite verifications_app, notifs_app, app_length. cbn -[builtins Nat.mul]. lia. }
    exists dn. rewrite notifs_app. cbn. rewrite !app_nil_r in *. subst dn. repeat split; auto; try apply C. apply P.
  - contradiction.
  - destruct (process_safe W true L pre) as (L1 & -> & (S & B & dn & A & Q & C & PQ & D) & AC & QU); auto. cbn [rbind].
    eexists. split; [reflexivity|]. split; [exact S|]. unfold budget in *. rewrite AC, QU in *. cbn -[builtins Nat.mul] in B, A |- *. split.
    { rewrite verifications_app, notifs_app, app_length. cbn -[builtins Nat.mul]. lia. }
    exists dn. rewrite notifs_app. cbn. rewrite !app_nil_r in *. subst dn. repeat split; auto; try apply C.
  - eexists. split; [reflexivity|]. destruct S1 as (S & B & D). split; [exact S|]. rewrite verifications_app, notifs_app, app_nil_r. cbn.
    rewrite Nat.add_0_r. auto.
  - contradiction.
Qed.
Lemma lrun_safe W l : (forall n c f d t, run_here f (W n c f d t)) -> forall L pre, safe_loop pre L -> polite (notifs pre) (map fst l) ->
  (N.of_nat (builtins * verifications (pre ++ map fst l) + List.length (notifs (pre ++ map fst l))) <= 65535)%N ->
  exists L', lrun W L l = Ok L' /\ safe_loop (pre ++ map fst l) L'.
Proof.
  intros H. induction l as [|i l IH]; cbn [lrun map]; intros L pre S P K.
  - rewrite app_nil_r. eauto.
  - destruct (lstep_safe W L i pre (map fst l)) as (L1 & -> & S1); auto.
    { replace (pre ++ fst i :: map fst l) with ((pre ++ [fst i]) ++ map fst l) in K by now rewrite <- app_assoc.
      rewrite verifications_app, notifs_app, app_length in K. nia. }
    cbn [rbind]. replace (pre ++ fst i :: map fst l) with ((pre ++ [fst i]) ++ map fst l) in * by now rewrite <- app_assoc.
    apply IH; auto. rewrite notifs_app. change (fst i :: map fst l) with ([fst i] ++ map fst l) in P. apply polite_app in P. apply P.
Qed.
(** Sessions with a polite client and a verifier without panics do not crash. *)
Lemma session_safe W we l : (forall n c f d t, run_here f (W n c f d t)) -> polite [] (map fst l) ->
  (13 * N.of_nat (verifications (map fst l)) + N.of_nat (List.length (notifs (map fst l))) <= 65535)%N -> exists L, session W we l = Ok L.
Proof.
  intros H P K. unfold session.
  assert (K' : (N.of_nat (builtins * verifications (map fst l) + List.length (notifs (map fst l))) <= 65535)%N) by (unfold builtins; lia).
  destruct (lrun_safe W l H (lstart we) []) as (L & -> & S); auto.
  - split; [constructor|]. split; [unfold budget; cbn; lia|]. exists []. cbn. repeat split; auto. constructor.
  - cbn [rbind app] in *. destruct (process_safe W true L (map fst l)) as (L' & -> & _); eauto.
Qed.
