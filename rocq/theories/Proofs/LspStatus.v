(** The language server: what is recorded for a document. *)
From Coq Require Import Bool List String ZArith NArith Arith Lia.
From Verif.Model Require Import Syntax Driver LspServer.
From Verif.Spec Require Import LspSpec.
From Verif.Proofs Require Import LspBasic LspSession LspSafe.
Import ListNotations.

Definition record_of (f : nat) (V : lserver) : fstatus := found f (v_status V).
Lemma found_entry id g l i : found i (entry_or_default id g l) = if Nat.eqb i id then g (found id l) else found i l.
Proof. unfold found at 1. rewrite lookup_entry. destruct (Nat.eqb i id); auto. Qed.
Lemma publish_record mk V V' f : publish mk V = Ok V' -> record_of f V' = record_of f V.
Proof. intros H. apply publish_status in H as (A & _). unfold record_of. now rewrite A. Qed.
Definition add_diags (l : list diag) (s : fstatus) : fstatus := mkfs (t_type s) (t_statuses s) (t_diags s ++ l) (t_expls s).
Definition add_expls (l : list expl) (s : fstatus) : fstatus := mkfs (t_type s) (t_statuses s) (t_diags s) (t_expls s ++ l).
Definition set_statuses (l : list (uname * status)) (s : fstatus) : fstatus := mkfs (t_type s) l (t_diags s) (t_expls s).
Definition set_type (ty : ftype) (s : fstatus) : fstatus := mkfs ty (t_statuses s) (t_diags s) (t_expls s).

Lemma add_diagnostic_record f g V V' : lsp_add_diagnostic g V = Ok V' -> s_file (g_span g) = f -> record_of f V' = add_diags [g] (record_of f V).
Proof.
  intros H <-. apply publish_record with (f := s_file (g_span g)) in H. rewrite H. unfold record_of. cbn. rewrite found_entry, Nat.eqb_refl. reflexivity.
Qed.
Lemma add_diags_app a b s : add_diags b (add_diags a s) = add_diags (a ++ b) s.
Proof. unfold add_diags. cbn. now rewrite app_assoc. Qed.
Lemma add_diags_nil s : add_diags [] s = s.
Proof. unfold add_diags. rewrite app_nil_r. now destruct s. Qed.
Lemma add_expls_nil s : add_expls [] s = s.
Proof. unfold add_expls. rewrite app_nil_r. now destruct s. Qed.
Lemma add_diagnostics_record f l : forall V V', add_diagnostics l V = Ok V' -> Forall (fun g => here f (g_span g)) l -> record_of f V' = add_diags l (record_of f V).
Proof.
  induction l as [|g l IH]; cbn; intros V V' H F. inv H; now rewrite add_diags_nil.
  okbind H. inv F. apply add_diagnostic_record with (f := f) in E; [|apply H2]. rewrite (IH _ _ H H3), E, add_diags_app. reflexivity.
Qed.
Lemma add_explanation_record f l V V' : lsp_add_explanation l V = Ok V' -> Forall (fun x => here f (x_span x)) l -> record_of f V' = add_expls l (record_of f V).
Proof.
  intros H F. apply publish_record with (f := f) in H. rewrite H. unfold record_of. cbn. clear H. generalize (v_status V). clear V V'.
  induction l as [|x l IH]; intros st; cbn. now rewrite add_expls_nil.
  inv F. rewrite IH by auto. destruct H1 as (<- & _). rewrite found_entry, Nat.eqb_refl. unfold add_expls. cbn. now rewrite <- app_assoc.
Qed.
Lemma core_record f l V V' : match l with [] => Ok V | e :: k => lsp_add_explanation (e :: k) V end = Ok V' -> Forall (fun x => here f (x_span x)) l ->
  record_of f V' = add_expls l (record_of f V).
Proof. destruct l; intros H F. inv H; now rewrite add_expls_nil. now apply add_explanation_record. Qed.
Lemma on_statuses_record f n st V l : on_statuses n st (v_status V) = Ok l -> s_file (n_span n) = f ->
  exists k, update_status n st (t_statuses (record_of f V)) = Ok k /\ found f l = set_statuses k (record_of f V).
Proof.
  unfold on_statuses. intros H <-. okbind H. inv H. exists a.
  replace (match lookup (s_file (n_span n)) (v_status V) with Some s => t_statuses s | None => [] end)
    with (t_statuses (record_of (s_file (n_span n)) V)) in E by (unfold record_of, found; destruct (lookup _ _); auto).
  split; auto. rewrite found_entry, Nat.eqb_refl. reflexivity.
Qed.
Lemma insert_fresh n s l : ~ In n (map fst l) -> insert_status n s l = None.
Proof.
  induction l as [|[m r] l IH]; cbn; auto. intros H. destruct (name_eqb m n) eqn:E. apply name_eqb_eq in E. tauto. rewrite IH by tauto. reflexivity.
Qed.
Lemma insert_middle n s r a b : ~ In n (map fst a) -> insert_status n s (a ++ (n, r) :: b) = Some (a ++ (n, s) :: b).
Proof.
  induction a as [|[m q] a IH]; cbn; intros H.
  - assert (E : name_eqb n n = true) by now apply name_eqb_eq. now rewrite E.
  - destruct (name_eqb m n) eqn:E. apply name_eqb_eq in E. tauto. rewrite IH by tauto. reflexivity.
Qed.
Definition todo (u : vunit) : uname * status := (u_uname u, STodo).
Lemma register_record f u V V' : lsp_register (u_uname u) (u_ukind u) V = Ok V' -> unit_here f u -> ~ In (u_uname u) (map fst (t_statuses (record_of f V))) ->
  record_of f V' = set_statuses (t_statuses (record_of f V) ++ map todo (filter task [u])) (record_of f V).
Proof.
  intros H ((A & _) & B & _) N. unfold lsp_register in H.
  assert (K : record_of f (with_status (entry_or_default (s_file (n_span (u_uname u))) (fun s => s) (v_status V)) V) = record_of f V).
  { unfold record_of. cbn. rewrite found_entry, A, Nat.eqb_refl. reflexivity. }
  unfold task. cbn [filter]. destruct (u_ukind u) as [[]| |]; try tauto.
  - okbind H. apply on_statuses_record with (f := f) in E as (k & E & F); auto. apply publish_record with (f := f) in H. rewrite H. unfold record_of at 1. cbn.
    rewrite F. f_equal. unfold update_status in E. rewrite insert_fresh in E by auto. inv E. reflexivity.
  - injection H as <-. rewrite K. cbn. rewrite app_nil_r. now destruct (record_of f V).
  - injection H as <-. rewrite K. cbn. rewrite app_nil_r. now destruct (record_of f V).
Qed.
Lemma register_all_record f l : forall V V', register_all l V = Ok V' -> Forall (unit_here f) l ->
  NoDup (map fst (t_statuses (record_of f V)) ++ map u_uname l) ->
  record_of f V' = set_statuses (t_statuses (record_of f V) ++ map todo (filter task l)) (record_of f V).
Proof.
  induction l as [|u l IH]; cbn [register_all]; intros V V' H F N.
  - inv H. cbn. rewrite app_nil_r. now destruct (record_of f V').
  - okbind H. inv F. pose proof E as E'. apply register_record with (f := f) in E'; auto.
    2:{ cbn in N. intros I. apply (NoDup_remove_2 _ _ _ N). apply in_or_app. auto. }
    rewrite (IH _ _ H H3).
    + rewrite E'. unfold set_statuses. cbn. destruct (task u); cbn; rewrite <- ?app_assoc, ?app_nil_r; reflexivity.
    + rewrite E'. cbn. rewrite map_app. cbn [filter] in *. cbn [map] in N. destruct (task u); cbn.
      * rewrite <- app_assoc. exact N.
      * rewrite app_nil_r. eapply NoDup_remove_1; eauto.
Qed.
Lemma set_type_record f ty V V' : lsp_set_type f ty V = Ok V' -> record_of f V' = set_type ty (record_of f V).
Proof. intros H. apply publish_record with (f := f) in H. rewrite H. unfold record_of. cbn. rewrite found_entry, Nat.eqb_refl. reflexivity. Qed.
Lemma set_ongoing_record f n V V' a r b : lsp_set_ongoing n V = Ok V' -> s_file (n_span n) = f -> t_statuses (record_of f V) = a ++ (n, r) :: b -> ~ In n (map fst a) ->
  record_of f V' = set_type FOngoing (set_statuses (a ++ (n, SOngoing) :: b) (record_of f V)).
Proof.
  unfold lsp_set_ongoing. intros H F S N. okbind H. okbind H. apply publish_record with (f := f) in H. rewrite H. rewrite F in E0. apply set_type_record in E0.
  rewrite E0. apply on_statuses_record with (f := f) in E as (k & E & G); auto. unfold record_of at 1. cbn. rewrite G.
  unfold update_status in E. rewrite S, insert_middle in E by auto. inv E. reflexivity.
Qed.
Lemma on_statuses_some f n st V l : on_statuses n st (v_status V) = Ok l -> s_file (n_span n) = f -> lookup f l = Some (found f l).
Proof. unfold on_statuses. intros H <-. okbind H. inv H. unfold found. now rewrite lookup_entry, Nat.eqb_refl. Qed.
Lemma result_record f n l st V V' a r b : lsp_result n l st V = Ok V' -> s_file (n_span n) = f -> Forall (fun g => here f (g_span g)) l ->
  t_statuses (record_of f V) = a ++ (n, r) :: b -> ~ In n (map fst a) ->
  record_of f V' = (if forallb (fun p => is_completed (snd p)) (a ++ (n, st) :: b) then set_type FDone else fun s => s)
    (set_statuses (a ++ (n, st) :: b) (add_diags l (record_of f V))).
Proof.
  unfold lsp_result. intros H F D S N. okbind H. okbind H. apply add_diagnostics_record with (f := f) in E; auto.
  pose proof (on_statuses_some f _ _ _ _ E0 F) as LS. apply on_statuses_record with (f := f) in E0 as (k & E0 & G); auto. rewrite E in *. cbn in E0.
  rewrite S in E0. unfold update_status in E0. rewrite insert_middle in E0 by auto. inv E0.
  apply publish_record with (f := s_file (n_span n)) in H. rewrite H. unfold record_of at 1. cbn. rewrite LS. rewrite G at 1. cbn [t_statuses set_statuses].
  destruct (forallb _ _).
  - unfold found. rewrite lookup_modify, Nat.eqb_refl, LS. cbn. rewrite G. reflexivity.
  - exact G.
Qed.

(** A whole verification *)
Lemma calm_good we l V : v_werr V = we -> calm we l -> add_or_throw_all l V = good (add_diagnostics l V).
Proof.
  revert V. induction l as [|g l IH]; cbn; intros V E C; auto. inv C. destruct H1 as (A & B). unfold lsp_add_or_throw. rewrite A, B. cbn.
  destruct (lsp_add_diagnostic g V) as [V1| |] eqn:D; cbn; auto. apply IH; auto. apply add_diagnostic_grows in D. destruct D as (_ & D & _). congruence.
Qed.
Lemma final_completed u we : unit_finishes we u -> is_completed (final u) = true.
Proof. intros (_ & _ & r & E & _). unfold final. rewrite E. destruct r; auto; destruct (u_sound u) as [[] []]; auto. Qed.
Lemma final_status u r : u_solved u = inl r -> final u = status_of (fst (u_sound u)) (snd (u_sound u)) r.
Proof. unfold final. intros ->. destruct r; auto. Qed.
Lemma verify_unit_record f R k u V V' e a r b : verify_unit R k u V = Ok (V', e) -> unit_here f u -> unit_finishes (v_werr V) u -> r_limits R k = None ->
  t_statuses (record_of f V) = a ++ (u_uname u, r) :: b -> ~ In (u_uname u) (map fst a) -> Forall (fun p => is_completed (snd p) = true) a ->
  e = None /\ v_werr V' = v_werr V /\
  record_of f V' = mkfs (if forallb (fun p => is_completed (snd p)) b then FDone else FOngoing) (a ++ (u_uname u, final u) :: b)
    (t_diags (record_of f V) ++ u_slicing u ++ u_report u) (t_expls (record_of f V) ++ u_core u).
Proof.
  intros H (A & _ & B & C & _) U L S N CA. pose proof (final_completed _ _ U) as FC. destruct U as (D & LO & res & SO & NI & NT). apply Forall_app in B as (B & B').
  assert (WE : v_werr V' = v_werr V) by (apply verify_unit_grows in H; apply H).
  unfold verify_unit in H. rewrite L, LO, SO in H. cbn [option_map raise andthen rbind] in H.
  destruct (lsp_set_ongoing (u_uname u) V) as [V1| |] eqn:E1; cbn [good rbind andthen] in H; try discriminate.
  assert (W1 : v_werr V1 = v_werr V) by (apply set_ongoing_grows in E1; apply E1).
  apply set_ongoing_record with (f := f) (a := a) (r := r) (b := b) in E1; auto; [|apply A].
  rewrite (calm_good (v_werr V)) in H by auto.
  destruct (add_diagnostics (u_slicing u) V1) as [V2| |] eqn:E2; cbn [good rbind andthen] in H; try discriminate.
  apply add_diagnostics_record with (f := f) in E2; auto.
  match type of H with context [good ?m] => destruct m as [V3| |] eqn:E3 end; cbn [good rbind andthen] in H; try discriminate.
  apply (core_record f) in E3; auto.
  destruct (lsp_result _ _ _ V3) as [V4| |] eqn:E4; cbn [good rbind andthen] in H; try discriminate.
  assert (T3 : t_statuses (record_of f V3) = a ++ (u_uname u, SOngoing) :: b). { rewrite E3. cbn. rewrite E2. cbn. rewrite E1. reflexivity. }
  pose proof (result_record f _ _ _ _ _ _ _ _ E4 (proj1 A) B' T3 N) as Q.
  assert (V' = V4 /\ e = None) as (-> & ->). { destruct res as [| |[]]; inv H; auto; congruence. }
  repeat split; auto. rewrite Q, <- (final_status _ _ SO), E3, E2, E1.
  assert (FB : forallb (fun p => is_completed (snd p)) (a ++ (u_uname u, final u) :: b) = forallb (fun p => is_completed (snd p)) b).
  { rewrite forallb_app. cbn. rewrite FC. replace (forallb (fun p => is_completed (snd p)) a) with true; auto. symmetry. apply forallb_forall. now apply Forall_forall. }
  rewrite FB. destruct (forallb _ b); unfold set_type, set_statuses, add_diags, add_expls; cbn; now rewrite <- app_assoc.
Qed.
Definition done (u : vunit) : uname * status := (u_uname u, final u).
Lemma verify_all_record f R l : forall k V V' e pre, verify_all R k l V = Ok (V', e) -> Forall (unit_here f) l -> Forall (unit_finishes (v_werr V)) (pre ++ l) ->
  (forall n, r_limits R n = None) -> t_statuses (record_of f V) = map done pre ++ map todo l -> NoDup (map u_uname (pre ++ l)) ->
  e = None /\ record_of f V' = mkfs (match l with [] => t_type (record_of f V) | _ => FDone end) (map done (pre ++ l))
    (t_diags (record_of f V) ++ flat_map (fun u => u_slicing u ++ u_report u) l) (t_expls (record_of f V) ++ flat_map u_core l).
Proof.
  induction l as [|u l IH]; cbn [verify_all]; intros k V V' e pre H F U L S N.
  - inv H. split; auto. cbn in *. rewrite !app_nil_r in *. destruct (record_of f V'); cbn in *. now rewrite S.
  - destruct (verify_unit R k u V) as [[V1 e1]| |] eqn:E; try discriminate. inv F.
    assert (NU : ~ In (u_uname u) (map fst (map done pre))).
    { rewrite map_map. cbn. rewrite map_app in N. cbn in N. apply NoDup_remove_2 in N. intros I. apply N, in_or_app. auto. }
    assert (UU : unit_finishes (v_werr V) u) by (apply Forall_app in U as (_ & U); now inv U).
    assert (CP : Forall (fun p => is_completed (snd p) = true) (map done pre)).
    { apply Forall_forall. intros p I. apply in_map_iff in I as (w & <- & I). apply Forall_app in U as (U & _). rewrite Forall_forall in U.
      eapply final_completed; eauto. }
    destruct (verify_unit_record f R k u V V1 e1 (map done pre) STodo (map todo l) E H2 UU (L k) S NU CP) as (-> & WE & Q).
    cbn [andthen rbind] in H. replace (pre ++ u :: l) with ((pre ++ [u]) ++ l) in * by now rewrite <- app_assoc.
    apply (IH _ _ _ _ (pre ++ [u])) in H as (-> & Q2); auto.
    + split; auto. rewrite Q2, Q. cbn. rewrite <- !app_assoc. f_equal. destruct l; cbn; auto.
    + now rewrite WE.
    + rewrite Q. cbn. rewrite map_app. cbn. now rewrite <- app_assoc.
Qed.
Lemma andthen_none m f V' e : andthen m f = Ok (V', e) -> (forall V1 e1, m = Ok (V1, e1) -> e1 = None) -> exists V1, m = Ok (V1, None) /\ f V1 = Ok (V', e).
Proof. intros H N. apply andthen_ok in H as [(V1 & E & F)|(x & E & _)]; eauto. specialize (N _ _ E). discriminate. Qed.
Lemma nodup_left {A} (l r : list A) : NoDup (l ++ r) -> NoDup l.
Proof. induction l as [|a l IH]; cbn; intros H; constructor; inv H; auto. intros I. apply H2, in_or_app. auto. Qed.
Lemma record_set_statuses s : set_statuses (t_statuses s) s = s.
Proof. now destruct s. Qed.
Lemma verify_main_record f R g V V' e : verify_main R V = Ok (V', e) -> run_here f R -> finishes (v_werr V) R g -> record_of f V = no_status ->
  NoDup (map u_uname (r_units R ++ g)) -> e = None /\ record_of f V' = report R g.
Proof.
  intros H (_ & W & X & UH & GH) (_ & _ & P & Fr & M & Dg & G & Q & C & L & U) S N. specialize (GH _ G). unfold verify_main in H. rewrite P, Fr, M, Dg, G, Q in H. apply Forall_app in W as (W & W').
  apply andthen_none in H as (V0 & E0 & H); [|intros ? ? Z; now inv Z]. inv E0.
  apply andthen_none in H as (V1 & E1 & H); [|intros ? ? Z; now apply good_ok in Z]. apply good_ok in E1 as (E1 & _). okbind E1. inv E1.
  set (V1 := with_files a V0) in *. assert (W1 : v_werr V1 = v_werr V0) by reflexivity. assert (R1 : record_of f V1 = no_status) by exact S.
  rewrite (calm_good (v_werr V0)) in H by auto. cbn [raise] in H.
  apply andthen_none in H as (V2 & E2 & H); [|intros ? ? Z; now apply good_ok in Z]. apply good_ok in E2 as (E2 & _).
  pose proof (add_diagnostics_record f _ _ _ E2 W) as R2. assert (W2 : v_werr V2 = v_werr V0) by (apply add_diagnostics_grows in E2; destruct E2 as (_ & E2 & _); congruence).
  apply andthen_none in H as (V2' & E2' & H); [|intros ? ? Z; now inv Z]. inv E2'.
  apply andthen_none in H as (V3 & E3 & H); [|intros ? ? Z; now apply good_ok in Z]. apply good_ok in E3 as (E3 & _).
  rewrite map_app in N.
  assert (R3 := register_all_record f _ _ _ E3 UH). rewrite R2, R1 in R3. cbn in R3. specialize (R3 (nodup_left _ _ N)).
  assert (W3 : v_werr V3 = v_werr V0) by (apply register_all_grows in E3; destruct E3 as (_ & E3 & _); congruence).
  apply andthen_none in H as (V4 & E4 & H); [|intros ? ? Z; now apply good_ok in Z]. apply good_ok in E4 as (E4 & _).
  pose proof (core_record f _ _ _ E4 X) as R4. assert (W4 : v_werr V4 = v_werr V0) by (apply core_grows in E4; destruct E4 as (_ & E4 & _); congruence).
  apply andthen_none in H as (V5 & E5 & H); [|intros ? ? Z; now apply good_ok in Z]. apply good_ok in E5 as (E5 & _).
  pose proof (add_diagnostics_record f _ _ _ E5 W') as R5. assert (W5 : v_werr V5 = v_werr V0) by (apply add_diagnostics_grows in E5; destruct E5 as (_ & E5 & _); congruence).
  apply andthen_none in H as (V5' & E5' & H); [|intros ? ? Z; now inv Z]. inv E5'.
  apply andthen_none in H as (V6 & E6 & H); [|intros ? ? Z; now apply good_ok in Z]. apply good_ok in E6 as (E6 & _).
  assert (T5 : t_statuses (record_of f V5') = map todo (filter task (r_units R))) by (rewrite R5, R4, R3; reflexivity).
  assert (R6 := register_all_record f _ _ _ E6 GH). rewrite T5 in R6.
  assert (W6 : v_werr V6 = v_werr V0) by (apply register_all_grows in E6; destruct E6 as (_ & E6 & _); congruence).
  apply andthen_none in H as (V7 & E7 & H); [|intros ? ? Z; now inv Z]. inv E7.
  assert (HF : Forall (unit_here f) (filter task (r_units R ++ g))).
  { apply Forall_forall. intros u I. apply filter_In in I as (I & _). assert (K : Forall (unit_here f) (r_units R ++ g)) by (apply Forall_app; auto).
    rewrite Forall_forall in K. auto. }
  assert (ND : NoDup (map u_uname (filter task (r_units R ++ g)))).
  { rewrite <- map_app in N. clear -N. induction (r_units R ++ g) as [|u l IH]; cbn in *; auto. inv N. destruct (task u); cbn; auto. constructor; auto.
    intros I. apply H1. apply in_map_iff in I as (w & E & I). apply filter_In in I as (I & _). apply in_map_iff. eauto. }
  assert (NG : NoDup (map fst (map todo (filter task (r_units R))) ++ map u_uname g)).
  { rewrite map_map. cbn. clear -N. induction (r_units R) as [|u l IH]; cbn in *; auto. inv N. destruct (task u); cbn; auto. constructor; auto.
    intros I. apply H1. apply in_app_or in I as [I|I]; apply in_or_app; auto. left. apply in_map_iff in I as (w & E & I). apply filter_In in I as (I & _). apply in_map_iff. eauto. }
  specialize (R6 NG).
  apply (verify_all_record f R _ _ _ _ _ []) in H as (-> & K); auto.
  - split; auto. rewrite K, R6, R5, R4, R3. unfold report, tasks. cbn. rewrite <- app_assoc. reflexivity.
  - cbn. rewrite W6. exact U.
  - rewrite R6. cbn. rewrite filter_app, map_app. reflexivity.
Qed.
Lemma clear_record f V V' : clear_reported f V = Ok V' -> record_of f V' = no_status.
Proof.
  unfold clear_reported. intros H. okbind H. apply publish_record with (f := f) in H. apply publish_record with (f := f) in E. rewrite H, E.
  unfold record_of, found. cbn. rewrite lookup_modify, Nat.eqb_refl. now destruct (lookup f (v_status V)).
Qed.
Lemma run_request_record W n c id d V V' f g fl : run_request W n c id d V = Ok V' -> find_file (is_doc d) (v_files V) = Some f -> get_file f (v_files V) = Ok fl ->
  run_here f (W n c f d (f_source fl)) -> finishes (v_werr V) (W n c f d (f_source fl)) g -> NoDup (map u_uname (r_units (W n c f d (f_source fl)) ++ g)) ->
  record_of f V' = report (W n c f d (f_source fl)) g /\ exists l, v_sent V' = l ++ [MReply id RepOk].
Proof.
  unfold run_request. intros H F G HR FI N. rewrite F in H. okbind H. pose proof (clear_grows _ _ _ E) as (_ & WE & FE & _). rewrite FE, G in H. cbn [rbind] in H.
  apply clear_record in E. okbind H. destruct a0 as [V1 e]. unfold verify_with_limits in E0. pose proof FI as (EA & HA & _). rewrite EA, HA in E0. okbind E0. destruct a0 as [V2 e2]. inv E0.
  apply verify_main_record with (f := f) (g := g) in E1 as (-> & R1); auto; [|cbn; now rewrite WE].
  cbn in H. inv H. split; [exact R1|]. eexists. reflexivity.
Qed.

(** After a time or memory limit, nothing is left to do or going on. *)
Definition settled (V : lserver) : Prop := Forall (fun p => Forall (fun q => is_completed (snd q) = true) (t_statuses (snd p))) (v_status V).
Lemma entry_settled id g V : settled V -> (forall s, t_statuses (g s) = t_statuses s) -> settled (with_status (entry_or_default id g (v_status V)) V).
Proof.
  intros S H. apply entry_forall; auto.
  - intros s P. cbn in *. now rewrite H.
  - constructor.
Qed.
Lemma publish_settled mk V V' : publish mk V = Ok V' -> settled V -> settled V'.
Proof. intros H S. apply publish_status in H as (A & _). unfold settled. now rewrite A. Qed.
Lemma add_diagnostics_settled l : forall V V', add_diagnostics l V = Ok V' -> settled V -> settled V'.
Proof.
  induction l as [|g l IH]; cbn; intros V V' H S. now inv H. okbind H. eapply IH; eauto. eapply publish_settled; [exact E|]. now apply entry_settled.
Qed.
Lemma timeout_settled V V' : handle_timeout V = Ok V' -> settled V'.
Proof.
  unfold handle_timeout. intros H. okbind H. eapply publish_settled; [exact H|]. eapply add_diagnostics_settled; [exact E|].
  unfold settled. cbn. apply Forall_forall. intros p I. apply in_map_iff in I as (q & <- & I). cbn. apply Forall_forall. intros r J.
  apply in_map_iff in J as (s & <- & J). cbn. destruct (is_completed (snd s)) eqn:K; auto.
Qed.
Lemma handle_result_timeout id f l V V' : handle_result id f (Some (VLimit l)) V = Ok V' -> l <> LInterrupted ->
  settled V' /\ t_type (record_of f V') = FTimeout.
Proof.
  intros H N. assert (K : (let? V := handle_timeout V in let? V := lsp_set_type f FTimeout V in Ok (send [MReply id RepOk] V)) = Ok V') by (destruct l; auto; congruence).
  clear H. okbind K. okbind K. inv K. pose proof (timeout_settled _ _ E) as S. pose proof (set_type_record _ _ _ _ E0) as T. split.
  - apply (publish_settled _ _ _ E0). now apply entry_settled.
  - change (record_of f (send [MReply id RepOk] a0)) with (record_of f a0). rewrite T. reflexivity.
Qed.
Lemma handle_result_error id f g V V' : handle_result id f (Some (VDiag g)) V = Ok V' -> s_file (g_span g) = f ->
  record_of f V' = set_type FInvalid (add_diags [g] (record_of f V)).
Proof.
  cbn. intros H F. okbind H. okbind H. inv H. change (record_of ?f (send [MReply id RepOk] a0)) with (record_of f a0).
  rewrite (set_type_record _ _ _ _ E0). now rewrite (add_diagnostic_record _ _ _ _ E eq_refl).
Qed.
