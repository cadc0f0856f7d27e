(** The language server: whole sessions. *)
From Coq Require Import Bool List String ZArith NArith Arith Lia.
From Verif.Model Require Import Syntax Driver LspServer.
From Verif.Spec Require Import LspSpec.
From Verif.Proofs Require Import LspBasic.
Import ListNotations.

Lemma replies_app a b : replies (a ++ b) = replies a ++ replies b.
Proof. apply flat_map_app. Qed.
Lemma notifs_app a b : notifs (a ++ b) = notifs a ++ notifs b.
Proof. apply flat_map_app. Qed.
Lemma requests_app a b : requests (a ++ b) = requests a ++ requests b.
Proof. apply flat_map_app. Qed.
Lemma latest_snoc u l n : latest u (l ++ [n]) = match tells u n with Some c => Some c | None => latest u l end.
Proof.
  induction l as [|m l IH]; cbn. now destruct (tells u n). rewrite IH. destruct (tells u n); auto.
Qed.
Lemma wanted_snoc i l : forall b, wanted b (l ++ [i]) = wanted b l ++ match i with IVerify _ d => [(d, latest (d_uri d) (b ++ notifs l))] | _ => [] end.
Proof.
  induction l as [|j l IH]; intros b; cbn.
  - rewrite app_nil_r. destruct i; reflexivity.
  - destruct j; cbn; rewrite IH; cbn; auto. now rewrite <- app_assoc.
Qed.
Definition mark (p : docid * text) : docid * option (docid * text) := (fst p, Some p).

(** The files of a server hold the latest contents after these notifications. *)
Definition holds (V : lserver) (l : list notif) : Prop :=
  NoDup (uris (v_files V)) /\ forall u, lookup_uri u (v_files V) = latest u l.
Lemma holds_files V V' l k : v_files V' = v_files V ++ repeat builtin_file k -> holds V l -> holds V' l.
Proof.
  intros E (A & B). unfold holds. rewrite E. split.
  - now rewrite uris_app, uris_builtin, app_nil_r.
  - intros u. now rewrite lookup_builtin.
Qed.
Lemma handle_notification_ok n V V' l : handle_notification n V = Ok V' -> holds V l ->
  holds V' (l ++ [n]) /\ v_seen V' = v_seen V /\ replies (v_sent V') = replies (v_sent V) /\ v_werr V' = v_werr V /\
  List.length (v_files V) <= List.length (v_files V') <= S (List.length (v_files V)) /\
  ((N.of_nat (List.length (v_files V)) <= 65535)%N -> (N.of_nat (List.length (v_files V')) <= 65535)%N).
Proof.
  intros H (A & B).
  assert (K : forall d t fs, add_or_update d t (v_files V) = Ok fs -> V' = with_files fs V -> (forall u, tells u n = if String.eqb (d_uri d) u then Some (d, t) else None) ->
    holds V' (l ++ [n]) /\ v_seen V' = v_seen V /\ replies (v_sent V') = replies (v_sent V) /\ v_werr V' = v_werr V /\
    List.length (v_files V) <= List.length (v_files V') <= S (List.length (v_files V)) /\
    ((N.of_nat (List.length (v_files V)) <= 65535)%N -> (N.of_nat (List.length (v_files V')) <= 65535)%N)).
  { intros d t fs E -> T. cbn. destruct (add_or_update_ok _ _ _ _ E A) as (N & L). pose proof (add_or_update_length _ _ _ _ E).
    pose proof (add_or_update_bound _ _ _ _ E). repeat split; auto; try lia. cbn. intros u. rewrite L, latest_snoc, T. now destruct (String.eqb (d_uri d) u). }
  assert (Z : grows V V' -> (forall u, tells u n = None) -> holds V' (l ++ [n]) /\ v_seen V' = v_seen V /\ replies (v_sent V') = replies (v_sent V) /\ v_werr V' = v_werr V /\
    List.length (v_files V) <= List.length (v_files V') <= S (List.length (v_files V)) /\
    ((N.of_nat (List.length (v_files V)) <= 65535)%N -> (N.of_nat (List.length (v_files V')) <= 65535)%N)).
  { intros (C & C' & D & k & E & F)%grows_sent T. unfold holds. rewrite D. repeat split; auto.
    - intros u. now rewrite latest_snoc, T.
    - now rewrite E, replies_app, F, app_nil_r. }
  destruct n as [d lang t|d ts|u| |]; cbn in H.
  - destruct (String.eqb lang "heyvl") eqn:L.
    + okbind H. inv H. eapply K; eauto. intros u. cbn. now rewrite L.
    + inv H. apply Z. apply grows_refl. intros u. cbn. now rewrite L.
  - destruct ts as [|t [|]]; try discriminate. okbind H. inv H. eapply K; eauto.
  - destruct (find_file (has_uri u) (v_files V)); [|discriminate]. apply clear_grows in H. apply Z; auto.
  - inv H. apply Z; auto. apply grows_refl.
  - discriminate.
Qed.
Lemma handle_all_ok q : forall V V' l, handle_all q V = Ok V' -> holds V l ->
  holds V' (l ++ q) /\ v_seen V' = v_seen V /\ replies (v_sent V') = replies (v_sent V) /\ v_werr V' = v_werr V /\
  List.length (v_files V) <= List.length (v_files V') <= List.length (v_files V) + List.length q /\
  ((N.of_nat (List.length (v_files V)) <= 65535)%N -> (N.of_nat (List.length (v_files V')) <= 65535)%N).
Proof.
  induction q as [|n q IH]; intros V V' l H I; cbn in H.
  - inv H. rewrite app_nil_r. repeat split; auto; try apply I. cbn; lia.
  - okbind H. destruct (handle_notification_ok _ _ _ _ E I) as (I' & S1 & R1 & W1 & B1 & C1).
    destruct (IH _ _ _ H I') as (I2 & S2 & R2 & W2 & B2 & C2). rewrite <- app_assoc in I2. cbn in I2.
    split; [exact I2|]. cbn [List.length]. repeat split; try congruence; auto; lia.
Qed.
Lemma run_request_ok W n c id d V V' l : run_request W n c id d V = Ok V' -> holds V l ->
  exists t f, latest (d_uri d) l = Some (d, t) /\ holds V' l /\ v_seen V' = v_seen V ++ [(d, t)] /\ replies (v_sent V') = replies (v_sent V) ++ [id] /\
    find_file (is_doc d) (v_files V) = Some f /\ v_werr V' = v_werr V /\
    (v_files V' = v_files V /\ past_parsing (W n c f d t) = false \/ add_builtins builtins (v_files V) = Ok (v_files V')).
Proof.
  unfold run_request. intros H (A & B). destruct (find_file _ _) as [f|] eqn:F; [|discriminate].
  apply find_file_ok in F as G. destruct G as (fl & G & P & I). apply is_doc_true in P.
  okbind H. apply clear_grows, grows_sent in E as (C1 & C2 & C3 & k & C4 & C5). rewrite C3, G in H. cbn [rbind] in H. okbind H. destruct a0 as [V1 e].
  apply handle_result_grows in H as (V2 & r & (D1 & D2 & D3 & k2 & D4 & D5)%grows_sent & ->).
  assert (K : exists j, v_files V2 = v_files V ++ repeat builtin_file j).
  { apply verify_with_limits_grows in E as [((E1 & E2 & E3 & _) & _) | (fs & E & (E1 & E2 & E3 & _))]; cbn -[builtins add_builtins] in *.
    - exists 0. cbn. rewrite app_nil_r. congruence.
    - apply add_builtins_ok in E as ->. exists builtins. congruence. }
  exists (f_source fl), f. split; [rewrite <- B; now apply lookup_unique|]. split; [|].
  { destruct K as [j K]. eapply holds_files; [|split; eauto]. cbn. exact K. }
  apply verify_with_limits_grows in E as [((E1 & E2 & E3 & k3 & E4 & E5)%grows_sent & NP) | (fs & E & (E1 & E2 & E3 & k3 & E4 & E5)%grows_sent)]; cbn -[builtins add_builtins] in *.
  - repeat split; try congruence.
    + now rewrite D4, E4, C4, !replies_app, C5, D5, E5, !app_nil_r.
    + left. split; congruence.
  - repeat split; try congruence.
    + now rewrite D4, E4, C4, !replies_app, C5, D5, E5, !app_nil_r.
    + right. congruence.
Qed.

(** The invariant of the loop *)
Definition pending (L : lsp) (before : list notif) : list (docid * option (docid * text)) :=
  match l_active L with Some (_, _, Some d) => [(d, latest (d_uri d) before)] | _ => [] end.
Definition pending_id (L : lsp) : list nat := match l_active L with Some (_, id, _) => [id] | None => [] end.
Definition inv_loop (pre : list input) (L : lsp) : Prop :=
  exists done, notifs pre = done ++ l_queued L /\ (l_active L = None -> l_queued L = []) /\ holds (l_server L) done /\
    wanted [] pre = map mark (v_seen (l_server L)) ++ pending L done /\
    requests pre = replies (v_sent (l_server L)) ++ pending_id L.
Lemma process_ok W c L L' pre : process W c L = Ok L' -> inv_loop pre L ->
  inv_loop pre L' /\ l_active L' = None /\ l_queued L' = [] /\ l_count L' = l_count L.
Proof.
  unfold process. intros H (dn & A & B & C & D & E). okbind H. okbind H. inv H. cbn. split; auto.
  unfold pending, pending_id in *.
  assert (K : holds a dn /\ wanted [] pre = map mark (v_seen a) /\ requests pre = replies (v_sent a)).
  { destruct (l_active L) as [[[n id] [d|]]|]; cbn in E0.
    - destruct (run_request_ok _ _ _ _ _ _ _ _ E0 C) as (t & f & T & C' & S' & R' & _). split; auto. rewrite S', R', D, E, map_app. cbn.
      rewrite T. auto.
    - discriminate.
    - inv E0. rewrite app_nil_r in *. auto. }
  destruct K as (C' & D' & E'). destruct (handle_all_ok _ _ _ _ E1 C') as (C2 & S2 & R2 & _).
  exists (notifs pre). cbn. rewrite !app_nil_r. rewrite S2, R2. rewrite <- A in C2. repeat split; auto; apply C2.
Qed.
Lemma process_idle_ok W c L : l_active L = None -> l_queued L = [] -> process W c L = Ok L.
Proof. unfold process. intros A B. rewrite A, B. cbn. destruct L; cbn in *. subst. reflexivity. Qed.
Lemma lstep_ok W L i L' pre : lstep W L i = Ok L' -> inv_loop pre L -> inv_loop (pre ++ [fst i]) L'.
Proof.
  unfold lstep. destruct i as [i fin]. cbn [fst snd]. intros H I. okbind H.
  assert (I1 : inv_loop pre a).
  { destruct (fin && _); [|inv E; auto]. eapply process_ok in E; [|eauto]. tauto. }
  clear E I. rename L into L0, a into L. unfold start_task in H.
  destruct i as [n|id d|id|id|id|].
  - destruct (l_active L) as [ac|] eqn:Q.
    + inv H. destruct I1 as (dn & A & B & C & D & E). exists dn. unfold pending, pending_id in *. cbn. rewrite Q in *.
      rewrite notifs_app, requests_app, wanted_snoc, A, D, E. cbn. rewrite app_assoc, !app_nil_r. repeat split; auto; try apply C. discriminate.
    + okbind H. inv H. destruct I1 as (dn & A & B & C & D & F). pose proof (B Q) as B'. rewrite B' in *. rewrite app_nil_r in *.
      destruct (handle_notification_ok _ _ _ _ E C) as (C1 & S1 & R1 & _).
      exists (dn ++ [n]). unfold pending, pending_id in *. cbn. rewrite Q in *. rewrite notifs_app, requests_app, wanted_snoc, A, D, F, S1, R1. cbn.
      rewrite !app_nil_r. repeat split; auto; apply C1.
  - okbind H. inv H. destruct (process_ok _ _ _ _ _ E I1) as ((dn & A & B & C & D & F) & AC & Q & _).
    exists dn. unfold pending, pending_id in *. cbn. rewrite AC, Q in *. rewrite !app_nil_r in *. rewrite notifs_app, requests_app, wanted_snoc, D, F, <- A. cbn.
    rewrite !app_nil_r. repeat split; auto; rewrite ?A; try apply C; try discriminate.
  - okbind H. inv H. destruct (process_ok _ _ _ _ _ E I1) as ((dn & A & B & C & D & F) & AC & Q & _).
    exists dn. unfold pending, pending_id in *. cbn. rewrite AC, Q in *. rewrite !app_nil_r in *. rewrite notifs_app, requests_app, wanted_snoc, D, F, <- A. cbn.
    rewrite !app_nil_r. repeat split; auto; rewrite ?A; try apply C; try discriminate.
  - okbind H. inv H. destruct (process_ok _ _ _ _ _ E I1) as ((dn & A & B & C & D & F) & AC & Q & _).
    exists dn. unfold pending, pending_id in *. cbn. rewrite AC, Q in *. rewrite !app_nil_r in *. rewrite notifs_app, requests_app, wanted_snoc, D, F, <- A. cbn.
    rewrite replies_app, !app_nil_r. repeat split; auto; rewrite ?A; apply C.
  - inv H. destruct I1 as (dn & A & B & C & D & F). exists dn. rewrite notifs_app, requests_app, wanted_snoc, A, D, F. cbn. rewrite !app_nil_r.
    repeat split; auto; apply C.
  - discriminate.
Qed.
Lemma lrun_ok W l : forall L L' pre, lrun W L l = Ok L' -> inv_loop pre L -> inv_loop (pre ++ map fst l) L'.
Proof.
  induction l as [|i l IH]; cbn; intros L L' pre H I. inv H; now rewrite app_nil_r.
  okbind H. apply lstep_ok with (pre := pre) in E; auto. specialize (IH _ _ _ H E). now rewrite <- app_assoc in IH.
Qed.
Lemma start_inv we : inv_loop [] (lstart we).
Proof. exists []. cbn. repeat split; auto. constructor. Qed.
(** Every verification sees the latest contents received before it, and the requests are answered in order. *)
Lemma session_latest W we l L : session W we l = Ok L ->
  map mark (v_seen (l_server L)) = wanted [] (map fst l) /\ replies (v_sent (l_server L)) = requests (map fst l) /\
  forall u, lookup_uri u (v_files (l_server L)) = latest u (notifs (map fst l)).
Proof.
  unfold session. intros H. okbind H. pose proof (lrun_ok _ _ _ _ [] E (start_inv we)) as I. cbn [app] in I.
  destruct (process_ok _ _ _ _ _ H I) as ((dn & A & B & C & D & F) & AC & Q & _).
  unfold pending, pending_id in *. rewrite AC, Q in *. rewrite !app_nil_r in *. rewrite A. repeat split; auto. apply C.
Qed.

(** The built-in files pile up: a server does not survive more than 5041 verifications of texts that can be parsed. *)
Lemma wanted_length l : forall b, List.length (wanted b l) = verifications l.
Proof. induction l as [|i l IH]; intros b; cbn; auto. destruct i; cbn; rewrite ?IH; auto. Qed.
Definition life (L : lsp) : Prop :=
  builtins * List.length (v_seen (l_server L)) <= List.length (v_files (l_server L)) /\ (N.of_nat (List.length (v_files (l_server L))) <= 65535)%N.
Lemma process_life W c L L' pre : (forall n c f d t, past_parsing (W n c f d t) = true) -> process W c L = Ok L' -> inv_loop pre L -> life L -> life L'.
Proof.
  intros P H (dn & _ & _ & C & _) (Y & Z). unfold process in H. okbind H. okbind H. inv H. unfold life. cbn [l_server].
  assert (K : holds a dn /\ builtins * List.length (v_seen a) <= List.length (v_files a) /\ (N.of_nat (List.length (v_files a)) <= 65535)%N).
  { destruct (l_active L) as [[[n id] [d|]]|].
    - destruct (run_request_ok _ _ _ _ _ _ _ _ E C) as (t & f & T & C' & S' & _ & _ & _ & F). split; auto. destruct F as [(_ & F)|F].
      + now rewrite P in F.
      + rewrite S', app_length. split; [|now apply add_builtins_bound in F]. apply add_builtins_ok in F. rewrite F, app_length, repeat_length.
        cbn [List.length]. lia.
    - discriminate.
    - inv E. auto. }
  destruct K as (C' & Y' & Z'). destruct (handle_all_ok _ _ _ _ E0 C') as (_ & S2 & _ & _ & B & B'). rewrite S2. split; [lia | auto].
Qed.
Lemma lstep_life W L i L' pre : (forall n c f d t, past_parsing (W n c f d t) = true) -> lstep W L i = Ok L' -> inv_loop pre L -> life L -> life L'.
Proof.
  intros P. unfold lstep. destruct i as [i fin]. cbn [fst snd]. intros H I Y. okbind H.
  assert (K : inv_loop pre a /\ life a).
  { destruct (fin && _); [|inv E; auto]. split; [|eapply process_life; eauto]. eapply process_ok in E; [|eauto]. tauto. }
  destruct K as (I1 & Y1). clear E. unfold start_task in H.
  destruct i as [n|id d|id|id|id|].
  - destruct (l_active a); [now inv H|]. okbind H. inv H. destruct I1 as (dn & _ & _ & C & _).
    destruct (handle_notification_ok _ _ _ _ E C) as (_ & S2 & _ & _ & B & B'). destruct Y1. unfold life. cbn [l_server]. rewrite S2. split; [lia|auto].
  - okbind H. inv H. eapply (process_life W) in E; eauto.
  - okbind H. inv H. eapply (process_life W) in E; eauto.
  - okbind H. inv H. eapply (process_life W) in E; eauto.
  - now inv H.
  - discriminate.
Qed.
Lemma lrun_life W l : (forall n c f d t, past_parsing (W n c f d t) = true) -> forall L L' pre, lrun W L l = Ok L' -> inv_loop pre L -> life L -> life L'.
Proof.
  intros P. induction l as [|i l IH]; cbn; intros L L' pre H I Y. now inv H.
  okbind H. eapply IH; [exact H | eapply lstep_ok; eauto | eapply lstep_life; eauto].
Qed.
Lemma session_lifetime W we l L : session W we l = Ok L -> (forall n c f d t, past_parsing (W n c f d t) = true) ->
  (13 * N.of_nat (verifications (map fst l)) <= 65535)%N.
Proof.
  intros H P. pose proof (proj1 (session_latest _ _ _ _ H)) as K. apply (f_equal (@List.length _)) in K. rewrite map_length, wanted_length in K.
  unfold session in H. okbind H. pose proof (lrun_ok _ _ _ _ [] E (start_inv we)) as I.
  assert (Y : life a). { eapply lrun_life; eauto using start_inv. split; cbn; lia. }
  assert (Y' : life L) by (eapply process_life; eauto). destruct Y' as (A & B). rewrite K in A. unfold builtins in A. lia.
Qed.
