(** The language server: what its operations leave unchanged, and the files. *)
From Coq Require Import Bool List String ZArith NArith Arith Lia.
From Verif.Model Require Import Syntax Driver LspServer.
From Verif.Spec Require Import LspSpec.
Import ListNotations.

Ltac inv H := inversion H; subst; clear H.
Ltac okbind H :=
  match type of H with
  | rbind ?m _ = Ok _ => let E := fresh "E" in destruct m eqn:E; cbn [rbind] in H; try discriminate
  | andthen ?m _ = Ok _ => let E := fresh "E" in destruct m as [[? ?]| |] eqn:E; cbn [andthen rbind] in H; try discriminate
  end.

Definition builtin_file : file := mkfile PBuiltin [].
(** Records are added, and each at most once. *)
Definition keys (l : list (nat * fstatus)) : list nat := map fst l.
Definition tidy (l l' : list (nat * fstatus)) : Prop := (NoDup (keys l) -> NoDup (keys l')) /\ incl (keys l) (keys l').
Lemma tidy_refl l : tidy l l.
Proof. split; auto using incl_refl. Qed.
Lemma tidy_trans a b c : tidy a b -> tidy b c -> tidy a c.
Proof. intros (A & B) (C & D). split; auto. eapply incl_tran; eauto. Qed.
Lemma tidy_keys l l' : keys l' = keys l -> tidy l l'.
Proof. intros E. unfold tidy. rewrite E. split; auto using incl_refl. Qed.
Lemma keys_modify id f l : keys (modify id f l) = keys l.
Proof. induction l as [|[i s] l IH]; cbn; auto. destruct (Nat.eqb i id); cbn; auto. unfold keys in *. now rewrite IH. Qed.
Lemma lookup_keys id l : lookup id l = None <-> ~ In id (keys l).
Proof.
  unfold lookup. induction l as [|[i s] l IH]; cbn. tauto. destruct (Nat.eqb_spec i id) as [->|]; cbn.
  - split; [discriminate | intros H; exfalso; auto].
  - rewrite IH. tauto.
Qed.
Lemma tidy_entry id f l : tidy l (entry_or_default id f l).
Proof.
  unfold entry_or_default. destruct (lookup id l) eqn:E.
  - apply tidy_keys, keys_modify.
  - apply lookup_keys in E. unfold tidy, keys in *. rewrite map_app. cbn. split; [|apply incl_appl, incl_refl]. intros N.
    apply NoDup_rev in N. rewrite <- rev_involutive. apply NoDup_rev. rewrite rev_app_distr. cbn. constructor; auto. now rewrite <- in_rev.
Qed.
Lemma tidy_on_statuses n st l l' : on_statuses n st l = Ok l' -> tidy l l'.
Proof. unfold on_statuses. intros H. okbind H. inv H. apply tidy_entry. Qed.

(** A message shows the record of a file, with its current version. *)
Definition about (fs : files) (ks : list nat) (m : message) : Prop :=
  match m with
  | MReply _ _ => False
  | MDiag d _ | MStatus d _ _ | MPre d _ => exists id fl, In id ks /\ get_file id fs = Ok fl /\ f_path fl = PLsp d
  end.
Lemma about_incl fs ks ks' m : incl ks ks' -> about fs ks m -> about fs ks' m.
Proof. intros I. destruct m; cbn; auto; intros (id & fl & A & B); exists id, fl; auto. Qed.
Lemma about_replies fs ks l : Forall (about fs ks) l -> replies l = [].
Proof. induction 1 as [|m l A _ IH]; cbn; auto. unfold replies in IH. rewrite IH. destruct m; auto. contradiction. Qed.
(** Only such messages are added; the files stay. *)
Definition grows (V V' : lserver) : Prop :=
  v_seen V' = v_seen V /\ v_werr V' = v_werr V /\ v_files V' = v_files V /\
  (exists l, v_sent V' = v_sent V ++ l /\ Forall (about (v_files V) (keys (v_status V'))) l) /\ tidy (v_status V) (v_status V').
Lemma grows_sent V V' : grows V V' -> v_seen V' = v_seen V /\ v_werr V' = v_werr V /\ v_files V' = v_files V /\
  exists l, v_sent V' = v_sent V ++ l /\ replies l = [].
Proof. intros (A & B & C & (l & D & E) & _). repeat split; auto. exists l. split; auto. eapply about_replies; eauto. Qed.
Lemma grows_refl V : grows V V.
Proof. repeat split; auto using incl_refl. exists []; cbn; rewrite app_nil_r; auto. Qed.
Lemma grows_trans V1 V2 V3 : grows V1 V2 -> grows V2 V3 -> grows V1 V3.
Proof.
  intros (A & B & C & (l & D & E) & F) (A' & B' & C' & (l' & D' & E') & F'). repeat split; try congruence; try (eapply tidy_trans; eauto).
  exists (l ++ l'). split. now rewrite D', D, app_assoc. apply Forall_app. split; [|now rewrite <- C].
  eapply Forall_impl; [|exact E]. intros m. apply about_incl, F'.
Qed.
Lemma grows_status l V : tidy (v_status V) l -> grows V (with_status l V).
Proof. intros T. repeat split; auto; try apply T. exists []; cbn; rewrite app_nil_r; auto. Qed.

Lemma rmap_in {A B} (f : A -> res B) l r : rmap f l = Ok r -> forall b, In b r -> exists a, In a l /\ f a = Ok b.
Proof.
  revert r. induction l as [|a l IH]; cbn; intros r H b Hb.
  - inv H. contradiction.
  - okbind H. okbind H. inv H. destruct Hb as [<-|Hb]; eauto. destruct (IH _ eq_refl _ Hb) as (x & ? & ?); eauto.
Qed.
Lemma somes_in {A} (l : list (option A)) a : In a (somes l) <-> In (Some a) l.
Proof.
  unfold somes. rewrite in_flat_map. split.
  - intros (o & H & I). destruct o; cbn in I; [destruct I as [<-|[]] | contradiction]; auto.
  - intros H. exists (Some a). cbn; auto.
Qed.

Lemma publish_status mk V V' : publish mk V = Ok V' -> v_status V' = v_status V /\ v_files V' = v_files V /\ v_seen V' = v_seen V.
Proof. unfold publish. intros H. okbind H. inv H. auto. Qed.
Definition of_doc (d : docid) (m : message) : Prop := match m with MReply _ _ => False | MDiag e _ | MStatus e _ _ | MPre e _ => e = d end.
Lemma publish_grows mk V V' : (forall d s fs m, mk d s fs = Ok m -> of_doc d m) -> publish mk V = Ok V' -> grows V V'.
Proof.
  unfold publish. intros Hm H. okbind H. inv H. split; [reflexivity|]. split; [reflexivity|]. split; [reflexivity|]. split; [|apply tidy_refl].
  eexists. split; [reflexivity|]. apply Forall_forall. intros m I. apply somes_in in I.
  destruct (rmap_in _ _ _ E _ I) as ([id s] & J & F). cbn in F. okbind F. destruct (f_path a0) as [d|] eqn:P; [okbind F|]; inv F.
  apply Hm in E1. assert (K : In id (keys (v_status V))) by (apply in_map_iff; exists (id, s); auto).
  destruct m; cbn in E1 |- *; subst; try contradiction; exists id, a0; auto.
Qed.
Lemma diag_message_nr d s fs m : diag_message d s fs = Ok m -> of_doc d m.
Proof. unfold diag_message. intros H. okbind H. inv H. reflexivity. Qed.
Lemma expl_message_nr d s fs m : expl_message d s fs = Ok m -> of_doc d m.
Proof. unfold expl_message. intros H. okbind H. inv H. reflexivity. Qed.
Lemma status_message_nr d s fs m : status_message d s fs = Ok m -> of_doc d m.
Proof. unfold status_message. intros H. okbind H. inv H. reflexivity. Qed.
Lemma publish_diagnostics_grows V V' : publish_diagnostics V = Ok V' -> grows V V'.
Proof. apply publish_grows. apply diag_message_nr. Qed.
Lemma publish_explanations_grows V V' : publish_explanations V = Ok V' -> grows V V'.
Proof. apply publish_grows. apply expl_message_nr. Qed.
Lemma publish_statuses_grows V V' : publish_statuses V = Ok V' -> grows V V'.
Proof. apply publish_grows. apply status_message_nr. Qed.

Lemma via_status l V V' : tidy (v_status V) l -> grows (with_status l V) V' -> grows V V'.
Proof. intros T. apply grows_trans. now apply grows_status. Qed.
Lemma add_diagnostic_grows g V V' : lsp_add_diagnostic g V = Ok V' -> grows V V'.
Proof. intros H. apply publish_diagnostics_grows in H. apply via_status in H; auto using tidy_entry. Qed.
Lemma add_diagnostics_grows l : forall V V', add_diagnostics l V = Ok V' -> grows V V'.
Proof.
  induction l as [|g l IH]; cbn; intros V V' H. inv H; apply grows_refl.
  okbind H. eapply grows_trans; [eapply add_diagnostic_grows; eauto | eauto].
Qed.
Lemma add_explanation_grows l V V' : lsp_add_explanation l V = Ok V' -> grows V V'.
Proof.
  intros H. apply publish_explanations_grows in H. apply via_status in H; auto. clear. generalize (v_status V). clear. induction l as [|x l IH]; intros st; cbn.
  apply tidy_refl. eapply tidy_trans; [apply tidy_entry | apply IH].
Qed.
Lemma register_grows n k V V' : lsp_register n k V = Ok V' -> grows V V'.
Proof.
  unfold lsp_register. destruct k as [[]| |]; intros H; try (inv H; apply grows_status, tidy_entry).
  okbind H. apply tidy_on_statuses in E. apply publish_statuses_grows in H. now apply via_status in H.
Qed.
Lemma set_type_grows id ty V V' : lsp_set_type id ty V = Ok V' -> grows V V'.
Proof. intros H. apply publish_statuses_grows in H. apply via_status in H; auto using tidy_entry. Qed.
Lemma set_ongoing_grows n V V' : lsp_set_ongoing n V = Ok V' -> grows V V'.
Proof.
  unfold lsp_set_ongoing. intros H. okbind H. okbind H. apply tidy_on_statuses in E. apply set_type_grows, via_status in E0; auto.
  eapply grows_trans; [exact E0 | now apply publish_statuses_grows].
Qed.
Lemma result_grows n l st V V' : lsp_result n l st V = Ok V' -> grows V V'.
Proof.
  unfold lsp_result. intros H. okbind H. okbind H. eapply grows_trans; [eapply add_diagnostics_grows; eauto|].
  apply tidy_on_statuses in E0. apply publish_statuses_grows in H. apply via_status in H; auto. eapply tidy_trans; [exact E0|].
  destruct (lookup _ _); [|apply tidy_refl]. destruct (forallb _ _); [|apply tidy_refl]. apply tidy_keys, keys_modify.
Qed.
Lemma clear_grows id V V' : clear_reported id V = Ok V' -> grows V V'.
Proof.
  unfold clear_reported. intros H. okbind H. apply publish_diagnostics_grows, via_status in E; [|apply tidy_keys, keys_modify].
  eapply grows_trans; [exact E | now apply publish_statuses_grows].
Qed.
Lemma handle_timeout_grows V V' : handle_timeout V = Ok V' -> grows V V'.
Proof.
  unfold handle_timeout. intros H. okbind H. apply add_diagnostics_grows, via_status in E; [|apply tidy_keys; unfold keys; now rewrite map_map].
  eapply grows_trans; [exact E | now apply publish_statuses_grows].
Qed.
Lemma register_all_grows l : forall V V', register_all l V = Ok V' -> grows V V'.
Proof.
  induction l as [|u l IH]; cbn; intros V V' H. inv H; apply grows_refl.
  okbind H. eapply grows_trans; [eapply register_grows; eauto | eauto].
Qed.

(** Stages *)
Lemma andthen_ok m f V' e : andthen m f = Ok (V', e) ->
  (exists V, m = Ok (V, None) /\ f V = Ok (V', e)) \/ (exists x, m = Ok (V', Some x) /\ e = Some x).
Proof. unfold andthen. destruct m as [[V [x|]]| |]; cbn; intros H; try discriminate; [right | left]; eauto. inv H. eauto. Qed.
Lemma good_ok m V e : good m = Ok (V, e) -> m = Ok V /\ e = None.
Proof. unfold good. destruct m; cbn; intros H; inv H; auto. Qed.
Lemma raise_ok e V V' e' : raise e V = Ok (V', e') -> V' = V /\ e' = e /\ e <> Some VPanic.
Proof. unfold raise. destruct e as [[]|]; intros H; inv H; repeat split; congruence. Qed.

Definition stage_grows (V : lserver) (m : stage) : Prop := forall V' e, m = Ok (V', e) -> grows V V'.
Lemma andthen_grows V m f : stage_grows V m -> (forall V1, m = Ok (V1, None) -> stage_grows V1 (f V1)) -> stage_grows V (andthen m f).
Proof.
  intros Hm Hf V' e H. destruct (andthen_ok _ _ _ _ H) as [(V1 & E & F) | (x & E & _)]; [|eauto].
  eapply grows_trans; [eapply Hm; eauto | eapply Hf; eauto].
Qed.
Lemma good_grows V m : (forall V', m = Ok V' -> grows V V') -> stage_grows V (good m).
Proof. intros H V' e E. apply good_ok in E as [E _]. auto. Qed.
Lemma raise_grows e V : stage_grows V (raise e V).
Proof. intros V' e' H. apply raise_ok in H as (-> & _). apply grows_refl. Qed.
Lemma done_grows e V : stage_grows V (Ok (V, e)).
Proof. intros V' e' H. inv H. apply grows_refl. Qed.
Lemma add_or_throw_grows l : forall V, stage_grows V (add_or_throw_all l V).
Proof.
  induction l as [|g l IH]; cbn -[andthen]; intros V. apply done_grows.
  apply andthen_grows; [|intros; apply IH]. unfold lsp_add_or_throw. destruct (is_error (g_kind g) || v_werr V). apply done_grows.
  apply good_grows. intros. eapply add_diagnostic_grows; eauto.
Qed.
Lemma core_grows l V V' : match l with [] => Ok V | e :: k => lsp_add_explanation (e :: k) V end = Ok V' -> grows V V'.
Proof. destruct l; intros H. inv H; apply grows_refl. now apply add_explanation_grows in H. Qed.
Lemma verify_unit_grows R n u V : stage_grows V (verify_unit R n u V).
Proof.
  unfold verify_unit. repeat (apply andthen_grows; [|intros ? _]).
  - apply raise_grows.
  - apply good_grows. intros. eapply set_ongoing_grows; eauto.
  - apply add_or_throw_grows.
  - apply good_grows. intros V' H. eapply core_grows; exact H.
  - apply raise_grows.
  - destruct (u_solved u); [|apply raise_grows]. apply andthen_grows.
    + apply good_grows. intros. eapply result_grows; eauto.
    + intros. destruct r as [| |[]]; apply done_grows.
Qed.
Lemma verify_all_grows R l : forall n V, stage_grows V (verify_all R n l V).
Proof.
  induction l as [|u l IH]; cbn -[andthen]; intros n V. apply done_grows.
  apply andthen_grows; [apply verify_unit_grows | intros; apply IH].
Qed.

(** Files *)
Lemma add_file_ok f fs fs' : add_file f fs = Ok fs' -> fs' = fs ++ [f] /\ (N.of_nat (List.length fs') <= 65535)%N.
Proof.
  unfold add_file. destruct (N.leb_spec (N.of_nat (List.length fs) + 1) 65535); intros E; inv E. split; auto.
  rewrite app_length; cbn. lia.
Qed.
Lemma add_builtins_ok n : forall fs fs', add_builtins n fs = Ok fs' -> fs' = fs ++ repeat builtin_file n.
Proof.
  induction n as [|n IH]; cbn; intros fs fs' H. inv H; now rewrite app_nil_r.
  okbind H. apply add_file_ok in E as [-> _]. apply IH in H as ->. now rewrite <- app_assoc.
Qed.
Lemma add_builtins_bound n : forall fs fs', add_builtins n fs = Ok fs' -> (N.of_nat (List.length fs) <= 65535)%N -> (N.of_nat (List.length fs') <= 65535)%N.
Proof.
  induction n as [|n IH]; cbn; intros fs fs' H B. inv H; auto.
  okbind H. apply add_file_ok in E as [-> B']. eauto.
Qed.
Lemma add_builtins_total n : forall fs, (N.of_nat (List.length fs + n) <= 65535)%N -> exists fs', add_builtins n fs = Ok fs'.
Proof.
  induction n as [|n IH]; cbn; intros fs B; eauto. unfold add_file.
  destruct (N.leb_spec (N.of_nat (List.length fs) + 1) 65535); [|lia]. cbn. apply IH. rewrite app_length; cbn. lia.
Qed.
Lemma verify_main_grows R V V' e : verify_main R V = Ok (V', e) ->
  (grows V V' /\ r_parse R <> None) \/ (exists fs, add_builtins builtins (v_files V) = Ok fs /\ grows (with_files fs V) V').
Proof.
  unfold verify_main. intros H. apply andthen_ok in H as [(V1 & E & F) | (x & E & ->)]; apply raise_ok in E as (-> & E & _).
  2:{ left. split; [apply grows_refl | congruence]. }
  right. apply andthen_ok in F as [(V1 & E1 & F) | (x & E1 & ->)]; apply good_ok in E1 as (E1 & ?); [|discriminate].
  okbind E1. inv E1. exists a. split; [reflexivity|]. revert F. generalize (with_files a V). clear. intros V F.
  enough (S : stage_grows V (let!! V := add_or_throw_all (r_warn R) V in
  let!! V := raise (r_front R) V in
  let!! V := good (register_all (r_units R) V) in
  let!! V := good (match r_expl R with [] => Ok V | l => lsp_add_explanation l V end) in
  let!! V := good (add_diagnostics (r_mid_diags R) V) in
  let!! V := raise (r_mid R) V in
  match r_gen R with
  | inr e => raise (Some e) V
  | inl g =>
      let!! V := good (register_all g V) in
      if r_quiet R then Ok (V, None)
      else
        let!! V := raise (r_depgraph R) V in
        verify_all R 0 (filter task (r_units R ++ g)) V
  end)) by (eapply S; exact F). clear.
  repeat (apply andthen_grows; [|intros ? _]).
  - apply add_or_throw_grows.
  - apply raise_grows.
  - apply good_grows. intros. eapply register_all_grows; eauto.
  - apply good_grows. intros V' H. eapply core_grows; exact H.
  - apply good_grows. intros. eapply add_diagnostics_grows; eauto.
  - apply raise_grows.
  - destruct (r_gen R); [|apply raise_grows]. apply andthen_grows.
    + apply good_grows. intros. eapply register_all_grows; eauto.
    + intros. destruct (r_quiet R); [apply done_grows|]. apply andthen_grows; [apply raise_grows|intros; apply verify_all_grows].
Qed.
(** Whether the built-in files are added *)
Definition past_parsing (R : vrun) : bool := match r_early R, r_parse R with None, None => true | _, _ => false end.
Lemma verify_with_limits_grows R V V' e : verify_with_limits R V = Ok (V', e) ->
  (grows V V' /\ past_parsing R = false) \/ (exists fs, add_builtins builtins (v_files V) = Ok fs /\ grows (with_files fs V) V').
Proof.
  unfold verify_with_limits, past_parsing. destruct (r_early R). { intros H. inv H. left. split; auto. apply grows_refl. }
  intros H. okbind H. destruct a as [V1 e1]. inv H. apply verify_main_grows in E as [(A & B) | A]; [left | right]; auto.
  destruct (r_parse R); tauto.
Qed.
Lemma handle_result_grows id f e V V' : handle_result id f e V = Ok V' -> exists V1 r, grows V V1 /\ V' = send [MReply id r] V1.
Proof.
  unfold handle_result. intros H. destruct e as [[g|[]| |]|].
  - okbind H. okbind H. inv H. eexists _, _. split; [|reflexivity]. eapply grows_trans; [eapply add_diagnostic_grows; eauto | eapply set_type_grows; eauto].
  - okbind H. okbind H. inv H. eexists _, _. split; [|reflexivity]. eapply grows_trans; [eapply handle_timeout_grows; eauto | eapply set_type_grows; eauto].
  - okbind H. okbind H. inv H. eexists _, _. split; [|reflexivity]. eapply grows_trans; [eapply handle_timeout_grows; eauto | eapply set_type_grows; eauto].
  - inv H. eexists _, _. split; [apply grows_refl | reflexivity].
  - inv H. eexists _, _. split; [apply grows_refl | reflexivity].
  - inv H. eexists _, _. split; [apply grows_refl | reflexivity].
  - inv H. eexists _, _. split; [apply grows_refl | reflexivity].
Qed.

(** The first file of a document *)
Definition contents (f : file) : option (docid * text) := match f_path f with PLsp d => Some (d, f_source f) | PBuiltin => None end.
Fixpoint lookup_uri (u : string) (fs : files) : option (docid * text) :=
  match fs with [] => None | f :: fs => if has_uri u f then contents f else lookup_uri u fs end.
Definition uris (fs : files) : list string := flat_map (fun f => match f_path f with PLsp d => [d_uri d] | PBuiltin => [] end) fs.

Lemma lookup_builtin u fs k : lookup_uri u (fs ++ repeat builtin_file k) = lookup_uri u fs.
Proof.
  induction fs as [|f fs IH]; cbn. induction k; cbn; auto. destruct (has_uri u f); auto.
Qed.
Lemma uris_app a b : uris (a ++ b) = uris a ++ uris b.
Proof. unfold uris. apply flat_map_app. Qed.
Lemma uris_builtin k : uris (repeat builtin_file k) = [].
Proof. induction k; cbn; auto. Qed.
Lemma has_uri_true u f : has_uri u f = true <-> exists d, f_path f = PLsp d /\ d_uri d = u.
Proof.
  unfold has_uri. destruct (f_path f) as [d|]; split.
  - intros H. apply String.eqb_eq in H. eauto.
  - intros (e & H & <-). inv H. apply String.eqb_refl.
  - discriminate.
  - intros (e & H & _). discriminate.
Qed.
Lemma lookup_none u fs : lookup_uri u fs = None <-> ~ In u (uris fs).
Proof.
  induction fs as [|f fs IH]; cbn. split; auto. unfold has_uri, contents. destruct (f_path f) as [d|]; cbn; [|exact IH].
  destruct (String.eqb_spec (d_uri d) u).
  - split; [discriminate | intros H; exfalso; auto].
  - rewrite IH. tauto.
Qed.
Lemma replace_none u f fs : replace_uri u f fs = None -> lookup_uri u fs = None.
Proof.
  induction fs as [|g fs IH]; cbn; auto. destruct (has_uri u g); [discriminate|]. destruct (replace_uri u f fs); [discriminate|auto].
Qed.
Lemma replace_some d t fs fs' : replace_uri (d_uri d) (mkfile (PLsp d) t) fs = Some fs' ->
  uris fs' = uris fs /\ List.length fs' = List.length fs /\ forall u, lookup_uri u fs' = if String.eqb (d_uri d) u then Some (d, t) else lookup_uri u fs.
Proof.
  revert fs'. induction fs as [|g fs IH]; cbn; intros fs' H; [discriminate|].
  destruct (has_uri (d_uri d) g) eqn:G.
  - inv H. apply has_uri_true in G as (e & P & U). cbn. rewrite P. cbn. rewrite U. split; [reflexivity|]. split; [reflexivity|]. intros u.
    unfold has_uri; cbn. rewrite P, U. destruct (String.eqb (d_uri d) u); auto.
  - destruct (replace_uri (d_uri d) (mkfile (PLsp d) t) fs) as [fs1|]; [|discriminate]. cbn in H. inv H.
    destruct (IH _ eq_refl) as (A & B & C). split; [unfold uris in *; cbn; now rewrite A|]. cbn. split; [now rewrite B|]. intros u. rewrite C.
    destruct (has_uri u g) eqn:G'; auto. destruct (String.eqb_spec (d_uri d) u) as [<-|]; auto. congruence.
Qed.
Lemma lookup_app_new d t fs u : lookup_uri (d_uri d) fs = None ->
  lookup_uri u (fs ++ [mkfile (PLsp d) t]) = if String.eqb (d_uri d) u then Some (d, t) else lookup_uri u fs.
Proof.
  intros N. induction fs as [|g fs IH]; cbn in *. reflexivity.
  destruct (has_uri (d_uri d) g) eqn:G.
  - apply has_uri_true in G as (e & P & U). unfold contents in N. rewrite P in N. discriminate.
  - rewrite (IH N). destruct (has_uri u g) eqn:G'; auto. destruct (String.eqb_spec (d_uri d) u) as [<-|]; auto. congruence.
Qed.
Lemma add_or_update_ok d t fs fs' : add_or_update d t fs = Ok fs' -> NoDup (uris fs) ->
  NoDup (uris fs') /\ forall u, lookup_uri u fs' = if String.eqb (d_uri d) u then Some (d, t) else lookup_uri u fs.
Proof.
  unfold add_or_update. intros H N. destruct (replace_uri _ _ fs) as [fs1|] eqn:E.
  - inv H. apply replace_some in E as (A & _ & B). rewrite A. auto.
  - apply replace_none in E. apply add_file_ok in H as [-> _]. split.
    + rewrite uris_app. cbn. apply lookup_none in E.
      apply NoDup_rev in N. rewrite <- rev_involutive. apply NoDup_rev. rewrite rev_app_distr. cbn. constructor; auto. now rewrite <- in_rev.
    + intros u. now apply lookup_app_new.
Qed.
Lemma add_or_update_length d t fs fs' : add_or_update d t fs = Ok fs' -> List.length fs' <= S (List.length fs) /\ List.length fs <= List.length fs'.
Proof.
  unfold add_or_update. intros H. destruct (replace_uri _ _ fs) as [fs1|] eqn:E.
  - inv H. apply replace_some in E as (_ & A & _). lia.
  - apply add_file_ok in H as [-> _]. rewrite app_length; cbn; lia.
Qed.
Lemma add_or_update_bound d t fs fs' : add_or_update d t fs = Ok fs' -> (N.of_nat (List.length fs) <= 65535)%N -> (N.of_nat (List.length fs') <= 65535)%N.
Proof.
  unfold add_or_update. intros H B. destruct (replace_uri _ _ fs) as [fs1|] eqn:E.
  - inv H. apply replace_some in E as (_ & A & _). lia.
  - now apply add_file_ok in H as [_ H].
Qed.

(** A document's file is found by its version exactly if that is the latest. *)
Lemma find_from_ok p fs : forall n id, find_from n p fs = Some id -> n <= id /\ exists f, nth_error fs (id - n) = Some f /\ p f = true.
Proof.
  induction fs as [|f fs IH]; cbn; intros n id H; [discriminate|]. destruct (p f) eqn:P.
  - inv H. split; [lia|]. exists f. rewrite Nat.sub_diag. auto.
  - destruct (IH _ _ H) as (A & g & B & C). split; [lia|]. exists g. replace (id - n) with (S (id - S n)) by lia. auto.
Qed.
Lemma find_file_ok p fs id : find_file p fs = Some id -> exists f, get_file id fs = Ok f /\ p f = true /\ In f fs.
Proof.
  unfold find_file. intros H. apply find_from_ok in H as (A & f & B & C). exists f. unfold get_file. destruct id; [lia|].
  replace (S id - 1) with id in B by lia. rewrite B. repeat split; auto. now apply nth_error_In in B.
Qed.
Lemma find_from_none p fs : forall n, find_from n p fs = None -> forall f, In f fs -> p f = false.
Proof.
  induction fs as [|f fs IH]; cbn; intros n H g G; [contradiction|]. destruct (p f) eqn:P; [discriminate|]. destruct G as [<-|G]; eauto.
Qed.
Lemma doc_eqb_eq a b : doc_eqb a b = true <-> a = b.
Proof.
  unfold doc_eqb. rewrite andb_true_iff, String.eqb_eq, Z.eqb_eq. destruct a, b; cbn. split; [intros [-> ->]|intros H; inv H]; auto.
Qed.
Lemma is_doc_true d f : is_doc d f = true <-> f_path f = PLsp d.
Proof.
  unfold is_doc. destruct (f_path f) as [e|]; [|split; discriminate]. rewrite doc_eqb_eq. split; [now intros -> | intros H; now inv H].
Qed.
Lemma lookup_unique fs f d : NoDup (uris fs) -> In f fs -> f_path f = PLsp d -> lookup_uri (d_uri d) fs = Some (d, f_source f).
Proof.
  induction fs as [|g fs IH]; cbn; intros N I P; [contradiction|]. unfold has_uri, contents. destruct I as [->|I].
  - rewrite P. now rewrite String.eqb_refl.
  - destruct (f_path g) as [e|] eqn:Q; cbn in N.
    + inv N. destruct (String.eqb_spec (d_uri e) (d_uri d)) as [E|]; auto. exfalso. apply H1. rewrite E.
      unfold uris. apply in_flat_map. exists f. rewrite P. cbn. auto.
    + auto.
Qed.
Lemma lookup_in fs u d t : lookup_uri u fs = Some (d, t) -> exists f, In f fs /\ f_path f = PLsp d /\ f_source f = t /\ d_uri d = u.
Proof.
  induction fs as [|g fs IH]; cbn; [discriminate|]. destruct (has_uri u g) eqn:G.
  - apply has_uri_true in G as (e & P & U). unfold contents. rewrite P. intros H. inv H. eauto 6.
  - intros H. destruct (IH H) as (f & A & B). eauto.
Qed.
