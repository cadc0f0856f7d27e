(** Proofs for C57: order of units, duplicates, calculi, annotations, used names. *)
From Coq Require Import Bool List String Arith Lia Permutation.
From Verif.Model Require Import Syntax ScopeMap ResolveDecls.
From Verif.Spec Require Import ModuleScoping.
From Verif.Proofs Require Import ModuleProofs ModuleSound ModuleTotal ModuleSafe.
Import ListNotations.
Local Open Scope string_scope.
Local Open Scope list_scope.

(** Only what is declared in a scope matters, not in which order. *)
Definition same (a b : scope) : Prop := forall d, In d a <-> In d b.
Definition sames : stack -> stack -> Prop := Forall2 same.
Lemma same_name n a b : same a b -> declares_name n a <-> declares_name n b.
Proof. intros S. split; intros (x & k & H & H'); exists x, k; split; auto; apply S; exact H. Qed.
Lemma sames_refl E : sames E E. Proof. induction E; constructor; auto. intros d. tauto. Qed.
Lemma same_refers E F : sames E F -> forall n x k, refers E n x k -> refers F n x k.
Proof.
  induction 1 as [|a b E F H S IH]; intros n x k; [auto|]. rewrite !refers_cons. intros [[H1 H2]|[H1 H2]].
  - left. split; [apply H; exact H1|exact H2].
  - right. split; [rewrite <- (same_name n a b H); exact H1|auto].
Qed.
Lemma same_refers_ann E F : sames E F -> forall n x k, refers_annotation E n x k -> refers_annotation F n x k.
Proof.
  induction 1 as [|a b E F H S IH]; intros n x k; [auto|]. rewrite !refers_ann_cons. intros [(H1 & H2 & H3)|[H1 H2]].
  - left. split; [apply H; exact H1|auto].
  - right. split; [|auto]. intros y q Hy. apply (H1 y q). apply H. exact Hy.
Qed.
Lemma same_adds k x E E' F : adds k x E E' -> sames E F -> exists F', adds k x F F' /\ sames E' F'.
Proof.
  intros [sc E0 H|sc E0 q H] S; inversion S as [|a b ? F0 Hs HF]; subst.
  - exists ((b ++ [(x, k)]) :: F0). split; [constructor; rewrite <- (same_name _ sc b Hs); exact H|].
    constructor; [|exact HF]. intros d. rewrite !in_app_iff. specialize (Hs d). tauto.
  - exists (b :: F0). split; [econstructor; apply Hs; exact H|exact S].
Qed.
Lemma same_means E F t t' : sames E F -> means E t t' -> means F t t'.
Proof. intros S. induction 1; constructor; auto. eapply same_refers; eauto. Qed.
Lemma same_sees :
  (forall E i i' E', sees E i i' E' -> forall F, sames E F -> exists F', sees F i i' F' /\ sames E' F') /\
  (forall E l l' E', sees_all E l l' E' -> forall F, sames E F -> exists F', sees_all F l l' F' /\ sames E' F') /\
  (forall E l rs l' E', sees_args E l rs l' E' -> forall F, sames E F -> exists F', sees_args F l rs l' F' /\ sames E' F').
Proof.
  assert (P : forall E F, sames E F -> sames ([] :: E) ([] :: F)) by (intros; constructor; auto; intros d; tauto).
  apply sees_all_three.
  - intros E x y k H F S. exists F. split; [econstructor; eapply same_refers; eauto|exact S].
  - intros E t t' H F S. exists F. split; [constructor; eapply same_means; eauto|exact S].
  - intros E k x E' H F S. destruct (same_adds _ _ _ _ _ H S) as (F' & H' & S'). exists F'. split; [constructor; exact H'|exact S'].
  - intros E l l' E' _ IH F S. destruct (IH F S) as (F' & H' & S'). exists F'. split; [constructor; exact H'|exact S'].
  - intros E l l' E' _ IH F S. destruct (IH _ (P _ _ S)) as (F' & H' & S'). exists F. split; [econstructor; exact H'|exact S].
  - intros E x y k args rs args' E1 inner inner' E2 Hy Hr _ IHa _ IHi F S.
    destruct (IHa F S) as (F1 & H1 & S1). destruct (IHi _ (P _ _ S1)) as (F2 & H2 & S2).
    exists F1. split; [econstructor; eauto; eapply same_refers_ann; eauto|exact S1].
  - intros E F S. exists F. split; [constructor|exact S].
  - intros E i i' E1 l l' E2 _ IH1 _ IH2 F S. destruct (IH1 F S) as (F1 & H1 & S1). destruct (IH2 F1 S1) as (F2 & H2 & S2).
    exists F2. split; [econstructor; eauto|exact S2].
  - intros E F S. exists F. split; [constructor|exact S].
  - intros E a a' E1 l rs l' E2 _ IH1 _ IH2 F S. destruct (IH1 F S) as (F1 & H1 & S1). destruct (IH2 F1 S1) as (F2 & H2 & S2).
    exists F2. split; [econstructor; eauto|exact S2].
  - intros E z E1 l rs l' E2 H _ IH F S. destruct (same_adds _ _ _ _ _ H S) as (F1 & H1 & S1). destruct (IH F1 S1) as (F2 & H2 & S2).
    exists F2. split; [econstructor; eauto|exact S2].
  - intros E a l rs l' E2 _ IH F S. destruct (IH F S) as (F2 & H2 & S2). exists F2. split; [econstructor; eauto|exact S2].
Qed.
Lemma same_all E l l' E' F : sees_all E l l' E' -> sames E F -> exists F', sees_all F l l' F' /\ sames E' F'.
Proof. intros H S. exact (proj1 (proj2 same_sees) _ _ _ _ H F S). Qed.
Lemma same_params E ps ps' E' : sees_params E ps ps' E' -> forall F, sames E F -> exists F', sees_params F ps ps' F' /\ sames E' F'.
Proof.
  induction 1 as [E|E x t t' E1 ps ps' E2 Ht Hx _ IH]; intros F S; [exists F; split; [constructor|exact S]|].
  destruct (same_adds _ _ _ _ _ Hx S) as (F1 & H1 & S1). destruct (IH F1 S1) as (F2 & H2 & S2).
  exists F2. split; [econstructor; eauto; eapply same_means; eauto|exact S2].
Qed.
Lemma same_body E b b' F : sees_body E b b' -> sames E F -> sees_body F b b'.
Proof. intros [E0|E0 l l' E' H] S; [constructor|]. destruct (same_all _ _ _ _ _ H S) as (F' & H' & _). econstructor; eauto. Qed.
Lemma same_push E F : sames E F -> sames ([] :: E) ([] :: F).
Proof. intros. constructor; auto. intros d. tauto. Qed.
Lemma same_proc E p p' F : sees_proc E p p' -> sames E F -> sees_proc F p p'.
Proof.
  intros [x ins ins' outs outs' spec spec' calc calc' body body' E1 E2 E3 H1 H2 H3 H4 H5] S.
  destruct (same_params _ _ _ _ H1 _ (same_push _ _ S)) as (F1 & G1 & S1). destruct (same_params _ _ _ _ H2 _ S1) as (F2 & G2 & S2).
  destruct (same_all _ _ _ _ _ H3 S2) as (F3 & G3 & S3).
  econstructor; eauto; [|eapply same_body; eauto]. destruct H4; econstructor. eapply same_refers; eauto.
Qed.
Lemma same_func E p p' F : sees_func E p p' -> sames E F -> sees_func F p p'.
Proof.
  intros [x ins ins' out out' body body' E1 H1 H2 H5] S.
  destruct (same_params _ _ _ _ H1 _ (same_push _ _ S)) as (F1 & G1 & S1).
  econstructor; eauto; [eapply same_means; eauto|eapply same_body; eauto].
Qed.
Lemma same_ditems E l l' E' : sees_ditems E l l' E' -> forall F, sames E F -> exists F', sees_ditems F l l' F' /\ sames E' F'.
Proof.
  induction 1 as [E|E f f' l l' E' Hf _ IH|E x y k e e' E1 l l' E2 Hx He _ IH]; intros F S.
  - exists F. split; [constructor|exact S].
  - destruct (IH F S) as (F' & H' & S'). exists F'. split; [constructor; auto; eapply same_func; eauto|exact S'].
  - destruct (same_all _ _ _ _ _ He S) as (F1 & G1 & S1). destruct (IH F1 S1) as (F2 & G2 & S2).
    exists F2. split; [econstructor; eauto; eapply same_refers; eauto|exact S2].
Qed.
Lemma same_adds_all l E E' : adds_all l E E' -> forall F, sames E F -> exists F', adds_all l F F' /\ sames E' F'.
Proof.
  induction 1 as [E|k x l E E1 E2 H _ IH]; intros F S; [exists F; split; [constructor|exact S]|].
  destruct (same_adds _ _ _ _ _ H S) as (F1 & G1 & S1). destruct (IH F1 S1) as (F2 & G2 & S2).
  exists F2. split; [econstructor; eauto|exact S2].
Qed.
Lemma same_unit E u u' E' F : sees_unit E u u' E' -> sames E F -> exists F', sees_unit F u u' F' /\ sames E' F'.
Proof.
  intros [E0 p p' H|E0 x y k l l' E1 E2 H1 H2 H3|E0 l l' E1 H] S.
  - exists F. split; [constructor; eapply same_proc; eauto|exact S].
  - destruct (same_adds_all _ _ _ H1 _ S) as (F1 & G1 & S1). destruct (same_ditems _ _ _ _ H3 _ S1) as (F2 & G2 & S2).
    exists F2. split; [econstructor; eauto; eapply same_refers; eauto|exact S2].
  - destruct (same_all _ _ _ _ _ H (same_push _ _ S)) as (F1 & G1 & S1). exists F. split; [econstructor; eauto|exact S].
Qed.
Lemma same_units E us us' E' : sees_units E us us' E' -> forall F, sames E F -> exists F', sees_units F us us' F' /\ sames E' F'.
Proof.
  induction 1 as [E|E u u' E1 us us' E2 H _ IH]; intros F S; [exists F; split; [constructor|exact S]|].
  destruct (same_unit _ _ _ _ _ H S) as (F1 & G1 & S1). destruct (IH F1 S1) as (F2 & G2 & S2).
  exists F2. split; [econstructor; eauto|exact S2].
Qed.

Lemma units_app_inv E us vs out E' : sees_units E (us ++ vs) out E' ->
  exists us' vs' E1, out = us' ++ vs' /\ sees_units E us us' E1 /\ sees_units E1 vs vs' E'.
Proof.
  revert E out. induction us as [|u us IH]; intros E out H; cbn in H.
  - exists [], out, E. split; [reflexivity|]. split; [constructor|exact H].
  - inversion H as [|? ? u' E1 ? us1 ? H1 H2]; subst. destruct (IH _ _ H2) as (us' & vs' & E2 & -> & H3 & H4).
    exists (u' :: us'), vs', E2. split; [reflexivity|]. split; [econstructor; eauto|exact H4].
Qed.
Lemma units_app E us us' E1 vs vs' E2 : sees_units E us us' E1 -> sees_units E1 vs vs' E2 -> sees_units E (us ++ vs) (us' ++ vs') E2.
Proof. induction 1; intros H'; cbn; [exact H'|]. econstructor; eauto. Qed.
Lemma units_length E us us' E' : sees_units E us us' E' -> List.length us' = List.length us.
Proof. induction 1; cbn; congruence. Qed.
Lemma no_domain_units E us us' E' : sees_units E us us' E' -> Forall no_domain us ->
  E' = E /\ Forall (fun c => sees_unit E (fst c) (snd c) E) (combine us us').
Proof.
  induction 1 as [E|E u u' E1 us us' E2 H _ IH]; intros N; [split; [reflexivity|constructor]|].
  apply Forall_cons_iff in N as [N1 N2]. assert (E1 = E) as -> by (destruct H; [reflexivity|destruct N1|reflexivity]).
  destruct (IH N2) as [-> A]. split; [reflexivity|]. cbn. constructor; auto.
Qed.
Lemma combine_units E c : Forall (fun c => sees_unit E (fst c) (snd c) E) c -> sees_units E (map fst c) (map snd c) E.
Proof. induction 1; cbn; econstructor; eauto. Qed.
Lemma combine_map {A B} (l : list A) (m : list B) : List.length m = List.length l -> map fst (combine l m) = l /\ map snd (combine l m) = m.
Proof. revert m. induction l as [|a l IH]; intros [|b m] H; try discriminate; cbn; auto. destruct (IH m) as [-> ->]; auto. Qed.
Lemma map_combine {A B} (c : list (A * B)) : combine (map fst c) (map snd c) = c.
Proof. induction c as [|[a b] c IH]; cbn; congruence. Qed.

Lemma flip_names sc l : names (sc ++ flip_decls l) = names sc ++ map (fun d => gname (snd d)) l.
Proof. unfold names, flip_decls. rewrite map_app, map_map. reflexivity. Qed.
Lemma adds_all_scope l : forall sc E E', adds_all l (sc :: E) E' -> NoDup (names sc) -> NoDup (map snd l) ->
  (forall x, In x (map snd l) -> ~ In x (map fst sc)) ->
  E' = (sc ++ flip_decls l) :: E /\ NoDup (names (sc ++ flip_decls l)).
Proof.
  induction l as [|[k x] l IH]; intros sc E E' H N ND F; inversion H as [|? ? ? ? E1 ? H1 H2]; subst.
  - cbn. rewrite app_nil_r. auto.
  - cbn in ND. apply NoDup_cons_iff in ND as [Nx ND].
    inversion H1 as [? ? Hn|? ? q Hq]; subst.
    + destruct (IH (sc ++ [(x, k)]) E E' H2) as [-> A].
      * rewrite names_app. apply nodup_snoc; [exact N|]. cbn. rewrite <- declares_name_names. exact Hn.
      * exact ND.
      * intros z Hz. rewrite map_app. cbn. intros Hi. apply in_app_or in Hi as [Hi|[<-|[]]]; [|auto].
        apply (F z); auto. cbn. auto.
      * rewrite <- app_assoc in *. auto.
    + exfalso. apply (F x); [left; reflexivity|]. apply in_map_iff. exists (x, q). auto.
Qed.
Lemma scope_adds_all l : forall sc E, NoDup (names (sc ++ flip_decls l)) -> adds_all l (sc :: E) ((sc ++ flip_decls l) :: E).
Proof.
  induction l as [|[k x] l IH]; intros sc E N.
  - cbn. rewrite app_nil_r. constructor.
  - change (flip_decls ((k, x) :: l)) with ([(x, k)] ++ flip_decls l) in *. rewrite app_assoc in *.
    econstructor; [|apply IH; exact N]. constructor. rewrite declares_name_names. intros H.
    rewrite flip_names, names_app in N. rewrite <- app_assoc in N. apply NoDup_remove_2 in N. apply N. apply in_or_app. auto.
Qed.
Lemma flip_snd l : map fst (flip_decls l) = map snd l.
Proof. unfold flip_decls. rewrite map_map. reflexivity. Qed.

Lemma ditems_tail E l l' E' : sees_ditems E l l' E' -> tl E' = tl E.
Proof.
  induction 1 as [| |E x' y' k' e e' E5 l l' E6 _ He _ IH3]; auto.
  rewrite IH3. apply (proj1 (proj2 sees_nonempty_tail) _ _ _ _ He).
Qed.
Lemma units_tail E us us' E' : sees_units E us us' E' -> tl E' = tl E.
Proof.
  induction 1 as [|E u u' E1 us us' E2 Hu _ IH]; [reflexivity|]. rewrite IH. clear IH.
  inversion Hu as [|? ? ? ? ? ? E3 ? H1 ? H3|]; subst; try reflexivity.
  rewrite (ditems_tail _ _ _ _ H3). apply (adds_all_here _ _ _ H1).
Qed.
Lemma order I ds ps qs out r :
  NoDup (names I) -> distinct I (ds ++ ps) -> Forall no_domain ps -> Permutation ps qs ->
  resolve_module I (ds ++ ps) = Ok (out, r) ->
  exists ds' ps' qs' r', out = ds' ++ ps' /\ List.length ds' = List.length ds /\
    resolve_module I (ds ++ qs) = Ok (ds' ++ qs', r') /\ Permutation (combine ps ps') (combine qs qs').
Proof.
  intros N D ND P H. destruct (module_sound _ _ _ _ N H) as (top & (top0 & A & U) & _).
  destruct (units_app_inv _ _ _ _ _ U) as (ds' & ps' & E1 & -> & U1 & U2).
  destruct (no_domain_units _ _ _ _ U2 ND) as [<- UC].
  pose proof (combine_map ps ps' (units_length _ _ _ _ U2)) as [C1 C2].
  assert (PT : Permutation (top_names (ds ++ ps)) (top_names (ds ++ qs))).
  { unfold top_names. apply Permutation_flat_map. apply Permutation_app_head. exact P. }
  assert (PM : Permutation (module_decls (ds ++ ps)) (module_decls (ds ++ qs))).
  { unfold module_decls. apply Permutation_app; [apply Permutation_map; exact PT|]. apply Permutation_flat_map. apply Permutation_app_head. exact P. }
  assert (DQ : distinct I (ds ++ qs)).
  { destruct D as [D1 D2]. split.
    - eapply Permutation_NoDup; [|exact D1]. apply Permutation_map. exact PM.
    - intros x Hx. apply D2. eapply Permutation_in; [|exact Hx]. apply Permutation_map. apply Permutation_sym. exact PM. }
  rewrite <- C1 in P. destruct (Permutation_map_inv _ _ (Permutation_sym P)) as (c & Hq & PC).
  subst qs.
  assert (T0 : [top0; I] = [flip_decls (top_names (ds ++ ps)); I] /\ NoDup (names (flip_decls (top_names (ds ++ ps))))).
  { apply (adds_all_scope _ [] [I] _ A); [constructor| |intros ? _ []].
    destruct D as [D _]. unfold module_decls in D. rewrite map_app in D. fold (flip_decls (top_names (ds ++ ps))) in D. rewrite flip_snd in D.
    clear - D. induction (map snd (top_names (ds ++ ps))) as [|z l IH]; [constructor|]. cbn in D. apply NoDup_cons_iff in D as [D1 D2].
    constructor; [|auto]. intros Hz. apply D1. apply in_or_app. auto. }
  destruct T0 as [T0 NT]. injection T0 as ->.
  set (top1 := flip_decls (top_names (ds ++ map fst c))).
  assert (SP : Permutation (flip_decls (top_names (ds ++ ps))) top1).
  { apply Permutation_map. exact PT. }
  assert (A1 : adds_all (top_names (ds ++ map fst c)) [[]; I] [top1; I]).
  { apply (scope_adds_all _ [] [I]). cbn. eapply Permutation_NoDup; [|exact NT]. apply Permutation_map. exact SP. }
  assert (S : sames [flip_decls (top_names (ds ++ ps)); I] [top1; I]).
  { constructor; [|apply sames_refl]. intros d. split; apply Permutation_in; [exact SP|apply Permutation_sym; exact SP]. }
  destruct (same_units _ _ _ _ U1 _ S) as (F1 & V1 & S1).
  assert (UC' : Forall (fun d => sees_unit F1 (fst d) (snd d) F1) c).
  { apply Forall_forall. intros [u u'] Hu. cbn.
    assert (Hc : In (u, u') (combine ps ps')) by (eapply Permutation_in; [apply Permutation_sym; exact PC|exact Hu]).
    pose proof (proj1 (Forall_forall _ _) UC _ Hc) as Hs. cbn in Hs.
    assert (Nu : no_domain u).
    { apply (proj1 (Forall_forall _ _) ND). apply in_combine_l in Hc. exact Hc. }
    destruct (same_unit _ _ _ _ _ Hs S1) as (F2 & V2 & _). destruct V2; [constructor; auto|destruct Nu|econstructor; eauto]. }
  assert (ET : exists top2, F1 = [top2; I]).
  { inversion S1 as [|? b ? F0 _ S2]; subst. inversion S2 as [|? I' ? F3 _ S3]; subst. inversion S3; subst.
    exists b. f_equal. f_equal.
    assert (TL : tl [b; I'] = tl [top1; I]).
    { apply (units_tail _ _ _ _ V1). }
    cbn in TL. congruence. }
  destruct ET as [top2 ->].
  destruct (module_complete I (ds ++ map fst c) (ds' ++ map snd c) top2 N DQ) as [r' Hr'].
  { exists top1. split; [exact A1|]. eapply units_app; [exact V1|]. apply combine_units. exact UC'. }
  exists ds', ps', (map snd c), r'. split; [reflexivity|]. split; [apply (units_length _ _ _ _ U1)|]. split; [exact Hr'|].
  rewrite map_combine. exact PC.
Qed.

(** Two declarations of one name. *)
Lemma units_here_mono E us us' E' : sees_units E us us' E' -> forall y, here y E -> here y E'.
Proof.
  induction 1 as [E|E u u' E1 us us' E2 H _ IH]; auto. intros y Hy. apply IH. destruct H as [|E0 x z k l l' E3 E4 H1 _ H3|]; auto.
  eapply ditems_here; eauto. apply (adds_all_here _ _ _ H1). exact Hy.
Qed.
Lemma units_here_items E us us' E' : sees_units E us us' E' -> forall x l d, In (UDomain x l) us -> In d l -> here (fst (ditem_name d)) E'.
Proof.
  induction 1 as [E|E u u' E1 us us' E2 H HU IH]; intros x l d Hu Hd; [destruct Hu|]. destruct Hu as [->|Hu]; [|eauto].
  eapply units_here_mono; [exact HU|]. inversion H as [|? ? ? ? ? ? E3 E4 H1 H2 H3|]; subst. eapply ditems_here; [exact H3|].
  pose proof (ditems_here_decl _ _ _ H1 d Hd) as Hh. destruct d; exact Hh.
Qed.
Lemma global_here I us us' top : sees_module I us us' top -> forall x, In x (global_names us) -> exists k, In (x, k) top.
Proof.
  intros (top0 & A & U) x Hx. assert (Hh : here x [top; I]).
  { unfold global_names in Hx. apply in_app_or in Hx as [Hx|Hx].
    - apply in_map_iff in Hx as ([k z] & <- & Hz). eapply units_here_mono; [exact U|]. apply (proj1 (adds_all_here _ _ _ A) k). exact Hz.
    - apply in_flat_map in Hx as (u & Hu & Hx). destruct u as [p|z l|l]; try destruct Hx. apply in_map_iff in Hx as (d & <- & Hd).
      eapply units_here_items; eauto. }
  destruct Hh as (sc & E0 & k & [= <- <-] & H). eauto.
Qed.
Lemma module_rel I us us' r : NoDup (names I) -> resolve_module I us = Ok (us', r) ->
  exists top, sees_module I us us' top /\ rel r [top; I].
Proof.
  intros N H. unfold resolve_module in H. pose proof (rel_resolver I N) as R.
  destruct (forward (flat_map unit_decl us) (resolver I)) as [r0| |] eqn:D; cbn [rbind] in H; try discriminate.
  destruct (forward_sound _ _ _ _ R D) as (E0 & S0 & R0 & T0 & G0). destruct (rel2 _ _ _ _ R0 T0) as [top0 ->].
  destruct (dunits_sound us r0 us' r [top0; I] R0 (units_here_top _ _ _ S0) H) as (E & S & R1 & T1 & G1).
  destruct (rel2 _ _ _ _ R1 T1) as [top ->]. exists top. split; [exists top0; auto|exact R1].
Qed.
Lemma duplicates I us x y : NoDup (names I) -> In x (global_names us) -> In y (global_names us) -> x <> y -> gname x = gname y ->
  forall us' r, resolve_module I us <> Ok (us', r).
Proof.
  intros N Hx Hy Hn He us' r H. destruct (module_rel _ _ _ _ N H) as (top & M & R).
  destruct (global_here _ _ _ _ M x Hx) as [k Hk]. destruct (global_here _ _ _ _ M y Hy) as [q Hq].
  destruct (nodup_unique top x k y q) as [E _]; auto. apply (rel_nodup _ _ R). left. reflexivity.
Qed.

(** Used names. *)
Lemma refers_within D E n x k : within D E -> refers E n x k -> In (x, k) D /\ gname x = n.
Proof. intros W H. destruct (refers_in _ _ _ _ H) as (sc & H1 & H2 & H3). split; [eapply W; eauto|exact H3]. Qed.
Definition known (D : scope) (x : gid) : Prop := In x (map fst D).
Lemma refers_known D E n x k : within D E -> refers E n x k -> known D x.
Proof. intros W H. apply (refers_within D) in H as [H _]; [|exact W]. apply in_map_iff. exists (x, k). auto. Qed.
Lemma sees_used D :
  (forall E i i' E', sees E i i' E' -> incl (decls_of i) D -> within D E -> Forall (known D) (used i')) /\
  (forall E l l' E', sees_all E l l' E' -> incl (flat_map decls_of l) D -> within D E -> Forall (known D) (flat_map used l')) /\
  (forall E l rs l' E', sees_args E l rs l' E' -> True).
Proof.
  apply sees_all_three; auto.
  - intros E x y k H _ W. cbn. constructor; [eapply refers_known; eauto|constructor].
  - intros. cbn. constructor.
  - intros. cbn. constructor.
  - intros E l l' E' H IH HD W. cbn. apply IH; [exact HD|apply within_push; exact W].
  - intros E x y k args rs args' E1 inner inner' E2 Hy Hr Ha _ Hi IH HD W. cbn in HD. apply incl_app_inv in HD as [D1 D2]. cbn. constructor.
    + destruct Hy as (a & sc & b & -> & H1 & _). apply in_map_iff. exists (y, k). split; [reflexivity|].
      apply (W sc); [apply in_or_app; right; left; reflexivity|exact H1].
    + apply IH; [exact D2|]. apply within_push. eapply (proj2 (proj2 (sees_within D))); eauto.
  - intros. cbn. constructor.
  - intros E i i' E1 l l' E2 H1 IH1 H2 IH2 HD W. cbn in HD. apply incl_app_inv in HD as [D1 D2]. cbn. apply Forall_app. split; [auto|].
    apply IH2; [exact D2|]. eapply (proj1 (sees_within D)); eauto.
Qed.
Lemma all_used D E l l' E' : sees_all E l l' E' -> incl (flat_map decls_of l) D -> within D E -> Forall (known D) (flat_map used l').
Proof. intros H. apply (proj1 (proj2 (sees_used D)) _ _ _ _ H). Qed.
Lemma body_used_known D E b b' : sees_body E b b' -> incl (body_decls b) D -> within D E -> Forall (known D) (body_used b').
Proof. intros [E0|E0 l l' E' H] HD W; [constructor|]. eapply all_used; eauto. Qed.
Lemma proc_scopes D E x ins ins' outs outs' spec spec' E1 E2 E3 :
  within D E -> incl (param_decls ins) D -> incl (param_decls outs) D -> incl (flat_map decls_of spec) D ->
  sees_params ([] :: E) ins ins' E1 -> sees_params E1 outs outs' E2 -> sees_all E2 spec spec' E3 ->
  within D E2 /\ within D E3 /\ x = x :> gid.
Proof.
  intros W D1 D2 D3 H1 H2 H3. assert (W2 : within D E2).
  { eapply params_within; eauto. eapply params_within; eauto. apply within_push. exact W. }
  split; [exact W2|]. split; [|reflexivity]. eapply (proj1 (proj2 (sees_within D))); eauto.
Qed.
Lemma unit_used_known D E u u' E' : sees_unit E u u' E' -> incl (unit_decls u) D -> within D E -> Forall (known D) (unit_used u').
Proof.
  intros [E0 p p' H|E0 x y k l l' E1 E2 H1 H2 H3|E0 l l' E1 H] HD W.
  - destruct H as [x ins ins' outs outs' spec spec' calc calc' body body' E1 E2 E3 H1 H2 H3 H4 H5]. cbn in HD.
    apply incl_app_inv in HD as [D1 HD]. apply incl_app_inv in HD as [D2 HD]. apply incl_app_inv in HD as [D3 D4].
    destruct (proc_scopes D E0 x _ _ _ _ _ _ _ _ _ W D1 D2 D3 H1 H2 H3) as (W2 & W3 & _).
    cbn. apply Forall_app. split; [eapply all_used; eauto|]. apply Forall_app. split; [|eapply body_used_known; eauto].
    destruct H4 as [|E4 c y k Hc]; constructor; [eapply refers_known; eauto|constructor].
  - cbn [unit_decls] in HD. apply incl_app_inv in HD as [D1 D2]. rewrite <- flip_ditems in D1.
    pose proof (adds_all_within D _ _ _ H1 D1 W) as W1. cbn. constructor; [eapply refers_known; eauto|]. clear H1 H2.
    induction H3 as [|E9 f f' l l' E8 Hf _ IH|E9 x' z k' e e' E3 l l' E4 Hx He _ IH]; cbn [flat_map] in *; [constructor| |];
      apply incl_app_inv in D2 as [D3 D4]; apply Forall_app; split.
    + destruct Hf as [fx ins ins' out out' body body' E3 G1 G2 G3]. cbn in *. unfold func_decls in D3. apply incl_app_inv in D3 as [D5 D6].
      eapply body_used_known; eauto. eapply params_within; eauto. apply within_push. exact W1.
    + apply IH; auto. intros d Hd. apply D1. right. exact Hd.
    + cbn. constructor; [eapply refers_known; eauto|]. eapply all_used; eauto.
    + apply IH; auto; [intros d Hd; apply D1; right; exact Hd|]. eapply (proj1 (proj2 (sees_within D))); eauto.
  - cbn. eapply all_used; eauto. apply within_push. exact W.
Qed.
Lemma module_used I us us' r : NoDup (names I) -> resolve_module I us = Ok (us', r) ->
  forall x, In x (flat_map unit_used us') -> In x (map fst (I ++ module_decls us)).
Proof.
  intros N H. destruct (module_rel _ _ _ _ N H) as (top & (top0 & A & U) & _). set (D := I ++ module_decls us).
  assert (W0 : within D [top0; I]).
  { eapply adds_all_within; [exact A| |].
    - unfold D, module_decls. apply incl_appr. apply incl_appl. apply incl_refl.
    - intros sc d [<-|[<-|[]]] Hd; [destruct Hd|]. apply in_or_app. auto. }
  assert (G : incl (flat_map unit_decls us) D).
  { unfold D, module_decls. apply incl_appr. apply incl_appr. apply incl_refl. }
  clearbody D. clear A H. assert (F : Forall (known D) (flat_map unit_used us')).
  { induction U as [|E u u' E1 vs vs' E2 Hu _ IH]; cbn; [constructor|]. cbn in G. apply incl_app_inv in G as [G1 G2].
    apply Forall_app. split; [eapply unit_used_known; eauto|]. apply IH; [|exact G2]. eapply unit_within; eauto. }
  intros x Hx. exact (proj1 (Forall_forall _ _) F x Hx).
Qed.

(** Calculi. *)
Lemma units_nth E us us' E' : sees_units E us us' E' -> forall D n u, within D E -> incl (flat_map unit_decls us) D -> nth_error us n = Some u ->
  exists u' E1 E2, nth_error us' n = Some u' /\ within D E1 /\ sees_unit E1 u u' E2.
Proof.
  induction 1 as [|E u u' E1 us us' E2 Hu _ IH]; intros D n v W G Hn; [destruct n; discriminate|].
  cbn in G. apply incl_app_inv in G as [G1 G2]. destruct n as [|n]; cbn in Hn.
  - injection Hn as <-. exists u', E, E1. auto.
  - destruct (IH D n v) as (v' & A & B & H1 & H2 & H3); auto; [eapply unit_within; eauto|]. exists v', A, B. auto.
Qed.
Lemma calculus I us us' r n p c a : NoDup (names I) -> resolve_module I us = Ok (us', r) ->
  nth_error us n = Some (UProc p) -> pcalculus p = Some c -> In (a, KCalculus) I -> gname a = gname c ->
  (forall x k, In (x, k) (module_decls us) -> gname x <> gname c) ->
  exists p', nth_error us' n = Some (UProc p') /\ proc_calculus p' (dtcx r) = Ok (Some a).
Proof.
  intros N H Hn Hc Ha Hname Hfree. destruct (module_rel _ _ _ _ N H) as (top & (top0 & A & U) & R). set (D := I ++ module_decls us).
  assert (W0 : within D [top0; I]).
  { eapply adds_all_within; [exact A| |].
    - unfold D, module_decls. apply incl_appr. apply incl_appl. apply incl_refl.
    - intros sc d [<-|[<-|[]]] Hd; [destruct Hd|]. apply in_or_app. auto. }
  assert (G : incl (flat_map unit_decls us) D).
  { unfold D, module_decls. apply incl_appr. apply incl_appr. apply incl_refl. }
  destruct (units_nth _ _ _ _ U D n (UProc p) W0 G Hn) as (u' & E1 & E2 & H1 & W1 & Hu).
  assert (Gp : incl (unit_decls (UProc p)) D).
  { intros d Hd. apply G. apply in_flat_map. exists (UProc p). split; [eapply nth_error_In; eauto|exact Hd]. }
  inversion Hu as [? ? p' Hp| |]; subst. exists p'. split; [exact H1|].
  destruct Hp as [x ins ins' outs outs' spec spec' calc calc' body body' F1 F2 F3 G1 G2 G3 G4 G5]. cbn in Hc. subst calc.
  cbn in Gp. apply incl_app_inv in Gp as [D1 Gp]. apply incl_app_inv in Gp as [D2 Gp]. apply incl_app_inv in Gp as [D3 D4].
  destruct (proc_scopes D E2 x _ _ _ _ _ _ _ _ _ W1 D1 D2 D3 G1 G2 G3) as (W2 & W3 & _).
  inversion G4 as [|? ? y k Hr]; subst. destruct (refers_within _ _ _ _ _ W3 Hr) as [Hy Hyn].
  unfold proc_calculus. cbn. apply in_app_or in Hy as [Hy|Hy]; [|exfalso; eapply Hfree; eauto].
  destruct (nodup_unique I y k a KCalculus) as [-> ->]; auto; [congruence|].
  rewrite (rel_kind _ _ R I a KCalculus); [reflexivity|right; left; reflexivity|exact Ha].
Qed.

(** Annotations are not hidden by other declarations. *)
Lemma annotation_kept k x E E' n y q : adds k x E E' -> ~ annotation k -> refers_annotation E n y q -> refers_annotation E' n y q.
Proof.
  intros [sc E0 H|sc E0 p H] NA R; [|exact R]. apply refers_ann_cons in R. apply refers_ann_cons.
  destruct R as [(H1 & H2 & H3)|[H1 H2]].
  - left. split; [apply in_or_app; auto|auto].
  - right. split; [|exact H2]. intros z p Hz Hn. apply in_app_or in Hz as [Hz|[[= <- <-]|[]]]; eauto.
Qed.
