(** Proofs for C57: resolution of modules against the scopes of Spec/ModuleScoping.v. *)
From Coq Require Import Bool List String Arith Lia Permutation.
From Verif.Model Require Import Syntax ScopeMap ResolveDecls.
From Verif.Spec Require Import ModuleScoping.
Import ListNotations.
Local Open Scope string_scope.
Local Open Scope list_scope.

Definition item_rect' (P : item -> Prop)
  (HU : forall x, P (IUse x)) (HT : forall t, P (IType t)) (HD : forall k x, P (IDecl k x))
  (HE : forall l, Forall P l -> P (IExpr l)) (HS : forall l, Forall P l -> P (IScope l))
  (HA : forall x a i, Forall P a -> Forall P i -> P (IAnn x a i)) : forall i, P i :=
  fix rec i :=
    let all := fix all (l : list item) : Forall P l :=
      match l with [] => Forall_nil _ | i :: l' => Forall_cons i (rec i) (all l') end in
    match i with
    | IUse x => HU x | IType t => HT t | IDecl k x => HD k x
    | IExpr l => HE l (all l) | IScope l => HS l (all l)
    | IAnn x a i => HA x a i (all a) (all i)
    end.

Lemma ditem_expr l r : ditem_res (IExpr l) r = (let? (l', r1) := ditems l r in Ok (IExpr l', r1)).
Proof. reflexivity. Qed.
Lemma ditem_scope l r : ditem_res (IScope l) r = (let? (l', r1) := subscope (ditems l) r in Ok (IScope l', r1)).
Proof. reflexivity. Qed.
Lemma ditem_ann x args inner r : ditem_res (IAnn x args inner) r =
  match find_annotation (gname x) r with
  | None => Err "NotFound"
  | Some (y, k) =>
      let? jobs := arg_jobs y k (List.length args) in
      let? (args', r1) := darguments args jobs r in
      let? (inner', r2) := subscope (ditems inner) r1 in
      Ok (IAnn y args' inner', r2)
  end.
Proof. reflexivity. Qed.

Lemma gid_eqb_eq x y : gid_eqb x y = true <-> x = y.
Proof.
  unfold gid_eqb. destruct x as [a n], y as [b m]. cbn. rewrite andb_true_iff, String.eqb_eq, Nat.eqb_eq.
  split; [intros [-> ->]; reflexivity | intros [= -> ->]; auto].
Qed.
Lemma gid_eqb_refl x : gid_eqb x x = true. Proof. apply gid_eqb_eq. reflexivity. Qed.
Lemma gid_eqb_neq x y : x <> y -> gid_eqb x y = false.
Proof. intros H. destruct (gid_eqb x y) eqn:E; [|reflexivity]. apply gid_eqb_eq in E. contradiction. Qed.

(** The context. *)
Lemma tcx_get_app T1 T2 x : tcx_get (T1 ++ T2) x = match tcx_get T1 x with Some k => Some k | None => tcx_get T2 x end.
Proof. induction T1 as [|[y k] T1 IH]; cbn; [reflexivity|]. destruct (gid_eqb x y); auto. Qed.
Lemma tcx_get_none T x : tcx_get T x = None <-> ~ In x (map fst T).
Proof.
  induction T as [|[y k] T IH]; cbn; [tauto|]. destruct (gid_eqb x y) eqn:E.
  - apply gid_eqb_eq in E. subst. split; [discriminate|]. intros H. exfalso. apply H. auto.
  - rewrite IH. split; intros H; [|tauto]. intros [->|H']; [rewrite gid_eqb_refl in E; discriminate|auto].
Qed.
Lemma tcx_declare_ok T x k T' : tcx_declare T x k = Ok T' <-> tcx_get T x = None /\ T' = T ++ [(x, k)].
Proof.
  unfold tcx_declare. destruct (tcx_get T x); split; intros H; try discriminate; try (destruct H; discriminate).
  - inversion H; subst. auto.
  - destruct H as [_ ->]. reflexivity.
Qed.

(** The map that a list of scopes is stored as. *)
Fixpoint lev (sc : scope) : level string gid :=
  match sc with [] => [] | d :: sc' => (gname (fst d), Value (fst d)) :: lev sc' end.
Lemma lev_app a b : lev (a ++ b) = lev a ++ lev b.
Proof. induction a as [|d a IH]; cbn; [reflexivity|]. rewrite IH. reflexivity. Qed.
Definition names (sc : scope) : list string := map (fun d => gname (fst d)) sc.

Lemma declares_name_names n sc : declares_name n sc <-> In n (names sc).
Proof.
  unfold declares_name, names. rewrite in_map_iff. split.
  - intros (x & k & H1 & H2). exists (x, k). auto.
  - intros ([x k] & H1 & H2). exists x, k. auto.
Qed.
Lemma im_get_lev n sc :
  im_get String.eqb n (lev sc) = None /\ ~ In n (names sc) \/
  exists x k, im_get String.eqb n (lev sc) = Some (Value x) /\ In (x, k) sc /\ gname x = n.
Proof.
  induction sc as [|[x k] sc IH]; cbn; [left; tauto|].
  destruct (String.eqb n (gname x)) eqn:E.
  - apply String.eqb_eq in E. right. exists x, k. auto.
  - apply String.eqb_neq in E. destruct IH as [[-> H]|(y & k' & -> & H & H')].
    + left. split; [reflexivity|]. intros [H'|H']; [congruence|exact (H H')].
    + right. exists y, k'. auto.
Qed.
Lemma nodup_unique sc x k y k' : NoDup (names sc) -> In (x, k) sc -> In (y, k') sc -> gname x = gname y -> x = y /\ k = k'.
Proof.
  unfold names. induction sc as [|[z q] sc IH]; cbn; [tauto|]. intros H H1 H2 Hn. apply NoDup_cons_iff in H as [Hz H].
  destruct H1 as [[= -> ->]|H1], H2 as [[= -> ->]|H2]; auto.
  - exfalso. apply Hz. apply in_map_iff. exists (y, k'). auto.
  - exfalso. apply Hz. apply in_map_iff. exists (x, k). auto.
Qed.
Lemma im_insert_new n x sc : ~ In n (names sc) -> gname x = n ->
  im_insert String.eqb n (Value x) (lev sc) = lev sc ++ [(n, Value x)].
Proof.
  intros H <-. induction sc as [|[y k] sc IH]; cbn in *; [reflexivity|].
  destruct (String.eqb (gname x) (gname y)) eqn:E.
  - apply String.eqb_eq in E. exfalso. apply H. auto.
  - rewrite IH; auto.
Qed.
Lemma im_insert_same x k sc : NoDup (names sc) -> In (x, k) sc ->
  im_insert String.eqb (gname x) (Value x) (lev sc) = lev sc.
Proof.
  intros N H. induction sc as [|[y q] sc IH]; [destruct H|]. cbn. cbn in N. apply NoDup_cons_iff in N as [Hy N].
  destruct (String.eqb (gname x) (gname y)) eqn:E.
  - apply String.eqb_eq in E. destruct H as [[= -> ->]|H]; [reflexivity|].
    exfalso. apply Hy. unfold names. apply in_map_iff. exists (x, k). cbn. split; auto.
  - destruct H as [[= -> ->]|H]; [rewrite String.eqb_refl in E; discriminate|]. rewrite IH; auto.
Qed.

Record rel (r : rds) (E : stack) : Prop := mkrel {
  rel_map : dmap r = map lev E;
  rel_kind : forall sc x k, In sc E -> In (x, k) sc -> tcx_get (dtcx r) x = Some k;
  rel_nodup : forall sc, In sc E -> NoDup (names sc);
  rel_top : exists up G I, E = up ++ [G; I] /\ dglobals r = map fst (I ++ G) }.

Lemma rel_nonempty r E : rel r E -> exists sc E', E = sc :: E'.
Proof. intros [_ _ _ (up & G & I & -> & _)]. destruct up; cbn; eauto. Qed.

(** Lookup. *)
Lemma refers_cons sc E n x k : refers (sc :: E) n x k <->
  (In (x, k) sc /\ gname x = n) \/ (~ declares_name n sc /\ refers E n x k).
Proof.
  split.
  - intros (inner & sc' & outer & H & H1 & H2 & H3). destruct inner as [|s inner]; cbn in H; injection H as -> ->.
    + left. auto.
    + right. split; [apply H3; left; reflexivity|]. exists inner, sc', outer. repeat split; auto.
      intros s' Hs. apply H3. right. exact Hs.
  - intros [[H1 H2]|[H1 (inner & sc' & outer & -> & H2 & H3 & H4)]].
    + exists [], sc, E. repeat split; auto.
    + exists (sc :: inner), sc', outer. repeat split; auto. intros s [<-|Hs]; auto.
Qed.
Lemma refers_nil n x k : ~ refers [] n x k.
Proof. intros (inner & sc & outer & H & _). destruct inner; discriminate. Qed.
Lemma sm_get_refers E n x : (forall sc, In sc E -> NoDup (names sc)) ->
  sm_get String.eqb n (map lev E) = Some x <-> exists k, refers E n x k.
Proof.
  induction E as [|sc E IH]; intros N; cbn.
  - split; [discriminate|]. intros [k H]. destruct (refers_nil _ _ _ H).
  - destruct (im_get_lev n sc) as [[-> H]|(y & k & -> & H1 & H2)].
    + rewrite IH; [|intros; apply N; right; auto]. split; intros [k Hk]; exists k.
      * apply refers_cons. right. rewrite declares_name_names. auto.
      * apply refers_cons in Hk as [[H1 H2]|[_ Hk]]; [|exact Hk].
        exfalso. apply H. apply declares_name_names. exists x, k. auto.
    + cbn. split.
      * intros [= <-]. exists k. apply refers_cons. left. auto.
      * intros [k' Hk]. apply refers_cons in Hk as [[H3 H4]|[H3 _]].
        -- f_equal. apply (nodup_unique sc y k x k'); auto. apply N. left. reflexivity. congruence.
        -- exfalso. apply H3. exists y, k. auto.
Qed.
Lemma refers_in E n x k : refers E n x k -> exists sc, In sc E /\ In (x, k) sc /\ gname x = n.
Proof. intros (inner & sc & outer & -> & H1 & H2 & _). exists sc. split; [apply in_or_app; right; left; reflexivity|auto]. Qed.
Lemma refers_kind r E n x k : rel r E -> refers E n x k -> tcx_get (dtcx r) x = Some k.
Proof. intros R H. destruct (refers_in _ _ _ _ H) as (sc & H1 & H2 & _). eapply rel_kind; eauto. Qed.
Lemma dident_spec r E x : rel r E ->
  match dident x r with
  | Ok y => exists k, refers E (gname x) y k
  | Err e => e = "NotFound" /\ forall y k, ~ refers E (gname x) y k
  | Panic _ => False
  end.
Proof.
  intros R. unfold dident. rewrite (rel_map _ _ R).
  destruct (sm_get String.eqb (gname x) (map lev E)) as [y|] eqn:H.
  - apply sm_get_refers in H; [exact H|apply (rel_nodup _ _ R)].
  - split; [reflexivity|]. intros y k Hk.
    assert (sm_get String.eqb (gname x) (map lev E) = Some y) by (apply sm_get_refers; [apply (rel_nodup _ _ R)|eauto]). congruence.
Qed.
Lemma refers_fun r E n x k x' k' : rel r E -> refers E n x k -> refers E n x' k' -> x = x' /\ k = k'.
Proof.
  intros R H H'.
  assert (A : sm_get String.eqb n (map lev E) = Some x) by (apply sm_get_refers; [apply (rel_nodup _ _ R)|eauto]).
  assert (B : sm_get String.eqb n (map lev E) = Some x') by (apply sm_get_refers; [apply (rel_nodup _ _ R)|eauto]).
  assert (x = x') by congruence. subst x'. split; [reflexivity|].
  pose proof (refers_kind _ _ _ _ _ R H). pose proof (refers_kind _ _ _ _ _ R H'). congruence.
Qed.
Lemma dident_ok r E x y k : rel r E -> refers E (gname x) y k -> dident x r = Ok y.
Proof.
  intros R H. pose proof (dident_spec r E x R) as D. destruct (dident x r) as [z| |].
  - destruct D as [k' D]. f_equal. symmetry. eapply (refers_fun r E); eauto.
  - destruct D as [_ D]. destruct (D _ _ H).
  - destruct D.
Qed.

Lemma is_annotation_spec k : is_annotation k = true <-> annotation k.
Proof. unfold annotation. destruct k; cbn; split; intros H; try discriminate; auto; destruct H as [H|[H|H]]; discriminate. Qed.
Lemma refers_ann_cons sc E n x k : refers_annotation (sc :: E) n x k <->
  (In (x, k) sc /\ gname x = n /\ annotation k) \/
  ((forall y k', In (y, k') sc -> gname y = n -> ~ annotation k') /\ refers_annotation E n x k).
Proof.
  split.
  - intros (inner & sc' & outer & H & H1 & H2 & H2' & H3). destruct inner as [|s inner]; cbn in H; injection H as -> ->.
    + left. auto.
    + right. split; [intros; eapply H3; eauto; left; reflexivity|]. exists inner, sc', outer. repeat split; auto.
      intros s' y k' Hs. apply H3. right. exact Hs.
  - intros [(H1 & H2 & H2')|[H1 (inner & sc' & outer & -> & H2 & H3 & H3' & H4)]].
    + exists [], sc, E. repeat split; auto.
    + exists (sc :: inner), sc', outer. repeat split; auto. intros s y k' [<-|Hs]; eauto.
Qed.
Lemma find_annotation_map T E n x k :
  (forall sc, In sc E -> NoDup (names sc)) ->
  (forall sc x k, In sc E -> In (x, k) sc -> tcx_get T x = Some k) ->
  sm_find_map String.eqb n
    (fun e => match e with
              | Value y => match tcx_get T y with
                           | Some k => if is_annotation k then Some (y, k) else None
                           | None => None
                           end
              | Deleted => None
              end) (map lev E) = Some (x, k) <-> refers_annotation E n x k.
Proof.
  induction E as [|sc E IH]; intros N K; cbn.
  - split; [discriminate|]. intros (inner & sc & outer & H & _). destruct inner; discriminate.
  - assert (IH' := IH (fun s H => N s (or_intror H)) (fun s y q H => K s y q (or_intror H))). clear IH.
    rewrite refers_ann_cons.
    destruct (im_get_lev n sc) as [[-> H]|(y & q & -> & H1 & H2)].
    + rewrite IH'. split; intros Hk.
      * right. split; [|exact Hk]. intros z q Hz <-. exfalso. apply H. apply declares_name_names. exists z, q. auto.
      * destruct Hk as [(H1 & H2 & _)|[_ Hk]]; [|exact Hk]. exfalso. apply H. apply declares_name_names. exists x, k. auto.
    + rewrite (K sc y q (or_introl eq_refl) H1). destruct (is_annotation q) eqn:A.
      * apply is_annotation_spec in A. split.
        -- intros [= <- <-]. left. auto.
        -- intros [(H3 & H4 & _)|[H3 _]].
           ++ destruct (nodup_unique sc y q x k (N sc (or_introl eq_refl)) H1 H3) as [-> ->]; congruence.
           ++ destruct (H3 y q H1 H2 A).
      * rewrite IH'. assert (NA : ~ annotation q) by (rewrite <- is_annotation_spec; congruence). split; intros Hk.
        -- right. split; [|exact Hk]. intros z q' Hz Hn.
           destruct (nodup_unique sc y q z q' (N sc (or_introl eq_refl)) H1 Hz) as [-> ->]; congruence.
        -- destruct Hk as [(H3 & H4 & A')|[_ Hk]]; [|exact Hk].
           destruct (nodup_unique sc y q x k (N sc (or_introl eq_refl)) H1 H3) as [-> ->]; [congruence|contradiction].
Qed.
Lemma find_annotation_spec r E n x k : rel r E ->
  find_annotation n r = Some (x, k) <-> refers_annotation E n x k.
Proof.
  intros R. unfold find_annotation. rewrite (rel_map _ _ R). apply find_annotation_map; [apply (rel_nodup _ _ R)|apply (rel_kind _ _ R)].
Qed.

(** Declarations. *)
Lemma names_app sc d : names (sc ++ [d]) = names sc ++ [gname (fst d)].
Proof. unfold names. rewrite map_app. reflexivity. Qed.
Lemma nodup_snoc {A} (l : list A) a : NoDup l -> ~ In a l -> NoDup (l ++ [a]).
Proof. intros N H. apply NoDup_rev in N. rewrite <- (rev_involutive (l ++ [a])). apply NoDup_rev. rewrite rev_app_distr. cbn.
  constructor; [rewrite <- in_rev; exact H|exact N]. Qed.
Lemma sm_depth_lev E : sm_depth (map lev E) = List.length E. Proof. apply map_length. Qed.

Lemma rel_add r sc E x k : rel r (sc :: E) -> ~ declares_name (gname x) sc -> tcx_get (dtcx r) x = None ->
  rel (mkrds (map lev ((sc ++ [(x, k)]) :: E)) (dtcx r ++ [(x, k)])
         (if Nat.eqb (List.length (sc :: E)) 2 then (dglobals r ++ [x])%list else dglobals r)) ((sc ++ [(x, k)]) :: E).
Proof.
  intros R H T. constructor.
  - reflexivity.
  - intros s y q Hs Hy. cbn. rewrite tcx_get_app. destruct Hs as [<-|Hs].
    + apply in_app_or in Hy as [Hy|[[= <- <-]|[]]].
      * rewrite (rel_kind _ _ R sc y q (or_introl eq_refl) Hy). reflexivity.
      * rewrite T. cbn. rewrite gid_eqb_refl. reflexivity.
    + rewrite (rel_kind _ _ R s y q (or_intror Hs) Hy). reflexivity.
  - intros s [<-|Hs]; [|apply (rel_nodup _ _ R); right; exact Hs].
    rewrite names_app. apply nodup_snoc; [apply (rel_nodup _ _ R); left; reflexivity|]. cbn. rewrite <- declares_name_names. exact H.
  - destruct (rel_top _ _ R) as (up & G & I & HE & HG). destruct up as [|s up]; cbn in HE; injection HE as -> ->.
    + exists [], (G ++ [(x, k)]), I. split; [reflexivity|]. cbn. rewrite HG. rewrite !map_app. cbn. rewrite app_assoc. reflexivity.
    + exists ((s ++ [(x, k)]) :: up), G, I. split; [reflexivity|]. cbn [List.length].
      replace (Nat.eqb (S (List.length (up ++ [G; I]))) 2) with false; [exact HG|].
      symmetry. apply Nat.eqb_neq. rewrite app_length. cbn. lia.
Qed.

Lemma ddeclare_eq r sc E k x : rel r (sc :: E) ->
  ddeclare k x r =
  match im_get String.eqb (gname x) (lev sc) with
  | Some (Value y) => if gid_eqb y x then Ok r else Err "AlreadyDefined"
  | _ =>
    let? T := tcx_declare (dtcx r) x k in
    Ok (mkrds (map lev ((sc ++ [(x, k)]) :: E)) T
         (if Nat.eqb (List.length (sc :: E)) 2 then (dglobals r ++ [x])%list else dglobals r))
  end.
Proof.
  intros R. unfold ddeclare, sm_insert, sm_put. rewrite (rel_map _ _ R). cbn [map].
  destruct (im_get_lev (gname x) sc) as [[Hg H]|(y & q & Hg & H1 & H2)]; rewrite Hg; cbn [rbind value_of].
  - rewrite (im_insert_new (gname x) x sc H eq_refl). cbn [rbind].
    destruct (tcx_declare (dtcx r) x k); cbn [rbind]; [|reflexivity|reflexivity].
    f_equal. f_equal.
    + f_equal. rewrite lev_app. reflexivity.
    + unfold sm_depth. cbn [List.length]. rewrite map_length. reflexivity.
  - destruct (gid_eqb y x) eqn:E1; [|reflexivity]. apply gid_eqb_eq in E1. subst y.
    rewrite (im_insert_same x q sc); [|apply (rel_nodup _ _ R); left; reflexivity|exact H1].
    f_equal. destruct r as [m T g]. cbn. f_equal. symmetry. exact (rel_map _ _ R).
Qed.

Definition keys (r : rds) : list gid := map fst (dtcx r).
Definition tcx_grows (r r' : rds) : Prop := exists T, dtcx r' = dtcx r ++ T.
Lemma grows_refl r : tcx_grows r r. Proof. exists []. rewrite app_nil_r. reflexivity. Qed.
Lemma grows_trans a b c : tcx_grows a b -> tcx_grows b c -> tcx_grows a c.
Proof. intros [T H] [T' H']. exists (T ++ T'). rewrite H', H, app_assoc. reflexivity. Qed.
Lemma grows_get a b x k : tcx_grows a b -> tcx_get (dtcx a) x = Some k -> tcx_get (dtcx b) x = Some k.
Proof. intros [T ->] H. rewrite tcx_get_app, H. reflexivity. Qed.

Lemma ddeclare_sound r E k x r' : rel r E -> ddeclare k x r = Ok r' ->
  exists E', adds k x E E' /\ rel r' E' /\ tl E' = tl E /\ tcx_grows r r'.
Proof.
  intros R H. destruct (rel_nonempty _ _ R) as (sc & E0 & ->). rewrite (ddeclare_eq _ _ _ _ _ R) in H.
  destruct (im_get_lev (gname x) sc) as [[Hg Hn]|(y & q & Hg & H1 & H2)]; rewrite Hg in H.
  - destruct (tcx_declare (dtcx r) x k) as [T| |] eqn:D; try discriminate. cbn in H. injection H as <-.
    apply tcx_declare_ok in D as [D ->]. rewrite <- declares_name_names in Hn.
    eexists. split; [apply adds_new; exact Hn|]. split; [apply (rel_add r sc E0 x k R Hn D)|].
    split; [reflexivity|]. exists [(x, k)]. reflexivity.
  - destruct (gid_eqb y x) eqn:E1; [|discriminate]. apply gid_eqb_eq in E1. subst y. injection H as <-.
    exists (sc :: E0). split; [eapply adds_again; eauto|]. split; [exact R|]. split; [reflexivity|apply grows_refl].
Qed.
Lemma ddeclare_new r sc E k x : rel r (sc :: E) -> ~ declares_name (gname x) sc -> ~ In x (keys r) ->
  exists r', ddeclare k x r = Ok r' /\ rel r' ((sc ++ [(x, k)]) :: E) /\ dtcx r' = dtcx r ++ [(x, k)].
Proof.
  intros R H K. rewrite (ddeclare_eq _ _ _ _ _ R).
  destruct (im_get_lev (gname x) sc) as [[Hg Hn]|(y & q & Hg & H1 & H2)]; rewrite ?Hg.
  - assert (D : tcx_get (dtcx r) x = None) by (apply tcx_get_none; exact K).
    unfold tcx_declare. rewrite D. cbn [rbind]. eexists. split; [reflexivity|]. split; [apply rel_add; auto|reflexivity].
  - exfalso. apply H. exists y, q. auto.
Qed.
Lemma ddeclare_again r sc E k x q : rel r (sc :: E) -> In (x, q) sc -> ddeclare k x r = Ok r.
Proof.
  intros R H. rewrite (ddeclare_eq _ _ _ _ _ R).
  destruct (im_get_lev (gname x) sc) as [[Hg Hn]|(y & p & Hg & H1 & H2)]; rewrite ?Hg.
  - exfalso. apply Hn. apply declares_name_names. exists x, q. auto.
  - destruct (nodup_unique sc y p x q) as [-> _]; auto; [apply (rel_nodup _ _ R); left; reflexivity|].
    rewrite gid_eqb_refl. reflexivity.
Qed.

(** Subscopes. *)
Lemma rel_push r E : rel r E -> rel (mkrds ([] :: dmap r) (dtcx r) (dglobals r)) ([] :: E).
Proof.
  intros R. constructor; cbn.
  - rewrite (rel_map _ _ R). reflexivity.
  - intros sc x k [<-|H] Hx; [destruct Hx|]. eapply rel_kind; eauto.
  - intros sc [<-|H]; [constructor|apply (rel_nodup _ _ R); exact H].
  - destruct (rel_top _ _ R) as (up & G & I & -> & H). exists ([] :: up), G, I. auto.
Qed.
Lemma rel_pop r sc E : rel r (sc :: E) -> 2 <= List.length E -> rel (mkrds (map lev E) (dtcx r) (dglobals r)) E.
Proof.
  intros R L. constructor; cbn.
  - reflexivity.
  - intros s x k H Hx. eapply (rel_kind _ _ R); eauto. right. exact H.
  - intros s H. apply (rel_nodup _ _ R). right. exact H.
  - destruct (rel_top _ _ R) as (up & G & I & HE & H). destruct up as [|s up]; cbn in HE; injection HE as -> ->.
    + cbn in L. lia.
    + exists up, G, I. auto.
Qed.
Lemma rel_length r E : rel r E -> 2 <= List.length E.
Proof. intros R. destruct (rel_top _ _ R) as (up & G & I & -> & _). rewrite app_length. cbn. lia. Qed.

Lemma subscope_sound {A} (f : rds -> res (A * rds)) r E a r' : rel r E -> subscope f r = Ok (a, r') ->
  (forall r0 a0 r1, rel r0 ([] :: E) -> f r0 = Ok (a0, r1) ->
     exists E', rel r1 E' /\ tl E' = E /\ tcx_grows r0 r1) ->
  exists r0 r1 , rel r0 ([] :: E) /\ f r0 = Ok (a, r1) /\ rel r' E /\ tcx_grows r r' /\ dtcx r0 = dtcx r /\ dtcx r' = dtcx r1.
Proof.
  intros R H F. unfold subscope, sm_push in H. pose proof (rel_push _ _ R) as RP.
  destruct (f (mkrds ([] :: dmap r) (dtcx r) (dglobals r))) as [[a1 r1]| |] eqn:Hf; cbn [rbind] in H; try discriminate.
  destruct (F _ _ _ RP Hf) as (E' & R1 & HE & G).
  destruct (rel_nonempty _ _ R1) as (sc & E0 & ->). cbn in HE. subst E0.
  unfold sm_pop in H. rewrite (rel_map _ _ R1) in H. cbn [map List.length] in H.
  replace (List.length (dmap r)) with (List.length (map lev E)) in H by (rewrite (rel_map _ _ R); reflexivity).
  rewrite Nat.eqb_refl in H. pose proof (rel_length _ _ R) as L.
  assert (HP : sm_unchecked_pop (lev sc :: map lev E) = Ok (map lev E)).
  { destruct E as [|s E]; [cbn in L; lia|reflexivity]. }
  rewrite HP in H. cbn [rbind] in H. injection H as <- <-.
  eexists _, _. split; [exact RP|]. split; [exact Hf|]. split; [apply rel_pop with sc; auto|].
  split; [exact G|]. split; reflexivity.
Qed.
Lemma subscope_run {A} (f : rds -> res (A * rds)) r E a r1 sc : rel r E ->
  f (mkrds ([] :: dmap r) (dtcx r) (dglobals r)) = Ok (a, r1) -> rel r1 (sc :: E) ->
  exists r', subscope f r = Ok (a, r') /\ rel r' E /\ dtcx r' = dtcx r1.
Proof.
  intros R Hf R1. pose proof (rel_length _ _ R) as L. exists (mkrds (map lev E) (dtcx r1) (dglobals r1)).
  split; [|split; [apply rel_pop with sc; auto|reflexivity]].
  unfold subscope, sm_push. rewrite Hf. cbn [rbind]. unfold sm_pop. rewrite (rel_map _ _ R1). cbn [map List.length].
  replace (List.length (dmap r)) with (List.length (map lev E)) by (rewrite (rel_map _ _ R); reflexivity).
  rewrite Nat.eqb_refl.
  assert (HP : sm_unchecked_pop (lev sc :: map lev E) = Ok (map lev E)).
  { destruct E as [|s E]; [cbn in L; lia|reflexivity]. }
  rewrite HP. reflexivity.
Qed.

(** Types. *)
Lemma builtin_ty_spec n b : builtin_ty n = Some b <-> builtin n b.
Proof.
  unfold builtin_ty. split.
  - intros H.
    repeat match type of H with
           | (if String.eqb n ?s then _ else _) = _ =>
               let Q := fresh in
               destruct (String.eqb n s) eqn:Q; [apply String.eqb_eq in Q; subst n; injection H as <-; constructor|]
           end.
    discriminate H.
  - intros []; reflexivity.
Qed.
Lemma builtin_ty_none n : builtin_ty n = None <-> forall b, ~ builtin n b.
Proof.
  split.
  - intros H b Hb. apply builtin_ty_spec in Hb. congruence.
  - intros H. destruct (builtin_ty n) as [b|] eqn:E; [|reflexivity]. apply builtin_ty_spec in E. destruct (H _ E).
Qed.
Lemma dty_sound t r E t' : rel r E -> dty t r = Ok t' -> means E t t'.
Proof.
  intros R. revert t'. induction t as [x|t IH| |b|x]; intros t' H; cbn in H.
  - destruct (builtin_ty (gname x)) as [b|] eqn:B.
    + injection H as <-. constructor. apply builtin_ty_spec. exact B.
    + pose proof (dident_spec r E x R) as D. destruct (dident x r) as [y| |]; cbn [rbind] in H; try discriminate.
      destruct D as [k D]. rewrite (refers_kind _ _ _ _ _ R D) in H. destruct k; try discriminate.
      injection H as <-. apply m_domain; [apply builtin_ty_none; exact B|exact D].
  - destruct (dty t r) as [t1| |]; cbn [rbind] in H; try discriminate. injection H as <-. constructor. auto.
  - injection H as <-. constructor.
  - injection H as <-. constructor.
  - injection H as <-. constructor.
Qed.
Lemma dty_complete t r E t' : rel r E -> means E t t' -> dty t r = Ok t'.
Proof.
  intros R H. induction H as [x b H|x y H1 H2|t t' H IH| | |]; cbn; try reflexivity.
  - apply builtin_ty_spec in H. rewrite H. reflexivity.
  - apply builtin_ty_none in H1. rewrite H1. rewrite (dident_ok _ _ _ _ _ R H2). cbn [rbind].
    rewrite (refers_kind _ _ _ _ _ R H2). reflexivity.
  - rewrite IH. reflexivity.
Qed.
