From Coq Require Import Bool List String NArith Lia.
From Verif.Model Require Import Syntax TyCtx Symbols.
From Verif.Proofs Require Import SemLemmas TyCtxProofs.
Import ListNotations.

Lemma cnt_bump_same l x : cnt_lookup (cnt_bump l x) x = N.succ (cnt_lookup l x).
Proof.
  induction l as [|[y n] l IH]; cbn [cnt_bump cnt_lookup]; [now rewrite String.eqb_refl|].
  destruct (String.eqb y x) eqn:E; cbn [cnt_lookup]; rewrite E; auto.
Qed.
Lemma cnt_bump_other l x y : x <> y -> cnt_lookup (cnt_bump l x) y = cnt_lookup l y.
Proof.
  intros N. induction l as [|[z n] l IH]; cbn [cnt_bump cnt_lookup].
  - destruct (String.eqb_spec x y); congruence.
  - destruct (String.eqb_spec z x) as [->|]; cbn [cnt_lookup]; [|now rewrite IH].
    destruct (String.eqb_spec x y); congruence.
Qed.

Definition sym_inv (S : symbolizer) : Prop := exists idx : ident -> N,
  (forall x n, sym_lookup (ssymbols S) x = Some n ->
     n = sym_name (iname x) (idx x) /\ (idx x < cnt_lookup (scounter S) (iname x))%N) /\
  (forall x y, sym_lookup (ssymbols S) x <> None -> sym_lookup (ssymbols S) y <> None ->
     iname x = iname y -> idx x = idx y -> x = y).

Lemma sym_inv0 : sym_inv sym0.
Proof. exists (fun _ => 0%N). split; cbn; intros; [discriminate | contradiction]. Qed.

Lemma sym_inv_get S x : sym_inv S -> sym_inv (snd (sym_get S x)).
Proof.
  intros (idx & H1 & H2). unfold sym_get. destruct (sym_lookup (ssymbols S) x) as [n|] eqn:L; cbn [snd]; [exists idx; auto|].
  set (k := cnt_lookup (scounter S) (iname x)).
  exists (fun y => if ident_eqb x y then k else idx y). cbn [ssymbols scounter sym_lookup]. split.
  - intros y n. destruct (ident_eqb_spec x y) as [<-|Ny].
    + intros E. split; [congruence|]. rewrite cnt_bump_same. lia.
    + intros E. destruct (H1 y n E) as [E1 E2]. split; auto.
      destruct (String.eqb_spec (iname x) (iname y)) as [Q|Q].
      * rewrite <- Q in *. rewrite cnt_bump_same. lia.
      * rewrite cnt_bump_other by auto. exact E2.
  - intros y z. destruct (ident_eqb_spec x y) as [<-|Ny], (ident_eqb_spec x z) as [<-|Nz]; auto.
    + intros _ Lz E K. destruct (sym_lookup (ssymbols S) z) as [n|] eqn:Ez; [|congruence].
      destruct (H1 z n Ez) as [_ B]. rewrite <- E in B. unfold k in K. lia.
    + intros Ly _ E K. destruct (sym_lookup (ssymbols S) y) as [n|] eqn:Ey; [|congruence].
      destruct (H1 y n Ey) as [_ B]. rewrite E in B. unfold k in K. lia.
Qed.

Lemma sym_inv_run xs : forall S, sym_inv S -> sym_inv (sym_run S xs).
Proof. induction xs; intros S H; cbn [sym_run]; auto. apply IHxs, sym_inv_get, H. Qed.

Lemma sym_get_lookup S x : sym_lookup (ssymbols (snd (sym_get S x))) x = Some (fst (sym_get S x)).
Proof.
  unfold sym_get. destruct (sym_lookup (ssymbols S) x) eqn:L; cbn; [exact L|]. now rewrite ident_eqb_refl.
Qed.
Lemma sym_get_keep S x y n : sym_lookup (ssymbols S) y = Some n -> sym_lookup (ssymbols (snd (sym_get S x))) y = Some n.
Proof.
  intros H. unfold sym_get. destruct (sym_lookup (ssymbols S) x) eqn:L; cbn; [exact H|].
  destruct (ident_eqb_spec x y); [congruence | exact H].
Qed.
Lemma sym_run_keep xs : forall S y n, sym_lookup (ssymbols S) y = Some n -> sym_lookup (ssymbols (sym_run S xs)) y = Some n.
Proof. induction xs; intros S y n H; cbn [sym_run]; auto. apply IHxs, sym_get_keep, H. Qed.

(** An identifier keeps its symbol for ever. *)
Lemma sym_stable S x xs : fst (sym_get (sym_run (snd (sym_get S x)) xs) x) = fst (sym_get S x).
Proof.
  pose proof (sym_run_keep xs _ x _ (sym_get_lookup S x)) as H. unfold sym_get at 1. now rewrite H.
Qed.

Lemma str_app_length (a b : string) : String.length (a ++ b)%string = (String.length a + String.length b)%nat.
Proof. induction a; simpl; auto. Qed.

Lemma sym_name_inj n i j : sym_name n i = sym_name n j -> i = j.
Proof.
  unfold sym_name.
  assert (Len : forall k, (n ++ "_" ++ show k)%string <> n).
  { intros k E. apply (f_equal String.length) in E. revert E. rewrite str_app_length. cbn. lia. }
  destruct (N.ltb_spec 0 i), (N.ltb_spec 0 j); intros E.
  - apply append_inj in E. apply (append_inj "_") in E. now apply show_inj.
  - now apply Len in E.
  - symmetry in E. now apply Len in E.
  - lia.
Qed.

(** The symbol given to [x] in the final state of a run. *)
Definition symbol_of (xs : list ident) (x : ident) : option string := sym_lookup (ssymbols (sym_run sym0 xs)) x.

Lemma run_requested xs : forall S x, In x xs -> sym_lookup (ssymbols (sym_run S xs)) x <> None.
Proof.
  induction xs as [|y xs IH]; intros S x [].
  - subst y. cbn [sym_run]. rewrite (sym_run_keep xs _ x _ (sym_get_lookup S x)). discriminate.
  - cbn [sym_run]. auto.
Qed.

(** Identifiers of the same name are kept apart. *)
Lemma sym_same_name xs x y : In x xs -> In y xs -> x <> y -> iname x = iname y -> symbol_of xs x <> symbol_of xs y.
Proof.
  intros Hx Hy N E K. destruct (sym_inv_run xs sym0 sym_inv0) as (idx & H1 & H2).
  unfold symbol_of in K.
  pose proof (run_requested xs sym0 x Hx) as Rx. pose proof (run_requested xs sym0 y Hy) as Ry.
  destruct (sym_lookup (ssymbols (sym_run sym0 xs)) x) as [a|] eqn:Ex; [|congruence].
  destruct (sym_lookup (ssymbols (sym_run sym0 xs)) y) as [b|] eqn:Ey; [|congruence].
  destruct (H1 x a Ex) as [A1 _], (H1 y b Ey) as [B1 _]. apply N, H2; auto; try congruence.
  apply (sym_name_inj (iname x)). rewrite <- A1. rewrite E. rewrite <- B1. congruence.
Qed.

(** All identifiers are kept apart if no requested name has the form [name_k] of another. *)
Lemma sym_distinct xs x y :
  (forall a b k, In a xs -> In b xs -> iname a <> iname b -> sym_name (iname a) k <> iname b) ->
  (forall a b k j, In a xs -> In b xs -> iname a <> iname b -> (iname a ++ "_" ++ show k)%string <> (iname b ++ "_" ++ show j)%string) ->
  In x xs -> In y xs -> x <> y -> symbol_of xs x <> symbol_of xs y.
Proof.
  intros C1 C2 Hx Hy N K. destruct (String.string_dec (iname x) (iname y)) as [E|E].
  - now apply (sym_same_name xs x y Hx Hy N E).
  - destruct (sym_inv_run xs sym0 sym_inv0) as (idx & H1 & H2). unfold symbol_of in K.
    pose proof (run_requested xs sym0 x Hx) as Rx. pose proof (run_requested xs sym0 y Hy) as Ry.
    destruct (sym_lookup (ssymbols (sym_run sym0 xs)) x) as [a|] eqn:Ex; [|congruence].
    destruct (sym_lookup (ssymbols (sym_run sym0 xs)) y) as [b|] eqn:Ey; [|congruence].
    destruct (H1 x a Ex) as [A1 _], (H1 y b Ey) as [B1 _]. assert (Q : a = b) by congruence. rewrite A1, B1 in Q.
    unfold sym_name at 2 in Q. destruct (N.ltb 0 (idx y)) eqn:Iy.
    + unfold sym_name in Q. destruct (N.ltb 0 (idx x)); [now apply (C2 x y) in Q|].
      apply (C1 y x (idx y)); auto. unfold sym_name. now rewrite Iy.
    + now apply (C1 x y) in Q.
Qed.

(** Two of the three variables x, x (in another scope) and x_1 get the same symbol. *)
Lemma sym_collision : exists x y z, x <> y /\ y <> z /\ x <> z /\
  symbol_of [x; y; z] y = symbol_of [x; y; z] z /\ symbol_of [x; y; z] y = Some "x_1"%string.
Proof.
  exists (mkid "x" 0 TUInt), (mkid "x" 1 TUInt), (mkid "x_1" 2 TUInt). repeat split; try discriminate.
Qed.

(** ... also when the third is made by the tool's own fresh-name generator. *)
Lemma sym_collision_fresh : exists T x y sp z T', fresh_ident T x sp = Ok (z, T') /\ x <> y /\ ~ declared T z /\
  declared T x /\ declared T y /\ y <> z /\ symbol_of [x; y; z] y = symbol_of [x; y; z] z.
Proof.
  exists (mktcx [(mkid "x" 0 TUInt, true); (mkid "x" 1 TUInt, true)] [(mkid "x" 0 TUInt, 0%N)]),
    (mkid "x" 0 TUInt), (mkid "x" 1 TUInt), 9. eexists _, _. split; [reflexivity|].
  repeat split; try discriminate.
  - intros (d & [<-|[<-|[]]] & H1 & H2); discriminate.
  - eexists; split; [left; reflexivity|]. split; reflexivity.
  - eexists; split; [right; left; reflexivity|]. split; reflexivity.
Qed.
