(** Examples for the display of counterexamples. *)
From Coq Require Import Bool List String ZArith NArith QArith Reals Qreals Lra Arith.
From Verif.Model Require Import Syntax Builder Dist VcGen TyCtx Subsets Slicing Numerals CexDisplay.
From Verif.Spec Require Import Eur Sem Wp Frame Loops Sliced CexSpec.
From Verif.Proofs Require Import EurLemmas SemLemmas DistProofs VcGenProofs SlicingVerdict NumeralReading CexProofs CexVc SimplifyRefuted.
Import ListNotations.
Local Open Scope string_scope.

(** A solver whose model leaves [b], [r] and [k] open and completes them with false and 0. *)
Definition v_const (opn : bool) (f : string) : answer :=
  if f =? "b" then if opn then AVal (ZTerm []) else ABool false
  else if f =? "r" then if opn then AVal (ZTerm [GOther 114]) else AVal (ZNum 0 1)
  else if f =? "k" then if opn then AVal (ZTerm [GOther 107]) else AVal (ZNum 0 1)
  else if f =? "yes" then ABool true
  else if f =? "no" then ABool false
  else if f =? "0" then AVal (ZNum 0 1)
  else if f =? "1" then AVal (ZNum 1 1)
  else if f =? "half" then AVal (ZNum 1 2)
  else if f =? "big" then AVal (ZNum (2 ^ 63) 1)
  else AVal (ZTerm []).
Fixpoint v_den (opn : bool) (t : term) : answer :=
  match t with
  | TApp f [] => v_const opn f
  | TApp f [c; x; y] => if f =? "ite" then match v_den opn c with ABool true => v_den opn x | ABool false => v_den opn y | r => r end else AVal (ZTerm [])
  | _ => AVal (ZTerm [])
  end.
Definition v_z (l : list fdecl) : zmodel := mkz l (fun completion t => Some (v_den (negb completion) t)).
Lemma v_agree : forall t r, v_den true t = r -> (forall x, r <> AVal (ZTerm x)) -> v_den false t = r.
Proof.
  induction t as [f l IH|n] using term_ind'; intros b H N; [|exact H].
  destruct l as [|c [|x [|y [|? ?]]]]; try exact H.
  - cbn in *. unfold v_const in *. destruct (f =? "b"); [now destruct (N []); rewrite <- H|]. destruct (f =? "r"); [now destruct (N [GOther 114]); rewrite <- H|].
    destruct (f =? "k"); [now destruct (N [GOther 107]); rewrite <- H|]. exact H.
  - cbn [v_den] in *. destruct (f =? "ite"); auto. inversion IH as [|? ? Hc IH1]; subst. inversion IH1 as [|? ? Hx IH2]; subst. inversion IH2 as [|? ? Hy _]; subst.
    destruct (v_den true c) as [[]|] eqn:E.
    + rewrite (Hc _ eq_refl) by discriminate. now apply Hx.
    + rewrite (Hc _ eq_refl) by discriminate. now apply Hy.
    + rewrite (Hc _ eq_refl) by exact N. reflexivity.
Qed.
Lemma v_completes l : completes (v_z l) (v_den false).
Proof. split; cbn; [reflexivity|eauto|]. intros t r [= H]. now apply v_agree. Qed.

Definition c_t (f : string) : term := TApp f [].

(** * The same variable is shown as true and was taken to be false, as far as can be seen *)
Definition v_b := mkid "b" 0 TBool.
Definition v_lit (q : Q) : expr := ELit TEUReal (LFrac q).
Definition v_vc : expr := EIte TEUReal (EVar v_b) (v_lit 0) (ELit TEUReal LInf).
Definition v_tr (e : expr) : symbolic := YEUReal (TApp "ite" [c_t "b"; c_t "no"; c_t "yes"]) (c_t "0").
Definition v_locals : list local := [mklocal v_b KInput 0 (YBool (c_t "b"))].
Lemma fin0 : fin (Q2R (0 # 1)) = fin 0. Proof. f_equal. unfold Q2R. cbn. lra. Qed.
Lemma fin1 : fin (Q2R (1 # 1)) = fin 1. Proof. f_equal. unfold Q2R. cbn. lra. Qed.
Theorem unassigned_refuted : exists z den sel locals tr vc x D,
  completes z den /\ (forall v, In v locals -> v_id v = x /\ v_sym v = YBool (TApp "b" [])) /\
  (forall I s b, den (TApp "b" []) = ABool b -> s x = VBool b -> forall v, denotes den (tr vc) v -> shown_eur v = ev I vc s) /\
  (forall inner, show_counterexample inner z sel [] locals tr vc = Ok D) /\
  In (x, Value (WTruth true)) (entries (d_globals D)) /\ exists v, d_pre D = Value v /\
  forall I s, s x = VBool true -> ev I vc s <> shown_eur v.
Proof.
  exists (v_z []), (v_den false), (mksel true true true true), v_locals, v_tr, v_vc, v_b. eexists.
  split; [apply v_completes|]. split; [intros v [<-|[]]; split; reflexivity|]. split; [|split; [|split; [|]]].
  - intros I s b [= <-] Hs v H. destruct v as [| | |]; cbn in H; try contradiction; try discriminate; [destruct H; discriminate|]. cbn [shown_eur].
    unfold ev, v_vc. cbn [eval]. rewrite Hs. reflexivity.
  - intros []; vm_compute; reflexivity.
  - cbn. auto.
  - eexists. split; [reflexivity|]. intros I s Hs. unfold ev, v_vc. cbn [eval]. rewrite Hs. cbn. discriminate.
Qed.

(** * Infinity is not shown when the number beside it cannot be read *)
Theorem infinity_refuted : exists z den y, completes z den /\ determined z y /\ numeric den y /\ denotes den y WInfinity /\
  forall inner a, exists a', pretty_var_value inner z y a = Ok (Failed "ParseError", a').
Proof.
  exists (v_z []), (v_den false), (YEUReal (c_t "yes") (c_t "big")). split; [apply v_completes|]. split; [|split; [|split]].
  - split; intros t [<-|[]]; cbn; eauto.
  - intros t [].
  - reflexivity.
  - intros inner a. exists a. destruct inner; vm_compute; reflexivity.
Qed.

(** * A real that the model leaves open is not shown, an integer is *)
Theorem open_real_refuted : exists z den t u, completes z den /\ denotes den (YReal t) (WRat 0 1) /\ denotes den (YInt u) (WInt 0) /\
  forall inner a, (exists a', pretty_var_value inner z (YReal t) a = Ok (Failed "ParseError", a')) /\ exists a', pretty_var_value inner z (YInt u) a = Ok (Value (WInt 0), a').
Proof.
  exists (v_z []), (v_den false), (c_t "r"), (c_t "k"). split; [apply v_completes|]. split; [reflexivity|]. split; [reflexivity|].
  intros inner a. split; eexists; destruct inner; cbn; reflexivity.
Qed.

(** * A program with an assertion that the slice leaves out *)
Definition n_C : tcx := fun f => if is_dist f then Some DProcIntrin else None.
Definition n_x := mkid "x" 0 TEUReal.
Definition n_T : tyctx := mktcx [(n_x, true)] [].
Definition n_F : filter := mkfilter (mksel true true true true) true true.
Definition n_prog : list stmt := [SAssert Down (v_lit (1 # 2))].
Definition n_post : expr := v_lit 1.
Definition n_y := mkid "slice_toggle_0" 1 TBool.
Definition n_e : slice_stmt := mkslice n_y (mksel false true false false) [0%nat].
Definition n_S : slicer := mkslicer (mktcx [(n_y, true); (n_x, true)] [(mkid "slice_toggle" 0 TBool, 0%N)]) Down [n_e] [].
Definition n_a : expr := EIte TEUReal (EVar n_y) (v_lit (1 # 2)) (ELit TEUReal LInf).
Definition n_vc : expr := EBin TEUReal OInf n_a n_post.
(** The model switches the assertion off; it also has a constant that nothing reads. *)
Definition n_z : zmodel := v_z [("no", 0%nat); ("half", 0%nat); ("k!0", 0%nat)].
Definition n_toggles : list (slice_stmt * term) := [(n_e, c_t "no")].
Definition n_sel : selection := mksel true true true true.
Definition n_locals : list local := [mklocal n_x KMut 4 (YEUReal (c_t "no") (c_t "half")); mklocal n_y KSlice 1 (YBool (c_t "no"))].
Definition n_tr (e : expr) : symbolic := match e with ESubst _ _ _ => YEUReal (c_t "no") (c_t "half") | _ => YEUReal (c_t "no") (c_t "1") end.
Definition n_D : display := mkdisplay [(KMut, [(n_x, Value (WRat 1 2))])] [("k!0", 0%nat)] [] (Value (WRat 1 2)) (Some (Value (WRat 1 1), 1%nat, 1%nat)).
Definition n_s : env := upd (st 0 0) n_y (VBool false).
Lemma n_facts : tcx_ok n_C is_dist (fun _ => false) (fun _ => false) /\ sliceable n_C is_dist (fun _ => false) n_T n_prog /\
  scoped_block (fun x => contains_key n_T x = false) n_prog /\ All (every (anns_in (fun _ => false))) n_prog /\ vguard_block n_prog /\ is_exp n_post /\
  prepare_slicing n_C n_F (fun p => List.length p) n_T Down n_prog = Ok ([SAssert Down n_a], n_S) /\ vcgen n_C (SSeq [SAssert Down n_a]) n_post = Ok n_vc.
Proof.
  split.
  { split; [|split]; intros f; unfold n_C; [intros ->; reflexivity|discriminate|discriminate]. }
  split.
  { split; [cbn; repeat split; auto|]. split; [cbn; auto|]. split; [cbn; auto|]. cbn. tauto. }
  split. { cbn. unfold unread. repeat split; auto; intros x H; cbn in H; contradiction. }
  split; [cbn; auto|]. split; [cbn; auto|]. split; [split; reflexivity|]. split; vm_compute; reflexivity.
Qed.
Lemma n_display : forall inner, show_counterexample inner n_z n_sel n_toggles n_locals n_tr n_vc = Ok n_D.
Proof. intros []; vm_compute; reflexivity. Qed.
Lemma n_state : interp_ok I5 /\ env_ok n_s /\ meets I5 n_S n_s /\ blind (fun x => contains_key n_T x = false) (ev I5 n_post) /\ completes n_z (v_den false) /\
  map fst n_toggles = s_stmts n_S /\ NoDup (map v_id n_locals) /\
  (forall x t, In (x, t) n_toggles -> exists v, z_eval n_z false t = Some (ABool v) /\ n_s (sl_ident x) = VBool v) /\
  (forall v, In v (visible n_locals) -> determined n_z (v_sym v) /\ numeric (v_den false) (v_sym v)) /\
  value_right n_z (v_den false) n_tr I5 n_s n_vc /\ value_right n_z (v_den false) n_tr I5 n_s (b_subst_by n_vc [n_y] (fun _ => b_bool true)).
Proof.
  assert (ND : forall f, f = "half" \/ f = "1" -> determined n_z (YEUReal (c_t "no") (c_t f))) by (intros f [->| ->]; split; intros t [<-|[]]; cbn; eauto).
  split; [apply I5_ok|]. split.
  { intros x. unfold n_s, upd. destruct (ident_eqb n_y x) eqn:E; [|apply st_ok]. apply ident_eqb_eq in E. subst x. reflexivity. }
  split; [intros c []|]. split; [intros ? ? ? ? ?; reflexivity|]. split; [apply v_completes|]. split; [reflexivity|]. split.
  { cbn. constructor; [intros [H|[]]; discriminate|]. constructor; [intros []|constructor]. }
  split; [intros x t [[= <- <-]|[]]; exists false; split; reflexivity|].
  assert (Nu : forall f, f = "half" \/ f = "1" -> numeric (v_den false) (YEUReal (c_t "no") (c_t f))).
  { intros f _ t []. }
  split. { intros v [<-|[]]. split; [apply ND; auto|apply Nu; auto]. }
  split; (split; [apply ND; auto|]; split; [apply Nu; auto|]); intros v H; destruct v; cbn in H; try contradiction; try discriminate; destruct H as [_ [= <- <-]]; cbn [shown_eur].
  - change (fin (Q2R 1) = emin etop (fin (Q2R 1))). apply ele_antisym; [apply emin_glb; [apply ele_top|apply ele_refl]|apply emin_r].
  - rewrite true_subst. change (fin (Q2R (1 # 2)) = emin (fin (Q2R (1 # 2))) (fin (Q2R 1))).
    apply ele_antisym; [apply emin_glb; [apply ele_refl|]|apply emin_l]. apply ele_fin; unfold Q2R; cbn; lra.
Qed.
