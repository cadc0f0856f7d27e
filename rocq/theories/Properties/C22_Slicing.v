(** C22: a prepared program with some toggles off is the original without the statements they belong to. *)
From Coq Require Import Bool List String QArith.
From Verif.Model Require Import Syntax Builder Dist VcGen TyCtx Subsets Slicing.
From Verif.Spec Require Import Eur Sem Wp Frame Loops Sliced.
From Verif.Proofs Require Import DistProofs VcGenProofs SlicingVerdict.
Import ListNotations.

(** For every program, filter and direction the preparation succeeds (also when it stops early at a negation), its toggles are
    different fresh Boolean variables of different places, and in every state that satisfies the constraints the prepared
    program means what is left of the original when the places of the toggles that are off are removed. *)
Theorem C22_slices : forall C F span_at isd isf A, tcx_ok C isd isf A -> forall T d b, sliceable C isd isf T b ->
  exists b' S, prepare_slicing C F span_at T d b = Ok (b', S) /\
  NoDup (map sl_ident (s_stmts S)) /\ NoDup (map sl_at (s_stmts S)) /\
  (forall e, In e (s_stmts S) -> ity (sl_ident e) = TBool /\ contains_key T (sl_ident e) = false) /\
  forall I k X s, env_ok s -> meets I S s ->
    wp_block I isd k b' X s = wp_block I isd k (slice_program (off_in (s_stmts S) s) b) X s.
Proof. exact slices. Qed.
Print Assumptions C22_slices.

(** With all toggles on the constraints are met and nothing changed. *)
Theorem C22_all_on : forall C F span_at isd isf A, tcx_ok C isd isf A -> forall T d b b' S, sliceable C isd isf T b ->
  prepare_slicing C F span_at T d b = Ok (b', S) ->
  forall I k X s, env_ok s -> (forall e, In e (s_stmts S) -> s (sl_ident e) = VBool true) ->
  meets I S s /\ wp_block I isd k b' X s = wp_block I isd k b X s.
Proof. exact all_on. Qed.
Print Assumptions C22_all_on.

(** Nothing is lost: what the original means in a state is what the prepared program means in one the solver looks at. *)
Theorem C22_original : forall C F span_at isd isf A, tcx_ok C isd isf A -> forall T d b b' S, sliceable C isd isf T b ->
  scoped_block (fun x => contains_key T x = false) b -> prepare_slicing C F span_at T d b = Ok (b', S) ->
  forall I k X s, interp_ok I -> env_ok s -> blind (fun x => contains_key T x = false) X ->
  env_ok (set_on (s_stmts S) s) /\ meets I S (set_on (s_stmts S) s) /\
  wp_block I isd k b' X (set_on (s_stmts S) s) = wp_block I isd k b X s.
Proof. exact original_value. Qed.
Print Assumptions C22_original.

(** The verification condition of the prepared program is generated and denotes the slice. *)
Theorem C22_vc : forall C F span_at isd isf A, tcx_ok C isd isf A -> forall T d b post, sliceable C isd isf T b ->
  All (every (anns_in A)) b -> vguard_block b -> is_exp post ->
  exists b' S e, prepare_slicing C F span_at T d b = Ok (b', S) /\ vcgen C (SSeq b') post = Ok e /\ is_exp e /\
  forall I k s, interp_ok I -> env_ok s -> meets I S s ->
    ev I e s = wp_block I isd k (slice_program (off_in (s_stmts S) s) b) (ev I post) s.
Proof. exact slice_vc. Qed.
Print Assumptions C22_vc.

(** A program with all kinds of statements that can be switched meets the hypotheses; ten toggles are made. *)
Definition sl_x := mkid "x" 0 TEUReal.
Definition sl_c := mkid "c" 0 TBool.
Definition sl_tcx : tyctx := mktcx [(sl_x, true); (sl_c, true)] [].
Definition sl_decls : tcx := fun f => if is_dist f then Some DProcIntrin else if String.eqb f "slice_error" then Some DSlicingAnn else None.
Definition sl_ann (a : string) : bool := String.eqb a "slice_error".
Definition sl_lit : expr := ELit TEUReal (LFrac (1#2)).
Definition sl_prog : list stmt :=
  [ SDemonic [SAssert Down (EVar sl_x)] [SAngelic [SAssume Down (EVar sl_x)] [SAnn "slice_error" [] (SAssign [sl_x] sl_lit)]];
    SNegate Down; SAssert Up (EVar sl_x); SNegate Up;
    SAnn "slice_error" [] (SAssign [sl_c] (ECall TBool "flip" [ELit TUReal (LFrac (1#2))])); STick (EVar sl_x); SWeigh sl_lit; SValidate Down; SAssume Down (EVar sl_x) ].
Example C22_nonvacuous : tcx_ok sl_decls is_dist (fun _ => false) sl_ann /\
  sliceable sl_decls is_dist (fun _ => false) sl_tcx sl_prog /\ scoped_block (fun x => contains_key sl_tcx x = false) sl_prog /\
  All (every (anns_in sl_ann)) sl_prog /\ vguard_block sl_prog /\
  match prepare_slicing sl_decls (mkfilter (mksel true true true true) true true) (fun p => List.length p) sl_tcx Down sl_prog with
  | Ok (b', R) => List.length (s_stmts R) = 12%nat /\ List.length (s_constr R) = 2%nat /\ vcgen sl_decls (SSeq b') (EVar sl_x) <> Panic ""
  | _ => False
  end.
Proof.
  split.
  { split; [|split]; intros f; unfold sl_decls, sl_ann.
    - intros ->. reflexivity.
    - discriminate.
    - intros H. rewrite H. apply String.eqb_eq in H. subst f. reflexivity. }
  split.
  { split; [|split; [|split]].
    - cbn. repeat split; auto. constructor; reflexivity.
    - cbn. auto 20.
    - cbn. unfold known, sl_decls. cbn. repeat split; auto; discriminate.
    - cbn. intros x H. assert (Q : x = sl_x \/ x = sl_c) by intuition. destruct Q as [-> | ->]; reflexivity. }
  split.
  { cbn. unfold unread. repeat split; auto; intros x H; cbn in H; intuition; subst; discriminate. }
  split; [cbn; auto 20|]. split; [cbn; auto 20|].
  vm_compute. repeat split. discriminate.
Qed.
