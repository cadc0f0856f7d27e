(** C26: free and modified variables. *)
From Coq Require Import Bool List String NArith.
From Verif.Model Require Import Syntax AstUtil.
From Verif.Spec Require Import Eur Sem Wp Frame.
From Verif.Proofs Require Import SemLemmas SubstProofs FrameProofs.
Import ListNotations.

(** The free-variable collector computes exactly the free variables ... *)
Theorem C26_free_variables_exact : forall e, no_subst e ->
  exists vs, free_variables e = Ok vs /\ forall x, In x vs <-> fv x e.
Proof. exact free_variables_spec. Qed.
Print Assumptions C26_free_variables_exact.

(** ... and an expression's value depends on nothing else. *)
Theorem C26_value_depends_on_free_only : forall I e s s',
  (forall x, fv x e -> s x = s' x) -> eval I e s = eval I e s'.
Proof. exact eval_ext. Qed.
Print Assumptions C26_value_depends_on_free_only.

(** A statement can only reach states that differ in written variables ([writes]:
    assigned, initialised or havocked), loops included. *)
Theorem C26_only_written_variables_change : forall I isd isf k (M : ident -> Prop) st,
  interp_ok I -> wts isd isf st -> every not_negate st ->
  (forall x, writes x st -> M x) -> forall X Y s, env_ok s ->
  (forall s', only_changes M s s' -> X s' = Y s') -> wp I isd k st X s = wp I isd k st Y s.
Proof. exact frame_eq. Qed.
Print Assumptions C26_only_written_variables_change.

(** The collected sets (modified and declared) suffice, provided that every havocked
    variable is also assigned or declared in the statement.
    Missing: havocked variables are not collected, see the next theorem. *)
Theorem C26_collected_complete_partial : forall I isd isf k st,
  interp_ok I -> wts isd isf st -> every not_negate st ->
  (forall x, havocs x st -> In x (mmod (mvc_stmt st mvc0)) \/ In x (mdecl (mvc_stmt st mvc0))) ->
  forall X Y s, env_ok s ->
  (forall s', only_changes (fun x => In x (mmod (mvc_stmt st mvc0)) \/ In x (mdecl (mvc_stmt st mvc0))) s s' -> X s' = Y s') ->
  wp I isd k st X s = wp I isd k st Y s.
Proof. exact mvc_complete. Qed.
Print Assumptions C26_collected_complete_partial.

(** [havoc x] changes x, but nothing is collected for it. *)
Theorem C26_havoc_not_collected_refuted : exists st, mmod (mvc_stmt st mvc0) = [] /\ mdecl (mvc_stmt st mvc0) = [] /\
  (forall isd isf, wts isd isf st) /\ every not_negate st /\
  exists X Y, forall I isd k s, env_ok s -> (forall s', only_changes (fun _ => False) s s' -> X s s' = Y s s') /\
    wp I isd k st (X s) s <> wp I isd k st (Y s) s.
Proof. exact mvc_havoc_refuted. Qed.
Print Assumptions C26_havoc_not_collected_refuted.

Definition c26_x := mkid "x" 0 TBool.
Definition c26_y := mkid "y" 1 TUInt.
Definition c26_prog := SWhile (EVar c26_x)
  [SAssign [c26_y] (EBin TUInt OAdd (EVar c26_y) (ELit TUInt (LUInt 1%N))); SHavoc Up [c26_y];
   SVar c26_x (Some (ELit TBool (LBool false)))].
Example C26_nonvacuous :
  no_subst (EQuant QInf [QFresh c26_x] (EBin TBool OAnd (EVar c26_x) (EVar (mkid "z" 2 TBool)))) /\
  free_variables (EQuant QInf [QFresh c26_x] (EBin TBool OAnd (EVar c26_x) (EVar (mkid "z" 2 TBool)))) = Ok [mkid "z" 2 TBool] /\
  wts (fun _ => false) (fun _ => false) c26_prog /\ every not_negate c26_prog /\
  mvc_stmt c26_prog mvc0 = mkmvc [c26_x] [c26_y] [c26_y; c26_x] /\
  (forall x, havocs x c26_prog -> In x (mmod (mvc_stmt c26_prog mvc0)) \/ In x (mdecl (mvc_stmt c26_prog mvc0))).
Proof.
  repeat split. intros x Hx. left. cbn in Hx. cbn. tauto.
Qed.
