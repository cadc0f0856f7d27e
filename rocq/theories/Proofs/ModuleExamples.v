(** Examples and counterexamples for C57. *)
From Coq Require Import Bool List String Arith Permutation.
From Verif.Model Require Import Syntax ScopeMap ResolveDecls.
From Verif.Spec Require Import ModuleScoping.
From Verif.Proofs Require Import ModuleProofs ModuleSound ModuleTotal ModuleSafe ModuleMore.
Import ListNotations.
Local Open Scope string_scope.
Local Open Scope list_scope.

(** Some of the imports of every module (driver/front.rs 298-306). *)
Definition base : scope :=
  [(("wp", 0), KCalculus); (("wlp", 0), KCalculus); (("ert", 0), KCalculus);
   (("invariant", 0), KEncoding); (("omega_invariant", 0), KEncoding); (("ast", 0), KEncoding); (("ost", 0), KEncoding);
   (("slice_verify", 0), KSlicing); (("flip", 0), KProcIntrin); (("len", 0), KFuncIntrin)].
Lemma base_nodup : NoDup (map (fun d => gname (fst d)) base).
Proof. cbn. repeat (constructor; [cbn; intuition discriminate|]). constructor. Qed.

Definition simple (x : gid) (ins : list (gid * rty)) (c : option gid) (b : list item) : unit :=
  UProc (mkproc x ins [] [] c (Some b)).
(** A domain with a function over itself and an axiom; two procedures that call each other; a loop in a block; the local
    variable of the block hides the parameter in it. *)
Definition dom : unit :=
  UDomain ("Tree", 1) [DFunc (mkfunc ("size", 2) [(("t", 3), TUnresolved ("Tree", 4))] (TUnresolved ("UInt", 5)) None);
                       DAxiom ("leaf", 6) [IScope [IDecl KVar ("t", 7); IType (TUnresolved ("Tree", 8));
                                                   IExpr [IUse ("size", 9); IUse ("t", 10)]]]].
Definition main_body : list item :=
  [IExpr [IUse ("size", 24); IUse ("x", 25)];
   IScope [IType (TList (TUnresolved ("Tree", 26))); IDecl KVar ("x", 27); IUse ("x", 28);
           IAnn ("omega_invariant", 29) [IUse ("n", 30); IExpr [IUse ("n", 31); IUse ("x", 32)]] [IUse ("x", 33)]];
   IUse ("x", 34); IUse ("other", 35)].
Definition main : unit := simple ("main", 20) [(("x", 21), TUnresolved ("Tree", 22))] (Some ("wp", 23)) main_body.
Definition other : unit := simple ("other", 40) [] None [IUse ("main", 41); IUse ("flip", 42)].
Definition program : list unit := [dom; main; other].
Definition program' : list unit :=
  [UDomain ("Tree", 1) [DFunc (mkfunc ("size", 2) [(("t", 3), TDomain ("Tree", 1))] (TBuiltin "UInt") None);
                        DAxiom ("leaf", 6) [IScope [IDecl KVar ("t", 7); IType (TDomain ("Tree", 1));
                                                    IExpr [IUse ("size", 2); IUse ("t", 7)]]]];
   simple ("main", 20) [(("x", 21), TDomain ("Tree", 1))] (Some ("wp", 0))
     [IExpr [IUse ("size", 2); IUse ("x", 21)];
      IScope [IType (TList (TDomain ("Tree", 1))); IDecl KVar ("x", 27); IUse ("x", 27);
              IAnn ("omega_invariant", 0) [IUse ("n", 30); IExpr [IUse ("n", 30); IUse ("x", 27)]] [IUse ("x", 27)]];
      IUse ("x", 21); IUse ("other", 40)];
   simple ("other", 40) [] None [IUse ("main", 20); IUse ("flip", 0)]].
Lemma program_ok : exists r, resolve_module base program = Ok (program', r).
Proof. eexists. vm_compute. reflexivity. Qed.
Ltac different := repeat (constructor; [cbn; intuition discriminate|]); constructor.
Lemma program_distinct : distinct base program.
Proof. split; [cbn; different|]. cbn. intros x H. repeat (destruct H as [<-|H]; [intuition discriminate|]). destruct H. Qed.
Lemma program_sensible : Forall (sensible_unit (base ++ module_decls program)) program.
Proof.
  assert (T : forall n, sensible_type (base ++ module_decls program) (TUnresolved ("Tree", n))).
  { intros n. right. cbn. intros y k H. repeat (destruct H as [[= <- <-]|H]; [try reflexivity; discriminate|]). destruct H. }
  assert (U : sensible_type (base ++ module_decls program) (TUnresolved ("UInt", 5))).
  { left. exists "UInt". apply builtin_ty_spec. reflexivity. }
  set (D := base ++ module_decls program) in *. clearbody D.
  repeat first [exact I | exact U | apply T | constructor | intros [=] ]; cbn; repeat first [exact I | exact U | apply T | constructor | intros [=] ].
Qed.

Definition panics {A} (x : res A) : Prop := exists m, x = Panic m.
Definition fails {A} (x : res A) : Prop := exists m, x = Err m.

(** A type that is the name of a procedure, or of a parameter. *)
Definition type_main : list unit := [simple ("main", 20) [(("x", 21), TUnresolved ("main", 22))] None []].
Definition type_param : list unit :=
  [simple ("main", 20) [(("x", 21), TUnresolved ("Bool", 22)); (("y", 23), TUnresolved ("x", 24))] None []].
(** Loops with too few arguments. *)
Definition ast_loop : list unit := [simple ("main", 20) [] None [IAnn ("ast", 21) [IExpr []] []]].
Definition ost_loop : list unit := [simple ("main", 20) [] None [IAnn ("ost", 21) [] []]].
Ltac distinct_module := split; [cbn; different|cbn; intros x H; repeat (destruct H as [<-|H]; [intuition discriminate|]); destruct H].
Lemma panic_refuted : exists us1 us2 us3 us4, distinct base us1 /\ distinct base us2 /\ distinct base us3 /\ distinct base us4 /\
  resolve_module base us1 = Panic "this is not a type!" /\ resolve_module base us2 = Panic "this is not a type!" /\
  resolve_module base us3 = Panic "internal error: entered unreachable code" /\
  resolve_module base us4 = Panic "internal error: entered unreachable code".
Proof.
  exists type_main, type_param, ast_loop, ost_loop.
  split; [distinct_module|]. split; [distinct_module|]. split; [distinct_module|]. split; [distinct_module|].
  repeat split; vm_compute; reflexivity.
Qed.

(** The functions of a domain in front of it. *)
Definition user : unit := simple ("main", 20) [] None [IUse ("size", 21)].
Lemma order_refuted : exists u v, distinct base [u; v] /\
  (exists r, resolve_module base [u; v] = Ok r) /\ resolve_module base [v; u] = Err "NotFound".
Proof.
  exists dom, user. split; [distinct_module|]. split; [eexists; vm_compute; reflexivity|vm_compute; reflexivity].
Qed.

(** Calculi that are hidden. *)
Definition hidden_wp : list unit := [simple ("main", 20) [(("wp", 21), TUnresolved ("UInt", 22))] (Some ("wp", 23)) []].
Definition proc_wp : list unit := [simple ("main", 20) [] (Some ("wp", 23)) []; simple ("wp", 30) [] None []].
Definition first_calculus (x : res (list unit * rds)) : res (option gid) :=
  match x with Ok (UProc p :: _, r) => proc_calculus p (dtcx r) | _ => Err "no procedure" end.
Lemma calculus_refuted : exists p us1 q us2, distinct base (UProc p :: us1) /\ distinct base (UProc q :: us2) /\
  pcalculus p = Some ("wp", 23) /\ pcalculus q = Some ("wp", 23) /\ In (("wp", 0), KCalculus) base /\
  (exists p' us' r, resolve_module base (UProc p :: us1) = Ok (UProc p' :: us', r) /\ proc_calculus p' (dtcx r) = Ok None) /\
  (exists q' us' r, resolve_module base (UProc q :: us2) = Ok (UProc q' :: us', r) /\ proc_calculus q' (dtcx r) = Ok None).
Proof.
  exists (mkproc ("main", 20) [(("wp", 21), TUnresolved ("UInt", 22))] [] [] (Some ("wp", 23)) (Some [])), [],
    (mkproc ("main", 20) [] [] [] (Some ("wp", 23)) (Some [])), [simple ("wp", 30) [] None []].
  split; [distinct_module|]. split; [distinct_module|]. split; [reflexivity|]. split; [reflexivity|]. split; [left; reflexivity|].
  split; eexists _, _, _; split; vm_compute; reflexivity.
Qed.

(** The variable of a loop is declared in the block around the loop. *)
Definition omega (a b c : nat) : item := IAnn ("omega_invariant", a) [IUse ("n", b); IExpr [IUse ("n", c)]] [].
Lemma loop_variable_refuted : exists l m, 
  (exists r, resolve_module base [simple ("main", 20) [] None [l]] = Ok r) /\
  (exists r, resolve_module base [simple ("main", 20) [] None [m]] = Ok r) /\
  distinct base [simple ("main", 20) [] None [l; m]] /\
  resolve_module base [simple ("main", 20) [] None [l; m]] = Err "AlreadyDefined" /\
  resolve_module base [simple ("main", 20) [] None [IUse ("n", 27)]] = Err "NotFound" /\
  exists p r, resolve_module base [simple ("main", 20) [] None [l; IUse ("n", 27)]] = Ok (p, r).
Proof.
  exists (omega 21 22 23), (omega 24 25 26). split; [eexists; vm_compute; reflexivity|]. split; [eexists; vm_compute; reflexivity|].
  split; [distinct_module|]. split; [vm_compute; reflexivity|]. split; [vm_compute; reflexivity|]. eexists _, _. vm_compute. reflexivity.
Qed.

(** A module may declare an imported name again. *)
Definition own_flip : list unit := [simple ("main", 20) [] None [IUse ("flip", 21)]; simple ("flip", 30) [] None []].
Lemma hides_import_refuted : exists us us' r x, distinct base us /\ In (("flip", 0), KProcIntrin) base /\ x <> ("flip", 0) /\
  resolve_module base us = Ok (us', r) /\ nth_error us' 0 = Some (simple ("main", 20) [] None [IUse x]).
Proof.
  exists own_flip. eexists _, _, ("flip", 30). split; [distinct_module|]. split; [cbn; tauto|]. split; [discriminate|].
  split; vm_compute; reflexivity.
Qed.

(** Arguments of other annotations are not looked at: names that are declared nowhere. *)
Definition slice_arg : list unit := [simple ("main", 20) [] None [IAnn ("slice_verify", 21) [IUse ("nowhere", 22)] []]].
Lemma arguments_refuted : exists us us' r, distinct base us /\ resolve_module base us = Ok (us', r) /\
  nth_error us' 0 = Some (simple ("main", 20) [] None [IAnn ("slice_verify", 0) [IUse ("nowhere", 22)] []]) /\
  tcx_get (dtcx r) ("nowhere", 22) = None.
Proof. exists slice_arg. eexists _, _. split; [distinct_module|]. split; [vm_compute; reflexivity|]. split; vm_compute; reflexivity. Qed.

(** A domain with the name of a built-in type cannot be named. *)
Lemma builtin_never_domain n b r x : builtin n b -> dty (TUnresolved (n, x)) r = Ok (TBuiltin b).
Proof. intros H. cbn. apply builtin_ty_spec in H. rewrite H. reflexivity. Qed.
Lemma builtin_refuted : exists us us' r, distinct base us /\ In ("Bool", 1) (global_names us) /\
  resolve_module base us = Ok (us', r) /\
  nth_error us 1 = Some (simple ("main", 20) [(("x", 21), TUnresolved ("Bool", 22))] None []) /\
  nth_error us' 1 = Some (simple ("main", 20) [(("x", 21), TBuiltin "Bool")] None []).
Proof.
  exists [UDomain ("Bool", 1) []; simple ("main", 20) [(("x", 21), TUnresolved ("Bool", 22))] None []].
  eexists _, _. split; [distinct_module|]. split; [cbn; auto|]. split; [vm_compute; reflexivity|]. split; reflexivity.
Qed.
