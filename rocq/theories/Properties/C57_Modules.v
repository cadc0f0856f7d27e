(** C57: names in whole modules. *)
From Coq Require Import Bool List String Arith Permutation.
From Verif.Model Require Import Syntax ScopeMap ResolveDecls.
From Verif.Spec Require Import ModuleScoping.
From Verif.Proofs Require Import ModuleProofs ModuleSound ModuleTotal ModuleSafe ModuleMore ModuleExamples.
Import ListNotations.
Local Open Scope string_scope.
Local Open Scope list_scope.

(** A module that is accepted is understood by the rules of scoping: every name is the innermost declaration of that name,
    every type the domain of that name; the globals are the imports and what is declared at the top; the table has the kind
    of each of them. *)
Theorem C57_sound : forall imports us us' r,
  NoDup (map (fun d => gname (fst d)) imports) -> resolve_module imports us = Ok (us', r) ->
  exists top, sees_module imports us us' top /\ dglobals r = map fst imports ++ map fst top /\
    forall x k, In (x, k) (imports ++ top) -> tcx_get (dtcx r) x = Some k.
Proof. exact module_sound. Qed.
Print Assumptions C57_sound.
(** A module that the rules give a meaning is accepted, with that meaning. *)
Theorem C57_complete : forall imports us us' top,
  NoDup (map (fun d => gname (fst d)) imports) -> distinct imports us -> sees_module imports us us' top ->
  exists r, resolve_module imports us = Ok (us', r).
Proof. exact module_complete. Qed.
Print Assumptions C57_complete.
(** The resolver does not panic if types are names of domains and ast and ost have five and four arguments. *)
Theorem C57_no_panic : forall imports us,
  NoDup (map (fun d => gname (fst d)) imports) -> distinct imports us -> Forall (sensible_unit (imports ++ module_decls us)) us ->
  forall m, resolve_module imports us <> Panic m.
Proof. exact module_safe. Qed.
Print Assumptions C57_no_panic.
Example C57_example : NoDup (map (fun d => gname (fst d)) base) /\ distinct base program /\
  Forall (sensible_unit (base ++ module_decls program)) program /\ exists r, resolve_module base program = Ok (program', r).
Proof. exact (conj base_nodup (conj program_distinct (conj program_sensible program_ok))). Qed.

(** Every name in an accepted module, except in arguments of annotations, is that of a declaration or an import. *)
Theorem C57_declared : forall imports us us' r,
  NoDup (map (fun d => gname (fst d)) imports) -> resolve_module imports us = Ok (us', r) ->
  forall x, In x (flat_map unit_used us') -> In x (map fst (imports ++ module_decls us)).
Proof. exact module_used. Qed.
Print Assumptions C57_declared.
(** Not so for arguments of annotations other than encodings: those are not looked at. *)
Theorem C57_arguments_refuted : exists us us' r, distinct base us /\ resolve_module base us = Ok (us', r) /\
  nth_error us' 0 = Some (simple ("main", 20) [] None [IAnn ("slice_verify", 0) [IUse ("nowhere", 22)] []]) /\
  tcx_get (dtcx r) ("nowhere", 22) = None.
Proof. exact arguments_refuted. Qed.
Print Assumptions C57_arguments_refuted.

(** Two declarations of one name at the top, functions and axioms of domains included, are never accepted. *)
Theorem C57_duplicates : forall imports us x y,
  NoDup (map (fun d => gname (fst d)) imports) -> In x (global_names us) -> In y (global_names us) -> x <> y -> gname x = gname y ->
  forall us' r, resolve_module imports us <> Ok (us', r).
Proof. exact duplicates. Qed.
Print Assumptions C57_duplicates.
Example C57_duplicates_example : let us := [dom; simple ("size", 50) [] None []] in
  In ("size", 2) (global_names us) /\ In ("size", 50) (global_names us) /\ resolve_module base us = Err "AlreadyDefined".
Proof. vm_compute. tauto. Qed.
(** Not so with imports: a module may declare an imported name again, and then means its own. *)
Theorem C57_imports_refuted : exists us us' r x, distinct base us /\ In (("flip", 0), KProcIntrin) base /\ x <> ("flip", 0) /\
  resolve_module base us = Ok (us', r) /\ nth_error us' 0 = Some (simple ("main", 20) [] None [IUse x]).
Proof. exact hides_import_refuted. Qed.
Print Assumptions C57_imports_refuted.

(** Procedures after the last domain may be in any order. *)
Theorem C57_order : forall imports ds ps qs out r,
  NoDup (map (fun d => gname (fst d)) imports) -> distinct imports (ds ++ ps) -> Forall no_domain ps -> Permutation ps qs ->
  resolve_module imports (ds ++ ps) = Ok (out, r) ->
  exists ds' ps' qs' r', out = ds' ++ ps' /\ List.length ds' = List.length ds /\
    resolve_module imports (ds ++ qs) = Ok (ds' ++ qs', r') /\ Permutation (combine ps ps') (combine qs qs').
Proof. exact order. Qed.
Print Assumptions C57_order.
Example C57_order_example : exists r, resolve_module base ([dom] ++ [other; main]) =
  Ok (firstn 1 program' ++ [nth 2 program' other; nth 1 program' main], r) /\
  Forall no_domain [main; other] /\ Permutation [main; other] [other; main].
Proof. eexists. split; [vm_compute; reflexivity|]. split; [repeat constructor|apply perm_swap]. Qed.
(** Not so for domains: procedures in front of a domain do not know its functions. *)
Theorem C57_order_refuted : exists u v, distinct base [u; v] /\
  (exists r, resolve_module base [u; v] = Ok r) /\ resolve_module base [v; u] = Err "NotFound".
Proof. exact order_refuted. Qed.
Print Assumptions C57_order_refuted.

(** The calculus of a procedure is the imported one if the module declares nothing of that name. *)
Theorem C57_calculus : forall imports us us' r n p c a,
  NoDup (map (fun d => gname (fst d)) imports) -> resolve_module imports us = Ok (us', r) ->
  nth_error us n = Some (UProc p) -> pcalculus p = Some c -> In (a, KCalculus) imports -> gname a = gname c ->
  (forall x k, In (x, k) (module_decls us) -> gname x <> gname c) ->
  exists p', nth_error us' n = Some (UProc p') /\ proc_calculus p' (dtcx r) = Ok (Some a).
Proof. exact calculus. Qed.
Print Assumptions C57_calculus.
Example C57_calculus_example : nth_error program 1 = Some main /\ In (("wp", 0), KCalculus) base /\
  forall x k, In (x, k) (module_decls program) -> gname x <> "wp".
Proof.
  split; [reflexivity|]. split; [left; reflexivity|]. cbn. intros x k H.
  repeat (destruct H as [[= <- <-]|H]; [discriminate|]). destruct H.
Qed.
(** A parameter or a procedure of that name hides it: the module is accepted, and the procedure has no calculus. *)
Theorem C57_calculus_refuted : exists p us1 q us2, distinct base (UProc p :: us1) /\ distinct base (UProc q :: us2) /\
  pcalculus p = Some ("wp", 23) /\ pcalculus q = Some ("wp", 23) /\ In (("wp", 0), KCalculus) base /\
  (exists p' us' r, resolve_module base (UProc p :: us1) = Ok (UProc p' :: us', r) /\ proc_calculus p' (dtcx r) = Ok None) /\
  (exists q' us' r, resolve_module base (UProc q :: us2) = Ok (UProc q' :: us', r) /\ proc_calculus q' (dtcx r) = Ok None).
Proof. exact calculus_refuted. Qed.
Print Assumptions C57_calculus_refuted.
(** Annotations of statements are not hidden by declarations that are no annotations. *)
Theorem C57_annotation : forall k x E E' n y q,
  adds k x E E' -> ~ annotation k -> refers_annotation E n y q -> refers_annotation E' n y q.
Proof. exact annotation_kept. Qed.
Print Assumptions C57_annotation.
Example C57_annotation_example : exists us' r,
  resolve_module base [simple ("main", 20) [(("invariant", 21), TUnresolved ("Bool", 22))] None
    [IAnn ("invariant", 23) [IExpr [IUse ("invariant", 24)]] []]] =
  Ok ([simple ("main", 20) [(("invariant", 21), TBuiltin "Bool")] None [IAnn us' [IExpr [IUse ("invariant", 21)]] []]], r) /\
  us' = ("invariant", 0).
Proof. eexists _, _. split; vm_compute; reflexivity. Qed.

(** The variable that a loop declares is declared in the block around it: seen after the loop, and not declared by two loops. *)
Theorem C57_loop_variable_refuted : exists l m,
  (exists r, resolve_module base [simple ("main", 20) [] None [l]] = Ok r) /\
  (exists r, resolve_module base [simple ("main", 20) [] None [m]] = Ok r) /\
  distinct base [simple ("main", 20) [] None [l; m]] /\
  resolve_module base [simple ("main", 20) [] None [l; m]] = Err "AlreadyDefined" /\
  resolve_module base [simple ("main", 20) [] None [IUse ("n", 27)]] = Err "NotFound" /\
  exists p r, resolve_module base [simple ("main", 20) [] None [l; IUse ("n", 27)]] = Ok (p, r).
Proof. exact loop_variable_refuted. Qed.
Print Assumptions C57_loop_variable_refuted.

(** Modules with distinct identifiers on which the resolver panics: types that are procedures or parameters, and loops with
    a wrong number of arguments. *)
Theorem C57_panic_refuted : exists us1 us2 us3 us4,
  distinct base us1 /\ distinct base us2 /\ distinct base us3 /\ distinct base us4 /\
  resolve_module base us1 = Panic "this is not a type!" /\ resolve_module base us2 = Panic "this is not a type!" /\
  resolve_module base us3 = Panic "internal error: entered unreachable code" /\
  resolve_module base us4 = Panic "internal error: entered unreachable code".
Proof. exact panic_refuted. Qed.
Print Assumptions C57_panic_refuted.

(** The name of a built-in type is that type, whatever is declared. *)
Theorem C57_builtin : forall n b r x, builtin n b -> dty (TUnresolved (n, x)) r = Ok (TBuiltin b).
Proof. exact builtin_never_domain. Qed.
Print Assumptions C57_builtin.
(** So a domain of that name is accepted and is not what its name means. *)
Theorem C57_builtin_refuted : exists us us' r, distinct base us /\ In ("Bool", 1) (global_names us) /\
  resolve_module base us = Ok (us', r) /\
  nth_error us 1 = Some (simple ("main", 20) [(("x", 21), TUnresolved ("Bool", 22))] None []) /\
  nth_error us' 1 = Some (simple ("main", 20) [(("x", 21), TBuiltin "Bool")] None []).
Proof. exact builtin_refuted. Qed.
Print Assumptions C57_builtin_refuted.
