(** C27: fresh names are fresh. *)
From Coq Require Import Bool List String NArith.
From Verif.Model Require Import Syntax TyCtx.
From Verif.Proofs Require Import TyCtxProofs.
Import ListNotations.

(** For any symbol table (any declaration history): the search terminates with a
    name that is not declared, at the requested position and of the same type. *)
Theorem C27_fresh_ident : forall T x span, exists y T', fresh_ident T x span = Ok (y, T') /\ decls T' = decls T /\
  ~ declared T y /\ ispan y = span /\ ity y = ity x /\
  exists i, iname y = fresh_name x i /\ (next T x <= i)%N /\ next T' x = N.succ i.
Proof. exact fresh_ident_ok. Qed.
Print Assumptions C27_fresh_ident.

(** Cloning a declared variable succeeds, never hits the duplicate assertion, and adds
    exactly one new declaration. *)
Theorem C27_clone_var : forall T x span, get T x = Some true ->
  exists y T', clone_var T x span = Ok (y, T') /\ decls T' = (y, true) :: decls T /\ ~ declared T y /\
  ispan y = span /\ ity y = ity x.
Proof. exact clone_var_ok. Qed.
Print Assumptions C27_clone_var.

(** Over any history of declare/undeclare/clone/fresh operations that does not
    crash, no identifier is declared twice. *)
Theorem C27_declarations_unique : forall os T, tcx_run empty_tcx os = Ok T -> unique_decls T.
Proof. exact (fun os T => tcx_run_unique os empty_tcx T (NoDup_nil _)). Qed.
Print Assumptions C27_declarations_unique.

(** Two requests for the same base never collide, even without declaring in between ... *)
Theorem C27_same_base_distinct : forall T x sp sp' y z T1 T2,
  fresh_ident T x sp = Ok (y, T1) -> fresh_ident T1 x sp' = Ok (z, T2) -> iname y <> iname z.
Proof. exact fresh_twice. Qed.
Print Assumptions C27_same_base_distinct.

(** ... but for two bases of the same name they do; so a caller must declare the name at once. *)
Theorem C27_undeclared_fresh_refuted : exists T x x' sp y T1 z T2, x <> x' /\
  fresh_ident T x sp = Ok (y, T1) /\ fresh_ident T1 x' sp = Ok (z, T2) /\ y = z.
Proof. exact fresh_collision. Qed.
Print Assumptions C27_undeclared_fresh_refuted.

Example C27_nonvacuous : let x := mkid "x" 0 TBool in let x0 := mkid "x_0" 3 TBool in
  exists T T', tcx_run empty_tcx [OpDeclare x true; OpDeclare x0 true; OpClone x 4; OpUndeclare x0] = Ok T /\
  fresh_ident (mktcx [(x, true); (x0, true)] []) x 3 = Ok (mkid "x_1" 3 TBool, T').
Proof. eexists _, _. split; reflexivity. Qed.
