(** C42: distinct variables stay distinct in the solver. *)
From Coq Require Import Bool List String NArith.
From Verif.Model Require Import Syntax TyCtx Symbols.
From Verif.Proofs Require Import TyCtxProofs SymbolsProofs.
Import ListNotations.

(** An identifier is given the same symbol at every request. *)
Theorem C42_symbol_stable : forall S x xs, fst (sym_get (sym_run (snd (sym_get S x)) xs) x) = fst (sym_get S x).
Proof. exact sym_stable. Qed.
Print Assumptions C42_symbol_stable.

(** Different identifiers of the same name get different symbols, in any request order. *)
Theorem C42_same_name_distinct : forall xs x y, In x xs -> In y xs -> x <> y -> iname x = iname y ->
  symbol_of xs x <> symbol_of xs y.
Proof. exact sym_same_name. Qed.
Print Assumptions C42_same_name_distinct.

(** All symbols are distinct if no requested name looks like [name_k] of another one. *)
Theorem C42_distinct_partial : forall xs x y,
  (forall a b k, In a xs -> In b xs -> iname a <> iname b -> sym_name (iname a) k <> iname b) ->
  (forall a b k j, In a xs -> In b xs -> iname a <> iname b ->
     (iname a ++ "_" ++ show k)%string <> (iname b ++ "_" ++ show j)%string) ->
  In x xs -> In y xs -> x <> y -> symbol_of xs x <> symbol_of xs y.
Proof. exact sym_distinct. Qed.
Print Assumptions C42_distinct_partial.

(** In general they are not: x, another x, and x_1. *)
Theorem C42_collision_refuted : exists x y z, x <> y /\ y <> z /\ x <> z /\
  symbol_of [x; y; z] y = symbol_of [x; y; z] z /\ symbol_of [x; y; z] y = Some "x_1"%string.
Proof. exact sym_collision. Qed.
Print Assumptions C42_collision_refuted.

(** It also happens with names made by the tool's own fresh-name generator. *)
Theorem C42_collision_fresh_refuted : exists T x y sp z T', fresh_ident T x sp = Ok (z, T') /\ x <> y /\ ~ declared T z /\
  declared T x /\ declared T y /\ y <> z /\ symbol_of [x; y; z] y = symbol_of [x; y; z] z.
Proof. exact sym_collision_fresh. Qed.
Print Assumptions C42_collision_fresh_refuted.

Example C42_nonvacuous : let xs := [mkid "x" 0 TUInt; mkid "x" 1 TBool; mkid "yy" 2 TUInt] in
  map (symbol_of xs) xs = [Some "x"; Some "x_1"; Some "yy"]%string.
Proof. reflexivity. Qed.
