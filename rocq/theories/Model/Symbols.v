(** Assignment of solver symbols to identifiers: src/smt/symbols.rs. *)
From Coq Require Import Bool List String NArith.
From Verif.Model Require Import Syntax TyCtx.
Import ListNotations.

(** symbols.rs 9-16 *)
Record symbolizer := mksym { scounter : list (string * N); ssymbols : list (ident * string) }.
Definition sym0 : symbolizer := mksym [] [].

Fixpoint sym_lookup (l : list (ident * string)) (x : ident) : option string :=
  match l with [] => None | (y, n) :: l' => if ident_eqb y x then Some n else sym_lookup l' x end.
Fixpoint cnt_lookup (l : list (string * N)) (x : string) : N :=
  match l with [] => 0%N | (y, n) :: l' => if String.eqb y x then n else cnt_lookup l' x end.
Fixpoint cnt_bump (l : list (string * N)) (x : string) : list (string * N) :=
  match l with [] => [(x, 1%N)] | (y, n) :: l' => if String.eqb y x then (y, N.succ n) :: l' else (y, n) :: cnt_bump l' x end.

Definition sym_name (name : string) (k : N) : string := if N.ltb 0 k then (name ++ "_" ++ show k)%string else name.

(** symbols.rs 19-43.  The loop tests whether [ident] (not the new name) is vacant;
    line 20 returned otherwise, so it always succeeds in its first round. *)
Definition sym_get (S : symbolizer) (x : ident) : string * symbolizer :=
  match sym_lookup (ssymbols S) x with
  | Some n => (n, S)
  | None =>
      let k := cnt_lookup (scounter S) (iname x) in
      let n := sym_name (iname x) k in
      (n, mksym (cnt_bump (scounter S) (iname x)) ((x, n) :: ssymbols S))
  end.

Fixpoint sym_run (S : symbolizer) (xs : list ident) : symbolizer :=
  match xs with [] => S | x :: xs' => sym_run (snd (sym_get S x)) xs' end.
