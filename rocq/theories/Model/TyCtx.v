(** The symbol table and fresh names: src/tyctx.rs. *)
From Coq Require Import Bool List String Ascii NArith DecimalString DecimalN.
From Verif.Model Require Import Syntax.
Import ListNotations.

(** src/ast/symbol.rs: an [Ident] is a name and a span, and these are what its
    equality compares (the type in our [ident] is not part of the key). *)
Definition same_id (a b : ident) : bool := String.eqb (iname a) (iname b) && Nat.eqb (ispan a) (ispan b).

(** tyctx.rs 21-37.  [decls]: the declared identifiers and whether the
    declaration is a variable; [fresh]: the counters.  [globals], [spec_ty] are
    not needed here. *)
Record tyctx := mktcx { decls : list (ident * bool); fresh : list (ident * N) }.

Definition empty_tcx : tyctx := mktcx [] [].

Definition contains_key (T : tyctx) (x : ident) : bool := existsb (fun d => same_id (fst d) x) (decls T).

(** tyctx.rs 52-57: [assert!(prev.is_none())]. *)
Definition declare (T : tyctx) (x : ident) (is_var : bool) : res tyctx :=
  if contains_key T x then Panic "already has a previous declaration"
  else Ok (mktcx ((x, is_var) :: decls T) (fresh T)).

(** tyctx.rs 62-65: [shift_remove(&ident).unwrap()]. *)
Definition undeclare (T : tyctx) (x : ident) : res tyctx :=
  if contains_key T x then Ok (mktcx (filter (fun d => negb (same_id (fst d) x)) (decls T)) (fresh T))
  else Panic "called Option::unwrap() on a None value".

(** The counter map: [entry(ident).and_modify(|e| *e += 1).or_insert(0)].  The
    counter is a usize in the code; unbounded here. *)
Fixpoint bump (l : list (ident * N)) (x : ident) : N * list (ident * N) :=
  match l with
  | [] => (0%N, [(x, 0%N)])
  | (y, n) :: l' => if same_id y x then (N.succ n, (y, N.succ n) :: l')
                    else let (i, l'') := bump l' x in (i, (y, n) :: l'')
  end.

Definition show (n : N) : string := NilEmpty.string_of_uint (N.to_uint n).
(** [format!("{}_{}", ident.name, index)] *)
Definition fresh_name (x : ident) (i : N) : string := (iname x ++ "_" ++ show i)%string.

(** tyctx.rs 75-88.  The loop runs on explicit fuel; [Panic "fuel"] would be
    non-termination and is proved impossible (C27). *)
Fixpoint fresh_loop (fuel : nat) (T : tyctx) (x : ident) (span : nat) : res (ident * tyctx) :=
  match fuel with
  | O => Panic "fuel"
  | S k =>
      let (i, f) := bump (fresh T) x in
      let T' := mktcx (decls T) f in
      let y := mkid (fresh_name x i) span (ity x) in
      if contains_key T y then fresh_loop k T' x span else Ok (y, T')
  end.
Definition fresh_ident (T : tyctx) (x : ident) (span : nat) : res (ident * tyctx) :=
  fresh_loop (S (List.length (decls T))) T x span.

Definition get (T : tyctx) (x : ident) : option bool :=
  match find (fun d => same_id (fst d) x) (decls T) with Some d => Some (snd d) | None => None end.

(** tyctx.rs 92-111.  The clone keeps the type of the original variable. *)
Definition clone_var (T : tyctx) (x : ident) (span : nat) : res (ident * tyctx) :=
  let? (y, T1) := fresh_ident T x span in
  match get T1 x with
  | None => Panic "called Option::unwrap() on a None value"
  | Some false => Panic "identifier is not a variable"
  | Some true => let? T2 := declare T1 y true in Ok (y, T2)
  end.
