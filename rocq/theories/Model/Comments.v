(** Comments (src/front/parser/mod.rs 256-311), on the bytes of a file.  The depth of nested comments is an [i32] in the code and
    a natural number here. *)
From Coq Require Import String Ascii List Bool Arith.
Import ListNotations.

Definition bytes := list ascii.
Definition slash : ascii := "/"%char.
Definition star : ascii := "*"%char.
Definition space : ascii := " "%char.
Definition newline : ascii := ascii_of_nat 10.

(** Where the iterator is: between comments (267), in a line comment (273), in a block comment of some depth (288). *)
Inductive mode := MText | MLine | MBlock (depth : nat).

(** 263-307 *)
Fixpoint blank (m : mode) (l : bytes) : bytes :=
  match l with
  | [] => []
  | c :: l' =>
      match m with
      | MText =>
          if Ascii.eqb c slash then
            match l' with
            | [] => [c]
            | d :: l'' =>
                if Ascii.eqb d slash then space :: space :: blank MLine l''
                else if Ascii.eqb d star then space :: space :: blank (MBlock 1) l''
                else c :: d :: blank MText l''
            end
          else c :: blank MText l'
      | MLine => if Ascii.eqb c newline then c :: blank MText l' else space :: blank MLine l'
      | MBlock n =>
          match l' with
          | d :: l'' =>
              if Ascii.eqb c star && Ascii.eqb d slash then
                space :: space :: blank (if Nat.eqb n 1 then MText else MBlock (n - 1)) l''
              else if Ascii.eqb c slash && Ascii.eqb d star then space :: space :: blank (MBlock (n + 1)) l''
              else space :: blank (MBlock n) l'
          | [] => [space]
          end
      end
  end.

(** 263-311: the string is built again from bytes with [unwrap], and its length is compared. *)
Definition remove_comments (l : bytes) : bytes := blank MText l.
