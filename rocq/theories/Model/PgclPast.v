(** The rule for positive almost-sure termination in the translator from pGCL: pgcl/pgcl2heyvl/pgcl2heyvl/direct_encode.py 372-455.
    Numbers are finite; the casts are those that the type checker inserts. *)
From Coq Require Import Bool List String QArith.
From Verif.Model Require Import Syntax Builder ProofRules LoopProcs Pgcl PgclProc PgclOmega.
Import ListNotations.
Local Open Scope list_scope.

Definition num (q : Q) : expr := ECast TEUReal (ELit TUReal (LFrac q)).
(** direct_encode.py 394-405: the loop and the numbers, without a test that [eps] is positive; 412-420: what the first two
    procedures assert; 422-423, 446-448: the third, a coproc with post-expectation zero.  Its body is translated while the
    direction is still the one of the second procedure, which matters for nested loops only; these fail. *)
Definition past_procs (pc : ident) (vars : list ident) (l : list pinstr) (inv : expr) (eps k : Q) : option (expr * expr * (expr * list stmt)) :=
  match the_loop l with
  | None => None
  | Some (c, b) =>
      if Qle_bool k eps then None else
      match directs false pc Down b [] with
      | None => None
      | Some (b', _) =>
          Some (emb (EBin TBool OLe (mul (ivs (neg c)) inv) (num k)),
                emb (EBin TBool OLe (mul (ivs c) (num k)) (EBin TEUReal OAdd (mul (ivs c) inv) (ivs (neg c)))),
                (to_init (mul (ivs c) (EBin TEUReal OSub inv (num eps))),
                 ((if existsb has_choice l then [SVar pc None] else []) ++ init_assign vars) ++ [encode_iter c b' (pgcl_const inv)]))
      end
  end.
