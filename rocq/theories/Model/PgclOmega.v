(** Omega-invariants in the translator from pGCL: pgcl/pgcl2heyvl/pgcl2heyvl/direct_encode.py 578-674; encode.py 404-501 is the same.
    Substitution is the one of the package [probably] (935-940), taken to be simultaneous; pGCL has no binders. *)
From Coq Require Import Bool List String NArith.
From Verif.Model Require Import Syntax Builder ProofRules Pgcl PgclProc.
Import ListNotations.

(** direct_encode.py 935-940 for one variable *)
Fixpoint put (n : ident) (e a : expr) : expr :=
  match a with
  | EVar x => if ident_eqb n x then e else EVar x
  | ECall t f args => ECall t f (map (put n e) args)
  | EIte t c a b => EIte t (put n e c) (put n e a) (put n e b)
  | EBin t op a b => EBin t op (put n e a) (put n e b)
  | EUn t op a => EUn t op (put n e a)
  | ECast t a => ECast t (put n e a)
  | EQuant _ _ _ | ESubst _ _ _ | ELit _ _ => a
  end.

(** direct_encode.py 598-602: the loop among the instructions of the program; there must be one *)
Definition is_loop (i : pinstr) : bool := match i with PWhile _ _ => true | _ => false end.
Definition the_loop (l : list pinstr) : option (expr * list pinstr) :=
  match filter is_loop l with [PWhile c b] => Some (c, b) | _ => None end.

(** direct_encode.py 604-611: [ert]/[wp] give [Down], [wlp] gives [Up]; 637-642 *)
Inductive pcalc := CWlp | CWp | CErt.
Definition omega_dir (k : pcalc) : direction := match k with CWlp => Up | _ => Down end.
Definition omega_end (k : pcalc) : expr := ECast TEUReal (b_uint (match k with CWlp => 1 | _ => 0 end)).
Definition keeps_ticks (k : pcalc) : bool := match k with CErt => true | _ => false end.

(** direct_encode.py 613-674: the pre-expectations and bodies of the two procedures.  The variable [n] is one of the
    variables of the procedures.  Nested loops would need annotations, of which there are none. *)
Definition omega_procs (pc n : ident) (k : pcalc) (vars : list ident) (l : list pinstr) (inv : expr) :
  option ((expr * list stmt) * (expr * list stmt)) :=
  match the_loop l with
  | None => None
  | Some (c, b) =>
      match directs false pc (omega_dir k) (if keeps_ticks k then b else map remove_ticks b) [] with
      | None => None
      | Some (b', _) =>
          let start := (if existsb has_choice l then [SVar pc None] else []) ++ init_assign (vars ++ [n]) in
          let next := put n (EBin TUInt OAdd (EVar n) (b_uint 1)) inv in
          Some ((to_init (put n (b_uint 0) inv), start ++ [encode_iter c b' (pgcl_const (omega_end k))]),
                (to_init next, start ++ [encode_iter c b' (pgcl_const inv)]))
      end
  end.
