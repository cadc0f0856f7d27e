(** The translator from pGCL to HeyVL: pgcl/pgcl2heyvl/pgcl2heyvl/direct_encode.py and encode.py.
    Expressions are the HeyVL expressions that [_encode_expr] prints; printing and parsing them back are left out.
    [SkipInstr] is printed as the empty text, hence no statement.  [None] is a Python exception. *)
From Coq Require Import Bool List String NArith.
From Verif.Model Require Import Syntax Builder ProofRules.
Import ListNotations.

(** The instructions that direct_encode.py 857-879 accepts. *)
Inductive pinstr :=
| PSkip
| PWhile (c : expr) (body : list pinstr)
| PIf (c : expr) (a b : list pinstr)
| PAsgn (x : ident) (e : expr)
| PChoice (p : expr) (a b : list pinstr)
| PTick (e : expr).

(** direct_encode.py 110-113: an annotation is a number and an invariant; cmd.py 427 accepts every integer, and
    numbers below zero are treated like zero (direct_encode.py 754). *)
Definition annot := (nat * expr)%type.

(** direct_encode.py 882-887, with duplicates and in program order: the code makes a sorted list of the set *)
Fixpoint modified (i : pinstr) : list ident :=
  match i with
  | PSkip | PTick _ => []
  | PWhile _ b => flat_map modified b
  | PIf _ a b | PChoice _ a b => flat_map modified a ++ flat_map modified b
  | PAsgn x _ => [x]
  end.

(** direct_encode.py 807-811: both statements are [Direction.DOWN] whatever the direction of the encoding *)
Definition pgcl_const (e : expr) : list stmt := [SAssert Down e; SAssume Down (ECast TEUReal (b_uint 0))].

(** direct_encode.py 833-841 *)
Definition pgcl_spec (d : direction) (inv : expr) (vars : list ident) : list stmt :=
  [SAssert d inv; SHavoc d vars; SValidate d; SAssume d inv].

(** A translation uses annotations and leaves the rest: the global [_loop_annotation_stack]. *)
Definition trans := list annot -> option (list stmt * list annot).

(** direct_encode.py 770-775.  [body] is translated anew for every copy. *)
Definition pgcl_iter (c : expr) (body : trans) (next : list stmt) : trans := fun st =>
  match body st with Some (b, st') => Some ([encode_iter c b next], st') | None => None end.

(** direct_encode.py 823-830: the inner copies are translated first *)
Fixpoint pgcl_extend (d : direction) (c : expr) (body : trans) (inv : expr) (k : nat) (next : list stmt) : trans := fun st =>
  match k with
  | O => Some (next, st)
  | S k' =>
      match pgcl_extend d c body inv k' next st with
      | Some (n, st1) =>
          match pgcl_iter c body n st1 with
          | Some (b, st2) => Some (SAssert (toggle_dir d) inv :: b, st2)
          | None => None
          end
      | None => None
      end
  end.

(** direct_encode.py 814-820 *)
Fixpoint pgcl_bmc (c : expr) (body : trans) (k : nat) (next : list stmt) : trans := fun st =>
  match k with
  | O => Some (next, st)
  | S k' =>
      match pgcl_bmc c body k' next st with
      | Some (n, st1) => pgcl_iter c body n st1
      | None => None
      end
  end.

(** direct_encode.py 746-767.  [bmc] is the global [_bmc]. *)
Definition pgcl_loop (bmc : bool) (d : direction) (c : expr) (body : trans) (vars : list ident) (inv : expr) (k : nat) : trans := fun st =>
  let spec := if bmc then [] else pgcl_spec d inv vars in
  match k with
  | O => Some (spec, st)
  | S k' =>
      match (if bmc then pgcl_bmc c body k' (pgcl_const (ECast TEUReal (b_uint (match d with Up => 0 | Down => 1 end)))) st
             else pgcl_extend d c body inv k' (pgcl_const inv) st) with
      | Some (n, st1) =>
          match pgcl_iter c body n st1 with
          | Some (b, st2) => Some (spec ++ b, st2)
          | None => None
          end
      | None => None
      end
  end.

(** direct_encode.py 844-854: a sequence, in order *)
Definition tseq (f g : trans) : trans := fun st =>
  match f st with
  | Some (a, st1) => match g st1 with Some (b, st2) => Some (a ++ b, st2) | None => None end
  | None => None
  end.
Definition tnil : trans := fun st => Some ([], st).

(** direct_encode.py 857-879.  [pc] is the variable [prob_choice]. *)
Fixpoint direct (bmc : bool) (pc : ident) (d : direction) (i : pinstr) : trans :=
  let instrs l := fold_right (fun i r => tseq (direct bmc pc d i) r) tnil l in
  fun st =>
  match i with
  | PSkip => Some ([], st)
  | PWhile c body =>
      match st with
      | [] => None
      | (k, inv) :: st' => pgcl_loop bmc d c (instrs body) (flat_map modified body) inv k st'
      end
  | PIf c a b =>
      match instrs a st with
      | Some (a', st1) => match instrs b st1 with Some (b', st2) => Some ([SIf c a' b'], st2) | None => None end
      | None => None
      end
  | PAsgn x e => Some ([SAssign [x] e], st)
  | PChoice p a b =>
      match instrs a st with
      | Some (a', st1) =>
          match instrs b st1 with
          | Some (b', st2) => Some ([SAssign [pc] (ECall TBool "flip" [p]); SIf (EVar pc) a' b'], st2)
          | None => None
          end
      | None => None
      end
  | PTick e => Some ([STick e], st)
  end.
Definition directs (bmc : bool) (pc : ident) (d : direction) (l : list pinstr) : trans :=
  fold_right (fun i r => tseq (direct bmc pc d i) r) tnil l.

(** encode.py 662-682: loops stay loops *)
Fixpoint plain (pc : ident) (i : pinstr) : list stmt :=
  match i with
  | PSkip => []
  | PWhile c b => [SWhile c (flat_map (plain pc) b)]
  | PIf c a b => [SIf c (flat_map (plain pc) a) (flat_map (plain pc) b)]
  | PAsgn x e => [SAssign [x] e]
  | PChoice p a b => [SAssign [pc] (ECall TBool "flip" [p]); SIf (EVar pc) (flat_map (plain pc) a) (flat_map (plain pc) b)]
  | PTick e => [STick e]
  end.
Definition plains (pc : ident) (l : list pinstr) : list stmt := flat_map (plain pc) l.

(** encode.py 685-702: only loops in the list itself and, below them, in the bodies of annotated loops.
    An annotation is the name of the rule and its arguments. *)
Definition rule := (string * list expr)%type.
Fixpoint annotate1 (s : stmt) (st : list rule) : option (stmt * list rule) :=
  match s with
  | SWhile c b =>
      match st with
      | [] => None
      | (n, args) :: st' =>
          match (fix block (b : list stmt) (st : list rule) :=
                   match b with
                   | [] => Some ([], st)
                   | s :: b' =>
                       match annotate1 s st with
                       | Some (s', st1) => match block b' st1 with Some (r, st2) => Some (s' :: r, st2) | None => None end
                       | None => None
                       end
                   end) b st' with
          | Some (b', st2) => Some (SAnn n args (SWhile c b'), st2)
          | None => None
          end
      end
  | _ => Some (s, st)
  end.
Fixpoint annotate (b : list stmt) (st : list rule) : option (list stmt * list rule) :=
  match b with
  | [] => Some ([], st)
  | s :: b' =>
      match annotate1 s st with
      | Some (s', st1) => match annotate b' st1 with Some (r, st2) => Some (s' :: r, st2) | None => None end
      | None => None
      end
  end.

(** direct_encode.py 901-904, encode.py 723-726 *)
Fixpoint remove_ticks (i : pinstr) : pinstr :=
  match i with
  | PTick _ => PSkip
  | PWhile c b => PWhile c (map remove_ticks b)
  | PIf c a b => PIf c (map remove_ticks a) (map remove_ticks b)
  | PChoice p a b => PChoice p (map remove_ticks a) (map remove_ticks b)
  | PSkip | PAsgn _ _ => i
  end.

(** direct_encode.py 553-556 (optional stopping): the text is an exclamation mark and the text of the guard, without
    parentheses.  Operands of the guard's own operator have them (700-707, 738-739), and [!] binds tighter than every binary
    operator (src/front/parser/grammar.lalrpop, C45), so that the parser negates the first operand only. *)
Definition printed_not (c : expr) : expr :=
  match c with EBin t op a b => EBin t op (EUn TBool ONot a) b | _ => EUn TBool ONot c end.
