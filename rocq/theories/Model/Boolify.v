(** Boolification: src/opt/boolify.rs.  The visitors call one another on subexpressions, but also
    visit already rewritten operands again (an implication whose left-hand side is not an embedding, 55-90),
    so the recursion is bounded by a counter; running out of it is the only [Err].
    [Proofs/BoolifyProofs.v] shows that [fuel e] is always enough. *)
From Coq Require Import Bool List String NArith.
From Verif.Model Require Import Syntax Builder Lits.
Import ListNotations.

Fixpoint visit (n : nat) (e : expr) {struct n} : res expr := (* 21-93 *)
  match n with
  | O => Err "out of fuel"
  | S n =>
    if negb (lattice (ty_of e)) then walk_expr (visit n) e else
    match e with
    | EBin t op l r =>
        if lattice (ty_of l) then
          match op with
          | OEq =>
              if is_top_lit l then visit_eq_top n r
              else if is_bot_lit l then visit_eq_bot n r
              else if is_top_lit r then visit_eq_top n l
              else if is_bot_lit r then visit_eq_bot n l
              else walk_expr (visit n) e
          | OLe => visit_leq n l r
          | OGe => visit_leq n r l
          | OImpl =>
              let? l' := visit n l in
              let? r' := visit n r in
              match l' with
              | EUn _ OEmbed b => let? top := b_top (ty_of l') in Ok (EIte (ty_of l') b r' top)
              | _ => walk_expr (visit n) (EBin t op l' r')
              end
          | OCoImpl =>
              let? l' := visit n l in
              let? r' := visit n r in
              match l' with
              | EUn _ OEmbed b => let? bot := b_bot (ty_of l') in Ok (EIte (ty_of l') b bot r')
              | _ => walk_expr (visit n) (EBin t op l' r')
              end
          | _ => walk_expr (visit n) e
          end
        else walk_expr (visit n) e
    | _ => walk_expr (visit n) e
    end
  end
with visit_leq (n : nat) (l r : expr) {struct n} : res expr := (* 97-179 *)
  match n with
  | O => Err "out of fuel"
  | S n =>
    if negb (lattice (ty_of l) && lattice (ty_of r)) then Panic "assertion failed" else
    if is_bot_lit l then Ok (b_bool true) else
    if is_top_lit l then visit_eq_top n r else
    if is_bot_lit r then visit_eq_bot n l else
    if is_top_lit r then Ok (b_bool true) else
    let no_match :=
      let? l' := visit n l in
      let? r' := visit n r in
      Ok (EBin TBool OLe l' r') in
    let on_rhs :=
      match r with
      | EUn _ OEmbed b => let? x := visit_eq_bot n l in Ok (EBin TBool OOr b x)
      | EBin _ OImpl (EUn _ OEmbed a) b => let? x := visit_leq n l b in Ok (EBin TBool OImpl a x)
      | _ => no_match
      end in
    match l with
    | EUn _ OEmbed b => let? x := visit_eq_top n r in Ok (EBin TBool OImpl b x)
    | EBin _ OCoImpl (EUn _ OEmbed a) b => let? x := visit_leq n b r in Ok (EBin TBool OOr a x)
    | _ => on_rhs
    end
  end
with visit_eq_top (n : nat) (e : expr) {struct n} : res expr := (* 181-242 *)
  match n with
  | O => Err "out of fuel"
  | S n =>
    if negb (lattice (ty_of e)) then Panic "assertion failed" else
    let no_match := let? e' := visit n e in let? top := b_top (ty_of e') in Ok (EBin TBool OEq top e') in
    match e with
    | EIte _ c l r =>
        let? c' := visit n c in
        let? l' := visit_eq_top n l in
        let? r' := visit_eq_top n r in
        Ok (EIte TBool c' l' r')
    | EBin _ (OImpl | OCompare) l r => visit_leq n l r
    | EBin _ OInf l r => let? l' := visit_eq_top n l in let? r' := visit_eq_top n r in Ok (EBin (ty_of l') OAnd l' r')
    | EBin _ OSup l r => let? l' := visit_eq_top n l in let? r' := visit_eq_top n r in Ok (EBin (ty_of l') OOr l' r')
    | EUn _ ONot a => visit_eq_bot n a
    | EUn _ OEmbed a => visit n a
    | _ => no_match
    end
  end
with visit_eq_bot (n : nat) (e : expr) {struct n} : res expr := (* 244-310 *)
  match n with
  | O => Err "out of fuel"
  | S n =>
    if negb (lattice (ty_of e)) then Panic "assertion failed" else
    let no_match := let? e' := visit n e in let? bot := b_bot (ty_of e') in Ok (EBin TBool OEq bot e') in
    match e with
    | EIte _ c l r =>
        let? c' := visit n c in
        let? l' := visit_eq_bot n l in
        let? r' := visit_eq_bot n r in
        Ok (EIte TBool c' l' r')
    | EBin _ (OCoImpl | OCoCompare) l r => visit_leq n r l
    | EBin _ OInf l r => let? l' := visit_eq_bot n l in let? r' := visit_eq_bot n r in Ok (EBin (ty_of l') OOr l' r')
    | EBin _ OSup l r => let? l' := visit_eq_bot n l in let? r' := visit_eq_bot n r in Ok (EBin (ty_of l') OAnd l' r')
    | EUn _ ONon a => visit_eq_top n a
    | EUn _ OEmbed a => let? a' := visit n a in Ok (EUn TBool ONot a')
    | _ => no_match
    end
  end.

(** A bound on the depth of the recursion. *)
Fixpoint weight (e : expr) : nat :=
  match e with
  | EVar _ | ELit _ _ => 0
  | ECall _ _ args => S (fold_right (fun a n => weight a + n) 0 args)
  | EIte _ c a b => S (weight c + weight a + weight b)
  | EBin _ (OEq | OLe | OGe) a b => S (2 * (weight a + weight b))
  | EBin _ _ a b => S (weight a + weight b)
  | EUn _ _ a | EQuant _ _ a => S (weight a)
  | ECast _ (ELit _ _) => 0
  | ECast _ a => S (weight a)
  | ESubst _ b a => S (weight b + weight a)
  end.
Definition fuel (e : expr) : nat := 3 * weight e + 3.
Definition boolify (e : expr) : res expr := visit (fuel e) e.
