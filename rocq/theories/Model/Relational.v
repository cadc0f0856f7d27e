(** Relational rewriting of comparisons: src/opt/relational.rs (opt_rel, off by default). *)
From Coq Require Import Bool List String QArith.
From Verif.Model Require Import Syntax Builder Lits.
From Verif.Spec Require Import Exprs.
Import ListNotations.
Local Open Scope nat_scope.

Definition bbin (op : binop) (a b : expr) : expr := EBin TBool op a b.

(** 53-136, first match (59-97) *)
Definition leq_upper (rec : expr -> expr -> expr) (lower upper : expr) : option expr :=
  if is_top_lit upper then Some (b_bool true) else
  match upper with
  | EBin _ OInf a b => Some (bbin OAnd (rec lower a) (rec lower b))
  | EBin _ OSup a b => Some (bbin OOr (rec lower a) (rec lower b))
  | EBin _ OImpl a b => Some (bbin OOr (rec lower b) (rec a b))
  | EUn _ ONot a => match lower with ELit _ l => if lit_is_top l then Some (rec a (b_frac 0)) else None | _ => None end
  | _ => None
  end.
(** second match (100-132) *)
Definition leq_lower (rec : expr -> expr -> expr) (lower upper : expr) : option expr :=
  if is_bot_lit lower then Some (b_bool true) else
  match lower with
  | EBin _ OInf a b => Some (bbin OOr (rec a upper) (rec b upper))
  | EBin _ OSup a b => Some (bbin OAnd (rec a upper) (rec b upper))
  | EBin _ OCoImpl a b => Some (bbin OOr (rec b upper) (rec b a))
  | EBin _ OCoCompare a b => Some (bbin OOr (rec b a) (rec b_inf upper))
  | _ => None
  end.
(** The recursion runs on fuel; the number of nodes is enough (every recursive call is on fewer nodes). *)
Fixpoint relational_leq_fuel (n : nat) (lower upper : expr) : expr :=
  match n with
  | O => bbin OLe lower upper
  | S k =>
      match leq_upper (relational_leq_fuel k) lower upper with
      | Some e => e
      | None => match leq_lower (relational_leq_fuel k) lower upper with Some e => e | None => bbin OLe lower upper end
      end
  end.
Definition relational_leq (lower upper : expr) : expr := relational_leq_fuel (nodes lower + nodes upper) lower upper.

(** 19-50.  The re-visits of 32-36 and 39-45 after swapping or changing the operator are unfolded. *)
Fixpoint relational (e : expr) : expr :=
  match e with
  | EVar _ | ELit _ _ => e
  | ECall t g args => ECall t g (map relational args)
  | EIte t c a b => EIte t (relational c) (relational a) (relational b)
  | EBin t op a b =>
      match op with
      | OLe => relational_leq (relational a) (relational b)
      | OGe => relational_leq (relational b) (relational a)
      | OEq =>
          if is_top_lit a then relational_leq (relational a) (relational b)
          else if is_bot_lit a then relational_leq (relational b) (relational a)
          else EBin t op (relational a) (relational b)
      | _ => EBin t op (relational a) (relational b)
      end
  | EUn t op a => EUn t op (relational a)
  | ECast t a => ECast t (relational a)
  | EQuant op xs a => EQuant op xs (relational a)
  | ESubst x b a => ESubst x (relational b) (relational a)
  end.
