(** Unfolding with reachability checks: src/opt/unfolder.rs. *)
From Coq Require Import Bool List String.
From Verif.Model Require Import Syntax TyCtx Builder Lits AstUtil Subst.
Import ListNotations.

(** What the prover and the translator know at some point (innermost first): assumed Boolean expressions, and
    quantified variables that were given new symbols ([TranslateExprs::push] and [fresh], 244-258), so that assumptions
    made outside speak about other variables. *)
Inductive cond := Assume (e : expr) | Forget (xs : list ident).

(** The answer [Unsat] of the solver to the [n]-th question asked, an arbitrary function here.  Translation to SMT
    (88-98) is not part of this file. *)
Definition oracle := nat -> list cond -> bool.

(** 83-108: what is known when the callback runs, or None *)
Definition with_sat (orc : oracle) (n : nat) (G : list cond) (e : expr) : option (list cond) * nat :=
  let G' := Assume e :: G in if orc n G' then (None, S n) else (Some G', S n).

(** 268-274 *)
Definition negate_expr (e : expr) : expr := EUn TBool ONot e.

(** 113-127 *)
Definition with_nonbot (orc : oracle) (n : nat) (G : list cond) (e : expr) : option (list cond) * nat :=
  match e with
  | EUn _ (OEmbed | OIverson) a => with_sat orc n G a
  | EUn _ _ _ => (Some G, n)
  | _ => if is_bot_lit e then (None, n) else (Some G, n)
  end.
(** 132-145 *)
Definition with_nontop (orc : oracle) (n : nat) (G : list cond) (e : expr) : option (list cond) * nat :=
  match e with
  | EUn _ OEmbed a => with_sat orc n G (negate_expr a)
  | EUn _ _ _ => (Some G, n)
  | _ => if is_top_lit e then (None, n) else (Some G, n)
  end.

(** Guards of the match arms 190, 206 and 223 *)
Definition mul_ty (t : ty) : bool := match t with TBool | TUReal | TEUReal => true | _ => false end.

(** 151-266.  State: symbol table and number of questions asked.  Resource limits are not modelled. *)
Fixpoint unfold (orc : oracle) (qspan : expr -> nat) (st : tyctx * nat) (fr : frame) (G : list cond) (e : expr) {struct e}
  : res (expr * (tyctx * nat)) :=
  let plain_bin t op a b :=
    let? (a', st1) := unfold orc qspan st fr G a in
    let? (b', st2) := unfold orc qspan st1 fr G b in Ok (EBin t op a' b', st2) in
  match e with
  | EVar x => match lookup (substs fr) x with Some r => Ok (r, st) | None => Ok (e, st) end
  | ESubst x by_ b =>
      let? (by', st1) := unfold orc qspan st fr G by_ in
      let? fr' := push_subst fr x by' in
      unfold orc qspan st1 fr' G b
  | EIte t c a b =>
      let? (c', st1) := unfold orc qspan st fr G c in
      let (o, n1) := with_sat orc (snd st1) G c' in
      match o with
      | Some G1 =>
          let? (a', st2) := unfold orc qspan (fst st1, n1) fr G1 a in
          let (o2, n2) := with_sat orc (snd st2) G (negate_expr c') in
          match o2 with
          | Some G2 => let? (b', st3) := unfold orc qspan (fst st2, n2) fr G2 b in Ok (EIte t c' a' b', st3)
          | None => Ok (a', (fst st2, n2))
          end
      | None => unfold orc qspan (fst st1, n1) fr G b
      end
  | EBin t op a b =>
      match op with
      | OMul =>
          if mul_ty t then
            let? (a', st1) := unfold orc qspan st fr G a in
            let (o, n1) := with_nonbot orc (snd st1) G a' in
            match o with
            | Some G1 => let? (b', st2) := unfold orc qspan (fst st1, n1) fr G1 b in Ok (EBin t op a' b', st2)
            | None => let? z := b_bot t in Ok (z, (fst st1, n1))
            end
          else plain_bin t op a b
      | OImpl | OCompare =>
          if lattice t then
            let? (a', st1) := unfold orc qspan st fr G a in
            let (o, n1) := with_nonbot orc (snd st1) G a' in
            match o with
            | Some G1 => let? (b', st2) := unfold orc qspan (fst st1, n1) fr G1 b in Ok (EBin t op a' b', st2)
            | None => let? z := b_top t in Ok (z, (fst st1, n1))
            end
          else plain_bin t op a b
      | OCoImpl | OCoCompare =>
          if lattice t then
            let? (a', st1) := unfold orc qspan st fr G a in
            let (o, n1) := with_nontop orc (snd st1) G a' in
            match o with
            | Some G1 => let? (b', st2) := unfold orc qspan (fst st1, n1) fr G1 b in Ok (EBin t op a' b', st2)
            | None => let? z := b_bot t in Ok (z, (fst st1, n1))
            end
          else plain_bin t op a b
      | _ => plain_bin t op a b
      end
  | EQuant op xs b =>
      let? (xs', fr', T1) := push_quant (qspan e) (fst st) fr xs in
      let? (b', st2) := unfold orc qspan (T1, snd st) fr' (Forget (map qname xs') :: G) b in
      Ok (EQuant op xs' b', st2)
  | ECall t f args =>
      let? (args', st') :=
        (fix go st l := match l with
                        | [] => Ok ([], st)
                        | a :: l' => let? (a', st1) := unfold orc qspan st fr G a in
                                     let? (r, st2) := go st1 l' in Ok (a' :: r, st2)
                        end) st args in
      Ok (ECall t f args', st')
  | EUn t op a => let? (a', st1) := unfold orc qspan st fr G a in Ok (EUn t op a', st1)
  | ECast t a => let? (a', st1) := unfold orc qspan st fr G a in Ok (ECast t a', st1)
  | ELit _ _ => Ok (e, st)
  end.

(** Use in driver/quant_proof.rs: a new Unfolder visits the whole condition *)
Definition unfold_expr (orc : oracle) (qspan : expr -> nat) (T : tyctx) (e : expr) : res (expr * (tyctx * nat)) :=
  unfold orc qspan (T, 0) empty_frame [] e.
