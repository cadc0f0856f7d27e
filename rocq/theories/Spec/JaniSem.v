(** Meaning of JANI models (jani-spec.org) as far as the exported ones need it, and which
    procedures the statements about the export speak of. *)
From Coq Require Import Bool List String ZArith NArith QArith Reals Qreals.
From Verif.Model Require Import Syntax Lits Builder Dist Procs Jani.
From Verif.Spec Require Import Eur Sem Wp Frame.
Import ListNotations.

(** * Expressions *)
Inductive jval := JB (b : bool) | JN (r : R) | JErr.
Definition jstate := string -> jval.
Definition jupd (t : jstate) (x : string) (v : jval) : jstate := fun y => if String.eqb x y then v else t y.

(** What JANI leaves open: division and remainder by zero.  [jfun] gives the functions their meaning. *)
Record jint := { jfun : string -> list jval -> jval; jdiv0 : R -> R; jmod0 : R -> R }.

Definition jbin (J : jint) (op : jop) (a b : jval) : jval :=
  match op, a, b with
  | JAdd, JN x, JN y => JN (x + y)
  | JSub, JN x, JN y => JN (x - y)
  | JMul, JN x, JN y => JN (x * y)
  | JDiv, JN x, JN y => JN (if dec (y = 0)%R then jdiv0 J x else (x / y)%R)
  | JMod, JN x, JN y => JN (if dec (y = 0)%R then jmod0 J x else (x - y * IZR (Int_part (x / y)))%R)
  | JAnd, JB x, JB y => JB (x && y)
  | JOr, JB x, JB y => JB (x || y)
  | JEq, JB x, JB y => JB (Bool.eqb x y)
  | JNe, JB x, JB y => JB (negb (Bool.eqb x y))
  | JEq, JN x, JN y => JB (dec (x = y))
  | JNe, JN x, JN y => JB (negb (dec (x = y)))
  | JLt, JN x, JN y => JB (dec (x < y)%R)
  | JLe, JN x, JN y => JB (dec (x <= y)%R)
  | JGe, JN x, JN y => JB (dec (x >= y)%R)
  | JGt, JN x, JN y => JB (dec (x > y)%R)
  | JMin, JN x, JN y => JN (Rmin x y)
  | JMax, JN x, JN y => JN (Rmax x y)
  | _, _, _ => JErr
  end.

Fixpoint jeval (J : jint) (e : jexpr) (t : jstate) : jval :=
  match e with
  | JId x => t x
  | JNum n => JN (n2r n)
  | JBool b => JB b
  | JIte c a b => match jeval J c t with JB true => jeval J a t | JB false => jeval J b t | _ => JErr end
  | JBin op a b => jbin J op (jeval J a t) (jeval J b t)
  | JNot a => match jeval J a t with JB b => JB (negb b) | _ => JErr end
  | JCall f args => jfun J f (map (fun a => jeval J a t) args)
  end.

(** * Total expected rewards *)

Definition jin (ty : jty) (v : jval) : Prop :=
  match ty, v with
  | JTBool, JB _ => True
  | JTInt, JN r => exists z, r = IZR z
  | JTNat, JN r => exists z, r = IZR z /\ (0 <= z)%Z
  | JTReal, JN _ => True
  | JTPos, JN r => (0 <= r)%R
  | _, _ => False
  end.
Definition jdecls (m : jmodel) : list (string * jty) := m_consts m ++ map fst (m_vars m).
(** Every constant and variable has a value of its type. *)
Definition jvalid (m : jmodel) (t : jstate) : Prop := forall x ty, In (x, ty) (jdecls m) -> jin ty (t x).

Definition jnum (v : jval) : eur := match v with JN r => fin r | _ => ebot end.

(** The assignments of a destination happen at once.  Assigning to the transient variable [reward]
    gives the reward of the step and does not change the state. *)
Definition asg_state (J : jint) (t : jstate) (l : list (string * jexpr)) : jstate :=
  fold_right (fun xe t' => if String.eqb (fst xe) reward_var then t' else jupd t' (fst xe) (jeval J (snd xe) t)) t l.
Definition asg_reward (J : jint) (t : jstate) (l : list (string * jexpr)) : eur :=
  fold_right (fun xe r => if String.eqb (fst xe) reward_var then jnum (jeval J (snd xe) t) else r) ebot l.

(** Values of locations in states *)
Definition jvalf := loc -> jstate -> eur.

Definition dest_val (J : jint) (V : jvalf) (t : jstate) (d : dest) : eur :=
  emul (match d_prob d with None => eone | Some p => jnum (jeval J p t) end)
       (eadd (asg_reward J t (d_asg d)) (V (d_loc d) (asg_state J t (d_asg d)))).
Definition edge_val (J : jint) (V : jvalf) (t : jstate) (e : edge) : eur :=
  fold_right (fun d r => eadd (dest_val J V t d) r) ebot (e_dests e).
Definition enabled (J : jint) (m : jmodel) (l : loc) (t : jstate) : list edge :=
  filter (fun e => loc_eqb (e_src e) l &&
                   match e_guard e with
                   | None => true
                   | Some g => match jeval J g t with JB b => b | _ => false end
                   end) (m_edges m).
Definition best (d : direction) (a b : eur) : eur := match d with Down => emin a b | Up => emax a b end.
(** Nothing is gained where no edge can be taken. *)
Definition best_of (d : direction) (l : list eur) : eur :=
  match l with [] => ebot | a :: l' => fold_right (best d) a l' end.
Definition exit_reward (J : jint) (m : jmodel) (l : loc) (t : jstate) : eur :=
  match l with LEnd => jnum (jeval J (m_post m) t) | _ => ebot end.
(** One step: the reward for leaving the location, and the best edge. *)
Definition bellman (J : jint) (m : jmodel) (V : jvalf) : jvalf :=
  fun l t => eadd (exit_reward J m l t) (best_of (m_dir m) (map (edge_val J V t) (enabled J m l t))).

(** The optimal expected reward collected within [n] steps, and without a bound on the steps.  Rewards are
    nonnegative, so the latter is the limit of the former. *)
Fixpoint reward_within (J : jint) (m : jmodel) (n : nat) : jvalf :=
  match n with O => fun _ _ => ebot | S n' => bellman J m (reward_within J m n') end.
Definition total_reward (J : jint) (m : jmodel) (t : jstate) : eur :=
  esup (fun r => exists n, r = reward_within J m n (m_start m) t).

(** Initial states: those allowed by the initial values and by restrict-initial. *)
Definition jinitial (J : jint) (m : jmodel) (t : jstate) : Prop :=
  jvalid m t /\
  (forall x ty e, In (x, ty, Some e) (m_vars m) -> t x = jeval J e t) /\
  jeval J (m_restrict m) t = JB true.

(** * States of the program and of the JANI model *)

(** JANI has no value for infinity. *)
Definition jv (v : val) : jval :=
  match v with
  | VBool b => JB b
  | VInt z => JN (IZR z)
  | VUInt n => JN (n2r n)
  | VReal r => JN r
  | VUReal x => JN (nval x)
  | VEur (Fin x) => JN (nval x)
  | VEur Inf | VErr => JErr
  end.
(** The JANI state that gives the names of [ids] the values they have in [s]. *)
Definition jstate_of (ids : list ident) (s : env) : jstate :=
  fun n => match find (fun x => String.eqb (iname x) n) ids with Some x => jv (s x) | None => JErr end.

(** The interpretation of functions and of operations by zero is the same on both sides. *)
Definition same_interp (fbody : string -> option (list ty * ty)) (I : interp) (J : jint) : Prop :=
  (forall f ts t vs, fbody f = Some (ts, t) -> Forall2 has_ty vs ts -> jfun J f (map jv vs) = jv (ifun I f t vs)) /\
  (forall a, jdiv0 J a = idiv0 I a) /\ (forall a, jdiv0 J (nval a) = nval (iudiv0 I a)) /\
  (forall n, jmod0 J (n2r n) = n2r (iumod0 I n)).

(** * Which procedures *)

(** Expressions over the variables [ids] and functions with bodies.  Not: remainders of possibly negative
    numbers, the lattice operators and the order on Booleans (JANI's min and max are for numbers). *)
Fixpoint jexp_ok (ids : list ident) (fbody : string -> option (list ty * ty)) (e : expr) : bool :=
  match e with
  | EVar x => existsb (ident_eqb x) ids
  | ECall t f args =>
      match fbody f with
      | Some (ts, t') =>
          ty_eqb t t' && negb (ty_eqb t TEUReal) && negb (is_dist f) && forallb (jexp_ok ids fbody) args &&
          (fix same l l' := match l, l' with
                            | [], [] => true | a :: l, b :: l' => ty_eqb a b && same l l' | _, _ => false end)
            (map ty_of args) ts
      | None => false
      end
  | EIte _ c a b => jexp_ok ids fbody c && jexp_ok ids fbody a && jexp_ok ids fbody b
  | EBin t op a b =>
      jexp_ok ids fbody a && jexp_ok ids fbody b &&
      match t, op with
      | TInt, OMod | TBool, (OInf | OSup) => false
      | TBool, (OLe | OLt | OGe | OGt) => negb (ty_eqb (ty_of a) TBool)
      | _, _ => true
      end
  | EUn _ _ a | ECast _ a => jexp_ok ids fbody a
  | EQuant _ _ _ | ESubst _ _ _ => false
  | ELit _ _ => true
  end.

(** The expressions of a sampling statement are those of the call. *)
Definition jrhs_ok ids fbody (e : expr) : Prop :=
  match e with
  | ECall _ f args => if is_dist f then forallb (jexp_ok ids fbody) args = true else jexp_ok ids fbody e = true
  | _ => jexp_ok ids fbody e = true
  end.
(** In (co)assert and (co)assume only the condition is translated if there is one. *)
Definition jspec_ok ids fbody (e : expr) : Prop :=
  match extract_embed e with Some c => jexp_ok ids fbody c = true | None => jexp_ok ids fbody e = true end.

(** Statements over [ids].  A coassert must not have a Boolean condition (see C35_coassert_refuted). *)
Definition jstmt_ok ids fbody (st : stmt) : Prop :=
  match st with
  | SVar x (Some e) => In x ids /\ jrhs_ok ids fbody e
  | SAssign xs e => (forall x, In x xs -> In x ids) /\ jrhs_ok ids fbody e
  | SAssert d e => jspec_ok ids fbody e /\ (d = Up -> extract_embed e = None)
  | SAssume _ e => jspec_ok ids fbody e
  | STick e => jexp_ok ids fbody e = true
  | SIf c _ _ | SWhile c _ => jexp_ok ids fbody c = true
  | _ => True
  end.

(** The variables: one name each (see C35_names_refuted), none of them that of the reward. *)
Definition jids_ok (ids : list ident) : Prop := NoDup (map iname ids) /\ ~ In reward_var (map iname ids).

(** The declarations whose initial value is a literal: they become initial values of the model. *)
Fixpoint lit_decls (st : stmt) : list (ident * expr) :=
  match st with
  | SVar x (Some e) => if is_constant e then [(x, e)] else []
  | SSeq b | SWhile _ b => flat_map lit_decls b
  | SDemonic a b | SAngelic a b | SAdditive a b | SIf _ a b => flat_map lit_decls a ++ flat_map lit_decls b
  | SAnn _ _ s => lit_decls s
  | _ => []
  end.
(** Such a declaration is not in a loop (see C35_loop_declaration_refuted), and nothing before it writes the
    variable. *)
Fixpoint inits_ok (st : stmt) : Prop :=
  let block := fix block b := match b with
    | [] => True
    | s :: b' => inits_ok s /\ (forall x e, In (x, e) (flat_map lit_decls b') -> ~ writes x s) /\ block b'
    end in
  match st with
  | SSeq b => block b
  | SWhile _ b => flat_map lit_decls b = []
  | SDemonic a b | SAngelic a b | SAdditive a b | SIf _ a b => block a /\ block b
  | SAnn _ _ s => inits_ok s
  | _ => True
  end.
Fixpoint inits_ok_block (b : list stmt) : Prop :=
  match b with
  | [] => True
  | s :: b' => inits_ok s /\ (forall x e, In (x, e) (flat_map lit_decls b') -> ~ writes x s) /\ inits_ok_block b'
  end.

(** The variables of a procedure. *)
Definition proc_ids (p : proc) : list ident :=
  match pbody p with Some b => map fst (flat_map local_decls b) | None => [] end ++ pins p ++ pouts p.

Definition jproc_ok (isf : string -> bool) (fbody : string -> option (list ty * ty)) (p : proc) : Prop :=
  jids_ok (proc_ids p) /\
  match pbody p with
  | None => False
  | Some b =>
      All (wts is_dist isf) b /\ All (every (jstmt_ok (proc_ids p) fbody)) b /\ inits_ok_block b
  end /\
  (forall e, In e (requires p) -> is_exp e /\ jspec_ok (proc_ids p) fbody e) /\
  (forall e, In e (ensures p) -> is_exp e /\ jspec_ok (proc_ids p) fbody e).

(** The neutral post-expectation. *)
Definition dir_top (d : direction) : eur := match d with Down => etop | Up => ebot end.

(** The block without the quantitative ones of the assume statements it begins with: what
    [--jani-skip-quant-pre] makes of it. *)
Fixpoint drop_quant_pre (b : list stmt) : list stmt :=
  match b with
  | s :: b' =>
      match through_annotation s with
      | SAssume _ e => match extract_embed e with Some _ => s :: drop_quant_pre b' | None => drop_quant_pre b' end
      | _ => b
      end
  | [] => []
  end.

(** No substitutions, and fractions (in lowest terms) of 64-bit numbers. *)
Fixpoint jtr_safe (e : expr) : bool :=
  match e with
  | EVar _ => true
  | ECall _ _ args => forallb jtr_safe args
  | EIte _ c a b => jtr_safe c && jtr_safe a && jtr_safe b
  | EBin _ _ a b => jtr_safe a && jtr_safe b
  | EUn _ _ a | ECast _ a | EQuant _ _ a => jtr_safe a
  | ESubst _ _ _ => false
  | ELit _ (LFrac q) => ((0 <=? Qnum q) && (Qnum (Qred q) <? 2 ^ 64) && (Zpos (Qden (Qred q)) <? 2 ^ 64))%Z
  | ELit _ _ => true
  end.
