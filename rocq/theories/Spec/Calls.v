(** Meaning of procedure calls and of procedure specifications (website/docs/heyvl/procs.md). *)
From Coq Require Import Bool List String.
From Verif.Model Require Import Syntax Procs.
From Verif.Spec Require Import Eur Sem Wp.
Import ListNotations.

Fixpoint upds (s : env) (xs : list ident) (vs : list val) : env :=
  match xs, vs with x :: xs', v :: vs' => upds (upd s x v) xs' vs' | _, _ => s end.
(** [vs] are values for the variables [xs]. *)
Definition typed (xs : list ident) (vs : list val) : Prop := Forall2 (fun x v => has_ty v (ity x)) xs vs.

(** Several pre- or postconditions ("Multiple or no pre/post annotations"): minimum in procs, maximum in coprocs. *)
Definition all_of (d : direction) (l : list eur) : eur :=
  match d with Down => fold_right emin etop l | Up => fold_right emax ebot l end.
(** [below d a b]: [a] is at most as good as [b] for direction [d]. *)
Definition below (d : direction) (a b : eur) : Prop := match d with Down => ele a b | Up => ele b a end.

Definition spec_exp (I : interp) (d : direction) (l : list expr) : exp := fun s => all_of d (map (fun e => ev I e s) l).
(** A specification is met by a transformer from posts to pres. *)
Definition meets (I : interp) (p : proc) (F : exp -> exp) : Prop :=
  forall s, env_ok s -> below (pdir p) (spec_exp I (pdir p) (requires p) s) (F (spec_exp I (pdir p) (ensures p)) s).

(** What a call does: for given inputs, from an expectation over the outputs to a number. *)
Definition behaviour := list val -> (list val -> eur) -> eur.
Definition behaves_well (p : proc) (D : behaviour) : Prop :=
  forall v Y Z, typed (pins p) v -> (forall o, typed (pouts p) o -> ele (Y o) (Z o)) -> ele (D v Y) (D v Z).
(** It satisfies the specification of [p]. *)
Definition satisfies (I : interp) (p : proc) (D : behaviour) : Prop :=
  forall v s, typed (pins p) v -> env_ok s ->
  below (pdir p) (spec_exp I (pdir p) (requires p) (upds s (pins p) v))
                 (D v (fun o => spec_exp I (pdir p) (ensures p) (upds (upds s (pins p) v) (pouts p) o))).

(** Assignments from calls; [Den f]: the behaviour of procedure [f]. *)
Definition call_sem (I : interp) (isd : string -> bool) (Den : string -> option behaviour) (xs : list ident) (e : expr) (X : exp) : exp :=
  match e with
  | ECall _ f args =>
      match Den f with
      | Some D => fun s => D (map (fun a => eval I a s) args) (fun o => X (upds s xs o))
      | None => assign_sem I isd xs e X
      end
  | _ => assign_sem I isd xs e X
  end.
(** Statements with calls. *)
Fixpoint wpc (I : interp) (isd : string -> bool) (Den : string -> option behaviour) (k : fixkind) (st : stmt) (X : exp) {struct st} : exp :=
  let block b X := fold_right (wpc I isd Den k) X b in
  match st with
  | SSeq b => block b X
  | SVar x (Some e) => call_sem I isd Den [x] e X
  | SAssign xs e => call_sem I isd Den xs e X
  | SDemonic a b => fun s => emin (block a X s) (block b X s)
  | SAngelic a b => fun s => emax (block a X s) (block b X s)
  | SAdditive a b => fun s => eadd (block a X s) (block b X s)
  | SIf c a b => fun s => if holds I c s then block a X s else block b X s
  | SWhile c b =>
      let F Y s := if holds I c s then block b Y s else X s in
      match k with Least => lfp F | Greatest => gfp F end
  | SAnn _ _ s => wpc I isd Den k s X
  | _ => wp I isd k st X
  end.
Definition wpc_block (I : interp) (isd : string -> bool) (Den : string -> option behaviour) (k : fixkind) (b : list stmt) (X : exp) : exp :=
  fold_right (wpc I isd Den k) X b.

(** The behaviour of a procedure with a body: inputs are set, everything else in the frame is arbitrary
    (worst case for the direction), and the outputs are read at the end. *)
Definition body_behaviour (I : interp) (isd : string -> bool) (k : fixkind) (p : proc) (b : list stmt) : behaviour :=
  fun v Y =>
    let runs r := exists s, env_ok s /\ r = wp_block I isd k b (fun s' => Y (map s' (pouts p))) (upds s (pins p) v) in
    match pdir p with Down => einf runs | Up => esup runs end.

(** * Which calls the soundness statement is about *)

(** Substituting one after the other is substituting in parallel: the value for a parameter that matters does not mention
    a parameter that comes later.  Always so unless a procedure calls itself. *)
Fixpoint seq_ok (e : expr) (ps : list (ident * expr)) : Prop :=
  match ps with
  | [] => True
  | (x, a) :: ps' => (fv x e -> forall y b, In (y, b) ps' -> ~ fv y a) /\ seq_ok e ps'
  end.
Definition not_dist (isd : string -> bool) (e : expr) : Prop := match e with ECall _ f _ => isd f = false | _ => True end.

Section Ok.
(** [Tm]: the names of the temporaries made for calls; [Kept]: variables that may not be written (input parameters). *)
Variables (isd isf : string -> bool) (procs : string -> option proc) (Tm Kept : ident -> Prop).
Definition writable (x : ident) : Prop := ~ Tm x /\ ~ Kept x.
Definition avoids (e : expr) : Prop := forall y, fv y e -> ~ Tm y.
(** Scoping and types of a procedure declaration. *)
Record decl_ok (p : proc) : Prop := {
  do_params : NoDup (pins p ++ pouts p);
  do_avoid : forall x, In x (pins p ++ pouts p) -> ~ Tm x;
  do_pre : forall e, In e (requires p) -> is_exp e /\ forall y, fv y e -> In y (pins p);
  do_post : forall e, In e (ensures p) -> is_exp e /\ forall y, fv y e -> In y (pins p ++ pouts p)
}.
Record call_ok (p : proc) (xs : list ident) (args : list expr) : Prop := {
  co_args : Forall2 (fun x a => wt a = true /\ ty_of a = ity x) (pins p) args;
  co_pure : Forall (not_dist isd) args;
  co_avoid : Forall avoids args;
  co_lhs : Forall2 (fun x o => ity x = ity o) xs (pouts p);
  co_lhs_avoid : forall x, In x xs -> writable x;
  co_lhs_distinct : NoDup xs;
  co_post : ensures p <> [];
  co_seq_pre : forall e, In e (requires p) -> seq_ok e (combine (pins p) args);
  co_seq_post : forall e, In e (ensures p) -> seq_ok e (combine (pouts p) (map EVar xs))
}.
Definition assignc_ok (xs : list ident) (e : expr) : Prop :=
  let plain := match xs with [x] => assign_ok isd isf x e /\ avoids e /\ writable x | _ => False end in
  match e with
  | ECall _ f args => match procs f with Some p => decl_ok p /\ call_ok p xs args | None => plain end
  | _ => plain
  end.
(** Loops are gone when calls are replaced; negations break monotonicity. *)
Definition stmt_ok (st : stmt) : Prop :=
  match st with
  | SVar x (Some e) => assignc_ok [x] e
  | SAssign xs e => assignc_ok xs e
  | SHavoc _ xs => forall x, In x xs -> writable x
  | SAssert _ e | SAssume _ e | SCompare _ e | STick e | SWeigh e => is_exp e /\ avoids e
  | SIf c _ _ => is_guard c /\ avoids c
  | SNegate _ | SWhile _ _ => False
  | _ => True
  end.
End Ok.

(** The check that is missing for initialisers: the called procedure has direction [d]. *)
Definition init_dir (procs : string -> option proc) (d : direction) (st : stmt) : Prop :=
  match st with
  | SVar _ (Some (ECall _ f _)) => match procs f with Some p => pdir p = d | None => True end
  | _ => True
  end.

(** * Mutually recursive procedures *)
Section System.
Variables (I : interp) (isd : string -> bool) (k : fixkind) (procs : string -> option proc).
(** A behaviour for every declared procedure. *)
Definition system := string -> behaviour.
Definition den (D : system) (f : string) : option behaviour := match procs f with Some _ => Some (D f) | None => None end.
(** One unfolding of every body; procedures without body keep their behaviour [E]. *)
Definition unfold_bodies (E D : system) : system := fun f v Y =>
  match procs f with
  | Some p =>
      match pbody p with
      | Some b =>
          let runs r := exists s, env_ok s /\ r = wpc_block I isd (den D) k b (fun s' => Y (map s' (pouts p))) (upds s (pins p) v) in
          match pdir p with Down => einf runs | Up => esup runs end
      | None => E f v Y
      end
  | None => ebot
  end.
Definition well_behaved (D : system) : Prop := forall f p, procs f = Some p -> behaves_well p (D f).
Definition sys_le (D D' : system) : Prop :=
  forall f p v Y, procs f = Some p -> typed (pins p) v -> ele (D f v Y) (D' f v Y).
(** Greatest and least solutions. *)
Definition greatest (E : system) : system := fun f v Y =>
  esup (fun r => exists D, well_behaved D /\ sys_le D (unfold_bodies E D) /\ r = D f v Y).
Definition least (E : system) : system := fun f v Y =>
  einf (fun r => exists D, well_behaved D /\ sys_le (unfold_bodies E D) D /\ r = D f v Y).
End System.

(** * Verified programs *)
(** The body of [p], with its calls replaced, meets the specification of [p]. *)
Definition checked (I : interp) (isd isf : string -> bool) (k : fixkind) (procs : string -> option proc) (variant : nat -> nat)
    (Tm : ident -> Prop) (p : proc) (b : list stmt) : Prop :=
  All (every (stmt_ok isd isf procs Tm (fun x => In x (pins p)))) b /\ All (every (init_dir procs (pdir p))) b /\
  exists T b' T', sc_block procs variant (pdir p) b T = Ok (b', T') /\ meets I p (wp_block I isd k b').
(** All procedures have direction [d]; those without body behave as [E], which satisfies their specification. *)
Definition program_ok (I : interp) (isd isf : string -> bool) (k : fixkind) (procs : string -> option proc) (variant : nat -> nat)
    (Tm : ident -> Prop) (d : direction) (E : system) : Prop :=
  forall f p, procs f = Some p -> pdir p = d /\ decl_ok Tm p /\
  match pbody p with Some b => checked I isd isf k procs variant Tm p b | None => behaves_well p (E f) /\ satisfies I p (E f) end.

(** A procedure the verification condition generator is meant for. *)
Definition proc_wf (isd isf A : string -> bool) (p : proc) (body : list stmt) : Prop :=
  pbody p = Some body /\ All (wts isd isf) body /\ All (every not_while) body /\ vguard_block body /\ All (every (anns_in A)) body /\
  A "error_msg"%string = true /\ A "success_msg"%string = true /\
  (forall e, In e (requires p) -> is_exp e) /\ (forall e, In e (ensures p) -> is_exp e).
