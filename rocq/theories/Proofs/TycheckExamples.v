(** Programs that the type checker accepts or rejects. *)
From Coq Require Import Bool List String ZArith NArith QArith.
From Verif.Model Require Import Syntax Tycheck Translate.
From Verif.Spec Require Import Eur Sem Exprs Wp Typing Translated.
From Verif.Proofs Require Import TycheckBase TycheckProofs TycheckStmts TycheckProps TranslateRefuted.
Import ListNotations.
Local Open Scope string_scope.
Local Open Scope list_scope.

Definition vx := mkid "x" 0 TUInt.
Definition ve := mkid "e" 1 TEUReal.
Definition vo := mkid "o" 2 TEUReal.
Definition vp := mkid "p" 3 TBool.
Definition vq := mkid "q" 4 TBool.
Definition vi := mkid "i" 5 TInt.
Definition vars (x : ident) : option vkind :=
  if ident_eqb x vx then Some KMut else if ident_eqb x ve then Some KInput else if ident_eqb x vo then Some KOutput
  else if ident_eqb x vp then Some KMut else if ident_eqb x vq then Some KMut else if ident_eqb x vi then Some KInput else None.
(** f : (UReal) -> EUReal; g : (literal EUReal) -> EUReal; unif and a procedure. *)
Definition calls (f : string) : option callee :=
  if String.eqb f "f" then Some (CFunc [(TUReal, false)] TEUReal)
  else if String.eqb f "unif" then Some (CProc [(TUInt, true); (TUInt, true)] [TUInt])
  else if String.eqb f "swap" then Some (CProc [(TUReal, false)] [TBool; TUInt]) else None.
Definition env : sigs := {| s_var := vars; s_call := calls; s_ann := fun n => if String.eqb n "inv" then Some (Some [(TEUReal, false)]) else None |}.
Lemma env_literals : literals_uint env.
Proof.
  intros f c. cbn. unfold calls. destruct (String.eqb f "f"); [|destruct (String.eqb f "unif"); [|destruct (String.eqb f "swap"); [|discriminate]]]; intros [=<-]; cbn; intuition; subst; auto; discriminate.
Qed.
Definition v (x : ident) : rexpr := RVar None x.
Definition n (k : N) : rexpr := RLit None (LUInt k).
Definition call f args : rexpr := RCall None f args.
Definition bin op a b : rexpr := RBin None op a b.

(** ite(x < i, f(x), e / 2) is rejected: EUReal is not divided; with x / 2 it is accepted. *)
Definition good_e : rexpr := RIte None (bin OLt (v vx) (v vi)) (call "f" [v vx]) (bin ODiv (v vx) (n 2)).
Definition bad_e : rexpr := RIte None (bin OLt (v vx) (v vi)) (call "f" [v vx]) (bin ODiv (v ve) (n 2)).
Lemma good_accepted : exists e', visit env true false good_e = Ok e' /\ rty e' = Some (One TEUReal) /\
  tree e' = Some (EIte TEUReal (EBin TBool OLt (ECast TInt (EVar vx)) (EVar vi)) (ECall TEUReal "f" [ECast TUReal (EVar vx)])
    (ECast TEUReal (EBin TUReal ODiv (ECast TUReal (EVar vx)) (ECast TUReal (ELit TUInt (LUInt 2)))))).
Proof. eexists. repeat split; vm_compute; reflexivity. Qed.
Lemma bad_rejected : visit env true false bad_e = Err "CannotCast".
Proof. vm_compute. reflexivity. Qed.
(** Outputs in preconditions. *)
Lemma output_rejected : (exists r, visit_proc env [(false, v vo)] None = Ok r) /\ exists w, visit_proc env [(true, v vo)] None = Err w.
Proof. split; eexists; vm_compute; reflexivity. Qed.

(** A program with a loop, a distribution, a procedure and conversions. *)
Definition good_b : list rstmt :=
  [RVarDecl vx (Some (call "unif" [n 1; n 6]));
   RAnn "inv" [bin OAdd (v vx) (v ve)] (RWhile (bin OLt (v vx) (v vi)) [RAssign [vp; vx] (call "swap" [v vx]); RTick (n 1)]);
   RIf (v vp) [RAssign [vo] (bin OMul (v vx) (n 2))] [RHavoc Down [vo]];
   RAssert Down (call "f" [n 2])].
Lemma good_b_accepted : forallb sparsed good_b = true /\ exists b', visit_block env good_b = Ok b' /\
  match btree b' with Some [SVar _ _; SAnn _ [EBin TEUReal OAdd (ECast TEUReal (EVar _)) (EVar _)] _; _; _] => True | _ => False end.
Proof. split; [reflexivity|]. eexists. split; vm_compute; [reflexivity|exact Logic.I]. Qed.
Lemma input_rejected : exists w, visit_block env [RAssign [ve] (n 1)] = Err w.
Proof. eexists. vm_compute. reflexivity. Qed.
Lemma result_not_converted : exists w, visit_block env [RAssign [vo] (call "unif" [n 1; n 6])] = Err w.
Proof. eexists. vm_compute. reflexivity. Qed.

(** The Heyting operators at Bool. *)
Definition heyting_bool (op : binop) : rexpr := bin op (v vp) (v vq).
Lemma heyting_bool_panics op : In op [OCoImpl; OCompare; OCoCompare] ->
  exists e' x, visit_axiom env (heyting_bool op) = Ok e' /\ tree e' = Some x /\ wt x = false /\
    translate all_vars no_funs plain_call x = Panic "illegal exprkind".
Proof. intros [<-|[<-|[<-|[]]]]; eexists; eexists; repeat split; vm_compute; reflexivity. Qed.
Lemma heyting_refuted op : In op [OCoImpl; OCompare; OCoCompare] ->
  exists S e e' x, parsed e = true /\ visit_axiom S e = Ok e' /\ tree e' = Some x /\ wt x = false /\ bool_heyting x = true /\
    translate all_vars no_funs plain_call x = Panic "illegal exprkind".
Proof. intros H. exists env, (heyting_bool op). destruct H as [<-|[<-|[<-|[]]]]; eexists; eexists; repeat split; vm_compute; reflexivity. Qed.
Definition lattice_bool (op : binop) : rexpr := bin op (v vp) (v vq).
Lemma lattice_bool_rejected op : In op [OInf; OSup] -> exists w, visit env false false (lattice_bool op) = Err w.
Proof. intros [<-|[<-|[]]]; eexists; vm_compute; reflexivity. Qed.

Lemma lattice_refuted op : In op [OInf; OSup] ->
  exists S a b w, types S false false a (One TBool) /\ types S false false b (One TBool) /\ visit S false false (RBin None op a b) = Err w.
Proof.
  intros H. exists env, (v vp), (v vq). destruct (lattice_bool_rejected op H) as [w E]. exists w.
  split; [|split]; [apply (ty_var env false false None vp KMut)|apply (ty_var env false false None vq KMut)|exact E]; try reflexivity; discriminate.
Qed.

(** Checking twice without the condition on literals. *)
Definition env' : sigs := {| s_var := vars; s_call := fun f => if String.eqb f "g" then Some (CFunc [(TEUReal, true)] TEUReal) else None; s_ann := fun _ => None |}.
Lemma twice_rejected : exists e' w, visit env' false false (call "g" [n 1]) = Ok e' /\ visit env' false false e' = Err w /\
  (exists b, visit_block env' [RAssign [vo] (call "g" [n 1])] = Ok b) /\ visit_block env' [RVarDecl vo (Some (call "g" [n 1]))] = Err w.
Proof. eexists. exists "ExpectedKind". repeat split; try (vm_compute; reflexivity). eexists. vm_compute. reflexivity. Qed.

Lemma twice_refuted : exists S e e' w, parsed e = true /\ visit S false false e = Ok e' /\ visit S false false e' = Err w /\
  (exists b, visit_block S [RAssign [vo] e] = Ok b) /\ visit_block S [RVarDecl vo (Some e)] = Err w.
Proof. destruct twice_rejected as (e' & w & A & B & C & D). exists env', (call "g" [n 1]), e', w. auto. Qed.

Definition small_b : list rstmt :=
  [RVarDecl vx (Some (call "unif" [n 1; n 6])); RIf (bin OEq (v vx) (v vi)) [RAssign [vo] (bin OMul (v vx) (n 2))] [RHavoc Down [vo]];
   RAssert Down (call "f" [n 2])].
Lemma small_wts : exists b', visit_block env small_b = Ok b' /\ exists x, btree b' = Some x /\
  All (every no_bool_heyting) x /\ All (every (calls_distributions env (String.eqb "unif"))) x.
Proof.
  eexists. split; [vm_compute; reflexivity|]. eexists. split; [vm_compute; reflexivity|]. split.
  - cbn; unfold no_bool_heyting; cbn; repeat split; intros ? [<-|[]] || intros ? []; reflexivity.
  - cbn; repeat split; auto. constructor; reflexivity || (cbv; discriminate).
Qed.
Definition small_axiom : rexpr := RQuant None QForall [QFresh vx] (bin OImpl (bin OLt (v vx) (v vi)) (bin OLe (call "f" [v vx]) (v ve))).
Lemma small_axiom_ok : exists e' x, visit_axiom env small_axiom = Ok e' /\ tree e' = Some x /\ some bool_heyting x = false /\ some (free_quant all_vars) x = false /\ some is_let x = false.
Proof. eexists. eexists. repeat split; vm_compute; reflexivity. Qed.
