(** Examples for the unfolder. *)
From Coq Require Import Bool List String NArith ZArith.
From Verif.Model Require Import Syntax TyCtx Builder AstUtil Subst Unfolder.
From Verif.Spec Require Import Eur Sem Valid Reach.
From Verif.Proofs Require Import EurLemmas SemLemmas SubstProofs SimplifyRefuted UnfolderProofs.
Import ListNotations.
Local Open Scope string_scope.
Local Open Scope nat_scope.

(** A solver that notices [false] and a variable assumed together with its negation. *)
Fixpoint assumed (x : ident) (G : list cond) : bool :=
  match G with
  | Assume (EVar y) :: G' => ident_eqb x y || assumed x G'
  | Assume _ :: G' => assumed x G'
  | _ => false
  end.
Definition orc0 : oracle := fun _ G =>
  match G with
  | Assume (ELit TBool (LBool false)) :: _ => true
  | Assume (EUn TBool ONot (EVar x)) :: G' => assumed x G'
  | _ => false
  end.
Lemma assumed_spec I s x : forall G, assumed x G = true -> sat I G s -> s x = VBool true.
Proof.
  induction G as [|c G IH]; [discriminate|]. destruct c as [e|xs]; [|discriminate]. intros H [E S]. simpl in H.
  destruct e; auto. apply orb_prop in H as [H|H]; auto. destruct (ident_eqb_spec x x0) as [<-|]; [exact E | discriminate].
Qed.
Lemma orc0_sound : sound_oracle orc0.
Proof.
  intros n G H I s HI Hs S. destruct G as [|[e|xs] G]; try discriminate. destruct e; try discriminate; simpl in H.
  - destruct t, op; try discriminate. destruct e; try discriminate. destruct S as [E S]. simpl in E.
    rewrite (assumed_spec I s x G H S) in E. discriminate.
  - destruct t, l; try discriminate. destruct b; try discriminate. destruct S as [E _]. discriminate.
Qed.

Definition vb : ident := mkid "b" 0 TBool.
Definition vy : ident := mkid "y" 0 TEUReal.
Definition T0 : tyctx := mktcx [(vb, true); (vy, true)] [].
Definition branch : expr := EIte TEUReal (EVar vb) (EVar vy) b_inf.
(** [?(b) → (inf b. b ? y : ∞) ⊓ (b ? y : ∞)] with [y] replaced by [∞] *)
Definition pruned_in : expr :=
  EBin TEUReal OImpl (EUn TEUReal OEmbed (EVar vb)) (ESubst vy b_inf (EBin TEUReal OInf (EQuant QInf [QShadow vb] branch) branch)).
Definition pruned_out : expr :=
  EBin TEUReal OImpl (EUn TEUReal OEmbed (EVar vb))
    (EBin TEUReal OInf (EQuant QInf [QShadow vb] (EIte TEUReal (EVar vb) b_inf b_inf)) b_inf).
Theorem pruned_example : sound_oracle orc0 /\ wt pruned_in = true /\
  (forall x, In x (ids pruned_in) -> is_var T0 x) /\
  exists T' n, unfold_expr orc0 (fun _ => 0) T0 pruned_in = Ok (pruned_out, (T', n)) /\ pruned_out <> pruned_in.
Proof.
  split; [apply orc0_sound|]. split; [reflexivity|]. split.
  - intros x Hx. cbn in Hx. repeat (destruct Hx as [<-|Hx]; [reflexivity|]). destruct Hx.
  - do 2 eexists. split; [vm_compute; reflexivity | discriminate].
Qed.

Theorem unfold_verified orc qspan T e e' T' n : sound_oracle orc -> wt e = true ->
  (forall x, In x (ids e) -> is_var T x) -> unfold_expr orc qspan T e = Ok (e', (T', n)) ->
  forall I d, interp_ok I -> verified I d e' <-> verified I d e.
Proof.
  intros Ho Hw HT H I d HI. destruct (unfold_expr_correct orc qspan T e Ho Hw HT) as (e1 & T1 & n1 & E & _ & _ & _ & V).
  rewrite E in H. inversion H; subst. split; intros A s Hs; specialize (A s Hs); rewrite V in * by auto; auto.
Qed.

Theorem unsound_solver : exists orc e T e' T' n, wt e = true /\ (forall x, In x (ids e) -> is_var T x) /\
  unfold_expr orc (fun _ => 0) T e = Ok (e', (T', n)) /\
  exists I s, interp_ok I /\ env_ok s /\ eval I e' s <> eval I e s.
Proof.
  exists (fun _ _ => true), branch, T0. do 3 eexists. split; [reflexivity|]. split; [|split].
  - intros x Hx. cbn in Hx. repeat (destruct Hx as [<-|Hx]; [reflexivity|]). destruct Hx.
  - vm_compute. reflexivity.
  - exists I5, (st 0%N 0%Z). split; [apply I5_ok|]. split; [apply st_ok|]. cbn. discriminate.
Qed.
