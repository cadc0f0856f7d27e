(** The dependency graph: a concrete file, and a function recognised as recursive although it is not. *)
From Coq Require Import Bool List String Relations Operators_Properties NArith.
From Verif.Model Require Import Syntax Procs Recursion Depgraph.
From Verif.Spec Require Import Recursion Needs.
From Verif.Proofs Require Import DepgraphProofs.
Import ListNotations.
Local Open Scope string_scope.
Local Open Scope list_scope.
Local Open Scope nat_scope.

Definition vx : ident := mkid "x" 0 TUInt.
Definition call1 (t : ty) (f : string) (e : expr) : expr := ECall t f [e].
Definition even_f : dfunc := mkdfunc "even" [] (Some (EUn TBool ONot (call1 TBool "odd" (EVar vx)))).
Definition odd_f : dfunc := mkdfunc "odd" [] (Some (EUn TBool ONot (call1 TBool "even" (EVar vx)))).
Definition h_f : dfunc := mkdfunc "h" ["D"] None.
Definition unused_f : dfunc := mkdfunc "unused" ["D"] (Some (call1 TUInt "h" (EVar vx))).
Definition ax_a : daxiom := mkdaxiom "ax" [] (EBin TBool OAnd (call1 TBool "even" (EVar vx)) (call1 TBool "h" (EVar vx))).
Definition proc1 : proc := mkproc Down "p" [vx] [] [] (Some [SAssert Down (call1 TBool "even" (EVar vx))]).
Definition file1 : list dunit :=
  [UDecl (DeclDomain "A" [DFunc even_f; DFunc odd_f; DAxiom ax_a]); UDecl (DeclDomain "D" [DFunc h_f; DFunc unused_f]);
   UDecl (DeclProc proc1 [])].
Lemma file1_emitted : exists g deps, generate_depgraph Decreasing file1 = Ok g /\ unit_deps g (20) (UDecl (DeclProc proc1 [])) = Some deps /\
  emitted_sorts deps (domains_of file1) = ["D"] /\ map spec_name (emitted_specs deps (domains_of file1)) = ["even"; "odd"; "ax"; "h"] /\
  is_potentially_recursive g 20 "even" = Some true /\ is_potentially_recursive g 20 "unused" = Some false.
Proof.
  eexists. eexists. split; [vm_compute; reflexivity|]. split; [vm_compute; reflexivity|].
  split; [vm_compute; reflexivity|]. split; [vm_compute; reflexivity|]. split; vm_compute; reflexivity.
Qed.

Definition const_f : dfunc := mkdfunc "f" [] (Some (ELit TUInt (LUInt 1%N))).
Definition f_ax : daxiom := mkdaxiom "a" [] (EBin TBool OEq (ECall TUInt "f" []) (ELit TUInt (LUInt 1%N))).
Definition file2 : list dunit := [UDecl (DeclDomain "D" [DFunc const_f; DAxiom f_ax])].
Lemma file2_func f : has_func file2 f -> f = const_f.
Proof.
  unfold has_func, file2. cbn. intros [[H | []] | (n & specs & [H | []] & Hs)]; [discriminate|].
  injection H as <- <-. cbn in Hs. destruct Hs as [Hs | [Hs | []]]; congruence.
Qed.
Lemma recursive_not_exact : exists us g x, generate_depgraph Decreasing us = Ok g /\ ~ self_defined us x /\
  (exists f, has_func us f /\ df_name f = x /\ forall y, ~ func_refers f y) /\
  exists N, forall n, N <= n -> is_potentially_recursive g n x = Some true.
Proof.
  exists file2. eexists. exists "f". split; [reflexivity|].
  assert (HR : forall y, ~ func_refers const_f y).
  { intros y [[] | (e & He & H)]. cbn in He. injection He as <-. exact H. }
  split; [|split].
  - intros H. apply clos_trans_t1n in H.
    assert (G : forall y, defined_by file2 "f" y -> False).
    { intros y (f & Hf & _ & Hr). apply file2_func in Hf. subst. eapply HR; eauto. }
    inversion H; subst; eapply G; eauto.
  - exists const_f. split; [|auto]. right. exists "D". eexists. split; [left; reflexivity | left; reflexivity].
  - eassert (E : generate_depgraph Decreasing file2 = Ok _) by reflexivity.
    destruct (recursive_spec Decreasing file2 _ E "f") as (N & HN). exists N. intros n Hn. destruct (HN n Hn) as (b & Eb & Hb).
    rewrite Eb. f_equal. apply Hb. left.
    assert (Ha : has_axiom file2 f_ax) by (exists "D"; eexists; split; [left; reflexivity | right; left; reflexivity]).
    apply t_trans with "a"; apply t_step.
    + apply (AskedAxiom _ _ f_ax); auto. right. left. cbn. auto.
    + apply (AskAxiom _ _ f_ax); auto. right. left. cbn. auto.
Qed.
