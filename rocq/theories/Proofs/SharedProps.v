(** Statements of C52, with examples. *)
From Coq Require Import List String Arith Lia Permutation.
From Verif.Model Require Import Syntax SharedHeap.
From Verif.Spec Require Import SharedSpec.
From Verif.Proofs Require Import SharedBasic SharedProofs SharedOps SharedRefine SharedWalk.
Import ListNotations.
Local Open Scope list_scope.
Local Open Scope nat_scope.

Section Props.
Context {L : Type}.
Implicit Types (h : heap L) (R K : list nat).

Lemma c52_values (os : list (op L)) ts : t_execs os [] = Some ts -> exists R h, execs os ([], []) = Ok (R, h) /\ wf h R /\ Forall2 (denotes h) R ts.
Proof. intros E. pose proof (run_ok os) as H. now rewrite E in H. Qed.
Lemma c52_refused (os : list (op L)) : t_execs os [] = None -> exists e, execs os ([], []) = Err e.
Proof. intros E. pose proof (run_ok os) as H. now rewrite E in H. Qed.
Lemma c52_no_panic (os : list (op L)) e : execs os ([], []) <> Panic e.
Proof. intros E. pose proof (run_ok os) as H. destruct (t_execs os []); [destruct H as (R & h & H & _) | destruct H as [e' H]]; congruence. Qed.
Lemma c52_others os h R K ts R' h' : wf h (R ++ K) -> Forall2 (denotes h) R ts -> execs (L := L) os (R, h) = Ok (R', h') -> forall b t, In b K -> denotes h b t -> denotes h' b t.
Proof. intros W F E. pose proof (execs_ok os h R K ts W F) as H. destruct (t_execs os ts); [destruct H as (R1 & h1 & E1 & _ & _ & P); rewrite E in E1; inversion E1; subst; exact P | destruct H as [e H]; congruence]. Qed.
Lemma c52_owners (os : list (op L)) R h a : execs os ([], []) = Ok (R, h) -> In a R -> exists n, ref_count a h = Ok n /\ n = occ R a + refs h a.
Proof.
  intros E Ha. pose proof (run_ok os) as H. destruct (t_execs os []); [|destruct H as [e H]; congruence]. destruct H as (R' & h' & E' & W & _). rewrite E in E'. inversion E'; subst. now apply ref_count_ok.
Qed.
(** An owner elsewhere means a copy: the place gets a node that was not there before. *)
Lemma c52_copies h R a t : wf h (a :: R) -> denotes h a t -> In a R \/ 0 < refs h a -> exists a' h', make_mut a h = Ok (a', h') /\ get h a' = None /\ wf h' (a' :: R) /\ denotes h' a' t /\ denotes h' a t.
Proof.
  intros W D H. destruct t as [d ts]. destruct (make_mut_ok h R a d ts W D) as (a' & h' & ks & E & W' & G & F & P & _). exists a', h'. split; auto. split; [|split; auto; split; [|auto]].
  - destruct (den_live _ _ _ D) as [c Gc]. assert (strong c <> 1). { intros E1. destruct (sole h R a c W Gc E1) as [S1 S2]. destruct H as [H|H]; [apply occ_in in H; lia | lia]. }
    unfold make_mut, live in E. rewrite Gc in E. cbn [rbind] in E. destruct (Nat.eqb (strong c) 1) eqn:Eq; [apply Nat.eqb_eq in Eq; lia|].
    destruct (clones_ok (kids c) h (a :: R) W) as (h1 & E1 & _ & [Sl Sn] & _). { intros k Hk. apply (w_live _ _ W). pose proof (refs_in h k a c Gc Hk). lia. }
    rewrite E1 in E. cbn [rbind] in E. destruct (get h1 a) as [c1|]; [|discriminate E]. cbn [rbind h_new] in E. inversion E; subst a'. unfold get. rewrite nth_overflow; auto. rewrite put_length, Sl. lia.
  - replace d with (lab (mkcell 1 d ks)) by reflexivity. now econstructor; [exact G|].
Qed.
(** The only owner changes its node in place. *)
Lemma c52_in_place h R a t : wf h (a :: R) -> denotes h a t -> ~ In a R -> refs h a = 0 -> make_mut a h = Ok (a, h).
Proof.
  intros W D N E. destruct (den_live _ _ _ D) as [c G]. unfold make_mut, live. rewrite G. cbn [rbind]. destruct (w_count _ _ W a c G) as [C _]. rewrite occ_cons in C. rewrite occ_in in N. destruct (Nat.eq_dec a a); [|congruence].
  replace (strong c) with 1 by lia. reflexivity.
Qed.
End Props.

(** [x + x] with one node for both operands, a second handle of it, and a change of the first
    operand through the one. *)
Definition share : list (op string) := [Build "x" 0; Dup 0 []; Build "+" 2; Dup 0 []]%string.
Example share_counts : exists R h, execs share ([], []) = Ok (R, h) /\ R = [1; 1] /\ ref_count 1 h = Ok 2 /\ ref_count 0 h = Ok 2.
Proof. do 2 eexists. split; [vm_compute; reflexivity|]. vm_compute. auto. Qed.
Example share_change : exists R h, execs (share ++ [Relabel 0 [0] "y"%string]) ([], []) = Ok (R, h) /\ R = [2; 1] /\
  denotes h 2 (T "+" [T "y" []; T "x" []])%string /\ denotes h 1 (T "+" [T "x" []; T "x" []])%string.
Proof.
  do 2 eexists. split; [vm_compute; reflexivity|]. split; [reflexivity|].
  assert (N : forall h a n d ks ts, get h a = Some (mkcell n d ks) -> Forall2 (denotes h) ks ts -> denotes (L := string) h a (T d ts)) by (intros; replace d with (lab (mkcell n d ks)) by reflexivity; econstructor; eauto).
  split; (eapply N; [reflexivity|]); repeat (constructor; [eapply N; [reflexivity|]|]); constructor.
Qed.
Example share_drop : exists h, execs (share ++ [Relabel 0 [0] "y"%string; Drop; Drop]) ([], []) = Ok ([], h) /\ h = [None; None; None; None].
Proof. eexists. split; vm_compute; reflexivity. Qed.
(** Without the copy both would change: the walk makes three nodes of two. *)
Definition keep_all (a : nat) (h : heap string) := true.
Example share_walk : exists R h, execs (removelast share) ([], []) = Ok (R, h) /\ R = [1] /\ exists h', walk keep_all (fun a h => false) 2 1 [] h = Ok (1, [1; 0; 2], h') /\ look [0] 1 h' = Ok 2 /\ look [1] 1 h' = Ok 0 /\ ref_count 2 h' = Ok 2.
Proof. do 2 eexists. split; [vm_compute; reflexivity|]. split; [reflexivity|]. eexists. split; [vm_compute; reflexivity|]. vm_compute. auto. Qed.
Example share_strip : exists R h, execs (removelast share) ([], []) = Ok (R, h) /\ exists h', walk keep_all (fun a h => Nat.eqb a 1) 2 1 [] h = Ok (1, [1], h') /\ ref_count 2 h' = Ok 1 /\ ref_count 0 h' = Ok 1 /\ ref_count 1 h' = Ok 2.
Proof. do 2 eexists. split; [vm_compute; reflexivity|]. eexists. split; [vm_compute; reflexivity|]. vm_compute. auto. Qed.
