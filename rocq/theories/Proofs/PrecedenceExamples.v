(** C45: consequences for the meaning of files, and examples. *)
From Coq Require Import Bool List String Arith ZArith QArith Lia ClassicalEpsilon.
From Verif.Model Require Import Syntax Tycheck Precedence.
From Verif.Spec Require Import Eur Sem Wp Typing Reading.
From Verif.Proofs Require Import GrammarProofs GroupingProofs Fingerprints TycheckProofs RegroupProofs.
Import ListNotations.
Local Open Scope string_scope.
Local Open Scope list_scope.
Local Open Scope nat_scope.

Lemma parsed_clean e : parsed e = true -> clean e = true.
Proof.
  induction e as [o x|o f args IH|o c a b IHc IHa IHb|o op a b IHa IHb|o op a IHa|o a _|o op xs a IHa|o x v a IHv IHa|o l] using rexpr_rect';
    destruct o; cbn; try discriminate; rewrite ?andb_true_iff; try tauto.
  intros P. apply forallb_forall. intros a Ha. rewrite forallb_forall in P. rewrite Forall_forall in IH. auto.
Qed.
Lemma writes_parsed :
  (forall e t, writes e t -> forallb unsigned t = true -> parsed e = true) /\ (forall es t, writes_args es t -> forallb unsigned t = true -> forallb parsed es = true).
Proof.
  apply writes_ind2; intros; cbn [parsed forallb] in *; repeat (rewrite ?forallb_app, ?andb_true_iff in *; cbn [forallb] in * ); intuition.
Qed.
(** Readings that are the same up to associativity have the same type and the same meaning if they have one. *)
Theorem same_meaning S pre I e e' e1 e1' : interp_ok I -> parsed e = true -> parsed e' = true -> same e e' ->
  visit S pre false e = Ok e1 -> visit S pre false e' = Ok e1' ->
  exists x x', tree e1 = Some x /\ tree e1' = Some x' /\ ty_of x = ty_of x' /\
    (wt x = true -> wt x' = true -> forall s, env_ok s -> eval I x s = eval I x' s).
Proof.
  intros HI P P' H V V'. assert (C := parsed_clean _ P). assert (C' := parsed_clean _ P').
  apply (fp_same e e' C C') in H as [F M]. destruct (sim_rel S pre I HI e e' e1 e1' P P' (sim_of_fp _ _ C C' F M) V V') as (t & [_ _ _ (x & x' & T & T' & X & X' & Me)]).
  exists x, x'. repeat (split; [congruence|]). exact Me.
Qed.

Lemma parsers_exist G : (forall t e e', gexpr G t e -> gexpr G t e' -> e = e') -> exists p, generated G p.
Proof.
  intros U. exists (fun t => match excluded_middle_informative (exists e, gexpr G t e) with left H => Ok (proj1_sig (constructive_indefinite_description _ H)) | right _ => Err "parse error" end).
  intros t. destruct (excluded_middle_informative _) as [H|H].
  - destruct (constructive_indefinite_description _ H) as [e0 H0]. cbn. split; [|discriminate]. intros e. split; [intros X; injection X as <-; auto|]. intros X. f_equal. eauto.
  - split; [|discriminate]. intros e. split; [discriminate|]. intros X. destruct H. eauto.
Qed.
Theorem both_exist : (exists n, generated new_levels n) /\ (exists o, generated old_levels o).
Proof. split; apply parsers_exist; [exact new_unique|exact old_unique]. Qed.

(** ** Examples *)
Definition vr (s : string) (t : ty) : ident := mkid s 0 t.
Definition rv (x : ident) : rexpr := RVar None x.
Definition rb (op : binop) (a b : rexpr) : rexpr := RBin None op a b.
Definition three (x : ident) (o : binop) (y : ident) (o' : binop) (z : ident) : list tok := [KId x; KBin o; KId y; KBin o'; KId z].
Lemma three_left x o y o' z : writes (rb o' (rb o (rv x) (rv y)) (rv z)) (three x o y o' z).
Proof. apply (wr_bin o' _ _ [KId x; KBin o; KId y] [KId z]); auto; [|apply wr_var]. apply (wr_bin o _ _ [KId x] [KId y]); auto; apply wr_var. Qed.
Lemma three_right x o y o' z : writes (rb o (rv x) (rb o' (rv y) (rv z))) (three x o y o' z).
Proof. apply (wr_bin o _ _ [KId x] [KId y; KBin o'; KId z]); auto; [apply wr_var|]. apply (wr_bin o' _ _ [KId y] [KId z]); auto; apply wr_var. Qed.
Lemma var_grouped B x : grouped B (rv x).
Proof. constructor; [exact Logic.I|intros a []]. Qed.
Lemma pair_grouped B o x y : grouped B (rb o (rv x) (rv y)).
Proof. constructor; [cbn; auto|]. intros a [<-|[<-|[]]]; apply var_grouped. Qed.
Lemma left_grouped B x o y o' z : (strength B o < strength B o' \/ strength B o = strength B o' /\ groups B o' = ToLeft) -> grouped B (rb o' (rb o (rv x) (rv y)) (rv z)).
Proof. intros H. constructor; [cbn; auto|]. intros a [<-|[<-|[]]]; [apply pair_grouped|apply var_grouped]. Qed.
Lemma right_grouped B x o y o' z : (strength B o' < strength B o \/ strength B o' = strength B o /\ groups B o = ToRight) -> grouped B (rb o (rv x) (rb o' (rv y) (rv z))).
Proof. intros H. constructor; [cbn; auto|]. intros a [<-|[<-|[]]]; [apply var_grouped|apply pair_grouped]. Qed.

(** n - i + x *)
Definition nix : list tok := three (vr "n" TReal) OSub (vr "i" TReal) OAdd (vr "x" TReal).
Example nix_new : gexpr new_levels nix (rb OAdd (rb OSub (rv (vr "n" TReal)) (rv (vr "i" TReal))) (rv (vr "x" TReal))).
Proof. apply new_reads. split; [apply three_left|apply left_grouped; cbn; auto]. Qed.
Example nix_old : gexpr old_levels nix (rb OSub (rv (vr "n" TReal)) (rb OAdd (rv (vr "i" TReal)) (rv (vr "x" TReal)))).
Proof. apply old_reads. split; [apply three_right|apply right_grouped; cbn; auto]. Qed.
Example nix_rejected n o : generated new_levels n -> generated old_levels o -> parse_by_mode MBoth n o [nix] = Err "ChangedPrecedence".
Proof.
  intros Gn Go. assert (N : parse_by_mode MNew n o [nix] = Ok [rb OAdd (rb OSub (rv (vr "n" TReal)) (rv (vr "i" TReal))) (rv (vr "x" TReal))]).
  { apply (new_all n Gn). constructor; [exact nix_new|constructor]. }
  destruct (both_rejects n o Gn Go _ _ N) as (es' & O & X). apply X. apply (old_all o Go) in O. intros F. inversion F as [|? e' ? l' Sm F']; subst. inversion O as [|? ? ? ? Ge _]; subst.
  pose proof (old_unique _ _ _ Ge nix_old) as ->. apply same_fpx with (c := None) in Sm. vm_compute in Sm. discriminate.
Qed.
(** x + y + z *)
Definition xyz : list tok := three (vr "x" TInt) OAdd (vr "y" TUReal) OAdd (vr "z" TReal).
Definition xyz1 : rexpr := rb OAdd (rb OAdd (rv (vr "x" TInt)) (rv (vr "y" TUReal))) (rv (vr "z" TReal)).
Definition xyz2 : rexpr := rb OAdd (rv (vr "x" TInt)) (rb OAdd (rv (vr "y" TUReal)) (rv (vr "z" TReal))).
Example xyz_new : gexpr new_levels xyz xyz1.
Proof. apply new_reads. split; [apply three_left|apply left_grouped; cbn; auto]. Qed.
Example xyz_old : gexpr old_levels xyz xyz2.
Proof. apply old_reads. split; [apply three_right|apply right_grouped; cbn; auto]. Qed.
Example xyz_same : same xyz1 xyz2.
Proof. apply sm_assoc. unfold associative. cbn. auto. Qed.
Example xyz_accepted n o : generated new_levels n -> generated old_levels o -> parse_by_mode MBoth n o [xyz] = Ok [xyz1].
Proof.
  intros Gn Go. apply (both_iff n o Gn Go). split; [apply (new_all n Gn); constructor; [exact xyz_new|constructor]|].
  exists [xyz2]. split; [apply (old_all o Go); constructor; [exact xyz_old|constructor]|]. constructor; [exact xyz_same|constructor].
Qed.
(** a < b < c *)
Definition abc : list tok := three (vr "a" TReal) OLt (vr "b" TReal) OLt (vr "c" TReal).
Example abc_new : ~ exists e, gexpr new_levels abc e.
Proof.
  unfold abc. rewrite (new_accepts _ _ (three_left _ _ _ _ _)). intros H. inversion H as [e N _ E]; subst. apply N. exists [], OLt, [], OLt, []. cbn. repeat (split; [reflexivity|]). intros o [].
Qed.
Example abc_old : exists e, gexpr old_levels abc e.
Proof. apply old_accepts. eexists. apply three_left. Qed.
(** (n - i) + x *)
Definition br_text : list tok := KLpar :: ([KId (vr "n" TReal)] ++ KBin OSub :: [KId (vr "i" TReal)]) ++ [KRpar].
Definition br_tree : rexpr := rb OAdd (RUn None OParens (rb OSub (rv (vr "n" TReal)) (rv (vr "i" TReal)))) (rv (vr "x" TReal)).
Example br_writes : writes br_tree (br_text ++ KBin OAdd :: [KId (vr "x" TReal)]).
Proof. apply wr_bin; auto; [|apply wr_var]. apply wr_parens. apply wr_bin; auto; apply wr_var. Qed.
Example br_bracketed : bracketed br_tree.
Proof.
  assert (V : forall x, bracketed (rv x)) by (intros x; constructor; [exact Logic.I|intros a []]).
  constructor; [cbn; auto|]. intros a [<-|[<-|[]]]; auto. constructor; [exact Logic.I|]. intros a [<-|[]]. constructor; [cbn; auto|]. intros a [<-|[<-|[]]]; auto.
Qed.

(** ** Accepted by both, but only one of the readings has a type *)
Definition all_vars : sigs := mksigs (fun _ => Some KInput) (fun _ => None) (fun _ => None).
Theorem typable_refuted : exists t e e', gexpr new_levels t e /\ gexpr old_levels t e' /\ same e e' /\
  (exists w, visit all_vars false false e = Err w) /\ (exists e1', visit all_vars false false e' = Ok e1').
Proof.
  exists xyz, xyz1, xyz2. split; [exact xyz_new|]. split; [exact xyz_old|]. split; [exact xyz_same|]. split; eexists; vm_compute; reflexivity.
Qed.
(** A case for [same_meaning]: conversions are in different places. *)
Definition uab : list tok := three (vr "n" TUInt) OAdd (vr "m" TUInt) OAdd (vr "z" TReal).
Definition uab1 : rexpr := rb OAdd (rb OAdd (rv (vr "n" TUInt)) (rv (vr "m" TUInt))) (rv (vr "z" TReal)).
Definition uab2 : rexpr := rb OAdd (rv (vr "n" TUInt)) (rb OAdd (rv (vr "m" TUInt)) (rv (vr "z" TReal))).
Definition rcheck (e : rexpr) : option expr := match visit all_vars false false e with Ok e1 => tree e1 | _ => None end.
Example uab_meaning : parsed uab1 = true /\ parsed uab2 = true /\ same uab1 uab2 /\
  match rcheck uab1, rcheck uab2 with Some x, Some x' => wt x = true /\ wt x' = true /\ x <> x' | _, _ => False end.
Proof.
  split; [reflexivity|]. split; [reflexivity|]. split; [apply sm_assoc; unfold associative; cbn; auto|].
  vm_compute. split; [reflexivity|]. split; [reflexivity|]. discriminate.
Qed.
