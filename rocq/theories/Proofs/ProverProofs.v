(** The prover's bookkeeping is right. *)
From Coq Require Import Bool List String Arith Lia Classical.
From Verif.Model Require Import Syntax Prover.
From Verif.Spec Require Import Proving.
Import ListNotations.
Local Open Scope list_scope.
Local Open Scope nat_scope.

Section P.
Variables (F M : Type) (neg : F -> F) (holds : M -> F -> Prop).
Variable answer : nat -> list F -> list F -> satres.

Definition enc (e : entry F) : F := match e with Assumed f => f | ToProve f => neg f end.
Fixpoint lowest (o : obligations F) : option nat :=
  match o with
  | [] => None
  | top :: rest => match lowest rest with Some m => Some m | None => match to_prove top with [] => None | _ => Some (List.length rest) end end
  end.
Definition levels_of (s : stack_solver F) : list (list F) := match s with Native _ ls | Emulated _ _ ls => ls end.
Record inv (p : prover F) (o : obligations F) : Prop := {
  i_open : o <> [];
  i_levels : levels_of (solver _ p) = map (map enc) o;
  i_asserted : match solver _ p with Emulated _ a ls => a = List.concat ls | Native _ _ => True end;
  i_level : S (plevel _ p) = List.length o;
  i_min : min_level _ p = lowest o
}.
(** The cached answer is an answer to the current question. *)
Definition cached (p : prover F) : Prop :=
  forall r, last_result _ p = Some r -> exists k, r = answer k (get_assertions _ p) [].

Lemma lowest_bound o m : lowest o = Some m -> m < List.length o.
Proof.
  revert m. induction o as [|top rest IH]; cbn; [discriminate|]. intros m. destruct (lowest rest) as [k|].
  - intros [= <-]. specialize (IH k eq_refl). lia.
  - destruct (to_prove top); [discriminate|]. intros [= <-]. lia.
Qed.
Lemma to_prove_app (a b : list (entry F)) : to_prove (a ++ b) = to_prove a ++ to_prove b.
Proof. induction a as [|[f|f] a IH]; cbn; auto. now rewrite IH. Qed.
Lemma assumed_app (a b : list (entry F)) : assumed (a ++ b) = assumed a ++ assumed b.
Proof. induction a as [|[f|f] a IH]; cbn; auto. now rewrite IH. Qed.
Lemma lowest_none o : lowest o = None <-> to_prove (all o) = [].
Proof.
  unfold all. induction o as [|top rest IH]; cbn; [tauto|]. rewrite to_prove_app. destruct (lowest rest) as [m|].
  - split; [discriminate|]. intros H. apply app_eq_nil in H. destruct H as [_ H]. apply IH in H. discriminate.
  - rewrite (proj1 IH eq_refl), app_nil_r. destruct (to_prove top); [tauto | split; discriminate].
Qed.

Lemma inv_new b : inv (new_prover F b) [[]].
Proof. destruct b; constructor; cbn; auto; discriminate. Qed.
Lemma asserted_eq p o : inv p o -> get_assertions _ p = map enc (all o).
Proof.
  intros [_ L A _ _]. unfold get_assertions, all. destruct (solver _ p) as [ls|a ls]; cbn in L; subst; now rewrite concat_map.
Qed.

Lemma inv_put p o e l : inv p o -> exists p', add_assumption F (enc e) p = Ok p' /\ last_result _ p' = None /\ questions _ p' = questions _ p /\
  plevel _ p' = plevel _ p /\ min_level _ p' = min_level _ p /\
  (l = lowest (put e o) -> inv (mkprover _ (solver _ p') (plevel _ p') l (last_result _ p') (questions _ p')) (put e o)).
Proof.
  intros [O L A V Mn]. unfold add_assumption. destruct o as [|top rest]; [congruence|].
  destruct (solver _ p) as [ls|a ls]; cbn in L; subst ls; cbn; eexists; (split; [reflexivity|]); repeat split; cbn; auto; try discriminate.
  now rewrite A.
Qed.
Lemma lowest_put_assumed f o : lowest (put (Assumed f) o) = lowest o.
Proof. destruct o; reflexivity. Qed.
Lemma lowest_put_prove f o : o <> [] -> lowest (put (ToProve f) o) = match lowest o with Some m => Some m | None => Some (pred (List.length o)) end.
Proof. destruct o as [|top rest]; [congruence|]. intros _. cbn. destruct (lowest rest); auto. destruct (to_prove top); auto. Qed.

Lemma mk_eta (p : prover F) : mkprover _ (solver _ p) (plevel _ p) (min_level _ p) (last_result _ p) (questions _ p) = p.
Proof. now destruct p. Qed.

Lemma ask_inv a p o : inv p o -> inv (snd (ask F answer a p)) o.
Proof. intros [O L A V Mn]. constructor; auto. Qed.
Lemma check_proof_inv a p o : inv p o -> inv (snd (check_proof_assuming F answer a p)) o.
Proof.
  intros H. unfold check_proof_assuming. destruct (has_provables F p); cbn [negb]; [|exact H].
  destruct (last_result F p) as [r|]; [destruct a as [|f a]|]; [exact H | exact (ask_inv (f :: a) p o H) | exact (ask_inv a p o H)].
Qed.
Lemma check_sat_inv p o : inv p o -> inv (snd (check_sat F answer p)) o.
Proof. intros H. unfold check_sat. destruct (last_result F p); auto. now apply ask_inv. Qed.

Lemma pop_inv p t1 t2 rest : inv p (t1 :: t2 :: rest) -> exists p', pop F p = Ok p' /\ inv p' (t2 :: rest) /\
  (last_result _ p' = None \/ (last_result _ p' = last_result _ p /\ get_assertions _ p' = get_assertions _ p)) /\ questions _ p' = questions _ p.
Proof.
  intros [O L A V Mn]. unfold pop. cbn [List.length] in V. destruct (plevel _ p) as [|l] eqn:El; [lia|].
  assert (ML : match min_level _ p with Some m => if Nat.ltb l m then None else Some m | None => None end = lowest (t2 :: rest)).
  { rewrite Mn. cbn [lowest]. set (X := match lowest rest with Some m => Some m | None => match to_prove t2 with [] => None | _ => Some (List.length rest) end end).
    assert (HX : forall m, X = Some m -> m < List.length (t2 :: rest)) by (intros m Hm; apply (lowest_bound (t2 :: rest)); exact Hm).
    destruct X as [m|].
    - specialize (HX m eq_refl). cbn [List.length] in HX. destruct (Nat.ltb_spec l m); [lia | reflexivity].
    - destruct (to_prove t1); auto. cbn [List.length]. destruct (Nat.ltb_spec l (S (List.length rest))); [reflexivity | lia]. }
  destruct (solver _ p) as [ls|a ls] eqn:Es; cbn in L; subst ls.
  - eexists. split; [reflexivity|]. split; [|split; auto]. constructor; cbn; auto; try discriminate; try lia.
  - cbn [map]. rewrite ML. cbn [List.length]. rewrite map_length. replace (Nat.eqb (S (List.length rest)) (S l)) with true by (symmetry; apply Nat.eqb_eq; lia). cbn [negb].
    destruct (map enc t1) as [|x l1] eqn:E1.
    + eexists. split; [reflexivity|]. split; [|split; auto].
      * constructor; cbn; auto; try discriminate; try lia.
      * right. split; auto. unfold get_assertions. now rewrite Es.
    + eexists. split; [reflexivity|]. split; [|split; auto]. constructor; cbn; auto; try discriminate; try lia.
Qed.

(** Every sequence of operations that closes only levels it opened runs without a panic, and keeps the invariant. *)
Lemma run_inv os : forall p o o', inv p o -> after os o = Some o' -> exists p', run F neg answer os p = Ok p' /\ inv p' o' /\
  (Forall plain os -> cached p -> cached p').
Proof.
  induction os as [|x os IH]; intros p o o' HI HA.
  - injection HA as <-. exists p. cbn. auto.
  - cbn [run]. destruct x as [| |f|f|a|]; cbn [step rbind]; cbn [after] in HA.
    + destruct (IH (push F p) ([] :: o) o') as (p' & R & I & C); auto.
      { destruct HI as [O L A V Mn]. constructor; cbn; try discriminate; auto.
        - destruct (solver _ p); cbn in *; now rewrite L.
        - destruct (solver _ p); cbn in *; auto.
        - rewrite Mn. now destruct (lowest o). }
      exists p'. split; [exact R|]. split; [exact I|]. intros FP CP. inversion FP; subst. apply C; auto.
      intros r Hr. cbn in Hr. destruct (CP r Hr) as [k ->]. exists k. unfold get_assertions. cbn. destruct (solver _ p); reflexivity.
    + destruct o as [|t1 [|t2 rest]]; try discriminate. destruct (pop_inv p t1 t2 rest HI) as (p1 & E & I1 & LR & _). rewrite E. cbn [rbind].
      destruct (IH p1 (t2 :: rest) o' I1 HA) as (p' & R & I & C). exists p'. split; [exact R|]. split; [exact I|]. intros FP CP. inversion FP; subst. apply C; auto.
      intros r Hr. destruct LR as [LR|[LR AE]]; [congruence|]. rewrite AE. apply CP. congruence.
    + destruct (inv_put p o (Assumed f) (min_level _ p) HI) as (p1 & E & L0 & Q & Lv & Mn & J). cbn [enc] in E. rewrite E. cbn [rbind].
      assert (I1 : inv p1 (put (Assumed f) o)). { rewrite <- (mk_eta p1), Mn. apply J. rewrite lowest_put_assumed. apply HI. }
      destruct (IH p1 _ o' I1 HA) as (p' & R & I & C). exists p'. split; [exact R|]. split; [exact I|]. intros FP CP. inversion FP; subst. apply C; auto.
      intros r Hr. congruence.
    + destruct (inv_put p o (ToProve f) (match min_level _ p with Some l => Some l | None => Some (plevel _ p) end) HI) as (p1 & E & L0 & Q & Lv & Mn & J).
      cbn [enc] in E. unfold add_provable. rewrite E. cbn [rbind]. rewrite Mn, Lv.
      specialize (J ltac:(rewrite lowest_put_prove by apply HI; destruct HI as [O L A V Mn']; rewrite Mn', <- V; reflexivity)). rewrite Lv in J.
      destruct (IH _ _ o' J HA) as (p' & R & I & C). exists p'. split; [exact R|]. split; [exact I|]. intros FP CP. inversion FP; subst. apply C; auto.
      intros r Hr. cbn in Hr. congruence.
    + destruct (IH _ _ o' (check_proof_inv a p o HI) HA) as (p' & R & I & C). exists p'. split; [exact R|]. split; [exact I|].
      intros FP CP. inversion FP; subst. apply C; auto. destruct a as [|f a]; [|contradiction].
      unfold check_proof_assuming. destruct (has_provables F p); cbn [negb]; [|exact CP]. destruct (last_result F p) as [r|] eqn:Er; [exact CP|].
      cbn. intros r Hr. injection Hr as <-. exists (questions _ p). reflexivity.
    + destruct (IH _ _ o' (check_sat_inv p o HI) HA) as (p' & R & I & C). exists p'. split; [exact R|]. split; [exact I|].
      intros FP CP. inversion FP; subst. apply C; auto.
      unfold check_sat. destruct (last_result F p) as [r|] eqn:Er; [exact CP|]. cbn. intros r Hr. injection Hr as <-. exists (questions _ p). reflexivity.
Qed.

Hypothesis neg_spec : forall m f, holds m (neg f) <-> ~ holds m f.
Hypothesis HS : sound_answer holds answer.

Lemma model_enc m l : model_of holds m (map enc l) <-> model_of holds m (assumed l) /\ forall f, In f (to_prove l) -> ~ holds m f.
Proof.
  unfold model_of. induction l as [|[f|f] l IH]; cbn.
  - split; [split; intros ? []| intros _ ? []].
  - split.
    + intros H. destruct (proj1 IH (fun g Hg => H g (or_intror Hg))) as [H1 H2]. split; auto. intros g [<-|Hg]; auto.
    + intros [H1 H2] g [<-|Hg]; auto. exact (proj2 IH (conj (fun g Hg => H1 g (or_intror Hg)) H2) g Hg).
  - split.
    + intros H. destruct (proj1 IH (fun g Hg => H g (or_intror Hg))) as [H1 H2]. split; auto. intros g [<-|Hg]; auto. apply neg_spec. auto.
    + intros [H1 H2] g [<-|Hg]; [apply neg_spec; auto|]. exact (proj2 IH (conj H1 (fun g Hg => H2 g (or_intror Hg))) g Hg).
Qed.
Lemma model_app m (a b : list F) : model_of holds m (a ++ b) <-> model_of holds m a /\ model_of holds m b.
Proof. unfold model_of. split; [intros H; split; intros; apply H, in_or_app; auto | intros [H1 H2] f Hf; apply in_app_or in Hf; destruct Hf; auto]. Qed.

Lemma answer_verdict p o k a : inv p o -> to_prove (all o) <> [] ->
  verdict holds (match answer k (get_assertions _ p) a with Unsat => Proof | Unknown => ProveUnknown | Sat => Counterexample end) (all o) a.
Proof.
  intros HI HN. pose proof (HS k (get_assertions _ p) a) as S. rewrite (asserted_eq p o HI) in *.
  destruct (answer k _ a); cbn; auto.
  - destruct S as [m Hm]. split; auto. exists m. apply model_app in Hm. destruct Hm as [H1 H2]. apply model_enc in H1. destruct H1 as [H1 H3].
    split; auto. apply model_app. auto.
  - right. intros m Hm. apply NNPP. intros H. apply (S m). apply model_app in Hm. destruct Hm as [H1 H2]. apply model_app. split; auto.
    apply model_enc. split; auto. intros f Hf Hh. apply H. eauto.
Qed.

(** A question under assumptions is answered for what is open now, whatever happened before. *)
Theorem assuming_verdict emulated os o f a : after os [[]] = Some o ->
  exists p, run F neg answer os (new_prover F emulated) = Ok p /\
    verdict holds (fst (check_proof_assuming F answer (f :: a) p)) (all o) (f :: a).
Proof.
  intros HA. destruct (run_inv os _ _ _ (inv_new emulated) HA) as (p & R & HI & _). exists p. split; [exact R|].
  unfold check_proof_assuming, has_provables. rewrite (i_min _ _ HI). destruct (lowest o) as [m|] eqn:E; cbn [negb].
  - assert (HN : to_prove (all o) <> []) by (intros C; apply lowest_none in C; congruence).
    replace (match last_result F p with Some _ | _ => ask F answer (f :: a) p end) with (ask F answer (f :: a) p) by now destruct (last_result F p).
    exact (answer_verdict p o (questions _ p) (f :: a) HI HN).
  - left. now apply lowest_none.
Qed.
(** So is a question without assumptions, if none was asked under assumptions before. *)
Theorem plain_verdict emulated os o : after os [[]] = Some o -> Forall plain os ->
  exists p, run F neg answer os (new_prover F emulated) = Ok p /\ verdict holds (fst (check_proof F answer p)) (all o) [].
Proof.
  intros HA HP. destruct (run_inv os _ _ _ (inv_new emulated) HA) as (p & R & HI & C). exists p. split; [exact R|].
  specialize (C HP ltac:(intros r; destruct emulated; discriminate)).
  unfold check_proof, check_proof_assuming, has_provables. rewrite (i_min _ _ HI). destruct (lowest o) as [m|] eqn:E; cbn [negb].
  - assert (HN : to_prove (all o) <> []) by (intros X; apply lowest_none in X; congruence).
    destruct (last_result F p) as [r|] eqn:Er.
    + destruct (C r Er) as [k ->]. exact (answer_verdict p o k [] HI HN).
    + exact (answer_verdict p o (questions _ p) [] HI HN).
  - left. now apply lowest_none.
Qed.
Theorem plain_sat emulated os o : after os [[]] = Some o -> Forall plain os ->
  exists p, run F neg answer os (new_prover F emulated) = Ok p /\
    match fst (check_sat F answer p) with
    | Sat => exists m, model_of holds m (assumed (all o)) /\ forall f, In f (to_prove (all o)) -> ~ holds m f
    | Unsat => forall m, model_of holds m (assumed (all o)) -> exists f, In f (to_prove (all o)) /\ holds m f
    | Unknown => True
    end.
Proof.
  intros HA HP. destruct (run_inv os _ _ _ (inv_new emulated) HA) as (p & R & HI & C). exists p. split; [exact R|].
  specialize (C HP ltac:(intros r; destruct emulated; discriminate)).
  assert (K : exists k, fst (check_sat F answer p) = answer k (get_assertions _ p) []).
  { unfold check_sat. destruct (last_result F p) as [r|] eqn:Er; [exact (C r Er)|]. now exists (questions _ p). }
  destruct K as [k ->]. pose proof (HS k (get_assertions _ p) []) as S. rewrite (asserted_eq p o HI), app_nil_r in S. rewrite (asserted_eq p o HI).
  destruct (answer k _ []); auto.
  - destruct S as [m Hm]. exists m. now apply model_enc.
  - intros m Hm. apply NNPP. intros H. apply (S m), model_enc. split; auto. intros f Hf Hh. apply H. eauto.
Qed.
End P.

(** ** Where it goes wrong *)
Definition Bneg (f : bool) := negb f.
Definition Bholds (m : unit) (f : bool) : Prop := f = true.
Definition Banswer (n : nat) (a b : list bool) : satres := if forallb (fun x => x) (a ++ b) then Sat else Unsat.
Lemma Bspec m f : Bholds m (Bneg f) <-> ~ Bholds m f.
Proof. unfold Bholds, Bneg. destruct f; cbn; intuition discriminate. Qed.
Lemma Bsound : sound_answer Bholds Banswer.
Proof.
  intros n a b. unfold Banswer. destruct (forallb _ (a ++ b)) eqn:E.
  - exists tt. intros f Hf. exact (proj1 (forallb_forall _ _) E f Hf).
  - intros m H. assert (forallb (fun x => x) (a ++ b) = true) by (apply forallb_forall; exact H). congruence.
Qed.
(** The answer under assumptions is kept and given again without them. *)
Lemma stale : exists p, run bool Bneg Banswer [OProvable false; OCheckProof [false]] (new_prover bool false) = Ok p /\ fst (check_proof bool Banswer p) = Proof /\ ~ verdict Bholds Proof [ToProve false] [].
Proof.
  eexists. split; [reflexivity|]. split; [reflexivity|]. cbn. intros [H|H]; [discriminate|].
  destruct (H tt ltac:(intros f [])) as (f & [<-|[]] & Hf). discriminate Hf.
Qed.
(** Of two obligations only one needs to hold. *)
Lemma two : exists p, run bool Bneg Banswer [OProvable true; OProvable false] (new_prover bool false) = Ok p /\ fst (check_proof bool Banswer p) = Proof /\ ~ Bholds tt false.
Proof. eexists. split; [reflexivity|]. split; [reflexivity|]. discriminate. Qed.
Lemma stale_refuted : exists (F M : Type) neg (holds : M -> F -> Prop) answer os o p,
  (forall m f, holds m (neg f) <-> ~ holds m f) /\ sound_answer holds answer /\ after os [[]] = Some o /\
  run F neg answer os (new_prover F false) = Ok p /\ ~ verdict holds (fst (check_proof F answer p)) (all o) [].
Proof.
  destruct stale as (p & R & E & V). exists bool, unit, Bneg, Bholds, Banswer, [OProvable false; OCheckProof [false]], [[ToProve false]], p.
  split; [exact Bspec|]. split; [exact Bsound|]. split; [reflexivity|]. split; [exact R|]. rewrite E. exact V.
Qed.
Lemma two_refuted : exists (F M : Type) neg (holds : M -> F -> Prop) answer f g p m,
  (forall m f, holds m (neg f) <-> ~ holds m f) /\ sound_answer holds answer /\
  run F neg answer [OProvable f; OProvable g] (new_prover F false) = Ok p /\ fst (check_proof F answer p) = Proof /\ ~ holds m g.
Proof.
  destruct two as (p & R & E & V). exists bool, unit, Bneg, Bholds, Banswer, true, false, p, tt.
  split; [exact Bspec|]. split; [exact Bsound|]. auto.
Qed.
