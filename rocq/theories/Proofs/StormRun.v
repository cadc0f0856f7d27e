(** Running Storm and the command for model checking. *)
From Coq Require Import Bool List String Arith ZArith Lia.
From Verif.Model Require Import Syntax Numerals Driver Storm.
From Verif.Spec Require Import Decimal StormSpec.
From Verif.Proofs Require Import NumeralProofs NumeralReading NumeralUnique StormProofs.
Import ListNotations.
Local Open Scope list_scope.
Local Open Scope nat_scope.

(** * The message of an early stop *)
Lemma take_digits_spec t : exists ds, fst (take_digits t) = map GD ds /\ t = map GD ds ++ snd (take_digits t).
Proof.
  induction t as [|g t (ds & E & F)]; [now exists []|]. destruct g; try (now exists []). cbn. destruct (take_digits t) as [a b]. cbn in *.
  exists (d :: ds). cbn. split; congruence.
Qed.
Lemma take_digits_app ds t : (forall d u, t <> GD d :: u) -> take_digits (map GD ds ++ t) = (map GD ds, t).
Proof.
  intros N. induction ds as [|d ds IH]; cbn; [|now rewrite IH]. destruct t as [|[] t]; try reflexivity. now destruct (N d t).
Qed.
Lemma number_then_spec p t a rest : number_then p t = Some (a, rest) -> exists ds, ds <> [] /\ a = map GD ds /\ t = a ++ p ++ rest.
Proof.
  unfold number_then. destruct (take_digits_spec t) as (ds & E & F). destruct (take_digits t) as [x y]. cbn in *. subst x.
  destruct ds as [|d ds]; [discriminate|]. cbn [map]. destruct (strip_prefix p y) as [z|] eqn:S; [|discriminate]. cbn [option_map]. intros [= <- <-].
  apply strip_prefix_iff in S. subst y. exists (d :: ds). repeat split; auto. discriminate.
Qed.
Lemma number_then_app p ds rest : ds <> [] -> (forall d u, p ++ rest <> GD d :: u) -> number_then p (map GD ds ++ p ++ rest) = Some (map GD ds, rest).
Proof.
  intros D N. unfold number_then. rewrite take_digits_app by exact N. destruct ds as [|d ds]; [now destruct D|]. cbn [map].
  now rewrite (proj2 (strip_prefix_iff p (p ++ rest) rest) eq_refl).
Qed.
Lemma aborted_spec t a b : aborted_here t = Some (a, b) -> exists ds es v, ds <> [] /\ es <> [] /\ a = map GD ds /\ b = map GD es /\ t = stopped ds es ++ v.
Proof.
  unfold aborted_here. destruct (strip_prefix (lit "Explored ") t) as [t1|] eqn:E1; [|discriminate]. apply strip_prefix_iff in E1.
  destruct (number_then (lit " states in ") t1) as [[s t2]|] eqn:E2; [|discriminate]. apply number_then_spec in E2 as (ds & D & -> & E2).
  destruct (number_then (lit " seconds before abort") t2) as [[s t3]|] eqn:E3; [|discriminate]. apply number_then_spec in E3 as (es & D' & -> & E3).
  cbn [option_map fst]. intros [= <- <-]. exists ds, es, t3. repeat split; auto. unfold stopped. subst. now rewrite <- !app_assoc.
Qed.
Lemma aborted_app ds es v : ds <> [] -> es <> [] -> aborted_here (stopped ds es ++ v) = Some (map GD ds, map GD es).
Proof.
  intros D D'. unfold aborted_here, stopped. rewrite <- !app_assoc. rewrite (proj2 (strip_prefix_iff (lit "Explored ") _ _) eq_refl).
  rewrite number_then_app by (exact D || discriminate). rewrite number_then_app by (exact D' || discriminate). reflexivity.
Qed.
Lemma captures_spec : forall t a b, captures t = Some (a, b) -> exists u ds es v, ds <> [] /\ es <> [] /\ a = map GD ds /\ b = map GD es /\ t = u ++ stopped ds es ++ v.
Proof.
  induction t as [|g t IH]; intros a b; cbn [captures]; destruct (aborted_here _) as [[x y]|] eqn:A.
  1, 3: intros [= <- <-]; apply aborted_spec in A as (ds & es & v & ? & ? & ? & ? & E); exists [], ds, es, v; repeat split; auto.
  - discriminate.
  - intros H. destruct (IH _ _ H) as (u & ds & es & v & ? & ? & ? & ? & ->). exists (g :: u), ds, es, v. repeat split; auto.
Qed.
Lemma captures_app ds es v : ds <> [] -> es <> [] -> forall u, captures (u ++ stopped ds es ++ v) <> None.
Proof.
  intros D D'. induction u as [|g u IH].
  - cbn [app]. destruct (stopped ds es ++ v) eqn:E; cbn [captures]; rewrite <- E, aborted_app by assumption; discriminate.
  - cbn [app captures]. destruct (aborted_here _); [discriminate|exact IH].
Qed.

(** * Runs *)
Lemma version_ok t v : version t = Ok v -> t <> []. Proof. now destruct t. Qed.
Lemma parse_u64_ok ds n : parse_u64 (map GD ds) = Ok n -> dval ds = n /\ (n < 2 ^ 64)%Z.
Proof.
  unfold parse_u64. destruct ds as [|d ds]; [discriminate|]. rewrite read_nat_ok by discriminate. destruct (Z.ltb_spec (dval (d :: ds)) (2 ^ 64)); [|discriminate].
  now intros [= <-].
Qed.

Theorem stopped_early o w properties x seconds states : run_storm o w properties x = Ok (inr (SAborted seconds states)) ->
  exists code u ds es v, x = Some (mkoutcome false code (Some (u ++ stopped ds es ++ v))) /\ dval ds = states /\ dval es = seconds.
Proof.
  destruct x as [[s c [out|]]|]; try discriminate. cbn [run_storm x_stdout x_success x_code]. destruct s; cbn [negb].
  - unfold rbind. destruct (version out); discriminate.
  - destruct (_ && _); [discriminate|]. destruct (contains _ out); [unfold rbind; destruct (version out); discriminate|].
    destruct (captures out) as [[a b]|] eqn:C; [|discriminate]. apply captures_spec in C as (u & ds & es & v & D & D' & -> & -> & ->).
    unfold rbind. destruct (parse_u64 (map GD ds)) as [n| |] eqn:P; try discriminate. destruct (parse_u64 (map GD es)) as [m| |] eqn:P'; try discriminate.
    intros [= <- <-]. exists c, u, ds, es, v. apply parse_u64_ok in P as [P _]. apply parse_u64_ok in P' as [P' _]. auto.
Qed.
(** ... and such a message is never taken for another failure. *)
Theorem stop_seen o w properties x out : run_storm o w properties x = Ok (inr (SFailed out)) ->
  x <> None /\ forall u ds es v, ds <> [] -> es <> [] -> out <> u ++ stopped ds es ++ v.
Proof.
  destruct x as [[s c [o'|]]|]; try discriminate. cbn [run_storm x_stdout x_success x_code]. destruct s; cbn [negb].
  - unfold rbind. destruct (version o'); discriminate.
  - destruct (_ && _); [discriminate|]. destruct (contains _ o'); [unfold rbind; destruct (version o'); discriminate|].
    destruct (captures o') as [[a b]|] eqn:C.
    + unfold rbind. destruct (parse_u64 a); try discriminate. destruct (parse_u64 b); discriminate.
    + intros [= ->]. split; [discriminate|]. intros u ds es v D D' ->. now apply (captures_app ds es v D D' u).
Qed.
(** Which failures are told apart. *)
Theorem failed o w properties code out r : run_storm o w properties (Some (mkoutcome false code (Some out))) = Ok r ->
  (r = inr SDocker <-> code = Some 125%Z /\ w <> WPath) /\
  (forall l, r = inl l <-> ~ (code = Some 125%Z /\ w <> WPath) /\ occurs (lit "The model does not have a single initial state") out /\ l = map (fun p => (p, NoInitialState)) properties).
Proof.
  cbn [run_storm x_stdout x_success x_code negb]. intros H.
  assert (B : match code with Some c => (c =? 125)%Z | None => false end && match w with WPath => false | _ => true end = true <-> code = Some 125%Z /\ w <> WPath).
  { rewrite andb_true_iff. destruct code as [c|]; [rewrite Z.eqb_eq|]; destruct w; split; intros [? ?]; try discriminate; try (split; congruence). }
  destruct (_ && _).
  - injection H as <-. destruct (proj1 B eq_refl) as [Hc Hw]. split; [tauto|]. intros l. split; [discriminate|]. tauto.
  - assert (N : ~ (code = Some 125%Z /\ w <> WPath)) by (intros X; apply B in X; discriminate).
    unfold contains in H. destruct (find _ out) as [u|] eqn:F.
    + assert (Oc : occurs (lit "The model does not have a single initial state") out) by (apply find_iff in F as (a & b & [F _] & _); now exists a, b).
      unfold rbind in H. destruct (version out); try discriminate. injection H as <-. split; [split; [discriminate|tauto]|].
      intros l. split; [intros [= <-]; auto|]. now intros (_ & _ & ->).
    + apply find_none in F. assert (R : r <> inr SDocker /\ forall l, r <> inl l).
      { destruct (captures out) as [[a b]|]; [|injection H as <-; split; discriminate]. unfold rbind in H. destruct (parse_u64 a); try discriminate. destruct (parse_u64 b); try discriminate.
        injection H as <-. split; discriminate. }
      destruct R as [R1 R2]. split; [tauto|]. intros l. split; [intros E; now apply R2 in E|tauto].
Qed.
Lemma lookup_reward (v : value) : lookup reward [(reward, v)] = Some v.
Proof. reflexivity. Qed.
Theorem reward_shown o w x r k t : run_storm o w [reward] x = Ok r -> to_diagnostic r = Ok (k, MReward t) ->
  k = KAdvice /\ exists code out, x = Some (mkoutcome true code (Some out)) /\ find_property_result o out reward = Value t.
Proof.
  destruct x as [[s c [out|]]|]; try discriminate; cbn [run_storm x_stdout x_success x_code]; [|intros [= <-]; discriminate].
  destruct s; cbn [negb].
  - unfold rbind. destruct (version out); try discriminate. intros [= <-]. cbn [parse_property_results map to_diagnostic]. rewrite lookup_reward.
    destruct (find_property_result o out reward) eqn:F; try discriminate. intros [= <- <-]. split; [reflexivity|]. exists c, out. auto.
  - destruct (_ && _); [intros [= <-]; discriminate|]. destruct (contains _ out).
    + unfold rbind. destruct (version out); try discriminate. intros [= <-]. discriminate.
    + destruct (captures out) as [[a b]|]; [|intros [= <-]; discriminate]. unfold rbind. destruct (parse_u64 a); try discriminate. destruct (parse_u64 b); try discriminate.
      intros [= <-]. discriminate.
Qed.
(** Every other message is an error, except that there is no initial state. *)
Theorem kinds r k m : to_diagnostic r = Ok (k, m) -> k = (match m with MReward _ | MNoInitialState => KAdvice | _ => KError end).
Proof. destruct r as [l|e]; cbn [to_diagnostic]; [destruct (lookup reward l) as [[| |]|]; try discriminate|]; now intros [= <- <-]. Qed.

(** * Panics *)
Theorem panics o w x : (exists m, run_storm o w [reward] x = Panic m) -> exists y, x = Some y /\
  match x_stdout y with
  | None => True
  | Some out => x_success y = true /\ out = [] \/ x_success y = false /\ exists u ds es v, out = u ++ stopped ds es ++ v /\ (too_many ds \/ too_many es)
  end.
Proof.
  intros (m & H). destruct x as [[s c [out|]]|]; try discriminate; cbn [run_storm x_stdout x_success x_code] in H; [|eexists; split; [reflexivity|exact I]].
  eexists. split; [reflexivity|]. cbn [x_stdout x_success]. destruct s; cbn [negb] in H.
  - left. split; [reflexivity|]. destruct out; [reflexivity|discriminate].
  - right. split; [reflexivity|]. destruct (_ && _); [discriminate|].
    destruct (contains _ out) eqn:Cn; [destruct out; [|discriminate]; vm_compute in Cn; discriminate|].
    destruct (captures out) as [[a b]|] eqn:C; [|discriminate]. apply captures_spec in C as (u & ds & es & v & D & D' & -> & -> & ->).
    exists u, ds, es, v. split; [reflexivity|]. unfold too_many. unfold rbind, parse_u64 in H. rewrite !read_nat_ok in H by assumption.
    destruct (Z.ltb_spec (dval ds) (2 ^ 64)); [|auto]. destruct (Z.ltb_spec (dval es) (2 ^ 64)); [discriminate|auto].
Qed.
Theorem diagnostic_ok o w x r : run_storm o w [reward] x = Ok r -> exists d, to_diagnostic r = Ok d.
Proof.
  destruct x as [[s c [out|]]|]; try discriminate; cbn [run_storm x_stdout x_success x_code]; [|intros [= <-]; eexists; reflexivity].
  destruct s; cbn [negb].
  - unfold rbind. destruct (version out); try discriminate. intros [= <-]. cbn [parse_property_results map to_diagnostic]. rewrite lookup_reward.
    destruct (find_property_result o out reward); eauto.
  - destruct (_ && _); [intros [= <-]; eexists; reflexivity|]. destruct (contains _ out).
    + unfold rbind. destruct (version out); try discriminate. intros [= <-]. eexists. reflexivity.
    + destruct (captures out) as [[a b]|]; [|intros [= <-]; eexists; reflexivity]. unfold rbind. destruct (parse_u64 a); try discriminate. destruct (parse_u64 b); try discriminate.
      intros [= <-]. eexists. reflexivity.
Qed.
Theorem empty_refuted : exists x, x_success x = true /\ x_stdout x <> None /\ forall o w, exists m, run_storm o w [reward] (Some x) = Panic m.
Proof. exists (mkoutcome true (Some 0%Z) (Some [])). split; [reflexivity|]. split; [discriminate|]. intros o w. eexists. reflexivity. Qed.

(** * The command *)
Lemma check_units_spec o : forall l sv acc r sh, check_units o true l sv acc = Ok (inl r, sh) ->
  exists ls, Forall2 (reports o) l ls /\ sh = acc ++ List.concat ls /\ werr r = werr sv /\
    emitted r = emitted sv || existsb (fun p => werr sv || is_error (fst p)) (List.concat ls).
Proof.
  induction l as [|u l IH]; intros sv acc r sh; cbn [check_units].
  - intros [= <- <-]. exists []. cbn. rewrite app_nil_r, orb_false_r. auto.
  - assert (Hr : forall x, reports o u x -> forall sv' acc', check_units o true l sv' acc' = Ok (inl r, sh) -> acc' = acc ++ x -> werr sv' = werr sv ->
      emitted sv' = emitted sv || existsb (fun p => werr sv || is_error (fst p)) x ->
      exists ls, Forall2 (reports o) (u :: l) ls /\ sh = acc ++ List.concat ls /\ werr r = werr sv /\ emitted r = emitted sv || existsb (fun p => werr sv || is_error (fst p)) (List.concat ls)).
    { intros x Hx sv' acc' H -> W E. destruct (IH _ _ _ _ H) as (ls & F & -> & W' & E'). exists (x :: ls). split; [now constructor|].
      cbn [List.concat]. rewrite existsb_app, <- app_assoc. split; [reflexivity|]. split; [congruence|]. rewrite E', E, W. now rewrite orb_assoc. }
    destruct (u_jani u) as [[]|e] eqn:J.
    + destruct (o_run o) as [w|] eqn:O.
      * unfold rbind. destruct (run_storm o w [reward] (u_storm u)) as [x| |] eqn:R; try discriminate. destruct (to_diagnostic x) as [[k m]| |] eqn:D; try discriminate.
        intros H. apply (Hr [(k, Some m)]) with (2 := H); cbn; auto; [|now rewrite orb_false_r, orb_assoc]. unfold reports. rewrite J, O. eauto 8.
      * intros H. apply (Hr []) with (2 := H); cbn; rewrite ?app_nil_r, ?orb_false_r; auto. unfold reports. now rewrite J, O.
    + intros H. apply (Hr []) with (2 := H); cbn; rewrite ?app_nil_r, ?orb_false_r; auto. unfold reports. now rewrite J.
    + destruct e as [k| | | | |]; try discriminate. intros H. apply (Hr [(k, None)]) with (2 := H); cbn; auto; [|now rewrite orb_false_r, orb_assoc]. unfold reports. now rewrite J.
Qed.
Lemma check_units_off o : forall l sv acc, check_units o false l sv acc = Ok (inl sv, acc).
Proof. induction l; intros sv acc; cbn; auto. Qed.
Lemma check_units_failure o : forall l sv acc e sh, check_units o true l sv acc = Ok (inr e, sh) -> failure e <> 0.
Proof.
  induction l as [|u l IH]; intros sv acc e sh; cbn [check_units]; [discriminate|].
  destruct (u_jani u) as [[]|e'].
  - destruct (o_run o); [|apply IH]. unfold rbind. destruct (run_storm _ _ _ _); try discriminate. destruct (to_diagnostic _); try discriminate. apply IH.
  - apply IH.
  - destruct e'; try apply IH; try discriminate; intros [= <- _]; try discriminate. destruct l0; discriminate.
Qed.
Theorem command_shows o we l n sh : model_check_command o we l = Ok (n, sh) -> n = 0 ->
  exists ls, Forall2 (reports o) l ls /\ sh = List.concat ls.
Proof.
  unfold model_check_command, run_model_checking. unfold rbind. intros H Hn. subst n.
  destruct (o_jani_dir o) eqn:J, (o_run o) as [w|] eqn:O; cbn [negb andb orb] in H; try discriminate.
  all: destruct (check_units _ _ _ _ _) as [[[sv|e] sh']| |] eqn:C; try discriminate; cbn [fst snd finalize] in H; injection H as H <-.
  1, 3, 5: apply check_units_spec in C as (ls & F & -> & _); now exists ls.
  all: apply check_units_failure in C; cbn in H; congruence.
Qed.
Theorem command_exit o we l n sh : model_check_command o we l = Ok (n, sh) ->
  (n = 0 <-> (o_jani_dir o = true \/ o_run o <> None) /\ (exists ls, Forall2 (reports o) l ls /\ sh = List.concat ls) /\
    (forall k m, In (k, m) sh -> k <> KError) /\ (we = true -> sh = [])).
Proof.
  intros H. split.
  - intros Hn. pose proof (command_shows _ _ _ _ _ H Hn) as Hs. unfold model_check_command, run_model_checking in H. unfold rbind in H. subst n.
    split. { destruct (o_jani_dir o), (o_run o); auto; try (right; discriminate). }
    split; [exact Hs|]. destruct (negb (o_jani_dir o) && _ && _); [discriminate|].
    destruct (o_jani_dir o || _) eqn:D.
    2:{ rewrite check_units_off in H. cbn in H. injection H as <-. split; [intros k m []|auto]. }
    destruct (check_units _ _ _ _ _) as [[[sv|e] sh']| |] eqn:C; try discriminate; cbn [fst snd finalize] in H; injection H as H <-.
    2:{ apply check_units_failure in C. congruence. }
    apply check_units_spec in C as (ls & F & -> & W & E). cbn [app] in *. destruct (emitted sv) eqn:Em; [discriminate|]. cbn [emitted werr] in E. symmetry in E.
    change (false || existsb (fun p => we || is_error (fst p)) (List.concat ls) = false) in E. cbn [orb] in E. split.
    + intros k m I ->. assert (X : existsb (fun p => we || is_error (fst p)) (List.concat ls) = true); [|congruence].
      apply existsb_exists. exists (KError, m). split; [exact I|]. cbn. apply orb_true_r.
    + intros ->. destruct (List.concat ls); [reflexivity|discriminate].
  - intros (D & (ls & F & ->) & N & W). unfold model_check_command, run_model_checking in H. unfold rbind in H.
    replace (negb (o_jani_dir o) && true && _) with false in H by (destruct D as [->|D]; [reflexivity|]; destruct (o_run o); [now rewrite andb_false_r|now destruct D]).
    replace (o_jani_dir o || _) with true in H by (destruct D as [->|D]; [reflexivity|]; destruct (o_run o); [now rewrite orb_true_r|now destruct D]).
    destruct (check_units _ _ _ _ _) as [[[sv|e] sh']| |] eqn:C; try discriminate; cbn [fst snd finalize] in H; injection H as <- H.
    + apply check_units_spec in C as (ls' & _ & E & _ & Em). cbn [app] in E. subst sh'. rewrite H in Em. rewrite Em. cbn [emitted werr orb].
      replace (existsb _ _) with false; [reflexivity|]. symmetry. apply not_true_is_false. intros X. apply existsb_exists in X as ((k & m) & I & X). cbn in X.
      destruct we; [rewrite W in I by reflexivity; destruct I|]. destruct k; try discriminate. now apply (N _ _ I).
    + exfalso. clear -C F. revert C. generalize (mkserver we false) (@nil (kind * option message)). induction F as [|u l x ls Hu F IH]; intros sv acc; cbn [check_units]; [discriminate|].
      unfold reports in Hu. destruct (u_jani u) as [[]|[]]; try contradiction; try apply IH.
      destruct (o_run o) as [w|]; [|apply IH]. destruct Hu as (r & k & m & R & D & _). unfold rbind. rewrite R, D. apply IH.
Qed.

(** * The arguments *)
Local Open Scope Z_scope.
Theorem timeout_right left storm s : timeout_arg left storm = Some s ->
  (forall x, left = Some x -> s * second <= x) /\ (forall y, storm = Some y -> s <= y) /\
  ((exists x, left = Some x /\ x < (s + 1) * second) \/ storm = Some s).
Proof.
  assert (P : 0 < second) by reflexivity. assert (Dm : forall x, x / second * second <= x < (x / second + 1) * second).
  { intros x. pose proof (Z.div_mod x second). pose proof (Z.mod_pos_bound x second P). lia. }
  unfold timeout_arg. destruct left as [x|], storm as [y|]; cbn [option_map]; intros [= <-].
  - destruct (Z.min_spec x (y * second)) as [[H ->]|[H ->]].
    + pose proof (Dm x). split; [intros ? [= <-]; lia|]. split; [intros ? [= <-]; nia|]. left. exists x. split; [reflexivity|lia].
    + rewrite Z.div_mul by lia. split; [now intros ? [= <-]|]. split; [intros ? [= <-]; lia|]. now right.
  - pose proof (Dm x). split; [intros ? [= <-]; lia|]. split; [discriminate|]. left. exists x. split; [reflexivity|lia].
  - rewrite Z.div_mul by lia. split; [discriminate|]. split; [intros ? [= <-]; lia|]. now right.
Qed.
Theorem timeout_some left storm : timeout_arg left storm = None <-> left = None /\ storm = None.
Proof. unfold timeout_arg. destruct left, storm; cbn; split; try discriminate; try tauto; intros [? ?]; discriminate. Qed.
Theorem timeout_zero_refuted : exists left, 0 < left /\ forall storm, (forall s, storm = Some s -> 0 < s) -> timeout_arg (Some left) storm = Some 0.
Proof.
  exists (second - 1). split; [reflexivity|]. intros [s|] H; [|reflexivity]. specialize (H s eq_refl). unfold timeout_arg. cbn [option_map].
  rewrite Z.min_l by (unfold second in *; lia). reflexivity.
Qed.
Definition segment (x l : list text) : Prop := exists a b, l = a ++ x ++ b.
Lemma seg_self x : segment x x. Proof. exists [], []. now rewrite app_nil_r. Qed.
Lemma seg_l x l m : segment x l -> segment x (l ++ m).
Proof. intros (a & b & ->). exists a, (b ++ m). now rewrite <- !app_assoc. Qed.
Lemma seg_r x l m : segment x l -> segment x (m ++ l).
Proof. intros (a & b & ->). exists (m ++ a), b. now rewrite <- !app_assoc. Qed.
Theorem arguments o w left memory dir file property : exists pre,
  command o w left memory dir file [property] = pre ++ [lit "--sound"; lit "--jani"; file; lit "-jprop"; property] /\
  (forall s, timeout_arg left (o_timeout o) = Some s -> exists a b, pre = a ++ [lit "--timeout"; num s] ++ b) /\
  (forall n, o_limit o = Some n -> exists a b, pre = a ++ [lit "--state-limit"; num n] ++ b) /\
  (forall c, o_constants o = Some c -> exists a b, pre = a ++ [lit "--constants"; c] ++ b) /\
  (forall m, memory = Some m -> w <> WPath -> exists a b, pre = a ++ [lit "--memory"; num m ++ lit "m"] ++ b).
Proof.
  unfold command. match goal with |- context [?a ++ opt (timeout_arg left (o_timeout o)) ?t ++ ?x ++ ?y ++ ?z ++ ?l] => exists (a ++ opt (timeout_arg left (o_timeout o)) t ++ x ++ y ++ z) end.
  split; [now rewrite <- !app_assoc|]. split; [|split; [|split]].
  - intros s ->. apply seg_r, seg_l, seg_self.
  - intros n ->. apply seg_r, seg_r, seg_r, seg_l, seg_self.
  - intros c ->. apply seg_r, seg_r, seg_r, seg_r, seg_self.
  - intros m -> Hw. apply seg_l. destruct w; [now destruct Hw| |]; apply seg_r, seg_l, seg_self.
Qed.
Lemma num_not z u : num z <> GMinus :: u.
Proof. unfold num. destruct (digits z); discriminate. Qed.
Theorem exact_passed o w left memory dir file property : o_constants o <> Some (lit "--exact") -> dir ++ lit ":/mnt" <> lit "--exact" -> file <> lit "--exact" -> property <> lit "--exact" ->
  (In (lit "--exact") (command o w left memory dir file [property]) <-> o_exact o = true).
Proof.
  intros Hc Hd Hf Hp. split.
  - unfold command. rewrite !in_app_iff. intros [H|[H|[H|[H|[H|H]]]]].
    + exfalso. destruct w; cbn [In] in H; [destruct H as [H|[]]; discriminate| |].
      all: rewrite !in_app_iff in H; destruct H as [H|[H|H]];
        [cbn [In] in H; repeat (destruct H as [H|H]; [try discriminate; now apply Hd in H|]); destruct H
        |destruct memory as [m|]; [|destruct H]; destruct H as [H|[H|[]]]; [discriminate|]; unfold num in H; destruct (digits m); discriminate
        |destruct H as [H|[H|[]]]; discriminate].
    + exfalso. destruct (timeout_arg _ _); [|destruct H]. destruct H as [H|[H|[]]]; [discriminate|]. now apply num_not in H.
    + destruct (o_exact o); [reflexivity|destruct H].
    + exfalso. destruct (o_limit o); [|destruct H]. destruct H as [H|[H|[]]]; [discriminate|]. now apply num_not in H.
    + exfalso. destruct (o_constants o); [|destruct H]. destruct H as [H|[H|[]]]; [discriminate|]. subst. now destruct Hc.
    + exfalso. destruct H as [H|[H|[H|[H|[H|[]]]]]]; [discriminate|discriminate|now apply Hf|discriminate|now apply Hp].
  - intros E. unfold command. rewrite E, !in_app_iff. right. right. left. now left.
Qed.

(** * Where another result is taken, or none *)
Definition opts (exact : bool) : soptions := mksopt false (Some WPath) exact None None None.
Definition said (property : string) : text := header (lit property) ++ lit ": R[exp] ..." ++ [newline].
Definition sample : text := lit "Storm 1.9" ++ [newline] ++ said "reward" ++ result_text ++ lit " 7/12 (approx. 0.5833333333)" ++ [newline].
Theorem sample_shown : find_property_result (opts true) sample reward = Value [GD 0; GDot; GD 5; GD 8; GO 3; GSpace; GOpen; GD 7; GSlash; GD 1; GD 2; GClose] /\
  find_property_result (opts false) sample reward = Value (GOther (Z.to_nat 8776) :: GSpace :: lit "7/12").
Proof. split; vm_compute; reflexivity. Qed.
Theorem sample_command : forall we, model_check_command (opts true) we [mkunit (inl true) (Some (mkoutcome true (Some 0) (Some sample)))] =
  Ok (if we then 1%nat else 0%nat, [(KAdvice, Some (MReward [GD 0; GDot; GD 5; GD 8; GO 3; GSpace; GOpen; GD 7; GSlash; GD 1; GD 2; GClose]))]).
Proof. intros []; vm_compute; reflexivity. Qed.
(** Storm was asked about [a] and [b] and has a result for [b] only. *)
Definition two : text := said "a" ++ lit "WARN: not supported" ++ [newline] ++ said "b" ++ result_text ++ lit " 3" ++ [newline].
Theorem other_refuted : exists a b out r, a <> b /\
  (exists u v w, out = u ++ header a ++ v ++ header b ++ w /\ ~ occurs result_text (u ++ header a ++ v)) /\
  parse_property_results (opts true) [a; b] out = [(a, Value r); (b, Value r)].
Proof.
  exists (lit "a"), (lit "b"), two, (lit "3"). split; [discriminate|]. split; [|vm_compute; reflexivity].
  exists [], (lit ": R[exp] ..." ++ newline :: lit "WARN: not supported" ++ [newline]), (lit ": R[exp] ..." ++ newline :: result_text ++ lit " 3" ++ [newline]).
  split; [vm_compute; reflexivity|]. apply find_none. vm_compute. reflexivity.
Qed.
(** A last line without a newline. *)
Theorem last_line_refuted : exists out r, out = said "reward" ++ result_text ++ r /\ r <> [] /\ find_property_result (opts true) out reward = NotFound.
Proof. exists (said "reward" ++ result_text ++ lit " 3"), (lit " 3"). split; [reflexivity|]. split; [discriminate|]. vm_compute. reflexivity. Qed.
(** Advice counts as a failure. *)
Theorem werr_refuted : exists o l sh, (forall k m, In (k, m) sh -> k = KAdvice) /\ model_check_command o true l = Ok (1%nat, sh) /\ model_check_command o false l = Ok (0%nat, sh).
Proof.
  exists (opts true), [mkunit (inl true) (Some (mkoutcome true (Some 0) (Some sample)))], [(KAdvice, Some (MReward [GD 0; GDot; GD 5; GD 8; GO 3; GSpace; GOpen; GD 7; GSlash; GD 1; GD 2; GClose]))].
  split; [intros k m [[= <- _]|[]]; reflexivity|]. split; apply sample_command.
Qed.
