(** C54: what is reported of a run of Storm. *)
From Coq Require Import Bool List String Arith ZArith.
From Verif.Model Require Import Syntax Numerals Driver Storm.
From Verif.Spec Require Import Decimal StormSpec.
From Verif.Proofs Require Import StormProofs StormRun.
Import ListNotations.
Local Open Scope list_scope.
Local Open Scope nat_scope.

(** The result shown for a property is on the line behind the first result text after its announcement, without the approximation that
    Storm adds, and marked as approximate or as a lower bound.  With --exact it is shown as the same number, in lowest terms. *)
Theorem C54_found : forall o out property t, find_property_result o out property = Value t ->
  exists line r t', announced property out line /\ result_in line r /\ t = mark (o_exact o) (o_limit o) ++ t' /\
    (o_exact o = false -> t' = r) /\ ((forall d, ~ In (GD d) r) -> t' = r) /\
    (o_exact o = true -> forall n d, shows_fraction r n d -> exists n' d', (n * Zpos d' = n' * Zpos d)%Z /\ Z.gcd n' (Zpos d') = 1%Z /\ denotes t' n' d').
Proof. exact found. Qed.
Print Assumptions C54_found.
(** None is shown exactly if there is no such line; there is at most one. *)
Theorem C54_not_found : forall o out property, find_property_result o out property = NotFound <-> ~ exists line, announced property out line.
Proof. exact not_found. Qed.
Print Assumptions C54_not_found.
Theorem C54_one_line : forall property out l l', announced property out l -> announced property out l' -> l = l'.
Proof. exact announced_unique. Qed.
Print Assumptions C54_one_line.
(** "7/12 (approx. 0.5833333333)" is shown as 0.58 with 3 repeating. *)
Example C54_found_example : find_property_result (opts true) sample reward = Value [GD 0; GDot; GD 5; GD 8; GO 3; GSpace; GOpen; GD 7; GSlash; GD 1; GD 2; GClose] /\
  find_property_result (opts false) sample reward = Value (GOther (Z.to_nat 8776) :: GSpace :: lit "7/12").
Proof. exact sample_shown. Qed.
Example C54_announced_example : exists line, announced reward sample line.
Proof. destruct (proj1 (found_iff (opts true) sample reward _) (proj1 sample_shown)) as (line & A & _). now exists line. Qed.

(** A reward is reported only if Storm ended well, and is the result for it in the output. *)
Theorem C54_reward : forall o w x r k t, run_storm o w [reward] x = Ok r -> to_diagnostic r = Ok (k, MReward t) ->
  k = KAdvice /\ exists code out, x = Some (mkoutcome true code (Some out)) /\ find_property_result o out reward = Value t.
Proof. exact reward_shown. Qed.
Print Assumptions C54_reward.
(** All else is an error, except that the model has no initial state. *)
Theorem C54_kinds : forall r k m, to_diagnostic r = Ok (k, m) -> k = (match m with MReward _ | MNoInitialState => KAdvice | _ => KError end).
Proof. exact kinds. Qed.
Print Assumptions C54_kinds.
(** The numbers reported for an early stop are those of Storm, and an early stop is not reported as another failure. *)
Theorem C54_stopped : forall o w properties x seconds states, run_storm o w properties x = Ok (inr (SAborted seconds states)) ->
  exists code u ds es v, x = Some (mkoutcome false code (Some (u ++ stopped ds es ++ v))) /\ dval ds = states /\ dval es = seconds.
Proof. exact stopped_early. Qed.
Print Assumptions C54_stopped.
Theorem C54_stop_seen : forall o w properties x out, run_storm o w properties x = Ok (inr (SFailed out)) ->
  x <> None /\ forall u ds es v, ds <> [] -> es <> [] -> out <> u ++ stopped ds es ++ v.
Proof. exact stop_seen. Qed.
Print Assumptions C54_stop_seen.
Theorem C54_failed : forall o w properties code out r, run_storm o w properties (Some (mkoutcome false code (Some out))) = Ok r ->
  (r = inr SDocker <-> code = Some 125%Z /\ w <> WPath) /\
  (forall l, r = inl l <-> ~ (code = Some 125%Z /\ w <> WPath) /\ occurs (lit "The model does not have a single initial state") out /\ l = map (fun p => (p, NoInitialState)) properties).
Proof. exact failed. Qed.
Print Assumptions C54_failed.
Example C54_stopped_example : run_storm (opts true) WPath [reward] (Some (mkoutcome false (Some 1%Z) (Some (lit "Explored 12 states in 3 seconds before abort")))) = Ok (inr (SAborted 3 12)).
Proof. vm_compute. reflexivity. Qed.

(** A panic needs output that is not UTF-8, no output at all, or numbers that do not fit. *)
Theorem C54_panics : forall o w x, (exists m, run_storm o w [reward] x = Panic m) -> exists y, x = Some y /\
  match x_stdout y with
  | None => True
  | Some out => x_success y = true /\ out = [] \/ x_success y = false /\ exists u ds es v, out = u ++ stopped ds es ++ v /\ (too_many ds \/ too_many es)
  end.
Proof. exact panics. Qed.
Print Assumptions C54_panics.
Theorem C54_diagnostic : forall o w x r, run_storm o w [reward] x = Ok r -> exists d, to_diagnostic r = Ok d.
Proof. exact diagnostic_ok. Qed.
Print Assumptions C54_diagnostic.
Theorem C54_empty_refuted : exists x, x_success x = true /\ x_stdout x <> None /\ forall o w, exists m, run_storm o w [reward] (Some x) = Panic m.
Proof. exact empty_refuted. Qed.
Print Assumptions C54_empty_refuted.

(** The exit code of the command is 0 exactly if there is something to do, every unit was handled, each with its own report and in order,
    no report is an error, and none at all was made if warnings are errors. *)
Theorem C54_exit : forall o we l n sh, model_check_command o we l = Ok (n, sh) ->
  (n = 0 <-> (o_jani_dir o = true \/ o_run o <> None) /\ (exists ls, Forall2 (reports o) l ls /\ sh = List.concat ls) /\
    (forall k m, In (k, m) sh -> k <> KError) /\ (we = true -> sh = [])).
Proof. exact command_exit. Qed.
Print Assumptions C54_exit.
Example C54_exit_example : forall we, model_check_command (opts true) we [mkunit (inl true) (Some (mkoutcome true (Some 0%Z) (Some sample)))] =
  Ok (if we then 1 else 0, [(KAdvice, Some (MReward [GD 0; GDot; GD 5; GD 8; GO 3; GSpace; GOpen; GD 7; GSlash; GD 1; GD 2; GClose]))]).
Proof. exact sample_command. Qed.
(** So with --werr the command fails although there are no warnings: the result itself counts. *)
Theorem C54_werr_refuted : exists o l sh, (forall k m, In (k, m) sh -> k = KAdvice) /\ model_check_command o true l = Ok (1, sh) /\ model_check_command o false l = Ok (0, sh).
Proof. exact werr_refuted. Qed.
Print Assumptions C54_werr_refuted.

(** The time limit is the smaller of the two that are given, in full seconds ... *)
Theorem C54_timeout : forall left storm s, timeout_arg left storm = Some s ->
  (forall x, left = Some x -> (s * second <= x)%Z) /\ (forall y, storm = Some y -> (s <= y)%Z) /\
  ((exists x, left = Some x /\ (x < (s + 1) * second)%Z) \/ storm = Some s).
Proof. exact timeout_right. Qed.
Print Assumptions C54_timeout.
Theorem C54_timeout_given : forall left storm, timeout_arg left storm = None <-> left = None /\ storm = None.
Proof. exact timeout_some. Qed.
Print Assumptions C54_timeout_given.
Example C54_timeout_example : timeout_arg (Some (90 * second + 1)%Z) (Some 120%Z) = Some 90%Z /\ timeout_arg (Some (300 * second)%Z) (Some 120%Z) = Some 120%Z.
Proof. split; reflexivity. Qed.
(** ... and so 0 in the last second. *)
Theorem C54_timeout_refuted : exists left, (0 < left)%Z /\ forall storm, (forall s, storm = Some s -> (0 < s)%Z) -> timeout_arg (Some left) storm = Some 0%Z.
Proof. exact timeout_zero_refuted. Qed.
Print Assumptions C54_timeout_refuted.
(** Storm is asked about the property in the file, with the limits that are given, and exactly iff the result is shown without a sign of approximation. *)
Theorem C54_arguments : forall o w left memory dir file property, exists pre,
  command o w left memory dir file [property] = pre ++ [lit "--sound"; lit "--jani"; file; lit "-jprop"; property] /\
  (forall s, timeout_arg left (o_timeout o) = Some s -> exists a b, pre = a ++ [lit "--timeout"; num s] ++ b) /\
  (forall n, o_limit o = Some n -> exists a b, pre = a ++ [lit "--state-limit"; num n] ++ b) /\
  (forall c, o_constants o = Some c -> exists a b, pre = a ++ [lit "--constants"; c] ++ b) /\
  (forall m, memory = Some m -> w <> WPath -> exists a b, pre = a ++ [lit "--memory"; num m ++ lit "m"] ++ b).
Proof. exact arguments. Qed.
Print Assumptions C54_arguments.
Theorem C54_exact : forall o w left memory dir file property, o_constants o <> Some (lit "--exact") -> dir ++ lit ":/mnt" <> lit "--exact" -> file <> lit "--exact" ->
  property <> lit "--exact" -> (In (lit "--exact") (command o w left memory dir file [property]) <-> o_exact o = true).
Proof. exact exact_passed. Qed.
Print Assumptions C54_exact.

(** With several properties, one without a result gets that of the next. *)
Theorem C54_other_refuted : exists a b out r, a <> b /\
  (exists u v w, out = u ++ header a ++ v ++ header b ++ w /\ ~ occurs result_text (u ++ header a ++ v)) /\
  parse_property_results (opts true) [a; b] out = [(a, Value r); (b, Value r)].
Proof. exact other_refuted. Qed.
Print Assumptions C54_other_refuted.
(** A result on a last line without newline is not found. *)
Theorem C54_last_line_refuted : exists out r, out = said "reward" ++ result_text ++ r /\ r <> [] /\ find_property_result (opts true) out reward = NotFound.
Proof. exact last_line_refuted. Qed.
Print Assumptions C54_last_line_refuted.
