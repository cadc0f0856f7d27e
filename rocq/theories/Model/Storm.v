(** Running Storm on generated JANI files: the command line, reading its output, and the command for model checking.
    src/mc/run_storm.rs, src/driver/commands/model_check.rs, src/driver/front.rs 422-446.  Storm itself is an input: how it ended and what it wrote.
    Texts are those of [Numerals]; paths, writing the JANI file (C35) and the words of messages are left out. *)
From Coq Require Import Bool List Ascii String Arith ZArith.
From Verif.Model Require Import Syntax Numerals Driver.
Import ListNotations.
Local Open Scope list_scope.
Local Open Scope Z_scope.

(** An ASCII character as a glyph; other characters are [GOther] with their number. *)
Definition glyph_of (a : ascii) : glyph :=
  let n := nat_of_ascii a in
  if Nat.leb 48 n && Nat.leb n 57 then GD (Z.of_nat n - 48)
  else if Nat.eqb n 45 then GMinus else if Nat.eqb n 46 then GDot else if Nat.eqb n 32 then GSpace
  else if Nat.eqb n 40 then GOpen else if Nat.eqb n 41 then GClose else if Nat.eqb n 47 then GSlash else GOther n.
Fixpoint lit (s : string) : text := match s with EmptyString => [] | String a s' => glyph_of a :: lit s' end.
Definition newline : glyph := GOther 10.
Definition quote : glyph := GOther 34.

(** str::find: the text from the first occurrence on; str::contains; str::split(..).next() *)
Fixpoint find (p t : text) : option text :=
  if starts_with p t then Some t else match t with [] => None | _ :: t' => find p t' end.
Definition contains (p t : text) : bool := match find p t with Some _ => true | None => false end.
Fixpoint before (p t : text) : text :=
  if starts_with p t then [] else match t with [] => [] | g :: t' => g :: before p t' end.
(** the text in front of the first newline, if there is one *)
Fixpoint line_of (t : text) : option text :=
  match t with
  | [] => None
  | g :: t' => if glyph_eqb g newline then Some [] else option_map (cons g) (line_of t')
  end.
(** str::trim: characters with the Unicode property White_Space *)
Definition white (g : glyph) : bool :=
  match g with
  | GSpace => true
  | GOther n => let c := Z.of_nat n in (9 <=? c) && (c <=? 13) || (8192 <=? c) && (c <=? 8202) || existsb (Z.eqb c) [133; 160; 5760; 8232; 8233; 8239; 8287; 12288]
  | _ => false
  end.
Fixpoint trim_start (t : text) : text := match t with g :: t' => if white g then trim_start t' else t | [] => [] end.
Definition trim (t : text) : text := rev (trim_start (rev (trim_start t))).

(** FromStr for Ratio (crate num-rational): a numerator, and a denominator behind the first slash; the quotient is reduced and the
    denominator positive. *)
Fixpoint split_slash (t : text) : text * option text :=
  match t with
  | [] => ([], None)
  | GSlash :: t' => ([], Some t')
  | g :: t' => let (a, b) := split_slash t' in (g :: a, b)
  end.
Definition reduce (n d : Z) : Z * positive := let g := Z.gcd n d in ((if d <? 0 then - n else n) / g, Z.to_pos (Z.abs d / g)).
Definition read_ratio (t : text) : option (Z * positive) :=
  let (a, b) := split_slash t in
  match read_int a, match b with Some d => read_int d | None => Some 1 end with
  | Some n, Some d => if d =? 0 then None else Some (reduce n d)
  | _, _ => None
  end.

(** * The options: driver/commands/options.rs 62-128 *)
Inductive which_storm := WPath | WStable | WCi.
Record soptions := mksopt { o_jani_dir : bool; o_run : option which_storm; o_exact : bool; o_limit : option Z; o_constants : option text; o_timeout : option Z }.

(** run_storm.rs 121-129: the time limit in seconds.  [left]: the time left in nanoseconds (resource_limits.rs 254-261), [storm]: the option in seconds. *)
Definition second : Z := 1000000000.
Definition timeout_arg (left storm : option Z) : option Z :=
  let st := option_map (fun s => s * second) storm in
  let both := match left with Some ct => option_map (Z.min ct) st | None => None end in
  let t := match both with Some x => Some x | None => match left with Some x => Some x | None => st end end in
  option_map (fun x => x / second) t.
(** run_storm.rs 84-153: the arguments.  [memory]: the limit in megabytes; [dir], [file]: where the JANI file is and its name (the whole path
    for [WPath]). *)
Definition num (z : Z) : text := map GD (digits z).
Definition opt {A} (o : option A) (f : A -> list text) : list text := match o with Some x => f x | None => [] end.
Fixpoint commas (l : list text) : text := match l with [] => [] | [t] => t | t :: l' => t ++ GOther 44 :: commas l' end.
Definition command (o : soptions) (w : which_storm) (left memory : option Z) (dir file : text) (properties : list text) : list text :=
  match w with
  | WPath => [lit "storm"]
  | _ => [lit "docker"; lit "run"; lit "--rm"; lit "-v"; dir ++ lit ":/mnt"; lit "-w"; lit "/mnt"] ++
         opt memory (fun m => [lit "--memory"; num m ++ lit "m"]) ++ [lit (match w with WStable => "movesrwth/storm:stable" | _ => "movesrwth/storm:ci" end); lit "storm"]
  end ++
  opt (timeout_arg left (o_timeout o)) (fun s => [lit "--timeout"; num s]) ++
  (if o_exact o then [lit "--exact"] else []) ++
  opt (o_limit o) (fun n => [lit "--state-limit"; num n]) ++
  opt (o_constants o) (fun c => [lit "--constants"; c]) ++
  [lit "--sound"; lit "--jani"; file; lit "-jprop"; commas properties].

(** * The output: 49-73 *)
Inductive value := NotFound | Value (t : text) | NoInitialState.
Inductive serror := SIo | SFailed (t : text) | SAborted (seconds states : Z) | SDocker.

(** 211-246 *)
Definition result_text : text := lit "Result (for initial states):".
Definition header (property : text) : text := lit "Model checking property " ++ quote :: property ++ [quote].
Definition operator (o : soptions) : text :=
  match o_exact o, o_limit o with
  | true, None => []
  | true, Some _ => [GOther (Z.to_nat 8805); GSpace]                   (* greater or equal *)
  | false, Some _ => [GOther (Z.to_nat 10886); GSpace]                 (* greater or approximately equal *)
  | false, None => [GOther (Z.to_nat 8776); GSpace]                    (* approximately equal *)
  end.
Definition show_result (o : soptions) (r : text) : text :=
  let r := trim (if contains (lit "(approx. ") r then before (lit "(approx. ") r else r) in
  let r := if o_exact o then match read_ratio r with Some (n, d) => pretty decimal_limit n d | None => r end else r in
  operator o ++ r.
Definition find_property_result (o : soptions) (output property : text) : value :=
  match find (header property) output with
  | None => NotFound
  | Some t =>
      match find result_text t with
      | None => NotFound
      | Some t =>
          match line_of (skipn (List.length result_text) t) with
          | None => NotFound
          | Some r => Value (show_result o r)
          end
      end
  end.
(** 197-209: a map; a property that is given twice keeps its first place *)
Definition parse_property_results (o : soptions) (properties : list text) (output : text) : list (text * value) :=
  map (fun p => (p, find_property_result o output p)) properties.

(** The regular expression of 177; [\d] is read as an ASCII digit. *)
Fixpoint take_digits (t : text) : text * text :=
  match t with
  | GD d :: t' => let (a, b) := take_digits t' in (GD d :: a, b)
  | _ => ([], t)
  end.
Definition number_then (p t : text) : option (text * text) :=
  let (a, b) := take_digits t in
  match a with [] => None | _ => option_map (fun rest => (a, rest)) (strip_prefix p b) end.
Definition aborted_here (t : text) : option (text * text) :=
  match strip_prefix (lit "Explored ") t with
  | None => None
  | Some t1 =>
      match number_then (lit " states in ") t1 with
      | None => None
      | Some (states, t2) => option_map (fun p => (states, fst p)) (number_then (lit " seconds before abort") t2)
      end
  end.
Fixpoint captures (t : text) : option (text * text) :=
  match aborted_here t with
  | Some c => Some c
  | None => match t with [] => None | _ :: t' => captures t' end
  end.
(** parse::<usize>, parse::<u64> *)
Definition parse_u64 (t : text) : res Z :=
  match read_nat t with Some n => if n <? 2 ^ 64 then Ok n else Panic "called `Result::unwrap()` on an `Err` value" | None => Panic "called `Result::unwrap()` on an `Err` value" end.

(** 153-195, after [command.output]: [None] if that failed.  The first line is wanted for the version. *)
Record outcome := mkoutcome { x_success : bool; x_code : option Z; x_stdout : option text (* [None]: not UTF-8 *) }.
Definition version (t : text) : res text :=
  match t with [] => Panic "called `Option::unwrap()` on a `None` value" | _ => Ok (match line_of t with Some l => l | None => t end) end.
Definition run_storm (o : soptions) (w : which_storm) (properties : list text) (x : option outcome) : res (list (text * value) + serror) :=
  match x with
  | None => Ok (inr SIo)
  | Some x =>
      match x_stdout x with
      | None => Panic "called `Result::unwrap()` on an `Err` value"
      | Some out =>
          if negb (x_success x) then
            if match x_code x with Some c => c =? 125 | None => false end && match w with WPath => false | _ => true end then Ok (inr SDocker)
            else if contains (lit "The model does not have a single initial state") out then
              let? v := version out in Ok (inl (map (fun p => (p, NoInitialState)) properties))
            else
              match captures out with
              | Some (a, b) => let? states := parse_u64 a in let? seconds := parse_u64 b in Ok (inr (SAborted seconds states))
              | None => Ok (inr (SFailed out))
              end
          else
            let? v := version out in Ok (inl (parse_property_results o properties out))
      end
  end.

(** * The diagnostic: 26-47 *)
Inductive message := MReward (t : text) | MNotFound | MNoInitialState | MError (e : serror).
Definition text_eqb (a b : text) : bool := Nat.eqb (List.length a) (List.length b) && starts_with a b.
Definition lookup (p : text) (l : list (text * value)) : option value := option_map snd (List.find (fun q => text_eqb (fst q) p) l).
Definition reward : text := lit "reward".
Definition to_diagnostic (r : list (text * value) + serror) : res (kind * message) :=
  match r with
  | inl l =>
      match lookup reward l with
      | None => Panic "called `Option::unwrap()` on a `None` value"
      | Some (Value t) => Ok (KAdvice, MReward t)
      | Some NotFound => Ok (KError, MNotFound)
      | Some NoInitialState => Ok (KAdvice, MNoInitialState)
      end
  | inr e => Ok (KError, MError e)
  end.

(** * The command: model_check.rs 72-126.  What happens to a unit: [u_jani] is the result of front.rs 422-446 if there is a directory, and
    [u_storm] is Storm on its file.  Creating the temporary directory succeeds. *)
Record unit_run := mkunit { u_jani : cres bool (* a file was written *); u_storm : option outcome }.
Definition shown := list (kind * option message).
Fixpoint check_units (o : soptions) (dir : bool) (l : list unit_run) (sv : server) (acc : shown) : res (cres server * shown) :=
  match l with
  | [] => Ok (inl sv, acc)
  | u :: l' =>
      match (if dir then u_jani u else inl false) with
      | inr (EDiag k) => check_units o dir l' (add_diagnostic k sv) (acc ++ [(k, None)])
      | inr EPanicked => Panic "raw code not supported with --jani-dir"
      | inr e => Ok (inr e, acc)
      | inl false => check_units o dir l' sv acc
      | inl true =>
          match o_run o with
          | None => check_units o dir l' sv acc
          | Some w =>
              let? r := run_storm o w [reward] (u_storm u) in
              let? d := to_diagnostic r in
              check_units o dir l' (add_diagnostic (fst d) sv) (acc ++ [(fst d, Some (snd d))])
          end
      end
  end.
Definition run_model_checking (o : soptions) (is_jani_command : bool) (l : list unit_run) (sv : server) : res (cres server * shown) :=
  let storm := match o_run o with Some _ => true | None => false end in
  if negb (o_jani_dir o) && is_jani_command && negb storm then Ok (inr EUser, [])
  else check_units o (o_jani_dir o || storm) l sv [].
(** 38-70: the command, after parsing and type checking; its result does not depend on what was found *)
Definition model_check_command (o : soptions) (we : bool) (l : list unit_run) : res (nat * shown) :=
  let? r := run_model_checking o true l (mkserver we false) in
  Ok (finalize (match fst r with inl sv => inl (true, sv) | inr e => inr e end), snd r).
