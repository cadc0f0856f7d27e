(** What is written about a query. *)
From Coq Require Import Bool List String Ascii NArith Arith Lia Permutation Sorted.
From Verif.Model Require Import Syntax Prover SliceSearch Dump.
From Verif.Spec Require Import SliceSpec DumpSpec.
From Verif.Proofs Require Import SliceVerdict.
Import ListNotations.
Local Open Scope string_scope.
Local Open Scope list_scope.

(** * Parameters *)
Lemma lookup_set k v ps k' : lookup k' (set_param k v ps) = if String.eqb k' k then Some v else lookup k' ps.
Proof.
  induction ps as [|[a b] ps IH]; cbn; auto. destruct (String.eqb_spec k a); cbn.
  - subst a. now destruct (String.eqb_spec k' k).
  - rewrite IH. destruct (String.eqb_spec k' a), (String.eqb_spec k' k); congruence.
Qed.
Lemma keys_set k v ps : map fst (set_param k v ps) = if existsb (String.eqb k) (map fst ps) then map fst ps else map fst ps ++ [k].
Proof.
  induction ps as [|[a b] ps IH]; cbn; auto. destruct (String.eqb_spec k a); cbn; [now subst|]. rewrite IH. now destruct (existsb _ _).
Qed.
Lemma set_single k v ps : single ps -> single (set_param k v ps).
Proof.
  unfold single. rewrite keys_set. intros H. destruct (existsb _ _) eqn:E; auto.
  assert (N : ~ In k (map fst ps)).
  { intros I. assert (X : existsb (String.eqb k) (map fst ps) = true) by (apply existsb_exists; exists k; split; auto; apply String.eqb_refl). congruence. }
  clear E. induction (map fst ps) as [|a l IH]; cbn; [repeat constructor; auto|]. inversion_clear H. constructor.
  - intros I. apply in_app_or in I. destruct I as [I|[I|[]]]; auto. subst. apply N. now left.
  - apply IH; auto. intros I. apply N. now right.
Qed.
Lemma extend_single new : forall ps, single ps -> single (extend_params ps new).
Proof. induction new as [|[k v] new IH]; intros ps H; cbn; auto. apply IH. now apply set_single. Qed.
Lemma lookup_none k ps : ~ In k (map fst ps) -> lookup k ps = None.
Proof. induction ps as [|[a b] ps IH]; cbn; auto. intros H. destruct (String.eqb_spec k a); [subst; tauto|]. apply IH. tauto. Qed.
Lemma lookup_extend k new : single new -> forall ps, lookup k (extend_params ps new) = or_else (lookup k new) (lookup k ps).
Proof.
  unfold single. induction new as [|[a v] new IH]; intros N ps; [reflexivity|]. inversion_clear N.
  change (extend_params ps ((a, v) :: new)) with (extend_params (set_param a v ps) new). rewrite IH, lookup_set by auto. cbn [lookup].
  destruct (String.eqb_spec k a); cbn; auto. subst. now rewrite lookup_none.
Qed.
Lemma params_added globals ps : single globals -> single ps ->
  single (add_global_params globals ps) /\ forall k, lookup k (add_global_params globals ps) = or_else (lookup k ps) (lookup k globals).
Proof. intros H H1. split; [now apply extend_single|]. intros k. now apply lookup_extend. Qed.

Lemma z3_single o : single (z3_params o).
Proof.
  unfold single. destruct o as [tr [sd|] inst pr mt [vb|] [ms|]]; destruct tr, inst, pr, mt; cbn;
    repeat (constructor; [cbn; intuition discriminate|]); constructor.
Qed.
Lemma z3_set o globals k : lookup k (set_global_z3_params o globals) = or_else (lookup k (z3_params o)) (lookup k globals).
Proof. apply lookup_extend, z3_single. Qed.
Lemma z3_table o :
  lookup "smt.ematching" (z3_params o) = match o_inst o with Mbqi | NoQuant => Some "false" | _ => None end /\
  lookup "smt.mbqi.id" (z3_params o) = match o_inst o with EMatching | NoQuant => Some mbqi_prefix | _ => None end /\
  lookup "smt.random_seed" (z3_params o) = option_map decimal (o_seed o) /\
  lookup "verbose" (z3_params o) = option_map decimal (o_verbose o) /\
  lookup "timeout" (z3_params o) = option_map decimal (o_millis o) /\
  lookup "trace" (z3_params o) = (if o_trace o then Some "true" else None) /\
  lookup "smt.qi.profile" (z3_params o) = (if o_qi_profile o then Some "true" else None) /\
  lookup "smt.mbqi.trace" (z3_params o) = (if o_mbqi_trace o then Some "true" else None).
Proof. destruct o as [tr [sd|] inst pr mt [vb|] [ms|]]; destruct tr, inst, pr, mt; cbn; repeat split. Qed.
Lemma same_keys_set k v ps : lookup k ps = Some v -> single ps -> set_param k v ps = ps.
Proof.
  induction ps as [|[a b] ps IH]; cbn; [discriminate|]. intros E N. destruct (String.eqb_spec k a).
  - subst. injection E as ->. reflexivity.
  - inversion_clear N. now rewrite IH.
Qed.
Lemma extend_same new : single new -> forall ps, single ps -> (forall k v, lookup k new = Some v -> lookup k ps = Some v) -> extend_params ps new = ps.
Proof.
  induction new as [|[a v] new IH]; intros N ps S H; cbn; auto. pose proof N as N'. inversion_clear N.
  rewrite same_keys_set; auto.
  - apply IH; auto. intros k w E. apply H. cbn. destruct (String.eqb_spec k a); auto. subst. now rewrite lookup_none in E.
  - apply H. cbn. now rewrite String.eqb_refl.
Qed.
Lemma z3_idempotent o globals : single globals -> set_global_z3_params o (set_global_z3_params o globals) = set_global_z3_params o globals.
Proof.
  intros S. apply extend_same; [apply z3_single|now apply extend_single|]. intros k v E. unfold set_global_z3_params.
  rewrite lookup_extend by apply z3_single. now rewrite E.
Qed.

(** * Comments *)
Lemma split_line prefix : forall t st o,
  fold_left (write_line prefix) (split_inclusive t) (st, o) = (match t with [] => st | _ => ends_in_nl t end, o ++ commented prefix st t).
Proof.
  assert (EL : forall c d (l : list ascii), ends_in_nl (c :: d :: l) = ends_in_nl (d :: l)) by reflexivity.
  induction t as [|c t IH]; intros st o; [cbn; now rewrite app_nil_r|].
  cbn [split_inclusive]. destruct (Ascii.eqb c nl) eqn:E.
  - cbn [fold_left]. unfold write_line at 2. cbn [fst snd]. rewrite IH. cbn [commented]. rewrite E.
    replace (ends_in_nl [c]) with true by (unfold ends_in_nl; cbn; now rewrite E).
    f_equal; [destruct t; [unfold ends_in_nl; cbn; now rewrite E|now rewrite EL]|]. now rewrite <- !app_assoc.
  - destruct t as [|d t].
    + cbn. unfold write_line, ends_in_nl. cbn. now rewrite E.
    + remember (d :: t) as u. destruct (split_inclusive u) as [|l ls] eqn:El.
      { subst u. cbn in El. destruct (Ascii.eqb d nl); [discriminate|]. destruct (split_inclusive t); discriminate. }
      specialize (IH false (o ++ (if st then prefix else []) ++ [c])). cbn [fold_left] in IH |- *. unfold write_line at 2 in IH. unfold write_line at 2. cbn [fst snd] in *.
      assert (Hl : l <> []).
      { subst u. cbn in El. destruct (Ascii.eqb d nl); [injection El as <- _; discriminate|]. destruct (split_inclusive t); injection El as <- _; discriminate. }
      replace (ends_in_nl (c :: l)) with (ends_in_nl l) by (destruct l; [congruence|reflexivity]).
      replace (o ++ (if st then prefix else []) ++ c :: l) with ((o ++ (if st then prefix else []) ++ [c]) ++ [] ++ l) by (cbn; now rewrite <- !app_assoc).
      rewrite IH. subst u. rewrite EL. f_equal. cbn [commented]. rewrite E. now rewrite <- !app_assoc.
Qed.
Lemma ends_app a b : b <> [] -> ends_in_nl (a ++ b) = ends_in_nl b.
Proof.
  intros H. unfold ends_in_nl. f_equal. induction a as [|c a IH]; auto. cbn. rewrite IH. destruct (a ++ b) eqn:E; auto.
  apply app_eq_nil in E. tauto.
Qed.
Lemma commented_app prefix a : forall st b,
  commented prefix st (a ++ b) = commented prefix st a ++ commented prefix (match a with [] => st | _ => ends_in_nl a end) b.
Proof.
  induction a as [|c a IH]; intros st b; cbn; auto. rewrite IH. destruct a as [|d a].
  - cbn. now rewrite <- app_assoc.
  - change (ends_in_nl (c :: d :: a)) with (ends_in_nl (d :: a)). now rewrite <- app_assoc.
Qed.
Lemma write_chunks prefix bufs : forall st o,
  snd (fold_left (prefix_write prefix) bufs (st, o)) = o ++ commented prefix st (List.concat bufs).
Proof.
  induction bufs as [|b bufs IH]; intros st o; cbn [fold_left List.concat]; [cbn; now rewrite app_nil_r|].
  unfold prefix_write at 2. rewrite split_line, IH, commented_app, <- app_assoc. reflexivity.
Qed.
Lemma prefix_all_spec prefix bufs : prefix_all prefix bufs = commented (list_ascii_of_string prefix) true (List.concat (map list_ascii_of_string bufs)).
Proof. unfold prefix_all. now rewrite write_chunks. Qed.

Lemma line_split t : ends_in_nl t = true -> t <> [] -> exists l r, t = l ++ nl :: r /\ ~ In nl l /\ (r = [] \/ ends_in_nl r = true).
Proof.
  induction t as [|c t IH]; [congruence|]. intros E _. destruct (Ascii.eqb_spec c nl).
  - subst. exists [], t. repeat split; auto. destruct t; auto.
  - destruct t as [|d t]; [unfold ends_in_nl in E; cbn in E; apply Ascii.eqb_eq in E; congruence|].
    destruct IH as (l & r & Et & Hl & Hr); [exact E|discriminate|]. exists (c :: l), r. rewrite Et. repeat split; auto. intros [X|X]; auto.
Qed.
Lemma commented_mid prefix l : ~ In nl l -> forall r, commented prefix false (l ++ nl :: r) = l ++ nl :: commented prefix true r.
Proof.
  induction l as [|c l IH]; intros N r; cbn; auto. destruct (Ascii.eqb_spec c nl); [subst; cbn in N; tauto|]. rewrite IH; auto. cbn in N. tauto.
Qed.
Lemma commented_comments n : forall t, List.length t <= n -> t = [] \/ ends_in_nl t = true -> comments (commented [";"%char; " "%char] true t).
Proof.
  induction n as [|n IH]; intros t L H.
  - destruct t; [constructor|cbn in L; lia].
  - destruct t as [|c t]; [constructor|]. destruct H as [H|H]; [discriminate|].
    destruct (line_split (c :: t) H) as (l & r & E & Hl & Hr); [discriminate|]. rewrite E.
    assert (Lr : List.length r <= n) by (apply (f_equal (@List.length ascii)) in E; rewrite app_length in E; cbn in E, L; lia).
    specialize (IH r Lr Hr). destruct l as [|d l].
    + cbn. apply (one_comment [" "%char]); auto. intros [X|[]]. discriminate X.
    + cbn [commented List.app]. destruct (Ascii.eqb_spec d nl); [subst; cbn in Hl; tauto|].
      rewrite commented_mid by (cbn in Hl; tauto). apply (one_comment (" "%char :: d :: l)); auto. intros [X|X]; [discriminate X|auto].
Qed.

(** * The dump *)
Lemma string_app_list a b : list_ascii_of_string (a ++ b)%string = list_ascii_of_string a ++ list_ascii_of_string b.
Proof. induction a; cbn; congruence. Qed.
Definition complete (s : string) : Prop := s = "" \/ ends_in_nl (list_ascii_of_string s) = true.
Lemma concat_complete bufs : Forall complete bufs -> let t := List.concat (map list_ascii_of_string bufs) in t = [] \/ ends_in_nl t = true.
Proof.
  intros H. cbn. induction H as [|b bufs Hb H IH]; cbn; auto.
  destruct IH as [IH|IH].
  - rewrite IH, app_nil_r. destruct Hb as [->|Hb]; auto.
  - right. rewrite ends_app; auto. intros X. rewrite X in IH. discriminate.
Qed.
Lemma line_complete s : complete (s ++ newline)%string.
Proof. right. rewrite string_app_list. rewrite ends_app; [reflexivity|discriminate]. Qed.
Lemma str_assoc a b c : ((a ++ b) ++ c)%string = (a ++ (b ++ c))%string.
Proof. induction a; cbn; congruence. Qed.
Lemma fold_last l a : fold_right String.append "" (l ++ [a]) = (fold_right String.append "" l ++ a)%string.
Proof. induction l as [|x l IH]; cbn; [induction a; cbn; congruence|]. now rewrite IH, str_assoc. Qed.
Lemma concat_fold bufs : List.concat (map list_ascii_of_string bufs) = list_ascii_of_string (fold_right String.append "" bufs).
Proof. induction bufs as [|b bufs IH]; cbn; auto. now rewrite string_app_list, IH. Qed.
Lemma header_complete info name reason r : complete (fold_right String.append "" (header info name reason r)).
Proof.
  unfold header. destruct r as [r|].
  - rewrite app_assoc, fold_last, <- !str_assoc. apply line_complete.
  - rewrite app_nil_r, fold_last, <- !str_assoc. apply line_complete.
Qed.
Lemma header_comments info name reason r : comments (prefix_all "; " (header info name reason r)).
Proof.
  rewrite prefix_all_spec, concat_fold. eapply commented_comments; [reflexivity|].
  destruct (header_complete info name reason r) as [->|E]; auto.
Qed.

Section Dumps.
Variables (globals : params) (info : list string) (name : unit_name) (raco : string -> option string).
Notation dump := (dump_run globals info name raco).
Lemma get_body o solver : d_print o = true \/ d_dir o <> None -> get_smtlib globals raco o solver = Some (mksmt (Some globals) (body raco o solver)).
Proof.
  intros H. unfold get_smtlib, body, from_solver. cbn.
  destruct (d_print o), (d_dir o); cbn; try (destruct (d_no_pretty o); [|destruct (raco solver)]; reflexivity). destruct H as [H|H]; congruence.
Qed.
Lemma silent o solver reason r : d_print o = false -> d_dir o = None -> dump o solver reason r = [].
Proof. intros E E'. unfold dump_run, get_smtlib. now rewrite E, E'. Qed.
Lemma printed_once o solver reason r :
  printed (dump o solver reason r) =
  if d_print o then [(newline ++ "; --- Solver SMT-LIB ---" ++ newline ++ show_params globals globals ++ newline ++ body raco o solver ++ newline ++ "(check-sat)" ++ newline ++ newline)%string] else [].
Proof.
  destruct (d_print o) eqn:E.
  - unfold dump_run. rewrite get_body by auto. unfold write_smtlib. rewrite E. unfold printed. cbn [d_print d_dir].
    rewrite !flat_map_app. cbn [flat_map]. destruct (d_dir o), (d_no_verify o); cbn [flat_map List.app]; unfold smt_text, into_string, add_check_sat; cbn [sm_params sm_body];
      rewrite !str_assoc; reflexivity.
  - destruct (d_dir o) eqn:E'; [|now rewrite silent].
    unfold dump_run. rewrite get_body by (right; congruence). unfold write_smtlib. rewrite E, E'. destruct (d_no_verify o); reflexivity.
Qed.
Lemma comps_refl f : comps_eqb f f = true.
Proof. induction f as [|c f IH]; cbn; auto. rewrite IH. destruct c; cbn; auto. now rewrite String.eqb_refl. Qed.
Lemma comps_eq f : forall g, comps_eqb f g = true -> f = g.
Proof.
  induction f as [|c f IH]; intros [|d g] E; try discriminate; auto. cbn in E. apply andb_true_iff in E. destruct E as [E E']. rewrite (IH g E').
  destruct c, d; try discriminate; auto. cbn in E. apply String.eqb_eq in E. now subst.
Qed.
Lemma text_is s r : smt_text globals (mksmt (Some globals) s) r =
  (show_params globals globals ++ newline ++ s ++ newline ++ "(check-sat)" ++ match r with Some r => details r | None => "" end)%string.
Proof.
  assert (N : forall a, (a ++ "")%string = a) by (induction a; cbn; congruence).
  destruct r as [[]|]; unfold smt_text, into_string, add_details_query, add_check_sat, details; cbn [sm_params sm_body]; rewrite ?N, ?str_assoc; reflexivity.
Qed.
Lemma file_left o d solver reason r f : d_dir o = Some d ->
  file_after (dump o solver reason r) f =
  if comps_eqb f (path_join d (to_file_name name "smt2"))
  then let answer := if d_no_verify o then None else Some r in
       Some (prefix_all "; " (header info name reason answer) ++
             list_ascii_of_string (show_params globals globals ++ newline ++ body raco o solver ++ newline ++ "(check-sat)" ++ match answer with Some r => details r | None => "" end))
  else None.
Proof.
  intros E. unfold dump_run. rewrite get_body by (right; congruence). unfold write_smtlib, file_after. rewrite E. cbn [d_print d_dir].
  rewrite !text_is. destruct (d_print o), (d_no_verify o); cbn [fold_left List.app]; destruct (comps_eqb f _); reflexivity.
Qed.
End Dumps.

(** * Files *)
Lemma no_parent n e : ~ In ParentDir (to_file_name n e).
Proof. unfold to_file_name. intros H. apply filter_In in H. destruct H; discriminate. Qed.
Lemma split_first c s : split_slash (String c s) <> [] /\ (c <> "/"%char -> exists p ps, split_slash (String c s) = String c p :: ps).
Proof.
  cbn. destruct (Ascii.eqb_spec c "/"); [split; [discriminate|tauto]|]. destruct (split_slash s); split; try discriminate; eauto.
Qed.
Lemma rest_no_root l : ~ In RootDir (flat_map component_of l).
Proof.
  intros H. apply in_flat_map in H. destruct H as (x & _ & H). unfold component_of in H.
  destruct (is_empty x || String.eqb x "."); [destruct H|]. destruct (String.eqb x ".."); destruct H as [H|[]]; discriminate.
Qed.
Lemma relative_no_root s : relative s -> ~ In RootDir (components s).
Proof.
  intros R H. unfold components in H. destruct s as [|c s]; [destruct H|]. destruct (split_first c s) as [_ F]. destruct (F R) as (p & ps & E). rewrite E in H.
  apply in_app_or in H. destruct H as [H|H]; [|now apply rest_no_root in H]. cbn [is_empty] in H.
  destruct (String.eqb (String c p) "."); [destruct H as [H|[]]; discriminate|].
  apply (rest_no_root [String c p]). cbn [flat_map]. now rewrite app_nil_r.
Qed.
Lemma file_relative n e : relative (short_path n) -> ~ In RootDir (to_file_name n e).
Proof.
  intros R H. unfold to_file_name in H. apply filter_In in H. destruct H as [H _]. revert H. apply relative_no_root.
  destruct (short_path n), (decl_name n); cbn in *; auto; discriminate.
Qed.
Lemma inside n e d : relative (short_path n) ->
  exists names, path_join d (to_file_name n e) = d ++ names /\ Forall normal names.
Proof.
  intros R. pose proof (no_parent n e) as P. pose proof (file_relative n e R) as Q. unfold path_join.
  destruct (to_file_name n e) as [|[] cs] eqn:E; try (exfalso; cbn in Q; tauto).
  all: eexists; split; [reflexivity|]; apply Forall_forall; intros c H; apply filter_In in H; destruct H as [H H'];
    destruct c; cbn; auto; first [discriminate | now elim Q | now elim P].
Qed.

Lemma slash_join s : forall t, split_slash s = split_slash t -> s = t.
Proof.
  assert (N : forall x, split_slash x <> []) by (intros [|c x]; [discriminate|apply split_first]).
  assert (Z : forall c u, split_slash (String c u) <> [""]).
  { intros c u E. cbn in E. destruct (Ascii.eqb c "/"); [injection E as E; now apply N in E|]. destruct (split_slash u); discriminate. }
  induction s as [|c s IH]; intros [|d t] E; auto; [now apply eq_sym, Z in E|now apply Z in E|].
  cbn in E. destruct (Ascii.eqb_spec c "/"), (Ascii.eqb_spec d "/"); subst.
  - injection E as E. f_equal. now apply IH.
  - destruct (split_slash t); discriminate.
  - destruct (split_slash s); discriminate.
  - destruct (split_slash s) eqn:Es; [now apply N in Es|]. destruct (split_slash t) eqn:Et; [now apply N in Et|].
    injection E as -> -> ->. f_equal. apply IH. congruence.
Qed.
Lemma component_clean p : is_empty p = false /\ p <> "." /\ p <> ".." -> component_of p = [Normal p].
Proof.
  intros (A & B & C). unfold component_of. apply String.eqb_neq in B, C. now rewrite A, B, C.
Qed.
Lemma clean_components s : clean s -> components s = map Normal (split_slash s).
Proof.
  unfold clean, components. destruct (split_slash s) as [|p ps] eqn:E; auto. intros H. inversion_clear H as [|? ? (A & B & C) H1].
  assert (S : is_empty s = false) by (destruct s; auto; cbn in E; injection E as <- <-; discriminate).
  rewrite S, A. pose proof B as B'. apply String.eqb_neq in B'. rewrite B', component_clean by auto. cbn. f_equal.
  clear -H1. induction H1 as [|q qs Hq H IH]; cbn; auto. rewrite component_clean by auto. cbn. now f_equal.
Qed.
Lemma normal_filter l : filter not_parent (map Normal l) = map Normal l.
Proof. induction l; cbn; congruence. Qed.
Lemma map_normal l : forall l', map Normal l = map Normal l' -> l = l'.
Proof. induction l as [|a l IH]; intros [|b l'] E; try discriminate; auto. injection E as -> E. f_equal. auto. Qed.
Lemma file_is n e : to_file_name n e = filter not_parent (components (show_name n ++ "." ++ e)).
Proof. unfold to_file_name, show_name. destruct (decl_name n); [|reflexivity]. now rewrite !str_assoc. Qed.
Lemma str_cancel a : forall b c, (b ++ a)%string = (c ++ a)%string -> b = c.
Proof.
  assert (L : forall b c, String.length (b ++ c)%string = String.length b + String.length c) by (induction b; cbn; congruence).
  induction b as [|x b IH]; intros [|y c] E; auto.
  - apply (f_equal String.length) in E. cbn in E. rewrite L in E. lia.
  - apply (f_equal String.length) in E. cbn in E. rewrite L in E. lia.
  - cbn in E. injection E as -> E. f_equal. auto.
Qed.
Lemma files_apart n n' e : clean (show_name n ++ "." ++ e) -> clean (show_name n' ++ "." ++ e) -> to_file_name n e = to_file_name n' e -> show_name n = show_name n'.
Proof.
  intros C C' E. rewrite !file_is, !clean_components, !normal_filter in E by auto. apply map_normal, slash_join, str_cancel in E. exact E.
Qed.

(** * Probes *)
Lemma min_by_in l c : min_by l = Some c -> In c l /\ forall d, In d l -> crank c <= crank d.
Proof.
  revert c. induction l as [|a l IH]; intros c E; [discriminate|]. cbn in E. destruct (min_by l) as [d|] eqn:F.
  - destruct (IH d eq_refl) as [I H]. destruct (Nat.leb_spec (crank a) (crank d)); injection E as <-; split; cbn; auto; intros x [<-|X]; auto; try lia; specialize (H x X); lia.
  - injection E as <-. destruct l; [|cbn in F; destruct (min_by l); discriminate]. split; cbn; auto. intros d [->|[]]. auto.
Qed.
Lemma min_by_none l : min_by l = None <-> l = [].
Proof. destruct l; cbn; [tauto|]. destruct (min_by l); split; discriminate. Qed.
Lemma all_theories t : In t theories.
Proof. destruct t; cbn; tauto. Qed.
Lemma complexity_least s q :
  (exists t, detected s t = true /\ complexity_of s q = from_theory t (unbounded s) q /\
     forall u, detected s u = true -> crank (complexity_of s q) <= crank (from_theory u (unbounded s) q)) \/
  ((forall t, detected s t = false) /\ complexity_of s q = UnknownComplexity).
Proof.
  unfold complexity_of. set (l := flat_map _ _).
  assert (M : forall c, In c l <-> exists t, detected s t = true /\ c = from_theory t (unbounded s) q).
  { intros c. unfold l. rewrite in_flat_map. split.
    - intros (t & _ & H). exists t. destruct (detected s t); [|destruct H]. destruct H as [H|[]]. auto.
    - intros (t & D & ->). exists t. split; [apply all_theories|]. rewrite D. now left. }
  destruct (min_by l) as [c|] eqn:E.
  - left. apply min_by_in in E. destruct E as [I H]. apply M in I. destruct I as (t & D & ->). exists t. repeat split; auto. intros u U. apply H. apply M. eauto.
  - right. apply min_by_none in E. split; auto. intros t. destruct (detected s t) eqn:D; auto. exfalso.
    assert (X : In (from_theory t (unbounded s) q) l) by (apply M; eauto). rewrite E in X. destruct X.
Qed.
Lemma quantifiers_harder s : crank (complexity_of s false) <= crank (complexity_of s true).
Proof.
  assert (H : forall t u, crank (from_theory t u false) <= crank (from_theory t u true)) by (intros [] []; cbn; lia).
  destruct (complexity_least s true) as [(t & D & E & _)|[D E]]; rewrite E.
  - destruct (complexity_least s false) as [(t' & D' & E' & L)|[D' _]]; [|rewrite D' in D; discriminate]. specialize (L t D). specialize (H t (unbounded s)). lia.
  - destruct (complexity_of s false); cbn; lia.
Qed.
Lemma insert_perm {A} (key : A -> nat) a l : Permutation (insert_by key a l) (a :: l).
Proof. induction l as [|b l IH]; cbn; auto. destruct (Nat.leb _ _); auto. rewrite IH. apply perm_swap. Qed.
Lemma sort_perm {A} (key : A -> nat) l : Permutation (sort_by key l) l.
Proof. induction l as [|a l IH]; cbn; auto. rewrite insert_perm. now constructor. Qed.
Lemma insert_sorted {A} (key : A -> nat) a l : StronglySorted (fun x y => key x <= key y) l -> StronglySorted (fun x y => key x <= key y) (insert_by key a l).
Proof.
  induction 1 as [|b l S IH F]; cbn; [repeat constructor|]. destruct (Nat.leb_spec (key a) (key b)).
  - constructor; [now constructor|]. constructor; auto. eapply Forall_impl; [|exact F]. cbn. intros. lia.
  - constructor; auto. rewrite Forall_forall in F |- *. intros x X. apply (Permutation_in _ (insert_perm key a l)) in X. destruct X as [<-|X]; [lia|auto].
Qed.
Lemma sort_sorted {A} (key : A -> nat) l : StronglySorted (fun x y => key x <= key y) (sort_by key l).
Proof. induction l; cbn; [constructor|]. now apply insert_sorted. Qed.
Lemma filter_sorted {A} (R : A -> A -> Prop) p l : StronglySorted R l -> StronglySorted R (filter p l).
Proof.
  induction 1 as [|b l S IH F]; cbn; [constructor|]. destruct (p b); auto. constructor; auto. rewrite Forall_forall in F |- *. intros x X. apply filter_In in X. now apply F.
Qed.
Lemma partition_filter {A} (p : A -> bool) l : partition p l = (filter p l, filter (fun a => negb (p a)) l).
Proof. induction l as [|a l IH]; cbn; auto. rewrite IH. now destruct (p a). Qed.
Lemma shown_all s : let (yes, no) := shown_theories s in
  Permutation (yes ++ no) theories /\ (forall t, In t yes <-> detected s t = true) /\ (forall t, In t no <-> detected s t = false) /\
  StronglySorted (fun t u => crank (from_theory t (unbounded s) (has_quant s)) <= crank (from_theory u (unbounded s) (has_quant s))) yes.
Proof.
  unfold shown_theories. set (key := fun t => _). rewrite partition_filter.
  assert (I : forall t, In t (sort_by key theories)).
  { intros t. apply (Permutation_in _ (Permutation_sym (sort_perm key theories))), all_theories. }
  repeat split.
  - rewrite <- (sort_perm key theories) at 3. generalize (sort_by key theories). induction l as [|a l IH]; cbn; auto.
    destruct (detected s a); cbn; [now constructor|]. rewrite <- Permutation_middle. now constructor.
  - intros H. now apply filter_In in H.
  - intros H. apply filter_In. auto.
  - intros H. apply filter_In in H. destruct H as [_ H]. now apply negb_true_iff in H.
  - intros H. apply filter_In. split; auto. now rewrite H.
  - apply filter_sorted, sort_sorted.
Qed.

(** * Quantifiers *)
Lemma mbqi_marked q : q_mbqi q = true -> String.prefix mbqi_prefix (qid q) = true.
Proof. intros E. unfold qid. rewrite E. cbn. now destruct (_ ++ _)%string. Qed.
Lemma prefix_app p : forall n s, String.length p <= String.length n -> String.prefix p (n ++ s)%string = String.prefix p n.
Proof.
  induction p as [|a p IH]; intros n s L; [now destruct n, s|]. destruct n as [|b n]; [cbn in L; lia|]. cbn. destruct (ascii_dec a b); auto. apply IH. cbn in L. lia.
Qed.
Lemma mbqi_unmarked q : q_mbqi q = false -> String.prefix mbqi_prefix (q_name q) = false -> 5 <= String.length (q_name q) ->
  String.prefix mbqi_prefix (qid q) = false.
Proof.
  intros E P L. unfold qid. rewrite E. generalize (match q_variant q with Some v => ("_" ++ v ++ newline)%string | None => "" end). intros s.
  cbn [String.append]. now rewrite prefix_app.
Qed.

(** * Slices *)
Section Answers.
Context {X : Type} (asserted constraints : X -> Prop) (active inactive : list (X -> bool)).
Lemma answer_of minl check model r x :
  sound_search (asked asserted constraints active inactive) check model ->
  slice_failing minl Stop check model (List.length active) = Ok (r, x) ->
  match r with
  | Counterexample => exists s, asserted s
  | Proof => on_keeps asserted constraints inactive -> ~ exists s, asserted s
  | ProveUnknown => True
  end.
Proof.
  intros S E. pose proof (stop_verdict minl Stop check model _ S _ _ _ eq_refl E) as V. destruct r; auto.
  - intros K [s H]. destruct (K s H) as (y & Y & C & I). apply (V (count_on active y)); [|exists y; auto].
    unfold count_on. clear. induction active as [|v l IH]; cbn; auto. destruct (v y); cbn; lia.
  - destruct V as (m & _ & _ & s & H & _). eauto.
Qed.
End Answers.
