(** Omega-invariants: what the two procedures prove, and what they do not. *)
From Coq Require Import Bool List String ZArith NArith Reals Lia.
From Verif.Model Require Import Syntax Builder Dist ProofRules Pgcl PgclProc PgclOmega.
From Verif.Spec Require Import Eur Sem Wp Frame Loops PgclSem PgclCost PgclProcSpec.
From Verif.Proofs Require Import EurLemmas SemLemmas WpLemmas FrameProofs LoopProofs PgclProofs PgclSound PgclMore PgclTicks PgclExamples PgclProcProofs PgclOmegaProofs.
Import ListNotations.
Local Open Scope list_scope.

Lemma omega_procs_loop pc n k vars c b inv p1 b1 p2 b2 : omega_procs pc n k vars [PWhile c b] inv = Some ((p1, b1), (p2, b2)) ->
  let b0 := if keeps_ticks k then b else map remove_ticks b in
  let decl := if existsb has_choice [PWhile c b] then [SVar pc None] else [] in
  list_sum (map loops b0) = 0%nat /\ p1 = to_init (put n (b_uint 0) inv) /\ p2 = to_init (put n (EBin TUInt OAdd (EVar n) (b_uint 1)) inv) /\
  b1 = (decl ++ init_assign (vars ++ [n])) ++ [encode_iter c (plains pc b0) (pgcl_const (omega_end k))] /\
  b2 = (decl ++ init_assign (vars ++ [n])) ++ [encode_iter c (plains pc b0) (pgcl_const inv)].
Proof.
  intros E b0 decl. unfold omega_procs in E. cbn [the_loop filter is_loop] in E. change (the_loop [PWhile c b]) with (Some (c, b)) in E.
  cbv beta iota zeta in E. fold b0 decl in E. destruct (directs false pc (omega_dir k) b0 []) as [[bs st]|] eqn:D; [|discriminate].
  destruct (no_annots _ _ _ _ _ _ D) as [L ->]. injection E as <- <- <- <-. auto.
Qed.

Lemma end_closed k x : ~ fv x (omega_end k).
Proof. destruct k; exact (fun h => h). Qed.

Section Main.
  Variables (I : interp) (isd : string -> bool) (pc n : ident) (kd : fixkind) (k : pcalc) (vars : list ident) (c : expr) (b : list pinstr) (inv post : expr).
  Variables (p1 p2 : expr) (b1 b2 : list stmt).
  Hypothesis HI : interp_ok I.
  Hypothesis Hflip : isd "flip"%string = true.
  Hypothesis Hpc : ity pc = TBool.
  Hypothesis Hn : ity n = TUInt.
  Hypothesis Ob : forall x, x = pc \/ x = n \/ In x (map init_var (vars ++ [n])) -> pok isd x (PWhile c b) /\ clean x post.
  Hypothesis Hvs : forall x y, In x (vars ++ [n]) -> In y (vars ++ [n]) -> x <> init_var y.
  Hypothesis Si : simple inv.
  Hypothesis Fi : forall x, fv x inv -> In x (vars ++ [n]).
  Hypothesis Ci : clean pc inv.
  Hypothesis E : omega_procs pc n k vars [PWhile c b] inv = Some ((p1, b1), (p2, b2)).
  Hypothesis V1 : forall s, env_ok s -> dle (omega_dir k) (ev I p1 s) (wp_block I isd kd b1 (ev I post) s).
  Hypothesis V2 : forall s, env_ok s -> dle (omega_dir k) (ev I p2 s) (wp_block I isd kd b2 (ev I post) s).
  Let b0 := if keeps_ticks k then b else map remove_ticks b.

  Lemma omega_any Z : free_of n Z -> dexp_le (omega_dir k) (ev I (omega_end k)) Z -> dexp_le (omega_dir k) (body_map I kd c b0 (ev I post) Z) Z ->
    forall m s, env_ok s -> dle (omega_dir k) (ev I inv (upd s n (VUInt m))) (Z s).
  Proof.
    intros HZ HE HP m s Hs. destruct (omega_procs_loop _ _ _ _ _ _ _ _ _ _ _ E) as (L & E1 & E2 & F1 & F2). fold b0 in L, F1, F2.
    eapply (omega_all I isd pc n kd HI Hflip Hpc Hn c b0 post inv vars (if existsb has_choice [PWhile c b] then [SVar pc None] else [])
      ltac:(destruct (existsb has_choice [PWhile c b]); auto)); eauto.
    - intros x Hx. destruct (Ob x Hx) as [(O1 & _ & O2) O3]. split; auto. unfold b0. destruct (keeps_ticks k); auto using pok_ticks_list.
    - intros x. exact (end_closed k x).
    - rewrite E1, F1 in V1. exact V1.
    - rewrite E2, F2 in V2. exact V2.
  Qed.
  Lemma no_loops : list_sum (map loops b0) = 0%nat.
  Proof. exact (proj1 (omega_procs_loop _ _ _ _ _ _ _ _ _ _ _ E)). Qed.

  Theorem omega_lower : k <> CWlp -> forall m s, env_ok s ->
    ele (ev I inv (upd s n (VUInt m))) ((match k with CErt => pwps | _ => pwps0 end) I Least [PWhile c b] (ev I post) s).
  Proof.
    intros Hk.
    replace (match k with CErt => pwps | _ => pwps0 end) with (if keeps_ticks k then pwps else pwps0) by (destruct k; reflexivity).
    assert (Ed : omega_dir k = Down) by (destruct k; auto; congruence).
    assert (Eb : (if keeps_ticks k then pwps else pwps0) I Least [PWhile c b] (ev I post) = lfp (body_map I Least c b0 (ev I post))).
    { unfold b0. destruct (keeps_ticks k); [reflexivity|]. rewrite <- free_ticks_list. reflexivity. }
    assert (On : pok isd n (PWhile c b0) /\ clean n post).
    { destruct (Ob n (or_intror (or_introl eq_refl))) as [(O1 & O2 & O3) O4]. split; auto. split; auto. split; auto.
      unfold b0. destruct (keeps_ticks k); auto using pok_ticks_list. }
    assert (M : mono (body_map I Least c b0 (ev I post))) by (apply (body_mono I isd n HI); apply On).
    pose proof omega_any as H. rewrite Ed in H. intros m s Hs. rewrite Eb. apply (H (lfp (body_map I Least c b0 (ev I post)))); auto.
    - exact (pwp_free I isd n HI Least (PWhile c b0) (proj1 On) _ (unread_blind _ I post (proj2 On))).
    - intros t _. assert (Z : ev I (omega_end k) t = ebot) by (destruct k; try congruence; apply (ev_extreme I Down)). rewrite Z. apply ebot_le.
    - intros t Ht. assert (Ek : body_map I kd c b0 (ev I post) = body_map I Least c b0 (ev I post)).
      { apply FunctionalExtensionality.functional_extensionality. intros Y. unfold body_map. rewrite (any_kinds I kd Least b0 no_loops). reflexivity. }
      rewrite Ek. now apply (lfp_prefix _ M).
  Qed.

  Theorem omega_upper : k = CWlp -> forall Y, free_of n Y -> (forall s, env_ok s -> ele (Y s) eone) ->
    (forall s, env_ok s -> ele (Y s) (if holds I c s then pwps0 I Greatest b Y s else ev I post s)) ->
    forall m s, env_ok s -> ele (Y s) (ev I inv (upd s n (VUInt m))).
  Proof.
    intros Hk Y FY Y1 YP. pose proof omega_any as H. revert H. pose proof no_loops as L. unfold b0 in *. rewrite Hk in *. cbn [keeps_ticks omega_dir] in *.
    intros H m s Hs. apply (H Y); [exact FY | exact Y1 | | exact Hs].
    intros t Ht. cbn [dle]. unfold body_map. rewrite (any_kinds I kd Greatest _ L), free_ticks_list. now apply YP.
  Qed.
End Main.

(** What the two bodies mean in a state in which the parameters have the values of the variables. *)
Theorem omega_meaning I isd pc n kd k vars c b inv post p1 p2 b1 b2 s : interp_ok I -> isd "flip"%string = true -> ity pc = TBool ->
  pok isd pc (PWhile c b) -> clean pc inv -> omega_procs pc n k vars [PWhile c b] inv = Some ((p1, b1), (p2, b2)) ->
  env_ok s -> (forall x, In x (vars ++ [n]) -> s (init_var x) = s x) ->
  wp_block I isd kd b1 (ev I post) s =
    (if holds I c s then (match k with CErt => pwps | _ => pwps0 end) I kd b (fun _ => match k with CWlp => eone | _ => ebot end) s else ev I post s) /\
  wp_block I isd kd b2 (ev I post) s =
    (if holds I c s then (match k with CErt => pwps | _ => pwps0 end) I kd b (ev I inv) s else ev I post s).
Proof.
  intros HI Hf Hp O Ci E Hs Hv. destruct (omega_procs_loop _ _ _ _ _ _ _ _ _ _ _ E) as (_ & _ & _ & -> & ->).
  set (b0 := if keeps_ticks k then b else map remove_ticks b).
  assert (O0 : All (pok isd pc) b0) by (unfold b0; destruct O as (_ & _ & O); destruct (keeps_ticks k); auto using pok_ticks_list).
  assert (B : forall X, pwps I kd b0 X = (match k with CErt => pwps | _ => pwps0 end) I kd b X).
  { intros X. unfold b0. destruct k; cbn [keeps_ticks]; try apply free_ticks_list; reflexivity. }
  assert (D : forall Y, wp_block I isd kd (if existsb has_choice [PWhile c b] then [SVar pc None] else []) Y s = Y s)
    by (intros Y; destruct (existsb has_choice [PWhile c b]); reflexivity).
  assert (L : ev I (omega_end k) = fun _ => match k with CWlp => eone | _ => ebot end).
  { apply FunctionalExtensionality.functional_extensionality. intros t. destruct k; [reflexivity | apply (ev_extreme I Down) | apply (ev_extreme I Down)]. }
  rewrite !wp_block_app, !D, !wp_inits by auto.
  rewrite !(iter_sem I isd pc kd HI Hf Hp c b0 post) by (auto; intros x Hx; exfalso; exact (end_closed k x Hx)).
  unfold body_map. rewrite L, !B. auto.
Qed.
