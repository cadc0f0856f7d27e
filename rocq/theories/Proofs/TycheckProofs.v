(** What the type checker does to an expression. *)
From Coq Require Import Bool List String ZArith NArith QArith.
From Verif.Model Require Import Syntax Tycheck.
From Verif.Spec Require Import Eur Sem Wp Typing.
From Verif.Proofs Require Import TycheckBase.
Import ListNotations.
Local Open Scope string_scope.

Section RInd.
  Variable P : rexpr -> Prop.
  Hypothesis HVar : forall o x, P (RVar o x).
  Hypothesis HCall : forall o f args, Forall P args -> P (RCall o f args).
  Hypothesis HIte : forall o c a b, P c -> P a -> P b -> P (RIte o c a b).
  Hypothesis HBin : forall o op a b, P a -> P b -> P (RBin o op a b).
  Hypothesis HUn : forall o op a, P a -> P (RUn o op a).
  Hypothesis HCast : forall o a, P a -> P (RCast o a).
  Hypothesis HQuant : forall o op xs e, P e -> P (RQuant o op xs e).
  Hypothesis HSubst : forall o x b e, P b -> P e -> P (RSubst o x b e).
  Hypothesis HLit : forall o l, P (RLit o l).
  Fixpoint rexpr_rect' (e : rexpr) : P e :=
    match e with
    | RVar o x => HVar o x
    | RCall o f args => HCall o f args
        ((fix go l : Forall P l := match l with nil => Forall_nil P | e :: l' => Forall_cons e (rexpr_rect' e) (go l') end) args)
    | RIte o c a b => HIte o c a b (rexpr_rect' c) (rexpr_rect' a) (rexpr_rect' b)
    | RBin o op a b => HBin o op a b (rexpr_rect' a) (rexpr_rect' b)
    | RUn o op a => HUn o op a (rexpr_rect' a)
    | RCast o a => HCast o a (rexpr_rect' a)
    | RQuant o op xs e => HQuant o op xs e (rexpr_rect' e)
    | RSubst o x b e => HSubst o x b e (rexpr_rect' b) (rexpr_rect' e)
    | RLit o l => HLit o l
    end.
End RInd.

Section Expr.
Variables (S : sigs) (pre : bool).
Notation types := (types S pre).
Notation visit := (visit S pre).
Notation visits := (visits S pre).
Notation strict := (strict S pre).
Notation fitsb := (fitsb S pre).

Lemma types_det e : forall imp t u, types imp e t -> types imp e u -> t = u.
Proof.
  induction e as [o x|o f args _|o c a b IHc IHa IHb|o op a b IHa IHb|o op a IHa|o a _|o op xs e IH|o x v a IHv IHa|o l] using rexpr_rect'; intros imp t u H K.
  - inversion H; inversion K; subst; reflexivity.
  - apply types_call in H as (c & E & H). apply types_call in K as (c' & E' & K). rewrite E in E'. injection E' as <-.
    destruct c; [destruct H as (_ & -> & _), K as (_ & -> & _)|destruct H as (-> & _), K as (-> & _)|destruct H]; reflexivity.
  - apply types_ite in H as (ta & tb & x & -> & _ & A & B & E). apply types_ite in K as (ta' & tb' & x' & -> & _ & A' & B' & E').
    pose proof (IHa _ _ _ A A') as [=<-]. pose proof (IHb _ _ _ B B') as [=<-]. congruence.
  - apply types_bin in H as (ta & tb & x & -> & A & B & E). apply types_bin in K as (ta' & tb' & x' & -> & A' & B' & E').
    pose proof (IHa _ _ _ A A') as [=<-]. pose proof (IHb _ _ _ B B') as [=<-]. congruence.
  - apply types_un in H as (ta & x & -> & A & E). apply types_un in K as (ta' & x' & -> & A' & E').
    pose proof (IHa _ _ _ A A') as [=<-]. congruence.
  - inversion H.
  - apply types_quant in H as [-> _]. apply types_quant in K as [-> _]. reflexivity.
  - apply types_let in H as (_ & H & _). apply types_let in K as (_ & K & _). eauto.
  - inversion H; inversion K; subst; reflexivity.
Qed.

Lemma go_visits l :
  (fix go l := match l with [] => Ok [] | a :: l' => let? a' := visit false a in let? l'' := go l' in Ok (a' :: l'') end) l = visits false l.
Proof. induction l as [|a l IH]; cbn; [reflexivity|]. destruct (visit false a); cbn; [rewrite IH|..]; reflexivity. Qed.
Lemma visit_call imp o f args : visit imp (RCall o f args) =
  let? args := visits false args in
  match s_call S f with
  | None => Err "NotDeclared"
  | Some (CProc ins outs) =>
      if negb imp then Err "CannotCallImpure" else
      let? args := check_call ins args in finish o (Tup outs) (fun o => RCall o f args)
  | Some (CFunc ins out) => let? args := check_call ins args in finish o (One out) (fun o => RCall o f args)
  | Some COther => Err "ExpectedKind"
  end.
Proof. cbn [Tycheck.visit]. rewrite go_visits. reflexivity. Qed.
Lemma go_trees l :
  (fix go l := match l with [] => Some [] | a :: l' => match tree a, go l' with Some a', Some l'' => Some (a' :: l'') | _, _ => None end end) l = trees l.
Proof. induction l as [|a l IH]; cbn; [reflexivity|]. rewrite IH. reflexivity. Qed.
Lemma tree_call o f args : tree (RCall o f args) =
  match call_ty o, trees args with Some t, Some args' => Some (ECall t f args') | _, _ => None end.
Proof. cbn [tree]. rewrite go_trees. reflexivity. Qed.

(** An expression that has been checked and has type [t]. *)
Record good (e : rexpr) (t : ty) : Prop := {
  g_ty : rty e = Some (One t);
  g_again : literals_uint S -> forall imp, visit imp e = Ok e;
  g_tree : exists x, tree e = Some x /\ ty_of x = t /\ strict x = true
}.

Lemma the_ty_good e t : good e t -> the_ty e = Ok (One t).
Proof. intros G. unfold the_ty. rewrite (g_ty _ _ G). reflexivity. Qed.
Lemma cast_spec e t u : good e t ->
  try_cast (One u) e = if subb t u then Ok (if ty_eqb t u then e else RCast (Some (One u)) e) else Err "CannotCast".
Proof.
  intros G. unfold try_cast. rewrite (the_ty_good _ _ G). cbn. unfold xty_cmp, subb. cbn [xty_eqb].
  destruct t, u; reflexivity.
Qed.
Lemma unify_spec a b t u : good a t -> good b u ->
  try_unify a b = match joinb t u with
                  | Some v => Ok (if ty_eqb t v then a else RCast (Some (One v)) a, if ty_eqb u v then b else RCast (Some (One v)) b, One v)
                  | None => Err "TypeMismatch"
                  end.
Proof.
  intros A B. unfold try_unify. rewrite (the_ty_good _ _ A), (the_ty_good _ _ B). destruct t, u; reflexivity.
Qed.
Lemma good_cast e t u : good e t -> ty_less t u = true -> good (RCast (Some (One u)) e) u.
Proof.
  intros G L. split.
  - reflexivity.
  - intros Lu imp. cbn. rewrite (g_again _ _ G Lu). cbn. rewrite ty_eqb_refl. reflexivity.
  - destruct (g_tree _ _ G) as (x & E & T & W). exists (ECast u x). cbn. rewrite E, W, T, cast_ok_less, L. auto.
Qed.
Definition coerce (t u : ty) (e : rexpr) : rexpr := if ty_eqb t u then e else RCast (Some (One u)) e.
Lemma good_coerce e t u : good e t -> subb t u = true -> good (coerce t u e) u.
Proof.
  intros G H. unfold coerce, subb in *. destruct (ty_eqb t u) eqn:E.
  - apply ty_eqb_eq in E as <-. exact G.
  - eapply good_cast; eauto.
Qed.
Lemma strip_coerce t u e : strip (coerce t u e) = strip e.
Proof. unfold coerce. destruct (ty_eqb t u); reflexivity. Qed.
Lemma joinb_sub t u v : joinb t u = Some v -> subb t v = true /\ subb u v = true.
Proof. destruct t, u; cbn; intros [=<-]; auto. Qed.
Lemma joinb_same t : joinb t t = Some t.
Proof. destruct t; reflexivity. Qed.
Lemma op_spec ok e t : good e t -> op_check ok e = if ok t then Ok tt else Err "WrongOperandType".
Proof. intros G. unfold op_check. rewrite (the_ty_good _ _ G). reflexivity. Qed.
Lemma ops_spec ok a b t u : good a t -> good b u -> ops_check ok a b = if ok t && ok u then Ok tt else Err "WrongOperandType".
Proof.
  intros A B. unfold ops_check. rewrite (op_spec _ _ _ A). destruct (ok t); cbn; [|reflexivity]. apply op_spec; assumption.
Qed.

Lemma bin_spec op a b ta tb : good a ta -> good b tb ->
  match bin_res op ta tb with
  | None => exists w, check_bin op a b = Err w
  | Some t => exists a' b' u v, check_bin op a b = Ok (a', b', One t) /\ good a' u /\ good b' v /\
      strict_bin t op u v = true /\ strip a' = strip a /\ strip b' = strip b /\ check_bin op a' b' = Ok (a', b', One t)
  end.
Proof.
  intros A B.
  assert (U : forall ok, (forall x y z, joinb x y = Some z -> ok x = true -> ok y = true -> ok z = true) ->
    match (if ok ta && ok tb then joinb ta tb else None) with
    | None => exists w, (let? _ := ops_check ok a b in try_unify a b) = Err w
    | Some t => exists a' b', (let? _ := ops_check ok a b in try_unify a b) = Ok (a', b', One t) /\ good a' t /\ good b' t /\ ok t = true /\
        strip a' = strip a /\ strip b' = strip b /\ (let? _ := ops_check ok a' b' in try_unify a' b') = Ok (a', b', One t)
    end).
  { intros ok Hok. rewrite (ops_spec _ _ _ _ _ A B). destruct (ok ta) eqn:Ka, (ok tb) eqn:Kb; cbn [andb rbind]; try (eexists; reflexivity).
    rewrite (unify_spec _ _ _ _ A B). destruct (joinb ta tb) as [v|] eqn:J; [|eexists; reflexivity].
    pose proof (joinb_sub _ _ _ J) as [Sa Sb]. fold (coerce ta v a) (coerce tb v b).
    assert (A' := good_coerce _ _ _ A Sa). assert (B' := good_coerce _ _ _ B Sb). assert (Kv : ok v = true) by eauto.
    exists (coerce ta v a), (coerce tb v b). rewrite !strip_coerce. repeat split; auto; try apply A'; try apply B'.
    rewrite (ops_spec _ _ _ _ _ A' B'), Kv. cbn. rewrite (unify_spec _ _ _ _ A' B'), joinb_same, ty_eqb_refl. reflexivity. }
  destruct op; cbn [bin_res check_bin].
  1-3,14-15: (specialize (U is_num); destruct (if is_num ta && is_num tb then joinb ta tb else None) as [t|];
      [destruct U as (a' & b' & E & A' & B' & K & Ea & Eb & E'); [intros [] [] []; cbn; congruence|];
       exists a', b', t, t; cbn; rewrite !ty_eqb_refl; repeat split; auto; try apply A'; try apply B'; destruct t; cbn in *; congruence
      |apply U; intros [] [] []; cbn; congruence]).
  (* Div *)
  - rewrite !(cast_spec _ _ _ A), !(cast_spec _ _ _ B).
    fold (coerce ta TUReal a) (coerce tb TUReal b).
    assert (D : forall e t t', good e t -> subb t t' = true -> try_cast (One t') e = Ok (coerce t t' e)) by (intros e t t' G H; rewrite (cast_spec _ _ _ G), H; reflexivity).
    assert (E : forall e t t', good e t -> subb t t' = false -> try_cast (One t') e = Err "CannotCast") by (intros e t t' G H; rewrite (cast_spec _ _ _ G), H; reflexivity).
    assert (X : forall t, subb t TUReal = true -> subb t TReal = true) by (intros []; cbn; congruence).
    assert (Y : subb TUReal TReal = true) by reflexivity.
    destruct (subb ta TUReal) eqn:Sa, (subb tb TUReal) eqn:Sb; cbn [andb is_ok ok_or rbind].
    + pose proof (good_coerce _ _ _ A Sa) as A'. pose proof (good_coerce _ _ _ B Sb) as B'.
      do 4 eexists. split; [reflexivity|]. split; [exact A'|]. split; [exact B'|]. rewrite !strip_coerce. repeat split; auto.
      rewrite !(D _ _ TUReal A' eq_refl), !(D _ _ TUReal B' eq_refl). reflexivity.
    + pose proof (good_coerce _ _ _ A Sa) as A1. rewrite (D _ _ _ A1 Y). cbn [rbind]. rewrite (X _ Sa). cbn [andb].
      pose proof (good_coerce _ _ _ A1 Y) as A'.
      destruct (subb tb TReal) eqn:Rb; [|rewrite (E _ _ _ B Rb); eexists; reflexivity].
      rewrite (D _ _ _ B Rb). pose proof (good_coerce _ _ _ B Rb) as B'.
      do 4 eexists. split; [reflexivity|]. split; [exact A'|]. split; [exact B'|]. rewrite !strip_coerce. repeat split; auto.
      rewrite !(E _ _ TUReal A' eq_refl), !(E _ _ TUReal B' eq_refl). cbn [is_ok ok_or rbind andb].
      rewrite !(D _ _ TReal A' eq_refl), !(D _ _ TReal B' eq_refl). reflexivity.
    + pose proof (good_coerce _ _ _ B Sb) as B1. rewrite (X _ Sb).
      destruct (subb ta TReal) eqn:Ra; cbn [andb]; [|rewrite (E _ _ _ A Ra); eexists; reflexivity].
      rewrite (D _ _ _ A Ra). cbn [rbind]. rewrite (D _ _ _ B1 Y). cbn [rbind].
      pose proof (good_coerce _ _ _ A Ra) as A'. pose proof (good_coerce _ _ _ B1 Y) as B'.
      do 4 eexists. split; [reflexivity|]. split; [exact A'|]. split; [exact B'|]. rewrite !strip_coerce. repeat split; auto.
      rewrite !(E _ _ TUReal A' eq_refl), !(E _ _ TUReal B' eq_refl). cbn [is_ok ok_or rbind andb].
      rewrite !(D _ _ TReal A' eq_refl), !(D _ _ TReal B' eq_refl). reflexivity.
    + destruct (subb ta TReal) eqn:Ra; cbn [andb]; [|rewrite (E _ _ _ A Ra); eexists; reflexivity].
      rewrite (D _ _ _ A Ra). cbn [rbind].
      destruct (subb tb TReal) eqn:Rb; [|rewrite (E _ _ _ B Rb); eexists; reflexivity].
      rewrite (D _ _ _ B Rb). cbn [rbind].
      pose proof (good_coerce _ _ _ A Ra) as A'. pose proof (good_coerce _ _ _ B Rb) as B'.
      do 4 eexists. split; [reflexivity|]. split; [exact A'|]. split; [exact B'|]. rewrite !strip_coerce. repeat split; auto.
      rewrite !(E _ _ TUReal A' eq_refl), !(E _ _ TUReal B' eq_refl). cbn [is_ok ok_or rbind andb].
      rewrite !(D _ _ TReal A' eq_refl), !(D _ _ TReal B' eq_refl). reflexivity.
  (* Mod *)
  - specialize (U is_whole). destruct (if is_whole ta && is_whole tb then joinb ta tb else None) as [t|].
    + destruct U as (a' & b' & E & A' & B' & K & Ea & Eb & E'); [intros [] [] []; cbn; congruence|].
      exists a', b', t, t. cbn. rewrite !ty_eqb_refl. repeat split; auto; try apply A'; try apply B'. destruct t; cbn in *; congruence.
    + apply U. intros [] [] []; cbn; congruence.
  (* And, Or *)
  - rewrite (ops_spec _ _ _ _ _ A B). destruct (is_bool ta) eqn:Ka, (is_bool tb) eqn:Kb; cbn [andb rbind]; try (eexists; reflexivity).
    apply ty_eqb_eq in Ka, Kb. subst. do 4 eexists. split; [reflexivity|]. split; [exact A|]. split; [exact B|]. repeat split.
    rewrite (ops_spec _ _ _ _ _ A B). reflexivity.
  - rewrite (ops_spec _ _ _ _ _ A B). destruct (is_bool ta) eqn:Ka, (is_bool tb) eqn:Kb; cbn [andb rbind]; try (eexists; reflexivity).
    apply ty_eqb_eq in Ka, Kb. subst. do 4 eexists. split; [reflexivity|]. split; [exact A|]. split; [exact B|]. repeat split.
    rewrite (ops_spec _ _ _ _ _ A B). reflexivity.
  (* Eq, Lt, Le, Ne, Ge, Gt *)
  - specialize (U (fun _ => true) ltac:(reflexivity)). cbn in U. rewrite (ops_spec _ _ _ _ _ A B) in U. cbn in U.
    destruct (joinb ta tb) as [t|].
    + destruct U as (a' & b' & E & A' & B' & _ & Ea & Eb & E'). rewrite E. cbn. rewrite (ops_spec _ _ _ _ _ A' B') in E'. cbn in E'.
      exists a', b', t, t. rewrite E'. cbn. rewrite ty_eqb_refl. repeat split; auto; try apply A'; apply B'.
    + destruct U as [w ->]. eexists; reflexivity.
  - specialize (U is_num ltac:(intros [] [] []; cbn; congruence)).
    destruct (is_num ta && is_num tb); [|destruct U as [w E]; exists w; destruct (ops_check is_num a b); cbn in E |- *; [rewrite E; reflexivity|injection E as ->; reflexivity|discriminate E]].
    destruct (joinb ta tb) as [t|]; [|destruct U as [w E]; exists w; destruct (ops_check is_num a b); cbn in E |- *; [rewrite E; reflexivity|injection E as ->; reflexivity|discriminate E]].
    destruct U as (a' & b' & E & A' & B' & K & Ea & Eb & E'). exists a', b', t, t.
    destruct (ops_check is_num a b); cbn in E |- *; try discriminate E. rewrite E. cbn.
    destruct (ops_check is_num a' b'); cbn in E' |- *; try discriminate E'. rewrite E'. cbn. rewrite ty_eqb_refl.
    repeat split; auto; try apply A'; try apply B'. destruct t; cbn in *; congruence.
  - specialize (U is_num ltac:(intros [] [] []; cbn; congruence)).
    destruct (is_num ta && is_num tb); [|destruct U as [w E]; exists w; destruct (ops_check is_num a b); cbn in E |- *; [rewrite E; reflexivity|injection E as ->; reflexivity|discriminate E]].
    destruct (joinb ta tb) as [t|]; [|destruct U as [w E]; exists w; destruct (ops_check is_num a b); cbn in E |- *; [rewrite E; reflexivity|injection E as ->; reflexivity|discriminate E]].
    destruct U as (a' & b' & E & A' & B' & K & Ea & Eb & E'). exists a', b', t, t.
    destruct (ops_check is_num a b); cbn in E |- *; try discriminate E. rewrite E. cbn.
    destruct (ops_check is_num a' b'); cbn in E' |- *; try discriminate E'. rewrite E'. cbn. rewrite ty_eqb_refl.
    repeat split; auto; try apply A'; try apply B'. destruct t; cbn in *; congruence.
  - specialize (U (fun _ => true) ltac:(reflexivity)). cbn in U. rewrite (ops_spec _ _ _ _ _ A B) in U. cbn in U.
    destruct (joinb ta tb) as [t|].
    + destruct U as (a' & b' & E & A' & B' & _ & Ea & Eb & E'). rewrite E. cbn. rewrite (ops_spec _ _ _ _ _ A' B') in E'. cbn in E'.
      exists a', b', t, t. rewrite E'. cbn. rewrite ty_eqb_refl. repeat split; auto; try apply A'; apply B'.
    + destruct U as [w ->]. eexists; reflexivity.
  - specialize (U is_num ltac:(intros [] [] []; cbn; congruence)).
    destruct (is_num ta && is_num tb); [|destruct U as [w E]; exists w; destruct (ops_check is_num a b); cbn in E |- *; [rewrite E; reflexivity|injection E as ->; reflexivity|discriminate E]].
    destruct (joinb ta tb) as [t|]; [|destruct U as [w E]; exists w; destruct (ops_check is_num a b); cbn in E |- *; [rewrite E; reflexivity|injection E as ->; reflexivity|discriminate E]].
    destruct U as (a' & b' & E & A' & B' & K & Ea & Eb & E'). exists a', b', t, t.
    destruct (ops_check is_num a b); cbn in E |- *; try discriminate E. rewrite E. cbn.
    destruct (ops_check is_num a' b'); cbn in E' |- *; try discriminate E'. rewrite E'. cbn. rewrite ty_eqb_refl.
    repeat split; auto; try apply A'; try apply B'. destruct t; cbn in *; congruence.
  - specialize (U is_num ltac:(intros [] [] []; cbn; congruence)).
    destruct (is_num ta && is_num tb); [|destruct U as [w E]; exists w; destruct (ops_check is_num a b); cbn in E |- *; [rewrite E; reflexivity|injection E as ->; reflexivity|discriminate E]].
    destruct (joinb ta tb) as [t|]; [|destruct U as [w E]; exists w; destruct (ops_check is_num a b); cbn in E |- *; [rewrite E; reflexivity|injection E as ->; reflexivity|discriminate E]].
    destruct U as (a' & b' & E & A' & B' & K & Ea & Eb & E'). exists a', b', t, t.
    destruct (ops_check is_num a b); cbn in E |- *; try discriminate E. rewrite E. cbn.
    destruct (ops_check is_num a' b'); cbn in E' |- *; try discriminate E'. rewrite E'. cbn. rewrite ty_eqb_refl.
    repeat split; auto; try apply A'; try apply B'. destruct t; cbn in *; congruence.
  (* Impl, CoImpl, Compare, CoCompare *)
  - specialize (U is_lat). destruct (if is_lat ta && is_lat tb then joinb ta tb else None) as [t|];
      [destruct U as (a' & b' & E & A' & B' & K & Ea & Eb & E'); [intros [] [] []; cbn; congruence|];
       exists a', b', t, t; cbn; rewrite !ty_eqb_refl; repeat split; auto; try apply A'; try apply B'; destruct t; cbn in *; congruence
      |apply U; intros [] [] []; cbn; congruence].
  - specialize (U is_lat). destruct (if is_lat ta && is_lat tb then joinb ta tb else None) as [t|];
      [destruct U as (a' & b' & E & A' & B' & K & Ea & Eb & E'); [intros [] [] []; cbn; congruence|];
       exists a', b', t, t; cbn; rewrite !ty_eqb_refl; repeat split; auto; try apply A'; try apply B'; destruct t; cbn in *; congruence
      |apply U; intros [] [] []; cbn; congruence].
  - specialize (U is_lat). destruct (if is_lat ta && is_lat tb then joinb ta tb else None) as [t|];
      [destruct U as (a' & b' & E & A' & B' & K & Ea & Eb & E'); [intros [] [] []; cbn; congruence|];
       exists a', b', t, t; cbn; rewrite !ty_eqb_refl; repeat split; auto; try apply A'; try apply B'; destruct t; cbn in *; congruence
      |apply U; intros [] [] []; cbn; congruence].
  - specialize (U is_lat). destruct (if is_lat ta && is_lat tb then joinb ta tb else None) as [t|];
      [destruct U as (a' & b' & E & A' & B' & K & Ea & Eb & E'); [intros [] [] []; cbn; congruence|];
       exists a', b', t, t; cbn; rewrite !ty_eqb_refl; repeat split; auto; try apply A'; try apply B'; destruct t; cbn in *; congruence
      |apply U; intros [] [] []; cbn; congruence].
Qed.

Lemma un_spec op a ta : good a ta ->
  match un_res op ta with
  | None => exists w, check_un op a = Err w
  | Some t => check_un op a = Ok (a, One t) /\ un_ok t op ta = true
  end.
Proof.
  intros A. destruct op; cbn [un_res check_un].
  1,2: rewrite (op_spec _ _ _ A); destruct (is_lat ta) eqn:K; cbn; [rewrite (the_ty_good _ _ A); cbn; split; [reflexivity|destruct ta; try discriminate; reflexivity]|eexists; reflexivity].
  1,2: rewrite (cast_spec _ _ _ A); destruct ta; cbn; try (eexists; reflexivity); split; reflexivity.
  rewrite (the_ty_good _ _ A). cbn. split; [reflexivity|destruct ta; reflexivity].
Qed.

Definition done (e e' : rexpr) (t : ty) : Prop := types false e (One t) /\ good e' t /\ strip e' = e /\ is_lit e' = is_lit e.
(** The outcome where no procedure may be called. *)
Definition outcome (e : rexpr) : Prop :=
  (exists t e', visit false e = Ok e' /\ done e e' t) \/ (exists w, visit false e = Err w /\ forall t, ~ types false e t).

Lemma visits_spec args : Forall outcome args ->
  (exists args', visits false args = Ok args' /\ Forall2 (fun a a' => exists t, done a a' t) args args') \/
  (exists w, visits false args = Err w /\ Exists (fun a => forall t, ~ types false a t) args).
Proof.
  induction 1 as [|a l [(t & a' & E & D)|(w & E & N)] _ IH]; cbn.
  - left. eexists. split; constructor.
  - rewrite E. cbn. destruct IH as [(l' & -> & F)|(w & -> & X)]; cbn.
    + left. eexists. split; [reflexivity|]. constructor; eauto.
    + right. eexists. split; [reflexivity|]. apply Exists_cons_tl. exact X.
  - rewrite E. right. eexists. split; [reflexivity|]. apply Exists_cons_hd. exact N.
Qed.

(** An argument for the parameter [p]. *)
Definition arg_good (p : param) (a : rexpr) : Prop :=
  good a (fst p) /\ (snd p = true -> exists x, tree a = Some x /\ lit_under x = true) /\ (snd p = true -> fst p = TUInt -> is_lit a = true).
Lemma check_args_spec ins : forall args args', List.length args' = List.length ins -> Forall2 (fun a a' => exists t, done a a' t) args args' ->
  (exists l, check_args ins args' = Ok l /\ Forall2 fitsb ins args /\ Forall2 arg_good ins l /\ map strip l = args) \/
  (exists w, check_args ins args' = Err w /\ ~ Forall2 fitsb ins args).
Proof.
  induction ins as [|[u lo] ins IH]; intros args args' L F.
  - destruct args'; [|discriminate]. inversion F; subst. left. exists []. repeat split; constructor.
  - destruct args' as [|a' args']; [discriminate|]. inversion F as [|a ? l ? (t & T & G & E & Li) F' Q1 Q2]; subst.
    cbn [check_args]. destruct (lo && negb (is_lit a')) eqn:K.
    { right. eexists. split; [reflexivity|]. intros H; inversion H as [|? ? ? ? [X _] _]; subst. cbn in X.
      destruct lo; [|discriminate]. rewrite Li in K. rewrite X in K by reflexivity. discriminate. }
    rewrite (cast_spec _ _ _ G). destruct (subb t u) eqn:Su; cbn [rbind].
    2:{ right. eexists. split; [reflexivity|]. intros H; inversion H as [|? ? ? ? [_ (t' & T' & X)] _]; subst. cbn in X.
        pose proof (types_det _ _ _ _ T T') as [=<-]. congruence. }
    fold (coerce t u a'). injection L as L. destruct (IH l args' L F') as [(l' & -> & F1 & F2 & E1)|(w & -> & N)]; cbn [rbind].
    + left. eexists. split; [reflexivity|]. split; [|split].
      * constructor; [|exact F1]. split; cbn; [|eauto]. rewrite <- Li. intros ->. cbn in K. destruct (is_lit a'); [reflexivity|discriminate].
      * constructor; [|exact F2]. split; [apply good_coerce; assumption|]. cbn. split.
        -- intros ->. cbn in K. destruct (g_tree _ _ G) as (x & Ex & Tx & Wx). destruct a'; try discriminate K.
           cbn in Ex. destruct (node_ty o); [|discriminate]. injection Ex as <-. unfold coerce. destruct (ty_eqb t u).
           ++ pose proof (g_ty _ _ G) as Q. cbn in Q. subst o. cbn. eexists. split; reflexivity.
           ++ pose proof (g_ty _ _ G) as Q. cbn in Q. subst o. cbn. eexists. split; reflexivity.
        -- intros -> ->. cbn in K. unfold coerce. destruct t; try discriminate Su. destruct (is_lit a') eqn:Q; [exact Q|discriminate].
      * cbn. rewrite strip_coerce, E1. reflexivity.
    + right. eexists. split; [reflexivity|]. intros H; inversion H; subst; auto.
Qed.
Lemma Forall2_len {A B} (R : A -> B -> Prop) l l' : Forall2 R l l' -> List.length l = List.length l'.
Proof. induction 1; cbn; congruence. Qed.
Lemma check_call_spec ins args args' : Forall2 (fun a a' => exists t, done a a' t) args args' ->
  (exists l, check_call ins args' = Ok l /\ Forall2 fitsb ins args /\ Forall2 arg_good ins l /\ map strip l = args) \/
  (exists w, check_call ins args' = Err w /\ ~ Forall2 fitsb ins args).
Proof.
  intros F. unfold check_call. destruct (Nat.eqb_spec (List.length args') (List.length ins)) as [L|L].
  - apply check_args_spec; assumption.
  - right. eexists. split; [reflexivity|]. intros H. apply L. apply Forall2_len in H. apply Forall2_len in F. congruence.
Qed.
Lemma args_again ins l : Forall2 arg_good ins l -> (forall p, In p ins -> snd p = true -> fst p = TUInt) -> check_call ins l = Ok l.
Proof.
  intros H Lu. unfold check_call. rewrite (Forall2_len _ _ _ H), Nat.eqb_refl.
  induction H as [|[u lo] a ins l (G & _ & K) _ IH]; [reflexivity|]. cbn.
  assert (E : lo && negb (is_lit a) = false).
  { destruct lo; [|reflexivity]. rewrite K; [reflexivity|reflexivity|]. apply (Lu (u, true)); [left|]; reflexivity. }
  rewrite E, (cast_spec _ _ _ G). unfold subb. cbn. rewrite ty_eqb_refl. cbn. rewrite IH; [reflexivity|]. intros p Hp. apply Lu. right. exact Hp.
Qed.
Lemma visits_again ins l : Forall2 arg_good ins l -> literals_uint S -> visits false l = Ok l.
Proof.
  intros H Lu. induction H as [|p a ins l (G & _ & _) _ IH]; cbn; [reflexivity|]. rewrite (g_again _ _ G Lu). cbn. rewrite IH. reflexivity.
Qed.
Lemma args_tree ins l : Forall2 arg_good ins l -> exists xs, trees l = Some xs /\ strict_args S pre ins xs.
Proof.
  induction 1 as [|p a ins l (G & Lt & _) _ (xs & E & F)]; cbn.
  - exists []. split; [reflexivity|constructor].
  - destruct (g_tree _ _ G) as (x & Ex & Tx & Wx). rewrite Ex, E. eexists. split; [reflexivity|]. constructor; [|exact F].
    repeat split; auto. intros P. destruct (Lt P) as (x' & Ex' & Lx). congruence.
Qed.
Lemma strict_args_types ins xs : strict_args S pre ins xs -> forallb strict xs = true /\ map ty_of xs = map fst ins.
Proof.
  induction 1 as [|p a ins xs (W & T & _) _ [IH1 IH2]]; cbn; [auto|]. rewrite W, IH1, T, IH2. auto.
Qed.

Lemma parsed_forall args : forallb parsed args = true -> Forall (fun e => parsed e = true -> outcome e) args -> Forall outcome args.
Proof.
  induction 2; constructor; cbn in *; apply andb_true_iff in H as [A B]; auto.
Qed.
Lemma not_any imp o f args : Exists (fun a => forall t, ~ types false a t) args -> forall t, ~ types imp (RCall o f args) t.
Proof.
  intros X t H. apply types_call in H as (c & _ & H).
  assert (F : exists ins, Forall2 fitsb ins args) by (destruct c; [exists ins; apply H|exists ins; apply H|destruct H]).
  destruct F as [ins F]. clear H. revert X. induction F as [|p a ins args [_ (u & T & _)] _ IH]; intros X; inversion X as [? ? N|]; subst; [exact (N _ T)|auto].
Qed.

Lemma finish_none t mk : finish None t mk = Ok (mk (Some t)).
Proof. reflexivity. Qed.
Lemma finish_same t mk : finish (Some t) t mk = Ok (mk (Some t)).
Proof. unfold finish. rewrite xty_eqb_refl. reflexivity. Qed.

(** A call of a procedure as a right-hand side. *)
Definition proc_done (e e' : rexpr) (outs : list ty) : Prop :=
  types true e (Tup outs) /\ strip e' = e /\ rty e' = Some (Tup outs) /\ (literals_uint S -> visit true e' = Ok e') /\
  exists t f ins xs, s_call S f = Some (CProc ins outs) /\ tree e' = Some (ECall t f xs) /\ strict_args S pre ins xs.

Lemma call_outcome imp f args : Forall outcome args ->
  let e := RCall None f args in
  (exists t e', visit imp e = Ok e' /\ types imp e (One t) /\ good e' t /\ strip e' = e /\ is_lit e' = is_lit e) \/
  (imp = true /\ exists outs e', visit imp e = Ok e' /\ proc_done e e' outs) \/
  (exists w, visit imp e = Err w /\ forall t, ~ types imp e t).
Proof.
  intros F e. unfold e. rewrite visit_call. destruct (visits_spec _ F) as [(args' & -> & F')|(w & -> & X)]; cbn [rbind].
  2:{ right; right. eexists. split; [reflexivity|]. intros t. apply not_any. exact X. }
  destruct (s_call S f) as [[ins outs|ins out|]|] eqn:Ef.
  - destruct imp; cbn [negb].
    + destruct (check_call_spec ins _ _ F') as [(l & -> & F1 & F2 & E)|(w & -> & N)]; cbn [rbind].
      * right; left. split; [reflexivity|]. rewrite finish_none. eexists outs, _. split; [reflexivity|].
        assert (Ty : types true (RCall None f args) (Tup outs)) by (apply types_call; eexists; split; [exact Ef|]; cbn; auto).
        split; [exact Ty|]. split; [cbn; rewrite E; reflexivity|]. split; [reflexivity|]. split.
        -- intros Lu. rewrite visit_call, (visits_again _ _ F2 Lu). cbn [rbind]. rewrite Ef. cbn [negb].
           rewrite (args_again _ _ F2 (Lu _ _ Ef)). cbn [rbind]. apply finish_same.
        -- destruct (args_tree _ _ F2) as (xs & Ex & Fx). rewrite tree_call, Ex. cbn.
           destruct outs as [|t [|]]; do 4 eexists; (split; [exact Ef|]); (split; [reflexivity|exact Fx]).
      * right; right. eexists. split; [reflexivity|]. intros t H. apply types_call in H as (c & Ec & H). rewrite Ef in Ec. injection Ec as <-. tauto.
    + right; right. eexists. split; [reflexivity|]. intros t H. apply types_call in H as (c & Ec & H). rewrite Ef in Ec. injection Ec as <-. destruct H. discriminate.
  - destruct (check_call_spec ins _ _ F') as [(l & -> & F1 & F2 & E)|(w & -> & N)]; cbn [rbind].
    + left. rewrite finish_none. eexists out, _. split; [reflexivity|].
      split; [apply types_call; eexists; split; [exact Ef|]; cbn; auto|]. split; [|split; [cbn; rewrite E; reflexivity|reflexivity]].
      split; [reflexivity| |].
      * intros Lu imp'. rewrite visit_call, (visits_again _ _ F2 Lu). cbn [rbind]. rewrite Ef.
        rewrite (args_again _ _ F2 (Lu _ _ Ef)). cbn [rbind]. apply finish_same.
      * destruct (args_tree _ _ F2) as (xs & Ex & Fx). rewrite tree_call, Ex. cbn. eexists. split; [reflexivity|]. split; [reflexivity|].
        cbn. destruct (strict_args_types _ _ Fx) as [-> ->]. rewrite Ef, ty_eqb_refl. cbn. apply tys_eqb_eq. reflexivity.
    + right; right. eexists. split; [reflexivity|]. intros t H. apply types_call in H as (c & Ec & H). rewrite Ef in Ec. injection Ec as <-. tauto.
  - right; right. eexists. split; [reflexivity|]. intros t H. apply types_call in H as (c & Ec & H). rewrite Ef in Ec. injection Ec as <-. exact H.
  - right; right. eexists. split; [reflexivity|]. intros t H. apply types_call in H as (c & Ec & H). congruence.
Qed.

(** Apart from calls, it does not matter whether procedures may be called. *)
Definition not_call (e : rexpr) : Prop := match e with RCall _ _ _ => False | _ => True end.
Lemma imp_visit e imp : not_call e -> visit imp e = visit false e.
Proof. destruct e; try reflexivity. intros []. Qed.
Lemma imp_types e imp t : not_call e -> types imp e t <-> types false e t.
Proof.
  destruct e; intros H; try destruct H; rewrite ?types_ite, ?types_bin, ?types_un, ?types_quant, ?types_let; try reflexivity;
    (split; intros K; inversion K; subst; econstructor; eauto).
Qed.

Lemma visit_spec e : parsed e = true -> outcome e.
Proof.
  induction e as [o x|o f args IH|o c a b IHc IHa IHb|o op a b IHa IHb|o op a IHa|o a _|o op xs a IHa|o x v a IHv IHa|o l] using rexpr_rect';
    destruct o; cbn [parsed]; try discriminate; intros P.
  - unfold outcome. cbn. destruct (s_var S x) as [k|] eqn:E.
    + destruct (pre && match k with KOutput => true | _ => false end) eqn:K.
      * right. eexists. split; [reflexivity|]. intros t H; inversion H as [? ? ? k' E' N| | | | | | | | | | | | | | | | | |]; subst.
        rewrite E in E'. injection E' as <-. apply andb_true_iff in K as [K1 K2]. destruct k; try discriminate. exact (N K1 eq_refl).
      * left. exists (ity x). eexists. split; [reflexivity|]. split; [|split; [split|split; reflexivity]].
        -- eapply ty_var; [exact E|]. intros -> ->. discriminate.
        -- reflexivity.
        -- intros _ imp. cbn. rewrite E, K. cbn. rewrite ty_eqb_refl. reflexivity.
        -- eexists. split; [reflexivity|]. split; [reflexivity|]. cbn. unfold readable. rewrite E. destruct k, pre; try discriminate; reflexivity.
    + right. eexists. split; [reflexivity|]. intros t H; inversion H; congruence.
  - destruct (call_outcome false f args (parsed_forall _ P IH)) as [(t & e' & E & T & G & St & Li)|[[? _]|X]]; [|discriminate|].
    + left. exists t, e'. unfold done. auto.
    + right. exact X.
  - apply andb_true_iff in P as [P Pb]. apply andb_true_iff in P as [Pc Pa]. specialize (IHc Pc). specialize (IHa Pa). specialize (IHb Pb).
    unfold outcome. cbn [Tycheck.visit].
    destruct IHc as [(tc & c' & Ec & Tc & Gc & Sc & _)|(w & Ec & N)]; rewrite Ec; cbn [rbind].
    2:{ right. eexists. split; [reflexivity|]. intros t H. apply types_ite in H as (? & ? & ? & _ & H & _). eapply N; eauto. }
    destruct IHa as [(ta & a' & Ea & Ta & Ga & Sa & _)|(w & Ea & N)]; rewrite Ea; cbn [rbind].
    2:{ right. eexists. split; [reflexivity|]. intros t H. apply types_ite in H as (? & ? & ? & _ & _ & H & _). eapply N; eauto. }
    destruct IHb as [(tb & b' & Eb & Tb & Gb & Sb & _)|(w & Eb & N)]; rewrite Eb; cbn [rbind].
    2:{ right. eexists. split; [reflexivity|]. intros t H. apply types_ite in H as (? & ? & ? & _ & _ & _ & H & _). eapply N; eauto. }
    rewrite (cast_spec _ _ _ Gc). destruct (ty_eqb_spec tc TBool) as [->|Nc].
    2:{ right. exists "CannotCast". split; [destruct tc; try reflexivity; congruence|]. intros t H. apply types_ite in H as (? & ? & ? & _ & H & _).
        pose proof (types_det _ _ _ _ Tc H) as [=]. auto. }
    cbn [subb ty_eqb orb rbind]. rewrite (unify_spec _ _ _ _ Ga Gb). destruct (joinb ta tb) as [t|] eqn:J; cbn [rbind].
    2:{ right. eexists. split; [reflexivity|]. intros t H. apply types_ite in H as (ta' & tb' & ? & _ & _ & A & B & J').
        pose proof (types_det _ _ _ _ Ta A) as [=<-]. pose proof (types_det _ _ _ _ Tb B) as [=<-]. congruence. }
    fold (coerce ta t a') (coerce tb t b'). pose proof (joinb_sub _ _ _ J) as [Ja Jb].
    pose proof (good_coerce _ _ _ Ga Ja) as Ga'. pose proof (good_coerce _ _ _ Gb Jb) as Gb'.
    left. exists t. eexists. split; [reflexivity|]. split; [|split; [split|split]].
    + apply types_ite. exists ta, tb, t. auto.
    + reflexivity.
    + intros Lu imp. cbn [Tycheck.visit]. rewrite (g_again _ _ Gc Lu), (g_again _ _ Ga' Lu), (g_again _ _ Gb' Lu). cbn [rbind].
      rewrite (cast_spec _ _ _ Gc). cbn [subb ty_eqb orb rbind]. rewrite (unify_spec _ _ _ _ Ga' Gb'), joinb_same, ty_eqb_refl. cbn [rbind]. apply finish_same.
    + destruct (g_tree _ _ Gc) as (xc & Xc & Yc & Zc). destruct (g_tree _ _ Ga') as (xa & Xa & Ya & Za). destruct (g_tree _ _ Gb') as (xb & Xb & Yb & Zb).
      cbn [tree]. rewrite Xc, Xa, Xb. cbn. eexists. split; [reflexivity|]. split; [reflexivity|]. cbn. rewrite Zc, Za, Zb, Yc, Ya, Yb, !ty_eqb_refl. reflexivity.
    + cbn. rewrite !strip_coerce, Sc, Sa, Sb. reflexivity.
    + reflexivity.
  - apply andb_true_iff in P as [Pa Pb]. specialize (IHa Pa). specialize (IHb Pb). unfold outcome. cbn [Tycheck.visit].
    destruct IHa as [(ta & a' & Ea & Ta & Ga & Sa & _)|(w & Ea & N)]; rewrite Ea; cbn [rbind].
    2:{ right. eexists. split; [reflexivity|]. intros t H. apply types_bin in H as (? & ? & ? & _ & H & _). eapply N; eauto. }
    destruct IHb as [(tb & b' & Eb & Tb & Gb & Sb & _)|(w & Eb & N)]; rewrite Eb; cbn [rbind].
    2:{ right. eexists. split; [reflexivity|]. intros t H. apply types_bin in H as (? & ? & ? & _ & _ & H & _). eapply N; eauto. }
    pose proof (bin_spec op _ _ _ _ Ga Gb) as X. destruct (bin_res op ta tb) as [t|] eqn:R.
    + destruct X as (a'' & b'' & u & v & E & Gu & Gv & St & Ea' & Eb' & Ag). rewrite E. cbn [rbind]. left. exists t. eexists.
      split; [reflexivity|]. split; [|split; [split|split]].
      * apply types_bin. exists ta, tb, t. auto.
      * reflexivity.
      * intros Lu imp. cbn [Tycheck.visit]. rewrite (g_again _ _ Gu Lu), (g_again _ _ Gv Lu). cbn [rbind]. rewrite Ag. cbn [rbind]. apply finish_same.
      * destruct (g_tree _ _ Gu) as (xa & Xa & Ya & Za). destruct (g_tree _ _ Gv) as (xb & Xb & Yb & Zb).
        cbn [tree]. rewrite Xa, Xb. cbn. eexists. split; [reflexivity|]. split; [reflexivity|]. cbn. rewrite Za, Zb, Ya, Yb, St. reflexivity.
      * cbn. rewrite Ea', Eb', Sa, Sb. reflexivity.
      * reflexivity.
    + destruct X as [w ->]. right. exists w. split; [reflexivity|]. intros t H. apply types_bin in H as (ta' & tb' & ? & _ & A & B & R').
      pose proof (types_det _ _ _ _ Ta A) as [=<-]. pose proof (types_det _ _ _ _ Tb B) as [=<-]. congruence.
  - specialize (IHa P). unfold outcome. cbn [Tycheck.visit].
    destruct IHa as [(ta & a' & Ea & Ta & Ga & Sa & _)|(w & Ea & N)]; rewrite Ea; cbn [rbind].
    2:{ right. eexists. split; [reflexivity|]. intros t H. apply types_un in H as (? & ? & _ & H & _). eapply N; eauto. }
    pose proof (un_spec op _ _ Ga) as X. destruct (un_res op ta) as [t|] eqn:R.
    + destruct X as [E Uk]. rewrite E. cbn [rbind]. left. exists t. eexists. split; [reflexivity|]. split; [|split; [split|split]].
      * apply types_un. exists ta, t. auto.
      * reflexivity.
      * intros Lu imp. cbn [Tycheck.visit]. rewrite (g_again _ _ Ga Lu). cbn [rbind]. rewrite E. cbn [rbind]. apply finish_same.
      * destruct (g_tree _ _ Ga) as (xa & Xa & Ya & Za). cbn [tree]. rewrite Xa. cbn. eexists. split; [reflexivity|]. split; [reflexivity|].
        cbn. rewrite Za, Ya, Uk. reflexivity.
      * cbn. rewrite Sa. reflexivity.
      * reflexivity.
    + destruct X as [w ->]. right. exists w. split; [reflexivity|]. intros t H. apply types_un in H as (ta' & ? & _ & A & R').
      pose proof (types_det _ _ _ _ Ta A) as [=<-]. congruence.
  - specialize (IHa P). unfold outcome. cbn [Tycheck.visit].
    destruct IHa as [(ta & a' & Ea & Ta & Ga & Sa & _)|(w & Ea & N)]; rewrite Ea; cbn [rbind].
    2:{ right. eexists. split; [reflexivity|]. intros t H. apply types_quant in H as [_ H]. eapply N; eauto. }
    rewrite (the_ty_good _ _ Ga). cbn [rbind]. set (q := match op with QInf | QSup => TEUReal | _ => TBool end).
    assert (Q : op_check (match op with QInf | QSup => is_eur | QForall | QExists => is_bool end) a' = if ty_eqb ta q then Ok tt else Err "WrongOperandType").
    { rewrite (op_spec _ _ _ Ga). unfold q. destruct op; reflexivity. }
    rewrite Q. destruct (ty_eqb ta q) eqn:Eq; cbn [rbind].
    + apply ty_eqb_eq in Eq. left. exists ta. eexists. split; [reflexivity|]. split; [|split; [split|split]].
      * apply types_quant. fold q. rewrite Eq in *. auto.
      * reflexivity.
      * intros Lu imp. cbn [Tycheck.visit]. rewrite (g_again _ _ Ga Lu). cbn [rbind]. rewrite (the_ty_good _ _ Ga). cbn [rbind]. rewrite Q. cbn [rbind]. apply finish_same.
      * destruct (g_tree _ _ Ga) as (xa & Xa & Ya & Za). cbn [tree]. rewrite Xa. cbn. eexists. split; [reflexivity|]. split; [exact Ya|].
        cbn. rewrite Za, Ya, Eq. unfold q. destruct op; reflexivity.
      * cbn. rewrite Sa. reflexivity.
      * reflexivity.
    + right. eexists. split; [reflexivity|]. intros t H. apply types_quant in H as [-> H].
      pose proof (types_det _ _ _ _ Ta H) as [=E]. subst. unfold q in Eq. rewrite ty_eqb_refl in Eq. discriminate.
  - apply andb_true_iff in P as [Pv Pa]. specialize (IHv Pv). specialize (IHa Pa). unfold outcome. cbn [Tycheck.visit].
    destruct IHv as [(tv & v' & Ev & Tv & Gv & Sv & _)|(w & Ev & N)]; rewrite Ev; cbn [rbind].
    2:{ right. eexists. split; [reflexivity|]. intros t H. apply types_let in H as (H & _). eapply N; eauto. }
    rewrite (the_ty_good _ _ Gv). cbn [rbind xty_eqb]. destruct (ty_eqb tv (ity x)) eqn:Ex; cbn [negb].
    2:{ right. eexists. split; [reflexivity|]. intros t H. apply types_let in H as (H & _). pose proof (types_det _ _ _ _ Tv H) as [=->]. rewrite ty_eqb_refl in Ex. discriminate. }
    destruct IHa as [(ta & a' & Ea & Ta & Ga & Sa & _)|(w & Ea & N)]; rewrite Ea; cbn [rbind].
    2:{ right. eexists. split; [reflexivity|]. intros t H. apply types_let in H as (_ & H & _). eapply N; eauto. }
    rewrite (the_ty_good _ _ Ga). cbn [rbind].
    left. exists ta. eexists. split; [reflexivity|]. split; [|split; [split|split]].
    + apply types_let. apply ty_eqb_eq in Ex as ->. eauto.
    + reflexivity.
    + intros Lu imp. cbn [Tycheck.visit]. rewrite (g_again _ _ Gv Lu). cbn [rbind]. rewrite (the_ty_good _ _ Gv). cbn [rbind xty_eqb]. rewrite Ex. cbn [negb].
      rewrite (g_again _ _ Ga Lu). cbn [rbind]. rewrite (the_ty_good _ _ Ga). cbn [rbind]. apply finish_same.
    + destruct (g_tree _ _ Ga) as (xa & Xa & Ya & Za). destruct (g_tree _ _ Gv) as (xv & Xv & Yv & Zv). cbn [tree]. rewrite Xa, Xv.
      eexists. split; [reflexivity|]. split; [exact Ya|]. cbn. rewrite Za, Zv, Yv, Ex. reflexivity.
    + cbn. rewrite Sa, Sv. reflexivity.
    + reflexivity.
  - left. unfold done. exists (lit_ty l). eexists. cbn. split; [reflexivity|]. split; [constructor|]. split; [split|split; reflexivity].
    + destruct l; reflexivity.
    + intros _ imp. cbn. unfold lit_xty. rewrite ty_eqb_refl. reflexivity.
    + cbn. eexists. split; [reflexivity|]. split; [reflexivity|]. cbn. destruct l; cbn; auto.
Qed.

(** The outcome where a procedure may be called. *)
Lemma visit_top e imp : parsed e = true ->
  (exists t e', visit imp e = Ok e' /\ types imp e (One t) /\ good e' t /\ strip e' = e /\ is_lit e' = is_lit e) \/
  (imp = true /\ exists outs e', visit imp e = Ok e' /\ proc_done e e' outs) \/
  (exists w, visit imp e = Err w /\ forall t, ~ types imp e t).
Proof.
  intros P. assert (C : not_call e \/ exists f args, e = RCall None f args).
  { destruct e; cbn; auto. destruct o; [discriminate P|]. eauto. }
  destruct C as [C|(f & args & ->)].
  - destruct (visit_spec e P) as [(t & e' & E & T & R)|(w & E & N)].
    + left. exists t, e'. rewrite imp_visit, imp_types by exact C. auto.
    + right; right. exists w. rewrite imp_visit by exact C. split; [exact E|]. intros t. rewrite imp_types by exact C. apply N.
  - apply call_outcome. apply parsed_forall; [exact P|]. apply Forall_forall. intros a _. apply visit_spec.
Qed.
End Expr.
