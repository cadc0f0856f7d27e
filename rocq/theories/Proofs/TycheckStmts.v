(** What the type checker does to statements. *)
From Coq Require Import Bool List String ZArith NArith QArith.
From Verif.Model Require Import Syntax Tycheck.
From Verif.Spec Require Import Eur Sem Wp Typing.
From Verif.Proofs Require Import TycheckBase TycheckProofs.
Import ListNotations.
Local Open Scope string_scope.

Section RSInd.
  Variable P : rstmt -> Prop.
  Hypothesis HSeq : forall b, Forall P b -> P (RSeq b).
  Hypothesis HVar : forall x i, P (RVarDecl x i).
  Hypothesis HAssign : forall xs e, P (RAssign xs e).
  Hypothesis HHavoc : forall d xs, P (RHavoc d xs).
  Hypothesis HAssert : forall d e, P (RAssert d e).
  Hypothesis HAssume : forall d e, P (RAssume d e).
  Hypothesis HCompare : forall d e, P (RCompare d e).
  Hypothesis HNegate : forall d, P (RNegate d).
  Hypothesis HValidate : forall d, P (RValidate d).
  Hypothesis HTick : forall e, P (RTick e).
  Hypothesis HWeigh : forall e, P (RWeigh e).
  Hypothesis HDemonic : forall a b, Forall P a -> Forall P b -> P (RDemonic a b).
  Hypothesis HAngelic : forall a b, Forall P a -> Forall P b -> P (RAngelic a b).
  Hypothesis HAdditive : forall a b, Forall P a -> Forall P b -> P (RAdditive a b).
  Hypothesis HIf : forall c a b, Forall P a -> Forall P b -> P (RIf c a b).
  Hypothesis HWhile : forall c b, Forall P b -> P (RWhile c b).
  Hypothesis HAnn : forall n args s, P s -> P (RAnn n args s).
  Hypothesis HLabel : forall x, P (RLabel x).
  Fixpoint rstmt_rect' (s : rstmt) : P s :=
    let go := fix go l : Forall P l :=
      match l with nil => Forall_nil P | s :: l' => Forall_cons s (rstmt_rect' s) (go l') end in
    match s with
    | RSeq b => HSeq b (go b)
    | RVarDecl x i => HVar x i
    | RAssign xs e => HAssign xs e
    | RHavoc d xs => HHavoc d xs
    | RAssert d e => HAssert d e
    | RAssume d e => HAssume d e
    | RCompare d e => HCompare d e
    | RNegate d => HNegate d
    | RValidate d => HValidate d
    | RTick e => HTick e
    | RWeigh e => HWeigh e
    | RDemonic a b => HDemonic a b (go a) (go b)
    | RAngelic a b => HAngelic a b (go a) (go b)
    | RAdditive a b => HAdditive a b (go a) (go b)
    | RIf c a b => HIf c a b (go a) (go b)
    | RWhile c b => HWhile c b (go b)
    | RAnn n args s => HAnn n args s (rstmt_rect' s)
    | RLabel x => HLabel x
    end.
End RSInd.

Section Stmts.
Variable S : sigs.
Hypothesis Lu : literals_uint S.
Notation types := (types S false).
Notation good := (good S false).
Notation visit_stmt := (visit_stmt S).
Notation visit_block := (visit_block S).

Lemma go_block b : (fix block (b : list rstmt) : res (list rstmt) :=
    match b with [] => Ok [] | s :: b' => let? s' := visit_stmt s in let? b'' := block b' in Ok (s' :: b'') end) b = visit_block b.
Proof. induction b as [|s b IH]; cbn; [reflexivity|]. destruct (visit_stmt s); cbn; [rewrite IH|..]; reflexivity. Qed.
Lemma go_btree b : (fix block (b : list rstmt) : option (list stmt) :=
    match b with [] => Some [] | s :: b' => match stree s, block b' with Some s', Some b'' => Some (s' :: b'') | _, _ => None end end) b = btree b.
Proof. induction b as [|s b IH]; cbn; [reflexivity|]. rewrite IH. reflexivity. Qed.

(** * Assignments *)
Lemma strict_plain y x : strict S false x = true -> ty_of x = ity y -> strict_assign S [y] x.
Proof.
  intros W T. unfold strict_assign. destruct x; try (exists y; auto; fail).
  cbn in W. apply andb_true_iff in W as [W1 W2]. destruct (s_call S f) as [[| |]|] eqn:E; try discriminate W2.
  exists y. cbn. rewrite E, W1, W2. auto.
Qed.
Lemma fits_det e t u imp : types imp e (One t) -> fits_ty S false imp e u <-> subb t u = true.
Proof.
  intros T. split.
  - intros (t' & T' & I). pose proof (types_det _ _ _ _ _ _ T T') as [=<-]. apply included_iff. exact I.
  - intros H. exists t. split; [exact T|]. apply included_iff. exact H.
Qed.
Lemma fits_none e u imp : (forall t, ~ types imp e t) -> ~ fits_ty S false imp e u.
Proof. intros N (t & T & _). exact (N _ T). Qed.
Lemma fits_tup e u imp ts : types imp e (Tup ts) -> ~ fits_ty S false imp e u.
Proof. intros T (t & T' & _). pose proof (types_det _ _ _ _ _ _ T T'). discriminate. Qed.
Lemma assigns_one e t xs : types true e (One t) -> assigns S xs e <-> exists x, xs = [x] /\ subb t (ity x) = true.
Proof.
  intros T. unfold assigns. split.
  - intros [(x & -> & F)|T']; [|pose proof (types_det _ _ _ _ _ _ T T'); discriminate]. exists x. split; [reflexivity|]. apply (fits_det _ _ _ _ T) in F. exact F.
  - intros (x & -> & H). left. exists x. split; [reflexivity|]. apply (fits_det _ _ _ _ T). exact H.
Qed.
Lemma assigns_tup e ts xs : types true e (Tup ts) -> assigns S xs e <-> map ity xs = ts.
Proof.
  intros T. unfold assigns. split.
  - intros [(x & -> & F)|T']; [destruct (fits_tup _ _ _ _ T F)|]. pose proof (types_det _ _ _ _ _ _ T T') as [=]. auto.
  - intros <-. right. exact T.
Qed.
Lemma assigns_none e xs : (forall t, ~ types true e t) -> ~ assigns S xs e.
Proof. intros N [(x & -> & F)|T]; [exact (fits_none _ _ _ N F)|exact (N _ T)]. Qed.

Definition rhs_done (xs : list ident) (e e' : rexpr) : Prop :=
  assigns S xs e /\ strip e' = e /\ exists x, tree e' = Some x /\ strict_assign S xs x.

Lemma cast_tup e ts u : rty e = Some (Tup ts) -> try_cast (One u) e = Err "CannotCast".
Proof. intros E. unfold try_cast, the_ty. rewrite E. reflexivity. Qed.

Lemma coerce_again t u e : good (coerce t u e) u -> try_cast (One u) (coerce t u e) = Ok (coerce t u e).
Proof. intros G. rewrite (cast_spec _ _ _ _ _ G). unfold subb. rewrite ty_eqb_refl. reflexivity. Qed.

Lemma var_spec x e : parsed e = true ->
  (exists e', visit_var_decl S x (Some e) = Ok (Some e') /\ visit_var_decl S x (Some e') = Ok (Some e') /\ rhs_done [x] e e') \/
  (exists w, visit_var_decl S x (Some e) = Err w /\ ~ assigns S [x] e).
Proof.
  intros P. cbn [visit_var_decl]. destruct (visit_top S false e true P) as [(t & e' & E & T & G & St & _)|[(_ & outs & e' & E & T & St & Ty & Ag & Tr)|(w & E & N)]];
    rewrite E; cbn [rbind].
  - rewrite (the_ty_good _ _ _ _ G). cbn [rbind]. rewrite (cast_spec _ _ _ _ _ G). destruct (subb t (ity x)) eqn:Su; cbn [rbind].
    + fold (coerce t (ity x) e'). pose proof (good_coerce _ _ _ _ _ G Su) as G'. left. eexists. split; [reflexivity|]. split.
      * rewrite (g_again _ _ _ _ G' Lu). cbn [rbind]. rewrite (the_ty_good _ _ _ _ G'). cbn [rbind]. rewrite (coerce_again _ _ _ G'). reflexivity.
      * split; [apply (assigns_one _ _ _ T); eauto|]. split; [rewrite strip_coerce; exact St|].
        destruct (g_tree _ _ _ _ G') as (y & Ey & Ty & Wy). exists y. split; [exact Ey|]. apply strict_plain; assumption.
    + right. eexists. split; [reflexivity|]. rewrite (assigns_one _ _ _ T). intros (y & [=<-] & H). congruence.
  - assert (Tt : the_ty e' = Ok (Tup outs)) by (unfold the_ty; rewrite Ty; reflexivity). rewrite Tt. cbn [rbind].
    destruct (list_eq_dec (fun a b => match ty_eqb_spec a b with ReflectT _ p => left p | ReflectF _ p => right p end) outs [ity x]) as [->|Ne].
    + rewrite ty_eqb_refl. left. exists e'. split; [reflexivity|]. split.
      * rewrite (Ag Lu). cbn [rbind]. rewrite Tt. cbn [rbind]. rewrite ty_eqb_refl. reflexivity.
      * split; [apply (assigns_tup _ _ _ T); reflexivity|]. split; [exact St|]. destruct Tr as (t & f & ins & xs & Ef & Et & Sa).
        eexists. split; [exact Et|]. cbn. rewrite Ef. auto.
    + right. exists "CannotCast". rewrite (cast_tup _ _ _ Ty). split.
      * destruct outs as [|u [|]]; try reflexivity. destruct (ty_eqb_spec u (ity x)); [congruence|reflexivity].
      * rewrite (assigns_tup _ _ _ T). intros Q. apply Ne. symmetry. exact Q.
  - right. exists w. split; [reflexivity|]. apply assigns_none. exact N.
Qed.

Lemma mutable_spec x : (mutable_var S x = Ok tt /\ writable_var S x) \/ (exists w, mutable_var S x = Err w /\ ~ writable_var S x).
Proof.
  unfold mutable_var, writable_var. destruct (s_var S x) as [[]|]; cbn; try (left; split; [reflexivity|auto]; fail);
    right; eexists; (split; [reflexivity|intros [|]; discriminate]).
Qed.
Lemma tuple_spec xs : forall ts, List.length xs = List.length ts ->
  (assign_tuple S xs ts = Ok tt /\ map ity xs = ts /\ forall x, In x xs -> writable_var S x) \/
  (exists w, assign_tuple S xs ts = Err w /\ ~ (map ity xs = ts /\ forall x, In x xs -> writable_var S x)).
Proof.
  induction xs as [|x xs IH]; intros [|t ts] L; try discriminate L; cbn.
  - left. repeat split. intros x [].
  - destruct (mutable_spec x) as [[-> W]|(w & -> & W)]; cbn.
    + destruct (ty_eqb_spec (ity x) t) as [<-|Ne].
      * injection L as L. destruct (IH ts L) as [(-> & <- & A)|(w & -> & N)].
        -- left. repeat split. intros y [<-|H]; auto.
        -- right. exists w. split; [reflexivity|]. intros [[=E] A]. apply N. auto.
      * right. eexists. split; [reflexivity|]. intros [[=E _] _]. auto.
    + right. exists w. split; [reflexivity|]. intros [_ A]. apply W. auto.
Qed.
Lemma assign_spec xs e : parsed e = true ->
  let m := let? e := visit S false true e in check_assign S xs e in
  (exists e', m = Ok e' /\ rhs_done xs e e' /\ forall x, In x xs -> writable_var S x) \/
  (exists w, m = Err w /\ ~ (assigns S xs e /\ forall x, In x xs -> writable_var S x)).
Proof.
  intros P m. unfold m. destruct (visit_top S false e true P) as [(t & e' & E & T & G & St & _)|[(_ & outs & e' & E & T & St & Ty & Ag & Tr)|(w & E & N)]];
    rewrite E; cbn [rbind].
  - unfold check_assign. rewrite (the_ty_good _ _ _ _ G). cbn [rbind]. pose proof (fun xs => proj1 (assigns_one _ _ xs T)) as AO.
    destruct xs as [|x [|y xs]]; cbn [assign_one].
    + right. eexists. split; [reflexivity|]. intros [A _]. apply AO in A as (? & [=] & _).
    + destruct (mutable_spec x) as [[-> W]|(w & -> & W)]; cbn [rbind].
      * rewrite (cast_spec _ _ _ _ _ G). destruct (subb t (ity x)) eqn:Su.
        -- fold (coerce t (ity x) e'). pose proof (good_coerce _ _ _ _ _ G Su) as G'. left. eexists. split; [reflexivity|].
           split; [|intros y [<-|[]]; exact W]. split; [apply (assigns_one _ _ _ T); eauto|]. split; [rewrite strip_coerce; exact St|].
           destruct (g_tree _ _ _ _ G') as (y & Ey & Ty & Wy). exists y. split; [exact Ey|]. apply strict_plain; assumption.
        -- right. eexists. split; [reflexivity|]. intros [A _]. apply AO in A as (y & [=<-] & H). congruence.
      * right. eexists. split; [reflexivity|]. intros [_ A]. apply W. apply A. left. reflexivity.
    + right. eexists. split; [reflexivity|]. intros [A _]. apply AO in A as (? & [=] & _).
  - unfold check_assign, the_ty. rewrite Ty. cbn [rbind]. pose proof (fun xs => proj1 (assigns_tup _ _ xs T)) as AT. unfold try_assign_tuple.
    assert (One1 : forall w, let r := if Nat.eqb (List.length xs) 1 then assign_one S xs e' else Err w in exists w', r = Err w').
    { intros w r. unfold r. destruct xs as [|x [|y xs]]; cbn; eauto. destruct (mutable_spec x) as [[-> W]|(w' & -> & W)]; cbn [rbind]; [|eauto].
      rewrite (cast_tup _ _ _ Ty). eauto. }
    destruct (Nat.eqb_spec (List.length xs) (List.length outs)) as [L|L].
    + destruct (tuple_spec xs outs L) as [(-> & M & A)|(w & -> & N)].
      * left. exists e'. split; [reflexivity|]. split; [|exact A]. split; [apply (assigns_tup _ _ _ T); exact M|]. split; [exact St|].
        destruct Tr as (t & f & ins & ys & Ef & Et & Sa). eexists. split; [exact Et|]. cbn. rewrite Ef. auto.
      * destruct (One1 w) as [w' Ew]. right. exists w'. split; [exact Ew|]. intros [A W]. apply N. auto.
    + destruct (One1 "UnpackMismatch") as [w' Ew]. right. exists w'. split; [exact Ew|]. intros [M _]. apply AT in M. apply L. rewrite <- M, map_length. reflexivity.
  - right. exists w. split; [reflexivity|]. intros [A _]. exact (assigns_none _ _ N A).
Qed.
Lemma havoc_spec xs :
  (check_havoc S xs = Ok tt /\ forall x, In x xs -> writable_var S x) \/ (exists w, check_havoc S xs = Err w /\ ~ forall x, In x xs -> writable_var S x).
Proof.
  induction xs as [|x xs IH]; cbn.
  - left. split; [reflexivity|]. intros x [].
  - destruct (mutable_spec x) as [[-> W]|(w & -> & W)]; cbn.
    + destruct IH as [[-> A]|(w & -> & N)].
      * left. split; [reflexivity|]. intros y [<-|H]; auto.
      * right. exists w. split; [reflexivity|]. intros A. apply N. auto.
    + right. exists w. split; [reflexivity|]. intros A. apply W. auto.
Qed.

(** * Expressions in statements and specifications *)
Lemma use_spec pre e u : parsed e = true ->
  let m := let? e := visit S pre false e in try_cast (One u) e in
  (exists e' x, m = Ok e' /\ fits_ty S pre false e u /\ strip e' = e /\ tree e' = Some x /\ ty_of x = u /\ strict S pre x = true) \/
  (exists w, m = Err w /\ ~ fits_ty S pre false e u).
Proof.
  intros P m. unfold m. destruct (visit_spec S pre e P) as [(t & e' & E & T & G & St & _)|(w & E & N)]; rewrite E; cbn [rbind].
  - rewrite (cast_spec _ _ _ _ _ G). destruct (subb t u) eqn:Su.
    + fold (coerce t u e'). pose proof (good_coerce _ _ _ _ _ G Su) as G'. destruct (g_tree _ _ _ _ G') as (x & Ex & Tx & Wx).
      left. exists (coerce t u e'), x. repeat split; auto; [|rewrite strip_coerce; exact St]. exists t. split; [exact T|]. apply included_iff. exact Su.
    + right. eexists. split; [reflexivity|]. intros (t' & T' & I). pose proof (types_det _ _ _ _ _ _ T T') as [=<-]. apply included_iff in I. congruence.
  - right. exists w. split; [reflexivity|]. intros (t & T & _). exact (N _ T).
Qed.
Lemma guard_fits imp e : fits_ty S false imp e TBool <-> types imp e (One TBool).
Proof.
  split.
  - intros (t & T & I). apply included_iff in I. destruct t; try discriminate I. exact T.
  - intros T. exists TBool. split; [exact T|]. apply included_iff. reflexivity.
Qed.

(** * All statements *)
Definition sdone (s s' : rstmt) : Prop := types_stmt S s /\ sstrip s' = s /\ exists x, stree s' = Some x /\ strict_stmt S x.
Definition sout (s : rstmt) : Prop :=
  (exists s', visit_stmt s = Ok s' /\ sdone s s') \/ (exists w, visit_stmt s = Err w /\ ~ types_stmt S s).
Definition bdone (b b' : list rstmt) : Prop := All (types_stmt S) b /\ map sstrip b' = b /\ exists x, btree b' = Some x /\ All (strict_stmt S) x.

Lemma block_spec b : Forall (fun s => sparsed s = true -> sout s) b -> forallb sparsed b = true ->
  (exists b', visit_block b = Ok b' /\ bdone b b') \/ (exists w, visit_block b = Err w /\ ~ All (types_stmt S) b).
Proof.
  induction 1 as [|s b Hs _ IH]; cbn; intros P.
  - left. eexists. split; [reflexivity|]. repeat split. eexists. split; [reflexivity|exact Logic.I].
  - apply andb_true_iff in P as [Ps Pb]. destruct (Hs Ps) as [(s' & -> & T & St & x & Ex & Sx)|(w & -> & N)]; cbn.
    + destruct (IH Pb) as [(b' & -> & Tb & Stb & y & Ey & Sy)|(w & -> & N)]; cbn.
      * left. eexists. split; [reflexivity|]. split; [split; assumption|]. split; [cbn; congruence|]. cbn. rewrite Ex, Ey. eexists. split; [reflexivity|]. split; assumption.
      * right. eexists. split; [reflexivity|]. tauto.
    + right. eexists. split; [reflexivity|]. tauto.
Qed.

Lemma ann_args ps args args' : Forall2 (fun a a' => exists t, done S false a a' t) args args' ->
  (exists l xs, check_call ps args' = Ok l /\ Forall2 (fun p a => (snd p = true -> literal a) /\ fits_ty S false false a (fst p)) ps args /\
     map strip l = args /\ trees l = Some xs /\ strict_args S false ps xs) \/
  (exists w, check_call ps args' = Err w /\ ~ Forall2 (fun p a => (snd p = true -> literal a) /\ fits_ty S false false a (fst p)) ps args).
Proof.
  intros F. unfold fits_ty. destruct (check_call_spec S false ps _ _ F) as [(l & E & F1 & F2 & St)|(w & E & N)].
  - left. destruct (args_tree _ _ _ _ F2) as (xs & Ex & Sx). exists l, xs. apply fits_iff in F1. auto.
  - right. exists w. split; [exact E|]. intros H. apply N. apply fits_iff. exact H.
Qed.
Lemma done_trees args args' : Forall2 (fun a a' => exists t, done S false a a' t) args args' ->
  Forall (fun a => exists t, types false a (One t)) args /\ map strip args' = args /\
  exists xs, trees args' = Some xs /\ forall a, In a xs -> strict S false a = true.
Proof.
  induction 1 as [|a a' args args' (t & T & G & St & _) _ (IH1 & IH2 & xs & Ex & Sx)]; cbn.
  - repeat split; auto. exists []. split; [reflexivity|]. intros a [].
  - split; [constructor; eauto|]. split; [congruence|]. destruct (g_tree _ _ _ _ G) as (x & E & _ & W). rewrite E, Ex.
    eexists. split; [reflexivity|]. intros b [<-|H]; auto.
Qed.

Lemma stmt_spec s : sparsed s = true -> sout s.
Proof.
  induction s as [b IH|x i|xs e|d xs|d e|d e|d e|d|d|e|e|a b IHa IHb|a b IHa IHb|a b IHa IHb|c a b IHa IHb|c b IHb|n args s IH|x] using rstmt_rect';
    cbn [sparsed]; intros P; unfold sout; cbn [Tycheck.visit_stmt].
  - rewrite go_block. destruct (block_spec b IH P) as [(b' & -> & T & St & x & Ex & Sx)|(w & -> & N)]; cbn [rbind].
    + left. eexists. split; [reflexivity|]. split; [exact T|]. split; [cbn; congruence|]. exists (SSeq x). cbn [stree]. rewrite go_btree, Ex. auto.
    + right. eexists. split; [reflexivity|exact N].
  - destruct i as [e|].
    + destruct (var_spec x e P) as [(e' & -> & E2 & A & St & y & Ey & Sy)|(w & -> & N)]; cbn [rbind].
      * rewrite E2. cbn [rbind]. left. eexists. split; [reflexivity|]. split; [exact A|]. split; [cbn; congruence|]. cbn. rewrite Ey. eexists. split; [reflexivity|]. exact Sy.
      * right. eexists. split; [reflexivity|exact N].
    + left. eexists. split; [reflexivity|]. split; [exact Logic.I|]. split; [reflexivity|]. eexists. split; [reflexivity|exact Logic.I].
  - pose proof (assign_spec xs e P) as X. cbn zeta in X.
    destruct (visit S false true e) as [e1|w|w] eqn:E1; cbn [rbind] in X |- *.
    + destruct X as [(e' & -> & (A & St & y & Ey & Sy) & W)|(w & -> & N)]; cbn [rbind].
      * left. eexists. split; [reflexivity|]. split; [split; assumption|]. split; [cbn; congruence|]. cbn. rewrite Ey. eexists. split; [reflexivity|]. split; assumption.
      * right. eexists. split; [reflexivity|exact N].
    + destruct X as [(e' & X & _)|(w' & X & N)]; [discriminate|]. right. exists w. split; [reflexivity|exact N].
    + destruct X as [(e' & X & _)|(w' & X & N)]; discriminate.
  - destruct (havoc_spec xs) as [[-> W]|(w & -> & N)]; cbn [rbind].
    + left. eexists. split; [reflexivity|]. split; [exact W|]. split; [reflexivity|]. eexists. split; [reflexivity|]. exact W.
    + right. eexists. split; [reflexivity|exact N].
  - pose proof (use_spec false e TEUReal P) as X. cbn zeta in X. destruct (visit S false false e) as [e1|w|w]; cbn [rbind] in X |- *.
    + destruct X as [(e' & y & -> & F & St & Ey & Ty & Sy)|(w & -> & N)]; cbn [rbind].
      * left. eexists. split; [reflexivity|]. split; [exact F|]. split; [cbn; congruence|]. cbn. rewrite Ey. eexists. split; [reflexivity|]. split; assumption.
      * right. eexists. split; [reflexivity|exact N].
    + destruct X as [(e' & y & X & _)|(w' & X & N)]; [discriminate|]. right. eexists. split; [reflexivity|exact N].
    + destruct X as [(e' & y & X & _)|(w' & X & N)]; discriminate.
  - pose proof (use_spec false e TEUReal P) as X. cbn zeta in X. destruct (visit S false false e) as [e1|w|w]; cbn [rbind] in X |- *.
    + destruct X as [(e' & y & -> & F & St & Ey & Ty & Sy)|(w & -> & N)]; cbn [rbind].
      * left. eexists. split; [reflexivity|]. split; [exact F|]. split; [cbn; congruence|]. cbn. rewrite Ey. eexists. split; [reflexivity|]. split; assumption.
      * right. eexists. split; [reflexivity|exact N].
    + destruct X as [(e' & y & X & _)|(w' & X & N)]; [discriminate|]. right. eexists. split; [reflexivity|exact N].
    + destruct X as [(e' & y & X & _)|(w' & X & N)]; discriminate.
  - pose proof (use_spec false e TEUReal P) as X. cbn zeta in X. destruct (visit S false false e) as [e1|w|w]; cbn [rbind] in X |- *.
    + destruct X as [(e' & y & -> & F & St & Ey & Ty & Sy)|(w & -> & N)]; cbn [rbind].
      * left. eexists. split; [reflexivity|]. split; [exact F|]. split; [cbn; congruence|]. cbn. rewrite Ey. eexists. split; [reflexivity|]. split; assumption.
      * right. eexists. split; [reflexivity|exact N].
    + destruct X as [(e' & y & X & _)|(w' & X & N)]; [discriminate|]. right. eexists. split; [reflexivity|exact N].
    + destruct X as [(e' & y & X & _)|(w' & X & N)]; discriminate.
  - left. eexists. split; [reflexivity|]. split; [exact Logic.I|]. split; [reflexivity|]. eexists. split; [reflexivity|exact Logic.I].
  - left. eexists. split; [reflexivity|]. split; [exact Logic.I|]. split; [reflexivity|]. eexists. split; [reflexivity|exact Logic.I].
  - pose proof (use_spec false e TEUReal P) as X. cbn zeta in X. destruct (visit S false false e) as [e1|w|w]; cbn [rbind] in X |- *.
    + destruct X as [(e' & y & -> & F & St & Ey & Ty & Sy)|(w & -> & N)]; cbn [rbind].
      * left. eexists. split; [reflexivity|]. split; [exact F|]. split; [cbn; congruence|]. cbn. rewrite Ey. eexists. split; [reflexivity|]. split; assumption.
      * right. eexists. split; [reflexivity|exact N].
    + destruct X as [(e' & y & X & _)|(w' & X & N)]; [discriminate|]. right. eexists. split; [reflexivity|exact N].
    + destruct X as [(e' & y & X & _)|(w' & X & N)]; discriminate.
  - pose proof (use_spec false e TEUReal P) as X. cbn zeta in X. destruct (visit S false false e) as [e1|w|w]; cbn [rbind] in X |- *.
    + destruct X as [(e' & y & -> & F & St & Ey & Ty & Sy)|(w & -> & N)]; cbn [rbind].
      * left. eexists. split; [reflexivity|]. split; [exact F|]. split; [cbn; congruence|]. cbn. rewrite Ey. eexists. split; [reflexivity|]. split; assumption.
      * right. eexists. split; [reflexivity|exact N].
    + destruct X as [(e' & y & X & _)|(w' & X & N)]; [discriminate|]. right. eexists. split; [reflexivity|exact N].
    + destruct X as [(e' & y & X & _)|(w' & X & N)]; discriminate.
  - apply andb_true_iff in P as [Pa Pb]. 
    rewrite ?(go_block a). destruct (block_spec a IHa Pa) as [(a' & -> & Ta & Sa & xa & Xa & Wa)|(w & -> & N)]; cbn [rbind]; [|right; eexists; split; [reflexivity|cbn; tauto]].
    rewrite ?(go_block b). destruct (block_spec b IHb Pb) as [(b' & -> & Tb & Sb & xb & Xb & Wb)|(w & -> & N)]; cbn [rbind]; [|right; eexists; split; [reflexivity|cbn; tauto]].
    left. eexists. split; [reflexivity|]. split; [split; assumption|]. split; [cbn; congruence|]. cbn [stree]. rewrite (go_btree a'), (go_btree b'), Xa, Xb. eexists. split; [reflexivity|]. split; assumption.
  - apply andb_true_iff in P as [Pa Pb]. 
    rewrite ?(go_block a). destruct (block_spec a IHa Pa) as [(a' & -> & Ta & Sa & xa & Xa & Wa)|(w & -> & N)]; cbn [rbind]; [|right; eexists; split; [reflexivity|cbn; tauto]].
    rewrite ?(go_block b). destruct (block_spec b IHb Pb) as [(b' & -> & Tb & Sb & xb & Xb & Wb)|(w & -> & N)]; cbn [rbind]; [|right; eexists; split; [reflexivity|cbn; tauto]].
    left. eexists. split; [reflexivity|]. split; [split; assumption|]. split; [cbn; congruence|]. cbn [stree]. rewrite (go_btree a'), (go_btree b'), Xa, Xb. eexists. split; [reflexivity|]. split; assumption.
  - apply andb_true_iff in P as [Pa Pb]. 
    rewrite ?(go_block a). destruct (block_spec a IHa Pa) as [(a' & -> & Ta & Sa & xa & Xa & Wa)|(w & -> & N)]; cbn [rbind]; [|right; eexists; split; [reflexivity|cbn; tauto]].
    rewrite ?(go_block b). destruct (block_spec b IHb Pb) as [(b' & -> & Tb & Sb & xb & Xb & Wb)|(w & -> & N)]; cbn [rbind]; [|right; eexists; split; [reflexivity|cbn; tauto]].
    left. eexists. split; [reflexivity|]. split; [split; assumption|]. split; [cbn; congruence|]. cbn [stree]. rewrite (go_btree a'), (go_btree b'), Xa, Xb. eexists. split; [reflexivity|]. split; assumption.
  - apply andb_true_iff in P as [P Pb]. apply andb_true_iff in P as [Pc Pa].  cbn [types_stmt]. pose proof (guard_fits false c) as GF.
    pose proof (use_spec false c TBool Pc) as X. cbn zeta in X. destruct (visit S false false c) as [c1|w|w]; cbn [rbind] in X |- *;
      [|destruct X as [(e' & y & X & _)|(w' & X & N)]; [discriminate|]; right; eexists; split; [reflexivity|tauto]
       |destruct X as [(e' & y & X & _)|(w' & X & N)]; discriminate].
    rewrite ?(go_block a). destruct (block_spec a IHa Pa) as [(a' & -> & Ta & Sa & xa & Xa & Wa)|(w & -> & N)]; cbn [rbind]; [|right; eexists; split; [reflexivity|tauto]].
    rewrite ?(go_block b). destruct (block_spec b IHb Pb) as [(b' & -> & Tb & Sb & xb & Xb & Wb)|(w & -> & N)]; cbn [rbind]; [|right; eexists; split; [reflexivity|tauto]].
    destruct X as [(c' & y & -> & F & St & Ey & Ty & Sy)|(w & -> & N)]; cbn [rbind]; [|right; eexists; split; [reflexivity|tauto]].
    left. eexists. split; [reflexivity|]. split; [cbn; tauto|]. split; [cbn; congruence|].
    cbn [stree]. rewrite (go_btree a'), (go_btree b'), Ey, Xa, Xb. eexists. split; [reflexivity|]. repeat split; assumption.
  - apply andb_true_iff in P as [Pc Pb].  cbn [types_stmt]. pose proof (guard_fits false c) as GF.
    pose proof (use_spec false c TBool Pc) as X. cbn zeta in X. destruct (visit S false false c) as [c1|w|w]; cbn [rbind] in X |- *;
      [|destruct X as [(e' & y & X & _)|(w' & X & N)]; [discriminate|]; right; eexists; split; [reflexivity|tauto]
       |destruct X as [(e' & y & X & _)|(w' & X & N)]; discriminate].
    rewrite ?(go_block b). destruct (block_spec b IHb Pb) as [(b' & -> & Tb & Sb & xb & Xb & Wb)|(w & -> & N)]; cbn [rbind]; [|right; eexists; split; [reflexivity|tauto]].
    destruct X as [(c' & y & -> & F & St & Ey & Ty & Sy)|(w & -> & N)]; cbn [rbind]; [|right; eexists; split; [reflexivity|tauto]].
    left. eexists. split; [reflexivity|]. split; [cbn; tauto|]. split; [cbn; congruence|].
    cbn [stree]. rewrite (go_btree b'), Ey, Xb. eexists. split; [reflexivity|]. repeat split; assumption.
  - apply andb_true_iff in P as [Pa Ps]. specialize (IH Ps).
    assert (F : Forall (outcome S false) args) by (apply parsed_forall; [exact Pa|]; apply Forall_forall; intros a _; apply visit_spec).
    destruct (visits_spec S false _ F) as [(args' & -> & D)|(w & -> & X)]; cbn [rbind].
    2:{ right. eexists. split; [reflexivity|]. cbn. intros [_ H]. apply Exists_exists in X as (a & Ha & Na). destruct (s_ann S n) as [[ps|]|].
        - assert (Q : exists t, types false a (One t)).
          { clear -H Ha. induction H as [|p b ps l [_ (t & T & _)] _ IH]; [destruct Ha|]. destruct Ha as [<-|Ha]; eauto. }
          destruct Q as [t T]. exact (Na _ T).
        - rewrite Forall_forall in H. destruct (H a Ha) as [t T]. exact (Na _ T).
        - rewrite Forall_forall in H. destruct (H a Ha) as [t T]. exact (Na _ T). }
    destruct IH as [(s' & -> & T & St & x & Ex & Sx)|(w & -> & N)]; cbn [rbind]; [|right; eexists; split; [reflexivity|cbn; tauto]].
    cbn [types_stmt]. destruct (s_ann S n) as [[ps|]|] eqn:En.
    + destruct (ann_args ps _ _ D) as [(l & xs & -> & F1 & Sl & El & Sa)|(w & -> & N)]; cbn [rbind]; [|right; eexists; split; [reflexivity|tauto]].
      left. eexists. split; [reflexivity|]. split; [cbn; rewrite En; auto|]. split; [cbn; congruence|]. cbn [stree]. rewrite El, Ex.
      eexists. split; [reflexivity|]. cbn. rewrite En. auto.
    + destruct (done_trees _ _ D) as (F1 & Sl & xs & El & Sa). left. eexists. split; [reflexivity|]. split; [cbn; rewrite En; auto|]. split; [cbn; congruence|].
      cbn [stree]. rewrite El, Ex. eexists. split; [reflexivity|]. cbn. rewrite En. auto.
    + destruct (done_trees _ _ D) as (F1 & Sl & xs & El & Sa). left. eexists. split; [reflexivity|]. split; [cbn; rewrite En; auto|]. split; [cbn; congruence|].
      cbn [stree]. rewrite El, Ex. eexists. split; [reflexivity|]. cbn. rewrite En. auto.
  - left. eexists. split; [reflexivity|]. split; [exact Logic.I|]. split; [reflexivity|]. eexists. split; [reflexivity|exact Logic.I].
Qed.
Lemma body_spec b : forallb sparsed b = true ->
  (exists b', visit_block b = Ok b' /\ bdone b b') \/ (exists w, visit_block b = Err w /\ ~ All (types_stmt S) b).
Proof. apply block_spec. apply Forall_forall. intros s _. apply stmt_spec. Qed.
End Stmts.
