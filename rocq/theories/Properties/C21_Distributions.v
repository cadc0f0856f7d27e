(** C21: the built-in distributions. *)
From Coq Require Import Bool List String NArith QArith Reals.
From Verif.Model Require Import Syntax Builder Dist VcGen.
From Verif.Spec Require Import Eur Sem Wp.
From Verif.Proofs Require Import DistProofs VcGenProofs.
Import ListNotations.

(** For every parameter tuple in range, the outcome list built by the code is, in
    every state, the documented distribution ([dist_in_range], [dist_sem]). *)
Theorem C21_documented_mass : forall f args t, dist_in_range f args t ->
  exists d, apply_dist f args = Ok d /\ d <> [] /\ dist_wt t d /\
  forall I s, interp_ok I -> env_ok s -> dist_sem f (map (fun a => eval I a s) args) = Some (den I s d).
Proof. exact in_range_correct. Qed.
Print Assumptions C21_documented_mass.

(** Whatever non-empty outcome list the code builds (any parameters, also the wrong
    binomial below) has total mass exactly one, except for flip. *)
Theorem C21_mass_one : forall name args d I s,
  apply_dist name args = Ok d -> d <> [] -> name <> "flip"%string -> expected (den I s d) (fun _ => eone) = eone.
Proof. exact mass_one. Qed.
Print Assumptions C21_mass_one.

(** flip has mass one exactly if its argument is at most 1 in that state. *)
Theorem C21_flip_mass : forall p d I s, apply_dist "flip" [p] = Ok d -> wt p = true -> ty_of p = TUReal ->
  interp_ok I -> env_ok s ->
  (expected (den I s d) (fun _ => eone) = eone <-> exists x, eval I p s = VUReal x /\ (nval x <= 1)%R).
Proof. exact flip_prob. Qed.
Print Assumptions C21_flip_mass.

(** binom(1,1,2): the code gives the outcome 1 probability 1/2, the documentation 1/3. *)
Theorem C21_binom_refuted : exists n pa pb d D, apply_dist "binom" [b_uint n; b_uint pa; b_uint pb] = Ok d /\
  dist_sem "binom" [VUInt n; VUInt pa; VUInt pb] = Some D /\
  forall I s, mass (den I s d) is_one = fin (1/2) /\ mass D is_one = fin (1/3).
Proof. exact binom_refuted. Qed.
Print Assumptions C21_binom_refuted.

(** Out of range the tool crashes instead of using the documented zero expectation. *)
Theorem C21_unif_empty_refuted : forall a b x post, (b < a)%N -> (a < u128_bound)%N ->
  dist_sem "unif" [VUInt a; VUInt b] = Some [] /\ exists w, dist_vcgen "unif" [b_uint a; b_uint b] [x] post = Panic w.
Proof. exact unif_empty. Qed.
Print Assumptions C21_unif_empty_refuted.

Theorem C21_ber_zero_refuted : forall x post, dist_sem "ber" [VUInt 0; VUInt 0] = Some [] /\
  exists w, dist_vcgen "ber" [b_uint 0; b_uint 0] [x] post = Panic w.
Proof. exact ber_zero. Qed.
Print Assumptions C21_ber_zero_refuted.

Theorem C21_hyper_too_many_refuted : forall n x y v post, (n < y)%N -> (x <= n)%N -> (y + x < u128_bound)%N ->
  exists w, dist_vcgen "hyper" [b_uint n; b_uint x; b_uint y] [v] post = Panic w.
Proof. exact hyper_too_many. Qed.
Print Assumptions C21_hyper_too_many_refuted.

Theorem C21_hyper_underflow_refuted : forall n x y v post, (n < x)%N -> (y + x < u128_bound)%N -> (y <= n)%N ->
  exists w, dist_vcgen "hyper" [b_uint n; b_uint x; b_uint y] [v] post = Panic w.
Proof. exact hyper_underflow. Qed.
Print Assumptions C21_hyper_underflow_refuted.

Example C21_nonvacuous : dist_in_range "unif" [b_uint 2; b_uint 5] TUInt /\
  dist_in_range "flip" [ELit TUReal (LFrac (1#3))] TBool /\
  dist_in_range "binom" [b_uint 7; b_uint 1; b_uint 1] TUInt /\
  dist_in_range "ber" [b_uint 2; b_uint 3] TBool /\
  exists d, apply_dist "hyper" [b_uint 10; b_uint 4; b_uint 3] = Ok d /\ List.length d = 4%nat.
Proof.
  split; [|split; [|split; [|split]]].
  - apply dr_unif; reflexivity || discriminate.
  - now apply dr_flip.
  - apply dr_binom; reflexivity || discriminate.
  - apply dr_ber; [discriminate | reflexivity].
  - eexists. split; vm_compute; reflexivity.
Qed.
