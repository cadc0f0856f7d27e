(** A shown number has one value. *)
From Coq Require Import Bool List String Arith ZArith NArith Lia.
From Verif.Model Require Import Syntax Numerals.
From Verif.Spec Require Import Decimal.
From Verif.Proofs Require Import NumeralProofs NumeralReading.
Import ListNotations.
Local Open Scope list_scope.
Local Open Scope Z_scope.

Fixpoint split_at (g : glyph) (t : text) : option (text * text) :=
  match t with
  | [] => None
  | x :: t' => if glyph_eqb x g then Some ([], t') else option_map (fun p => (x :: fst p, snd p)) (split_at g t')
  end.
Definition free (g : glyph) (t : text) : Prop := Forall (fun x => glyph_eqb x g = false) t.
Lemma split_some g a b : free g a -> glyph_eqb g g = true -> split_at g (a ++ g :: b) = Some (a, b).
Proof. intros F G. induction F as [|x a E F IH]; cbn [app split_at]; [rewrite G; reflexivity|]. rewrite E, IH. reflexivity. Qed.
Lemma split_none g a : free g a -> split_at g a = None.
Proof. induction 1 as [|x a E F IH]; [reflexivity|]. cbn. rewrite E, IH. reflexivity. Qed.
Definition fraction_value (t : text) : option (Z * Z) :=
  match split_at GSlash t with
  | Some (a, b) => match read_int a, read_int b with Some n, Some d => Some (n, d) | _, _ => None end
  | None => option_map (fun n => (n, 1)) (read_int t)
  end.
Definition shown_value (t : text) : option (Z * Z) :=
  match split_at GOpen t with
  | Some (_, u) => fraction_value (removelast u)
  | None =>
      match split_at GDot t with
      | Some (a, b) => option_map (fun n => (n, 10 ^ Z.of_nat (List.length b))) (read_int (a ++ b))
      | None => option_map (fun n => (n, 1)) (read_int t)
      end
  end.

Definition special (g : glyph) : bool := match g with GDot | GOpen | GSlash => true | _ => false end.
Lemma free_map g ds : special g = true -> free g (map GD ds).
Proof. intros H. apply Forall_forall. intros x I. apply in_map_iff in I as (y & <- & _). destruct g; try discriminate; reflexivity. Qed.
Lemma free_over g ds : special g = true -> free g (map GO ds).
Proof. intros H. apply Forall_forall. intros x I. apply in_map_iff in I as (y & <- & _). destruct g; try discriminate; reflexivity. Qed.
Lemma free_sign g n s : special g = true -> sign_of n s -> free g s.
Proof. intros H [[_ ->]|[_ ->]]; [|constructor]. constructor; [destruct g; try discriminate; reflexivity|constructor]. Qed.
Lemma free_app g a b : free g a -> free g b -> free g (a ++ b).
Proof. intros. apply Forall_app. auto. Qed.
Lemma read_signed n s ds : sign_of n s -> ds <> [] -> read_int (s ++ map GD ds) = Some (if n <? 0 then - dval ds else dval ds).
Proof.
  intros [[A ->]|[A ->]] N.
  - rewrite (proj2 (Z.ltb_lt n 0) A). cbn [app read_int]. rewrite read_nat_ok by exact N. reflexivity.
  - rewrite (proj2 (Z.ltb_ge n 0) A). apply read_int_ok, N.
Qed.
Lemma shows_int_read t z : shows_int t z -> read_int t = Some z /\ free GSlash t.
Proof.
  intros (s & ds & -> & SG & NU & V). rewrite (read_signed z) by (assumption || apply NU). split.
  - f_equal. destruct (Z.ltb_spec z 0); lia.
  - apply free_app; [eapply free_sign; eauto|apply free_map]; reflexivity.
Qed.
Lemma fraction_read t n d : shows_fraction t n d -> fraction_value t = Some (n, Zpos d).
Proof.
  unfold fraction_value. intros [[-> A]|(a & b & -> & A & B)].
  - destruct (shows_int_read _ _ A) as [R F]. rewrite (split_none _ _ F), R. reflexivity.
  - destruct (shows_int_read _ _ A) as [R F], (shows_int_read _ _ B) as [R' _]. rewrite split_some by (exact F || reflexivity).
    rewrite R, R'. reflexivity.
Qed.
Lemma denotes_value t n d : denotes t n d -> exists a b, shown_value t = Some (a, b) /\ 0 < b /\ a * Zpos d = n * b.
Proof.
  unfold shown_value. intros [n0 d0 s ds SG NU V|n0 d0 s ds fs SG NU FN F V|n0 d0 s ds fs rs u SG NU F RN FR T SF|n0 d0 s ds fs u SG NU FN F T SF].
  - rewrite !split_none by (apply free_app; [eapply free_sign; eauto|apply free_map]; reflexivity).
    rewrite (read_signed n0) by (assumption || apply NU). cbn. do 2 eexists. split; [reflexivity|]. split; [lia|].
    destruct (Z.ltb_spec n0 0); lia.
  - rewrite split_none.
    2: { apply free_app; [eapply free_sign; eauto; reflexivity|]. apply free_app; [apply free_map; reflexivity|].
         constructor; [reflexivity|apply free_map; reflexivity]. }
    rewrite app_assoc, split_some by (reflexivity || (apply free_app; [eapply free_sign; eauto|apply free_map]; reflexivity)).
    rewrite <- app_assoc, <- map_app, (read_signed n0) by (assumption || (destruct ds; [destruct NU; congruence|discriminate])).
    rewrite map_length. cbn. do 2 eexists. split; [reflexivity|]. split; [apply pow10_pos|].
    destruct (Z.ltb_spec n0 0); nia.
  - replace (s ++ map GD ds ++ GDot :: map GD fs ++ map GO rs ++ GSpace :: GOpen :: u ++ [GClose])
      with ((s ++ map GD ds ++ GDot :: map GD fs ++ map GO rs ++ [GSpace]) ++ GOpen :: u ++ [GClose])
      by (repeat (rewrite <- !app_assoc; cbn [app]); reflexivity).
    rewrite split_some; [|repeat first [apply free_app | apply free_map | apply free_over | (eapply free_sign; [|eassumption]) | constructor | reflexivity]|reflexivity].
    rewrite removelast_last, (fraction_read _ _ _ SF). do 2 eexists. split; [reflexivity|]. split; lia.
  - replace (s ++ map GD ds ++ GDot :: map GD fs ++ GDots :: GSpace :: GOpen :: u ++ [GClose])
      with ((s ++ map GD ds ++ GDot :: map GD fs ++ [GDots; GSpace]) ++ GOpen :: u ++ [GClose])
      by (repeat (rewrite <- !app_assoc; cbn [app]); reflexivity).
    rewrite split_some; [|repeat first [apply free_app | apply free_map | (eapply free_sign; [|eassumption]) | constructor | reflexivity]|reflexivity].
    rewrite removelast_last, (fraction_read _ _ _ SF). do 2 eexists. split; [reflexivity|]. split; lia.
Qed.
Theorem denotes_unique t n d n' d' : denotes t n d -> denotes t n' d' -> n * Zpos d' = n' * Zpos d.
Proof.
  intros A B. apply denotes_value in A as (a & b & E & P & V), B as (a' & b' & E' & P' & V'). rewrite E in E'. injection E' as <- <-.
  apply (Z.mul_reg_r _ _ b); [lia|]. nia.
Qed.
Theorem pretty_injective limit limit' n d n' d' : limit <> O -> limit' <> O ->
  pretty limit n d = pretty limit' n' d' -> n * Zpos d' = n' * Zpos d.
Proof. intros L L' E. apply (denotes_unique (pretty limit n d)); [|rewrite E]; apply pretty_denotes; assumption. Qed.
