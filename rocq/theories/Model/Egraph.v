(** The rewrite rules of src/opt/egraph.rs 188-250 (make_rewrites), with metavariables ?a ?b ?c as variables.  The e-graph
    is untyped; a rule that has no type-specific literal is listed once for each lattice type it can match. *)
From Coq Require Import Bool List String QArith.
From Verif.Model Require Import Syntax Builder.
Import ListNotations.
Local Open Scope string_scope.

Definition va : expr := EVar (mkid "a" 0 TEUReal).
Definition vb : expr := EVar (mkid "b" 0 TEUReal).
Definition vc : expr := EVar (mkid "c" 0 TEUReal).
Definition wa : expr := EVar (mkid "a" 0 TBool).
Definition wb : expr := EVar (mkid "b" 0 TBool).
Definition wc : expr := EVar (mkid "c" 0 TBool).
Definition e2 (op : binop) (a b : expr) : expr := EBin TEUReal op a b.
Definition b2 (op : binop) (a b : expr) : expr := EBin TBool op a b.
Definition zero : expr := b_frac 0.
Definition one : expr := b_frac 1.
Definition inf : expr := b_inf.
Definition tt' : expr := b_bool true.
Definition ff : expr := b_bool false.
Definition ite (c a b : expr) : expr := EIte TEUReal c a b.
Definition bite (c a b : expr) : expr := EIte TBool c a b.
Definition embed (a : expr) : expr := EUn TEUReal OEmbed a.
Definition iverson (a : expr) : expr := EUn TEUReal OIverson a.
Definition not_b (a : expr) : expr := EUn TBool ONot a.
Definition not_e (a : expr) : expr := EUn TEUReal ONot a.
Definition non_e (a : expr) : expr := EUn TEUReal ONon a.

Definition rule : Type := string * (expr * expr).

Definition rules : list rule := [
  ("true-ite", (ite tt' va vb, va)); ("true-ite", (bite tt' wa wb, wa));
  ("false-ite", (ite ff va vb, vb)); ("false-ite", (bite ff wa wb, wb));
  ("const-ite", (ite wa vb vb, vb)); ("const-ite", (bite wa wb wb, wb));
  ("comm-and", (b2 OAnd wa wb, b2 OAnd wb wa)); ("true-and", (b2 OAnd wa tt', wa)); ("false-and", (b2 OAnd wa ff, ff));
  ("comm-or", (b2 OOr wa wb, b2 OOr wb wa)); ("true-or", (b2 OOr wa tt', tt')); ("false-or", (b2 OOr wa ff, wa));
  ("comm-eq", (b2 OEq va vb, b2 OEq vb va)); ("comm-eq", (b2 OEq wa wb, b2 OEq wb wa));
  ("leq-true", (b2 OLe va va, tt')); ("leq-true", (b2 OLe wa wa, tt'));
  ("comm-inf", (e2 OInf va vb, e2 OInf vb va)); ("comm-inf", (b2 OInf wa wb, b2 OInf wb wa));
  ("id-inf", (e2 OInf va inf, va));
  ("leq-inf", (b2 OLe va (e2 OInf vb vc), b2 OAnd (b2 OLe va vb) (b2 OLe va vc)));
  ("leq-inf", (b2 OLe wa (b2 OInf wb wc), b2 OAnd (b2 OLe wa wb) (b2 OLe wa wc)));
  ("geq-inf", (b2 OLe (e2 OInf va vb) vc, b2 OOr (b2 OLe va vc) (b2 OLe vb vc)));
  ("geq-inf", (b2 OLe (b2 OInf wa wb) wc, b2 OOr (b2 OLe wa wc) (b2 OLe wb wc)));
  ("comm-sup", (e2 OSup va vb, e2 OSup vb va)); ("comm-sup", (b2 OSup wa wb, b2 OSup wb wa));
  ("id-sup", (e2 OSup va zero, va));
  ("leq-sup", (b2 OLe va (e2 OSup vb vc), b2 OOr (b2 OLe va vb) (b2 OLe va vc)));
  ("leq-sup", (b2 OLe wa (b2 OSup wb wc), b2 OOr (b2 OLe wa wb) (b2 OLe wa wc)));
  ("geq-sup", (b2 OLe (e2 OSup va vb) vc, b2 OAnd (b2 OLe va vc) (b2 OLe vb vc)));
  ("geq-sup", (b2 OLe (b2 OSup wa wb) wc, b2 OAnd (b2 OLe wa wc) (b2 OLe wb wc)));
  ("zero-impl", (e2 OImpl zero va, inf)); ("inf-impl", (e2 OImpl inf va, va)); ("impl-inf", (e2 OImpl va inf, inf));
  ("infty-compare", (b2 OEq (e2 OCompare va vb) inf, b2 OLe va vb)); ("compare-hey1", (e2 OCompare va va, inf));
  ("compare-hey4", (e2 OCompare va (e2 OInf vb vc), e2 OInf (e2 OCompare va vb) (e2 OCompare va vc)));
  ("zero-cocompare", (b2 OEq (e2 OCoCompare va vb) zero, b2 OLe vb va)); ("cocompare-hey1", (e2 OCoCompare va va, zero));
  ("cocompare-hey4", (e2 OCoCompare va (e2 OSup vb vc), e2 OSup (e2 OCoCompare va vb) (e2 OCoCompare va vc)));
  ("not-true", (not_b tt', ff)); ("not-false", (not_b ff, tt')); ("infty-not", (b2 OEq (not_e va) inf, b2 OEq va zero));
  ("non-infty", (non_e inf, zero)); ("embed-true", (embed tt', inf)); ("embed-false", (embed ff, zero));
  ("impl-intro-ite", (e2 OInf (e2 OImpl (embed wa) vb) (e2 OImpl (embed (not_b wa)) vc), ite wa vb vc));
  ("iverson-true", (iverson tt', one)); ("iverson-false", (iverson ff, zero));
  ("iverson-intro-ite", (e2 OAdd (e2 OMul (iverson wa) vb) (e2 OMul (iverson (not_b wa)) vc), ite wa vb vc));
  ("zero-add", (e2 OAdd va zero, va)); ("add-sub", (e2 OAdd (e2 OSub va vb) vb, va));
  ("zero-sub", (e2 OSub va zero, va)); ("sub-add", (e2 OSub (e2 OAdd va vb) vb, va));
  ("zero-mul", (e2 OMul va zero, zero)); ("one-mul", (e2 OMul va one, va)) ].
