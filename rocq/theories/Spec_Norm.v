(* Spec_Norm.v -- what is assumed of SymPy's answers about an expression
   (Norm_Model.v): they are correct. *)
From mathcomp Require Import all_ssreflect all_algebra.
From Coq Require Import String.
From Verif Require Import PyBase PyStr Ga_Model Mv_Model Norm_Model.
Set Implicit Arguments.
Unset Strict Implicit.
Unset Printing Implicit Defensive.
Import GRing.Theory Num.Theory.
Local Open Scope ring_scope.

(* the metric is positive definite: every vector but 0 has a positive square *)
Definition positive_definite (R : realFieldType) (a : ga R) : Prop :=
  forall x : 'I_(ga_n a) -> R, (exists i, x i != 0) -> 0 < \sum_i \sum_j x i * x j * gij a i j.

Record correct (R : realFieldType) (a : ga R) (t : sign_tests R) : Prop := Correct {
  ge0_true : forall e, ge0 t e -> 0 <= e;
  le0_true : forall e, le0 t e -> e <= 0;
  posdef_true : posdef t -> positive_definite a;
  sqf_product : forall e, e = (sqf t e).1 * \prod_(fn <- (sqf t e).2) fn.1 ^+ fn.2;
  root_ge0 : forall e, 0 <= e -> 0 <= root t e;
  root_sqr : forall e, 0 <= e -> root t e ^+ 2 = e
}.
(* the hint says nothing false about the number q *)
Definition truthful (R : realFieldType) (hint : string) (q : R) : bool :=
  [|| (hint == "0"%string), (hint == "+"%string) && (0 <= q) | (hint == "-"%string) && (q <= 0)].
