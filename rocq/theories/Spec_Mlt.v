(* Spec_Mlt.v -- what a tensor and its components are, for the statements about Mlt *)
From mathcomp Require Import all_ssreflect all_algebra.
From Verif Require Import PyBase Ga_Model Mv_Model Lt_Model Mlt_Model.
Set Implicit Arguments.
Unset Strict Implicit.
Unset Printing Implicit Defensive.
Import GRing.Theory.
Local Open Scope ring_scope.

Section Spec.
Variables (R : comUnitRingType) (a : ga R).
Notation n := (ga_n a).
Implicit Types T : mlt R.
(* every term has exactly one coefficient symbol of each of the slot vectors *)
Definition tensor T : bool :=
  all (fun t => perm_eq [seq v.1 | v <- t.2] (iota 0 (ml_nargs T)) && all (fun v => v.2 < n)%N t.2) (ml_value T).
(* the total coefficient of a_1__i a_2__j ... in the component expression *)
Definition component T (I : seq nat) : R :=
  \sum_(t <- ml_value T | perm_eq t.2 (zip (iota 0 (ml_nargs T)) I)) t.1.
(* T(x_1, ..., x_k) for vectors x_i, as a number *)
Definition value_at (slots : nat) T (Xs : seq (mv R)) : option R :=
  LET p := mlt_call a slots T [seq Vec X | X <- Xs] IN pol_number p.
End Spec.
