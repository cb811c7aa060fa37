(* Blade_Model.v -- model of the projection into and the reflection in a blade
   (galgebra/mv.py).  A raised exception is None. *)
From mathcomp Require Import all_ssreflect all_algebra.
From Verif Require Import PyBase Ga_Model Mv_Model Coef_Model.
Set Implicit Arguments.
Unset Strict Implicit.
Unset Printing Implicit Defensive.
Import GRing.Theory.
Local Open Scope ring_scope.

Section Blade.
Variable R : comUnitRingType.
Notation ga := (ga R).
Notation mv := (mv R).
Implicit Types (a : ga) (X B : mv).

(* The common beginning of the two methods: the test of the blade, of its
   quadratic form, and the inverse blade (mv.py:414-422 and 435-444).
   Simplification: the blade is an object whose characteristics are not yet
   cached.  Division by a non-zero quadratic form that is no unit of the ring of
   coefficients (there is none in a field) is None. *)
Definition blade_inverse a B : option mv :=
  if (is_blade a (new_mv a (obj B))).2 is Some true then
    LET q := mv_qform a B IN
    if q == 0 then None
    else LET r := mv_rev a B IN mv_divc a r q
  else None.

(* mv.py:435-445 project_in_blade *)
Definition project_in_blade a X B : option mv :=
  LET bi := blade_inverse a B IN
  LET l := mv_lc a X B IN
  mv_mul a l bi.

(* mv.py:426-430: the loop over the grades *)
Fixpoint reflect_loop a (B bi : mv) (k : nat) (ds : seq (nat * mv)) (acc : mv) : option mv :=
  if ds is (grade, x) :: ds' then
    LET p := mv_mul a B x IN
    LET t := mv_mul a p bi IN
    LET acc' := if ((grade * (k + 1)) %% 2 == 0)%N then mv_add a acc t else mv_sub a acc t IN
    reflect_loop a B bi k ds' acc'
  else Some acc.
(* mv.py:414-433 reflect_in_blade; ga.py:1642-1675 grade_decomposition of a
   multivector (its call of blade_rep() has no effect: the copy is dropped) *)
Definition reflect_in_blade a X B : option mv :=
  LET bi := blade_inverse a B IN
  LET d := grade_decomposition a (canon (obj X)) IN
  LET k := i_grade (characterise a (is_blade a (new_mv a (obj B))).1) IN
  reflect_loop a B bi k [seq (p.1, mk_mv a p.2) | p <- d] (mv_const a 0).
End Blade.
