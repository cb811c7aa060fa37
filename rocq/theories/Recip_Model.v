(* Recip_Model.v -- the reciprocal basis vectors as the user asks for them. *)
From mathcomp Require Import all_ssreflect all_algebra.
From Verif Require Import PyBase Ga_Model Mv_Model Mv_Expr Dual_Model.
Set Implicit Arguments.
Unset Strict Implicit.
Unset Printing Implicit Defensive.
Import GRing.Theory.
Local Open Scope ring_scope.

Section Recip.
Variable R : comUnitRingType.
(* ga.py:906-921 mvr.  gsym is the symbol standing for det(g), if one was
   declared (ga_e_sq, Dual_Model.v). *)
Definition ga_mvr (gsym : option R) (a : ga R) (norm : bool) : option (seq (mv R)) :=
  if norm && ~~ is_ortho a then
    LET rs := r_basis_mv a IN
    LET s := ga_e_sq gsym a IN
    omapM (fun i => mv_divc a (nth (mv_const a 0) rs i) s) (iota 0 (ga_n a))
  else r_basis_mv a.
End Recip.
