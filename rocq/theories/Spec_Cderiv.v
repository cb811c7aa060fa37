(* Spec_Cderiv.v -- the derivative of a field in the direction of a vector field. *)
From mathcomp Require Import all_ssreflect all_algebra.
From Verif Require Import PyBase Spec_Index Spec_Mv Ga_Model Mv_Model Mv_Expr Metric_Model Diff_Model Props_Coef Props_Diff Spec_Lt.
Set Implicit Arguments.
Unset Strict Implicit.
Unset Printing Implicit Defensive.
Import GRing.Theory.
Local Open Scope ring_scope.
Open Scope py_scope.

Section Spec.
Variables (R : comUnitRingType) (me : metric_env R) (m : metric R) (dga : diff_ga R).
Notation a := (metric_ga m).
Notation n := (m_n m).
(* the component of the vector field A along the coordinate l: with norm=True the basis
   vectors of the algebra are E_l/N_l, where E_l belongs to the coordinate l *)
Definition along (A : mv R) (l : nat) : R := coefficient (obj A) (mk_blade [:: l]) / norm_factor m l.
(* (A . grad) f and (A . grad) B: sums of A^l (d_l f), A^l (d_l B) *)
Definition dir_fun (A : mv R) (f : R) : R := \sum_(l < n) along A l * me_diff me l f.
Definition dir_field (A B : mv R) : option (mv R) :=
  LET ds := omapM (deriv me m dga B) (iota 0 n) IN
  run a (py_sum [seq along A dl.2 ##. Val dl.1 | dl <- zip ds (iota 0 n)]).
(* dB is the vector field whose components are the derivatives of those of B *)
Definition dir_components (A B dB : mv R) : Prop := vector a dB /\
  forall j, (j < n)%N -> coefficient (obj dB) (mk_blade [:: j]) = dir_fun A (coefficient (obj B) (mk_blade [:: j])).
(* the components of B do not depend on the coordinates *)
Definition constant_components (B : mv R) : Prop :=
  forall j l, (j < n)%N -> (l < n)%N -> me_diff me l (coefficient (obj B) (mk_blade [:: j])) = 0.
End Spec.
