(* Spec_Calculus.v -- gradient and divergence in the components along the coordinates. *)
From mathcomp Require Import all_ssreflect all_algebra.
From Verif Require Import PyBase Spec_Index Metric_Model.
Set Implicit Arguments.
Unset Strict Implicit.
Unset Printing Implicit Defensive.
Import GRing.Theory.
Local Open Scope ring_scope.

Section Spec.
(* n coordinates, the partial derivatives d_i of scalars and the matrix g of the metric tensor
   in the coordinate basis *)
Variables (R : comUnitRingType) (n : nat) (D : nat -> R -> R) (g : 'M[R]_n).
(* the components of the gradient of f: sum of g^ij d_j f *)
Definition gradient_of (f : R) (i : 'I_n) : R := \sum_(j < n) invmx g i j * D j f.
(* the divergence of the vector field with components v^i,
     (1/sqrt|g|) sum of d_i (sqrt|g| v^i) = sum of d_i v^i + v^i (d_i |g|)/(2|g|) *)
Definition divergence_of (v : 'I_n -> R) : R :=
  \sum_(i < n) (D i (v i) + v i * (D i (\det g) / (2%:R * \det g))).
(* the Laplace-Beltrami operator *)
Definition laplacian_of (f : R) : R := divergence_of (gradient_of f).
End Spec.
