(* Spec_Exp.v -- what the theorems on exp() assume of sympy's elementary functions:
   the laws of the complex functions sqrt, cos, sin, cosh, sinh that the proofs
   need.  Nothing is assumed about is_number and about signs.  Cplx.v shows that
   the functions of the complex numbers satisfy them. *)
From mathcomp Require Import all_ssreflect all_algebra.
From Verif Require Import Exp_Model.
Set Implicit Arguments.
Unset Strict Implicit.
Unset Printing Implicit Defensive.
Import GRing.Theory.
Local Open Scope ring_scope.

Record elementary_laws (R : comUnitRingType) (f : elementary R) (i : R) : Prop := ElementaryLaws {
  i_square : i * i = -1;
  sqrt_square x : fsqrt f x * fsqrt f x = x;
  cos_zero : fcos f 0 = 1;
  sin_zero : fsin f 0 = 0;
  cos_even x : fcos f (- x) = fcos f x;
  sin_odd x : fsin f (- x) = - fsin f x;
  cos_add x y : fcos f (x + y) = fcos f x * fcos f y - fsin f x * fsin f y;
  sin_add x y : fsin f (x + y) = fsin f x * fcos f y + fcos f x * fsin f y;
  cosh_cos x : fcosh f x = fcos f (i * x);
  sinh_sin x : i * fsinh f x = fsin f (i * x) }.
