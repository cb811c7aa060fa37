(* Spec_Lt.v -- what a linear transformation is, for the statements about Lt *)
From mathcomp Require Import all_ssreflect all_algebra.
From Verif Require Import PyBase Ga_Model Mv_Model Mv_Expr Lt_Model.
Set Implicit Arguments.
Unset Strict Implicit.
Unset Printing Implicit Defensive.
Import GRing.Theory.
Local Open Scope ring_scope.

Section Spec.
Variables (R : comUnitRingType) (a : ga R).
Notation n := (ga_n a).
(* the symbols of the basis vectors, and their linear combinations *)
Definition basis_symbols : seq word := [seq mk_blade [:: i] | i <- iota 0 n].
Definition lin_comb (x : expr R) : bool := all (fun t => t.2 \in basis_symbols) x.
(* the stored dictionary has exactly the basis vectors as keys and each image is a
   combination of basis vectors *)
Definition transformation (L : lt R) : bool :=
  perm_eq [seq kv.1 | kv <- L] (iota 0 n) && all (fun kv => lin_comb kv.2) L.
(* an n times n matrix *)
Definition rect (M : mat R) : bool := (size M == n) && all (fun r => size r == n) M.
(* a valid object in blade representation; one that is a vector *)
Definition plain (A : mv R) : bool := mv_valid a A && (brep A || is_ortho a).
Definition vector (A : mv R) : bool := plain A && lin_comb (obj A).
(* both computations return, and the results are == *)
Definition same (o1 o2 : option (mv R)) : option bool := LET x := o1 IN LET y := o2 IN mv_eq a x y.
(* the object of a basis vector *)
Definition evec (i : nat) : mv R := Mv [:: (1, mk_blade [:: i])] true.
(* L(p) for an expression p *)
Definition on (L : lt R) (p : py R) : option (mv R) := LET x := run a p IN lt_call a L x.
End Spec.
