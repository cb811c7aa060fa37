(* Spec_Clifford.v -- what "the Clifford product of a metric" means.

   A multivector of an n-dimensional algebra over the scalars R is given by its
   coefficients: one scalar for every set of basis indices (mval R n); bl S is
   the basis blade with index set S, [set i] the basis vector e_i, set0 the
   number 1.  The axioms below are the textbook ones; there is exactly one
   product satisfying them (Clifford_Unique.v), so that "A*B" has a meaning
   that does not depend on any construction. *)
From mathcomp Require Import all_ssreflect all_algebra.
From Verif Require Import Exterior.
Set Implicit Arguments.
Unset Strict Implicit.
Unset Printing Implicit Defensive.
Import GRing.Theory.
Local Open Scope ring_scope.

Record is_clifford_product (R : comUnitRingType) (n : nat) (g : 'I_n -> 'I_n -> R)
    (mul : mval R n -> mval R n -> mval R n) : Prop := IsClifford {
  cl_linl : forall c x y z, mul (c *: x + y) z = c *: mul x z + mul y z;
  cl_linr : forall c x y z, mul z (c *: x + y) = c *: mul z x + mul z y;
  cl_assoc : forall x y z, mul x (mul y z) = mul (mul x y) z;
  cl_1l : forall x, mul (bl R set0) x = x;
  cl_1r : forall x, mul x (bl R set0) = x;
  (* e_i e_j + e_j e_i = 2 g_ij *)
  cl_vec : forall i j, mul (bl R [set i]) (bl R [set j]) + mul (bl R [set j]) (bl R [set i])
                       = (g i j *+ 2) *: bl R set0;
  (* blades are antisymmetrised products: e_i ^ e_S = (e_i e_S + (-1)^|S| e_S e_i) / 2 *)
  cl_blade : forall (i : 'I_n) (S : {set 'I_n}), (forall j, j \in S -> (i < j)%N) ->
    bl R (i |: S) = 2%:R^-1 *: (mul (bl R [set i]) (bl R S)
                                + (-1) ^+ #|S| *: mul (bl R S) (bl R [set i])) }.
