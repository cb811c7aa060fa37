(* Exp_Model.v -- model of the exponential of a multivector and of the rotation
   made from it (galgebra/mv.py).  A raised exception is None. *)
From mathcomp Require Import all_ssreflect all_algebra.
From Coq Require Import String.
From Verif Require Import PyBase PyStr Ga_Model Mv_Model.
Set Implicit Arguments.
Unset Strict Implicit.
Unset Printing Implicit Defensive.
Import GRing.Theory.
Local Open Scope ring_scope.

(* sympy's sqrt, cos, sin, cosh, sinh, the attribute is_number and the comparison
   with zero, which mv.py:1218-1270 calls on coefficients.  They are parameters of
   the model; what is assumed of them is stated in Spec_Exp.v. *)
Record elementary (R : comUnitRingType) := Elementary {
  fsqrt : R -> R; fcos : R -> R; fsin : R -> R; fcosh : R -> R; fsinh : R -> R;
  is_number : R -> bool; positive : R -> bool }.

Section Exp.
Variables (R : comUnitRingType) (f : elementary R).
Notation ga := (ga R).
Notation mv := (mv R).
Implicit Types (a : ga) (X : mv).

(* mv.py:1245-1249, 1257-1261, the branches with hyperbolic functions:
   norm = sqrt(sq), value = self.obj/norm, cosh(norm) + sinh(norm)*value *)
Definition exp_hyp a X (sq : R) : option mv :=
  let norm := fsqrt f sq in
  LET d := sinv norm IN
  Some (mk_mv a ((fcosh f norm, [::]) :: escale (fsinh f norm) (escale d (obj X)))).
(* mv.py:1250-1255, 1262-1267, the branches with trigonometric functions *)
Definition exp_trig a X (sq : R) : option mv :=
  let norm := fsqrt f (- sq) in
  LET d := sinv norm IN
  Some (mk_mv a ((fcos f norm, [::]) :: escale (fsin f norm) (escale d (obj X)))).
(* mv.py:1234-1243: a single term, scalar coef times basis blade *)
Definition exp_term a (hint : string) (coef : R) (base : word) : option mv :=
  let base_mv := mk_mv a [:: (1, base)] in
  LET base2 := mv_mul a base_mv base_mv IN
  let base_sq := mv_scalar base2 in
  if hint == "-"%string then
    let base_n := fsqrt f (- base_sq) in
    LET d := sinv base_n IN
    Some (mk_mv a [:: (fcos f (base_n * coef), [::]); (fsin f (base_n * coef) * d, base)])
  else
    let base_n := fsqrt f base_sq in
    LET d := sinv base_n IN
    Some (mk_mv a [:: (fcosh f (base_n * coef), [::]); (fsinh f (base_n * coef) * d, base)]).
(* mv.py:1218-1270 exp.  simplify does not change the value of a coefficient. *)
Definition mv_exp a (hint : string) X : option mv :=
  LET X' := blade_rep a X IN
  LET s := mv_mul a X' X' IN
  LET b := is_scalar a s IN
  if b then
    let sq := mv_scalar s in
    if sq == 0 then mv_addc a X' 1
    else if linear_expand (obj X') is [:: (coef, base)] then exp_term a hint coef base
    else if is_number f sq then (if positive f sq then exp_hyp a X' sq else exp_trig a X' sq)
    else if hint == "+"%string then exp_hyp a X' sq else exp_trig a X' sq
  else None.
(* mv.py:447-450 rotate_multivector *)
Definition rotate_multivector a (hint : string) X (itheta : mv) : option mv :=
  LET m := mv_neg a itheta IN
  LET m2 := mv_divc a m 2%:R IN
  LET Rm := mv_exp a hint m2 IN
  LET p2 := mv_divc a itheta 2%:R IN
  LET Rp := mv_exp a hint p2 IN
  LET y := mv_mul a Rm X IN
  mv_mul a y Rp.
End Exp.
