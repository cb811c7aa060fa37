(* Ops_Model.v -- the binary operators of mv.py with a number (a sympy expression or a
   Python number) as one operand, as Python dispatches them.

   An operand is a multivector of the algebra or a number.  Two numbers never reach the
   class Mv; this case is None here. *)
From mathcomp Require Import all_ssreflect all_algebra.
From Verif Require Import PyBase Ga_Model Mv_Model.
Set Implicit Arguments.
Unset Strict Implicit.
Unset Printing Implicit Defensive.
Import GRing.Theory.
Local Open Scope ring_scope.

Inductive operand (R : comUnitRingType) := OMv of mv R | ONum of R.
Inductive binop := OAdd | OSub | OMul | OWedge | ODot | OLt | OGt | OLsh | ORsh | ODiv.

Section Ops.
Variables (R : comUnitRingType) (a : ga R).
Notation mv := (mv R).
Implicit Types (X Y : mv) (c : R).

(* both operands are multivectors: mv.py:538-600, 785-822, 840-890 *)
Definition binary (op : binop) X Y : option mv :=
  match op with
  | OAdd => mv_add a X Y
  | OSub => mv_sub a X Y
  | OMul => mv_mul a X Y
  | OWedge => mv_wedge a X Y
  | ODot => mv_dot a X Y
  | OLt => mv_lc a X Y
  | OGt => mv_rc a X Y
  | OLsh => mv_anticom a X Y
  | ORsh => mv_com a X Y
  | ODiv => mv_div a X Y
  end.
(* X op c: mv.py:521-522, 554-555, 595-596, 788-789, 811-812, 840-844, 862-863, 882-883 *)
Definition right_number (op : binop) X c : option mv :=
  match op with
  | OAdd => mv_addc a X c
  | OSub => mv_subc a X c
  | OMul => mv_scale a c X
  | OWedge => mv_scale a c X
  | ODot => mv_dotc a X c
  | OLt => mv_ltc a X c
  | OGt => mv_scale a c X
  | OLsh => LET p := mv_scale a c X IN LET q := mv_scale a c X IN LET s := mv_add a p q IN mv_scale a (half R) s
  | ORsh => LET p := mv_scale a c X IN LET q := mv_scale a c X IN LET s := mv_sub a p q IN mv_scale a (half R) s
  | ODiv => mv_divc a X c
  end.
(* c op X: the reflected methods mv.py:541-548, 587-590, 598-600, 802-806, 822-826, 846-850;
   c < X is X.__gt__(c) and c > X is X.__lt__(c), as Python does when the class of c
   does not know how to compare with a multivector *)
Definition left_number (op : binop) c X : option mv :=
  match op with
  | OAdd => mv_addc a X c
  | OSub => mv_rsubc a X c
  | OMul => mv_scale a c X
  | OWedge => mv_scale a c X
  | ODot => mv_dotc a X c
  | OLt => right_number OGt X c
  | OGt => right_number OLt X c
  | OLsh => LET p := mv_scale a c X IN LET q := mv_scale a c X IN LET s := mv_add a p q IN mv_scale a (half R) s
  | ORsh => LET p := mv_scale a c X IN LET q := mv_scale a c X IN LET s := mv_sub a p q IN mv_scale a (half R) s
  | ODiv => mv_rdivc a c X
  end.
Definition operate (op : binop) (x y : operand R) : option mv :=
  match x, y with
  | OMv X, OMv Y => binary op X Y
  | OMv X, ONum c => right_number op X c
  | ONum c, OMv Y => left_number op c Y
  | ONum _, ONum _ => None
  end.
End Ops.
