(* Mv_Model.v -- model of class Mv (galgebra/mv.py): multivector objects over a
   fixed geometric algebra, their operators and grade functions.

   An object is modelled by its expression (field obj, a list of terms as in
   Ga_Model.v) and by the flag is_blade_rep.  The other cached fields (i_grade,
   grades, char_Mv, blade_flg, versor_flg) are the subject of Coef_Model.v;
   here a flag that was never set is recomputed.  Exceptions are None.
   Simplification: sympy keeps a sum of like terms merged and [expand]/[simplify]
   bring coefficients to a normal form; the model merges like terms and drops
   zero coefficients whenever an object is built (canon), and coefficient
   equality is equality of scalars.  Operators between multivectors of two
   different algebras raise ValueError in the code; see Coef_Model.v. *)
From mathcomp Require Import all_ssreflect all_algebra.
From Verif Require Import PyBase Ga_Model.
Set Implicit Arguments.
Unset Strict Implicit.
Unset Printing Implicit Defensive.
Import GRing.Theory.
Local Open Scope ring_scope.

Section Mv.
Variable R : comUnitRingType.
Notation expr := (expr R).
Notation ga := (ga R).

(* mv.py:276-401: fields obj, is_blade_rep *)
Record mv := Mv { obj : expr; brep : bool }.
Implicit Types (X Y : mv) (x y : expr) (c : R).

(* mv.py:117-169 characterise_Mv: in blade representation iff the first
   non-commutative factor of every term is a blade symbol *)
Definition mk_mv (a : ga) x : mv :=
  let y := canon x in
  Mv y (all (fun t : R * word => first_sym t.2 \in blades_flat (ga_n a)) y).

(* mv.py:276-401: Mv(c), Mv(), Mv(c, 'scalar') *)
Definition mv_const (a : ga) c : mv := mk_mv a [:: (c, [::])].

(* mv.py:452-470 base_rep, blade_rep *)
Definition base_rep (a : ga) X : option mv :=
  if brep X then LET x := blade_to_base_rep a (obj X) IN Some (Mv x false) else Some X.
Definition blade_rep (a : ga) X : option mv :=
  if brep X then Some X else LET x := base_to_blade_rep a (obj X) IN Some (Mv x true).

(* mv.py:513-514 __neg__ *)
Definition mv_neg (a : ga) X : option mv := Some (mk_mv a (eneg (obj X))).
(* mv.py:516-536 _arithmetic_op between multivectors *)
Definition mv_arith (op : expr -> expr -> expr) (a : ga) X Y : option mv :=
  if brep X == brep Y then Some (mk_mv a (op (obj X) (obj Y)))
  else if brep X then LET Y' := blade_rep a Y IN Some (mk_mv a (op (obj X) (obj Y')))
  else LET X' := blade_rep a X IN Some (mk_mv a (op (obj X') (obj Y))).
(* mv.py:538-548 __add__, __sub__ *)
Definition mv_add := mv_arith (fun x y => x ++ y).
Definition mv_sub := mv_arith (fun x y => x ++ eneg y).
(* mv.py:521-522 with a scalar: X + c, c + X, X - c, c - X *)
Definition mv_addc (a : ga) X c : option mv := Some (mk_mv a (obj X ++ [:: (c, [::])])).
Definition mv_subc (a : ga) X c : option mv := Some (mk_mv a (obj X ++ [:: (- c, [::])])).
Definition mv_rsubc (a : ga) X c : option mv := Some (mk_mv a ((c, [::]) :: eneg (obj X))).
(* mv.py:554-555, 587-590, 788-789, 805-806, 882-883: X*c, c*X, X^c, c^X, X>c *)
Definition mv_scale (a : ga) c X : option mv := Some (mk_mv a (escale c (obj X))).
(* mv.py:814-815, 828-832: X|c, c|X *)
Definition mv_dotc (a : ga) X c : option mv := Some (mv_const a 0).

(* mv.py:920-926 is_scalar, is_vector *)
Definition is_scalar (a : ga) X : option bool :=
  LET gs := ga_grades a (obj X) IN Some (gs == [:: 0%N]).
Definition is_vector (a : ga) X : option bool :=
  LET gs := ga_grades a (obj X) IN Some (gs == [:: 1%N]).
(* mv.py:1028-1033 is_zero, scalar *)
Definition is_zero X : bool := canon (obj X) == [::].
Definition mv_scalar X : R := scalar_part (obj X).
(* mv.py:862-863: X < c *)
Definition mv_ltc (a : ga) X c : option mv := Some (mv_const a (c * mv_scalar X)).

(* mv.py:550-585 __mul__ between multivectors.  The scalar case multiplies the
   expressions (Expr * Mv falls back to Mv.__rmul__). *)
Definition mv_mul (a : ga) X Y : option mv :=
  LET s := is_scalar a X IN
  if s then Some (mk_mv a (emul (obj X) (obj Y)))
  else if ~~ brep X && ~~ brep Y then LET z := ga_mul a (obj X) (obj Y) IN Some (mk_mv a z)
  else
    LET X' := base_rep a X IN
    LET Y' := base_rep a Y IN
    LET z := ga_mul a (obj X') (obj Y') IN
    blade_rep a (Mv (obj (mk_mv a z)) false).
(* mv.py:785-800 __xor__ *)
Definition mv_wedge (a : ga) X Y : option mv :=
  LET s := is_scalar a X IN
  if s then mv_mul a X Y
  else LET X' := blade_rep a X IN LET Y' := blade_rep a Y IN
       LET z := ga_wedge a (obj X') (obj Y') IN Some (mk_mv a z).
(* mv.py:808-822 __or__, 852-870 __lt__, 872-890 __gt__ *)
Definition mv_single (k : prodkind) (a : ga) X Y : option mv :=
  LET X' := blade_rep a X IN LET Y' := blade_rep a Y IN
  LET z := ga_single a k (obj X') (obj Y') IN Some (mk_mv a z).
Definition mv_dot := mv_single Hestenes.
Definition mv_lc := mv_single LeftC.
Definition mv_rc := mv_single RightC.

(* mv.py:828-838 __pow__ with a non-negative exponent *)
Fixpoint pow_loop (a : ga) (k : nat) (res X : mv) : option mv :=
  if k is k'.+1 then LET r := mv_mul a res X IN pow_loop a k' r X else Some res.
Definition mv_pow (a : ga) X (k : nat) : option mv := pow_loop a k (mv_const a 1) X.
(* mv.py:840-844 __lshift__, __rshift__; ga.py:588-603 com is >> *)
Definition half : R := (2%:R)^-1.
Definition mv_anticom (a : ga) X Y : option mv :=
  LET p := mv_mul a X Y IN LET q := mv_mul a Y X IN LET s := mv_add a p q IN mv_scale a half s.
Definition mv_com (a : ga) X Y : option mv :=
  LET p := mv_mul a X Y IN LET q := mv_mul a Y X IN LET s := mv_sub a p q IN mv_scale a half s.

(* mv.py:1035-1037, 1530-1531 get_grade, grade *)
Definition mv_grade (a : ga) X (r : nat) : option mv :=
  LET z := ga_get_grade a (obj X) r IN Some (mk_mv a z).
(* mv.py:1127-1133 even, odd; 1136-1142 g_invol *)
Definition mv_even (a : ga) X : option mv := LET z := ga_even_odd a (obj X) true IN Some (mk_mv a z).
Definition mv_odd (a : ga) X : option mv := LET z := ga_even_odd a (obj X) false IN Some (mk_mv a z).
Definition mv_invol (a : ga) X : option mv :=
  LET e := mv_even a X IN LET o := mv_odd a X IN mv_sub a e o.
(* mv.py:1145-1147 rev; 1152-1158 ccon *)
Definition mv_rev (a : ga) X : option mv :=
  LET X' := blade_rep a X IN LET z := ga_reverse a (obj X') IN Some (mk_mv a z).
Definition mv_ccon (a : ga) X : option mv := LET i := mv_invol a X IN mv_rev a i.
(* mv.py:1162-1177 sp, with switch '' and 'rev' *)
Definition mv_sp (a : ga) X Y : option R := LET p := mv_mul a X Y IN Some (mv_scalar p).
Definition mv_sprev (a : ga) X Y : option R :=
  LET r := mv_rev a X IN LET p := mv_mul a r Y IN Some (mv_scalar p).
(* mv.py:1317-1324 qform *)
Definition mv_qform (a : ga) X : option R :=
  LET r := mv_rev a X IN LET p := mv_mul a r X IN Some (mv_scalar p).

(* mv.py:1508-1530 simplify, expand with a value-preserving mode *)
Definition mv_expand (a : ga) X : mv := mk_mv a (linear_expand (obj X)).
(* mv.py:479-485 __eq__ *)
Definition mv_eq (a : ga) X Y : option bool :=
  LET d := mv_sub a X Y IN Some (obj (mv_expand a (mv_expand a d)) == [::]).
Definition mv_eqc (a : ga) X c : option bool :=
  LET s := is_scalar a X IN Some (s && (perm_eq (canon (obj X)) (canon [:: (c, [::])]))).

(* 1/c for a scalar; None stands for sympy's zoo (or nan), which is no scalar *)
Definition sinv c : option R := if c \is a GRing.unit then Some c^-1 else None.
(* mv.py:595-596 division by a scalar *)
Definition mv_divc (a : ga) X c : option mv := LET d := sinv c IN mv_scale a d X.
(* mv.py:1402-1420 inv.  The expression of a scalar multivector is its scalar
   part.  The final None is the TypeError. *)
Definition mv_inv (a : ga) X : option mv :=
  LET s := is_scalar a X IN
  if s then LET d := sinv (mv_scalar X) IN Some (mv_const a d)
  else
    LET sq := mv_mul a X X IN
    LET s2 := is_scalar a sq IN
    if s2 then LET d := sinv (mv_scalar sq) IN mv_scale a d X
    else
      LET r := mv_rev a X IN
      LET p := mv_mul a X r IN
      LET s3 := is_scalar a p IN
      if s3 then LET d := sinv (mv_scalar p) IN mv_scale a d r else None.
(* mv.py:592-600 __truediv__, __rtruediv__ *)
Definition mv_div (a : ga) X Y : option mv := LET i := mv_inv a Y IN mv_mul a X i.
Definition mv_rdivc (a : ga) c X : option mv := LET i := mv_inv a X IN mv_mul a (mv_const a c) i.
(* mv.py:828-838 __pow__ *)
Definition mv_powz (a : ga) X (k : int) : option mv :=
  match k with
  | Posz m => mv_pow a X m
  | Negz m => LET p := mv_pow a X m.+1 IN mv_inv a p
  end.
End Mv.
