(* Agrad_Model.v -- model of the derivative by a multivector: Ga.make_grad with a
   multivector argument (galgebra/ga.py) and the application of the operator.

   Simplification: the coefficients of the multivector one differentiates by must
   be SymPy symbols (otherwise SymPy raises when the operator is applied; here
   make_grad already fails); symbols are given by their number and are not
   coordinates of the algebra.  The cache _agrads returns what was computed
   before and is left out. *)
From mathcomp Require Import all_ssreflect all_algebra.
From Verif Require Import PyBase Ga_Model Mv_Model Mv_Expr Dual_Model Diff_Model Dop_Model.
Set Implicit Arguments.
Unset Strict Implicit.
Unset Printing Implicit Defensive.
Import GRing.Theory.
Local Open Scope ring_scope.

(* SymPy: which symbol an expression is (if it is one), and diff(c, symbol) *)
Record symbols (R : comUnitRingType) := Symbols { sym_of : R -> option nat; sym_diff : nat -> R -> R }.

Section Agrad.
Variables (R : comUnitRingType) (sy : symbols R) (gsym : option R) (a : ga R).
(* connect_flg of the algebra: the basis vectors depend on the coordinates *)
Variable connect : bool.
Notation mv := (mv R).

(* ga.py:762-781 make_grad of a multivector: the terms (reciprocal blade, symbol) of
   the operator; metric.py:80-82 linear_expand_terms *)
Definition agrad (A : mv) : option (seq (mv * nat)) :=
  omapM (fun t : R * word =>
    LET k := sym_of sy t.1 IN
    LET r := recip_blade gsym a t.2 IN
    Some (mk_mv a r, k)) (canon (obj A)).
(* ga.py:2041-2059 pDiff by a symbol that is not a coordinate.  In an algebra with
   a connection blade_derivation looks the symbol up in the coordinates
   (ga.py:1992-1996) and raises *)
Definition sym_pdiff (k : nat) (F : mv) : option mv :=
  let dF := mk_mv a [seq (sym_diff sy k t.1, t.2) | t <- obj F] in
  if connect then
    LET s := is_scalar a F IN
    if s then Some dF
    else if nilp [seq t <- canon (obj F) | ~~ nilp t.2] then Some dF else None
  else Some dF.
(* mv.py:94-115 Mv.Mul *)
Definition op_of (d : dmode) : mv -> mv -> option mv :=
  match d with
  | MMul => mv_mul a | MWedge => mv_wedge a | MDot => mv_dot a | MLt => mv_lc a | MGt => mv_rc a
  end.
(* mv.py:1792-1796: the operator applied to a field on its right *)
Definition agrad_apply (d : dmode) (ts : seq (mv * nat)) (F : mv) : option mv :=
  ofoldl (fun s (t : mv * nat) => LET dF := sym_pdiff t.2 F IN LET q := op_of d t.1 dF IN mv_add a s q)
    ts (mv_const a 0).
(* mv.py:1781-1785: the operator with cmpflg applied to a field on its left *)
Definition agrad_apply_left (d : dmode) (F : mv) (ts : seq (mv * nat)) : option mv :=
  ofoldl (fun s (t : mv * nat) => LET dF := sym_pdiff t.2 F IN LET q := op_of d dF t.1 IN mv_add a s q)
    ts (mv_const a 0).
End Agrad.
