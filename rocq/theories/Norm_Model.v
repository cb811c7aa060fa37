(* Norm_Model.v -- model of norm2, norm, mag2 and mag (galgebra/mv.py) and of
   abs_with_hint and square_root_of_expr (galgebra/metric.py).

   A SymPy expression stands for its value at real values of its symbols, an
   element of an ordered field.  What SymPy knows about an expression (that it is a
   number, that its sign is known, its square-free factors) and its square root
   are parameters; Spec_Norm.v says what is assumed of them. *)
From mathcomp Require Import all_ssreflect all_algebra.
From Coq Require Import String.
From Verif Require Import PyBase PyStr Ga_Model Mv_Model.
Set Implicit Arguments.
Unset Strict Implicit.
Unset Printing Implicit Defensive.
Import GRing.Theory Num.Theory.
Local Open Scope ring_scope.

Record sign_tests (R : realFieldType) := SignTests {
  is_num : R -> bool;                 (* expr.is_number *)
  ge0 : R -> bool;                    (* (expr >= 0) == True, expr.is_nonnegative *)
  le0 : R -> bool;                    (* (expr <= 0) == True *)
  posdef : bool;                      (* Ga.g.is_positive_definite *)
  sqf : R -> R * seq (R * nat);       (* sqf_list: coefficient and factors with powers *)
  root : R -> R                       (* sqrt *)
}.

Section Norm.
Variables (R : realFieldType) (t : sign_tests R).
Notation ga := (ga R).
Notation mv := (mv R).
Implicit Types (a : ga) (X : mv) (e : R) (hint : string).

(* metric.py:117-143 abs_with_hint; None is the ValueError *)
Definition abs_with_hint e hint : option R :=
  if is_num t e then Some `|e|
  else if ge0 t e then Some e
  else if le0 t e then Some (- e)
  else if hint == "0"%string then Some `|e|
  else if hint == "+"%string then Some e
  else if hint == "-"%string then Some (- e)
  else None.
(* metric.py:168-175, the loop over the factors of sqf_list *)
Fixpoint root_loop e hint (coef : R) (pow_lst : seq (R * nat)) : option R :=
  if pow_lst is (f, n) :: pow_lst' then
    if (n %% 2 != 0)%N then LET b := abs_with_hint e hint IN Some (root t b)
    else root_loop e hint (coef * f ^+ (n %/ 2)) pow_lst'
  else Some coef.
(* metric.py:158-159, 164-167: the square root of a number, and of the coefficient
   (the recursive call for a coefficient that is a number ends at line 159) *)
Definition root_number e hint : option R := LET b := abs_with_hint e hint IN Some (root t b).
Definition root_coef (coef : R) : option R :=
  if coef != 1 then
    if is_num t coef then root_number coef "0" else Some (root t `|coef|)
  else Some coef.
(* metric.py:146-175 square_root_of_expr; trigsimp does not change the value *)
Definition square_root_of_expr e hint : option R :=
  if is_num t e then root_number e hint
  else
    let cp := sqf t e in
    LET coef := root_coef cp.1 IN
    root_loop e hint coef cp.2.

(* mv.py:1327-1347 norm2 *)
Definition mv_norm2 a X hint : option R :=
  LET quadform := mv_qform a X IN
  if posdef t then Some quadform else abs_with_hint quadform hint.
(* mv.py:1351-1370 norm; simplify does not change the value *)
Definition mv_norm a X hint : option R :=
  LET n2 := mv_norm2 a X hint IN
  LET result := square_root_of_expr n2 "+" IN
  Some (if ge0 t result then result else `|result|).
(* mv.py:1387-1390, the loop over the grades *)
Fixpoint mag2_loop a X (ks : seq nat) (total : R) : option R :=
  if ks is k :: ks' then
    LET x := mv_grade a X k IN
    LET n2 := mv_norm2 a x "0" IN
    mag2_loop a X ks' (total + `|n2|)
  else Some total.
(* mv.py:1376-1390 mag2 *)
Definition mv_mag2 a X : option R := mag2_loop a X (iota 0 (ga_n a).+1) 0.
(* mv.py:1394-1402 mag *)
Definition mv_mag a X : option R := LET m := mv_mag2 a X IN Some (root t m).
End Norm.
