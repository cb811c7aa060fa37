(* Metinv_Model.v -- the inverse metric and the Christoffel symbols of a Metric object that is no
   geometric algebra: Metric.g_inv, g_adj (galgebra/metric.py:527-543) and Christoffel_symbols
   (metric.py:545-597).  Ga overrides g_inv (ga.py:1923-1938, Dual_Model.v).

   Simplifications: sympy's inverse and adjugate are those of the matrix of values; detg is the value
   of the symbol for the determinant if gsym was given (metric.py:663-674).  An exception is None. *)
From mathcomp Require Import all_ssreflect all_algebra.
From Verif Require Import PyBase Ga_Model Metric_Model Lt_Model.
Set Implicit Arguments.
Unset Strict Implicit.
Unset Printing Implicit Defensive.
Import GRing.Theory.
Local Open Scope ring_scope.

Section Metinv.
Variables (R : comUnitRingType) (me : metric_env R).
Implicit Types m : metric R.
(* metric.py:540-543 g_adj *)
Definition g_adj m : seq (seq R) :=
  [seq [seq (\adj (to_mx (m_n m) (m_g m))) i j | j <- enum 'I_(m_n m)] | i <- enum 'I_(m_n m)].
(* metric.py:527-538 g_inv: self.g(i, i) calls a matrix, which raises TypeError; the loop is not
   entered in dimension 0 *)
Definition base_g_inv (detg : option R) m : option (seq (seq R)) :=
  if m_ortho m then if m_n m == 0%N then Some [::] else None
  else match detg with
  | None => mat_inv (m_g m)
  | Some d => if d \is a GRing.unit then Some [seq [seq x / d | x <- row] | row <- g_adj m] else None
  end.
(* metric.py:545-597 Christoffel_symbols with this g_inv *)
Definition base_Christoffel (detg : option R) m (mode : nat) : option (option (seq (seq (seq R)))) :=
  LET c := connect_flg me m IN
  if ~~ c then Some None
  else if mode == 1%N then Some (Some (mk_table (m_n m) (Gamma1 me m)))
  else if mode == 2%N then LET gi := base_g_inv detg m IN Some (Some (mk_table (m_n m) (Gamma2 me m gi)))
  else None.
End Metinv.
