(* Corr_Model.v -- galgebra/mv.py: correlation(u, v, dec).

   A sympy Matrix of real numbers is its shape and the list of its entries, row by row;
   M[i] with one index reads that list.  evalf(dec) of the denominator is an input.  A result
   that is not a number (nan, zoo) and every exception is None. *)
From mathcomp Require Import all_ssreflect all_algebra.
From Verif Require Import PyBase.
Set Implicit Arguments.
Unset Strict Implicit.
Unset Printing Implicit Defensive.
Import GRing.Theory Num.Theory.
Local Open Scope ring_scope.

Section Corr.
Variable R : rcfType.
Variable evalf : R -> R.
Record smatrix := SMatrix { s_rows : nat; s_cols : nat; s_flat : seq R }.

(* M[i] *)
Definition at_flat (M : smatrix) (i : nat) : option R :=
  if (i < size (s_flat M))%N then Some (nth 0 (s_flat M) i) else None.
(* mv.py:2053-2056: uave += u[i] *)
Fixpoint total_loop (M : smatrix) (ks : seq nat) (s : R) : option R :=
  if ks is i :: ks' then LET x := at_flat M i IN total_loop M ks' (s + x) else Some s.
Definition total (M : smatrix) (rows : nat) : option R := total_loop M (iota 0 rows) 0.
(* mv.py:2059-2063: ulocal = u[:, :]; ulocal[i] -= uave *)
Definition centred (M : smatrix) (rows : nat) (ave : R) : smatrix :=
  SMatrix (s_rows M) (s_cols M)
    (foldl (fun l i => set_nth 0 l i (nth 0 l i - ave)) (s_flat M) (iota 0 rows)).
(* sympy: M.dot(N), for rows and columns of the same length *)
Definition mdot (M N : smatrix) : option R :=
  if ((s_rows M == 1%N) || (s_cols M == 1%N)) && ((s_rows N == 1%N) || (s_cols N == 1%N)) &&
     (size (s_flat M) == size (s_flat N))
  then Some (foldl (fun s p => s + p.1 * p.2) 0 (zip (s_flat M) (s_flat N))) else None.
(* sympy: M.norm() *)
Definition mnorm (M : smatrix) : R := Num.sqrt (foldl (fun s x => s + `|x| ^+ 2) 0 (s_flat M)).
(* mv.py:2050-2064 *)
Definition correlation (u v : smatrix) : option R :=
  let rows := s_rows u in
  LET su := total u rows IN
  LET sv := total v rows IN
  if rows == 0%N then None else
  let ul := centred u rows (su / rows%:R) in
  let vl := centred v rows (sv / rows%:R) in
  LET d := mdot ul vl IN
  let q := evalf (mnorm ul * mnorm vl) in
  if q == 0 then None else Some (d / q).
End Corr.
