(* Symat_Model.v -- model of the generic matrices of galgebra/lt.py (Symbolic_Matrix). *)
From Coq Require Import String Ascii ZArith.
From mathcomp Require Import all_ssreflect.
From Verif Require Import PyBase PyStr.
Set Implicit Arguments.
Unset Strict Implicit.
Unset Printing Implicit Defensive.
Local Open Scope string_scope.

(* what a sympy expression in such a matrix can be: 0, a symbol or its negative.
   The first boolean tells a function of the coordinates from a constant, the second
   whether it is negated *)
Inductive entry := EZero | ESym of bool & bool & string.
Definition entry_neg (e : entry) : entry := if e is ESym f s x then ESym f (~~ s) x else e.
(* zeros(n, n), M[i, j] = e.  Simplification: a matrix is a function of the indices *)
Definition smat : Type := nat -> nat -> entry.
Definition zeros : smat := fun _ _ => EZero.
Definition put (M : smat) (i j : nat) (e : entry) : smat :=
  fun i' j' => if (i' == i) && (j' == j) then e else M i' j'.
(* range(lo, hi) *)
Definition span (lo hi : nat) : seq nat := iota lo (hi - lo).

Section Mode.
Variables (kernel : string) (coords : seq string) (f : bool).
Let n := size coords.
(* lt.py:52-69 general_matrix *)
Definition general_name (i j : nat) : string :=
  "{" +++ kernel +++ "__" +++ nth EmptyString coords i +++ "}_" +++ nth EmptyString coords j.
Definition general_matrix : smat :=
  foldl (fun G i => foldl (fun G j => put G i j (ESym f false (general_name i j))) G (span 0 n)) zeros (span 0 n).
(* lt.py:76-82, 96-102: the names k_m, ..., k_2, k_1; the list is popped from its end *)
Definition indexed (m : nat) : seq entry := [seq ESym f false (kernel +++ "_" +++ str_nat i) | i <- rev (span 1 m.+1)].
Definition py_pop (l : seq entry) : option (entry * seq entry) :=
  if l is x :: l' then Some (last x l', belast x l') else None.
(* lt.py:84-89 symmetric_matrix *)
Definition sym_step (st : option (smat * seq entry)) (i j : nat) : option (smat * seq entry) :=
  LET st := st IN LET p := py_pop st.2 IN Some (put (put st.1 i j p.1) j i p.1, p.2).
Definition symmetric_matrix : option smat :=
  LET r := foldl (fun st i => foldl (fun st j => sym_step st i j) st (span i n)) (Some (zeros, indexed (n * n.+1)./2)) (span 0 n) IN
  Some r.1.
(* lt.py:104-109 antisymmetric_matrix *)
Definition anti_step (st : option (smat * seq entry)) (i j : nat) : option (smat * seq entry) :=
  LET st := st IN LET p := py_pop st.2 IN Some (put (put st.1 i j p.1) j i (entry_neg p.1), p.2).
Definition antisymmetric_matrix : option smat :=
  LET r := foldl (fun st i => foldl (fun st j => anti_step st i j) st (span i.+1 n)) (Some (zeros, indexed (n * n.-1)./2)) (span 0 n) IN
  Some r.1.
(* lt.py:111-121; coords is a list or tuple *)
Definition Symbolic_Matrix (mode : string) : option smat :=
  if ~~ has (String.eqb mode) [:: "g"; "s"; "a"] then None
  else if mode == "g" then Some general_matrix
  else if mode == "s" then symmetric_matrix
  else antisymmetric_matrix.
End Mode.
