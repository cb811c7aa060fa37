(* Spec_Grade.v -- specification of grade selection, of the outer product and
   of the products defined by grade selection, on multivectors given by their
   coefficients (mval R n: one scalar per set of basis indices). *)
From mathcomp Require Import all_ssreflect all_algebra.
From Verif Require Import Exterior.
Set Implicit Arguments.
Unset Strict Implicit.
Unset Printing Implicit Defensive.
Import GRing.Theory.
Local Open Scope ring_scope.

Section Grade.
Variables (R : comUnitRingType) (n : nat).
Implicit Types (x y : mval R n) (S T : {set 'I_n}).

(* <x>_r *)
Definition gpart (r : nat) x : mval R n := [ffun S : {set 'I_n} => if #|S| == r then x S else 0].
(* <x>_r = x *)
Definition homog (r : nat) x : Prop := gpart r x = x.

(* signs: grade involution, reversion, Clifford conjugation *)
Definition minvol x : mval R n := [ffun S : {set 'I_n} => (-1) ^+ #|S| * x S].
Definition mrev x : mval R n := [ffun S : {set 'I_n} => (-1) ^+ (#|S| * (#|S| - 1))./2 * x S].
Definition meven x : mval R n := [ffun S : {set 'I_n} => if odd #|S| then 0 else x S].
Definition modd x : mval R n := [ffun S : {set 'I_n} => if odd #|S| then x S else 0].

(* the outer product of two basis blades: zero if they share an index,
   otherwise the blade of the union with the sign of the permutation that
   sorts the concatenation: the number of pairs (s, t) out of order *)
Definition cross S T : nat := \sum_(s in S) #|[set t in T | (t < s)%N]|.
Definition extb S T : mval R n :=
  if [disjoint S & T] then (-1) ^+ cross S T *: bl R (S :|: T) else 0.
Definition ext x y : mval R n := \sum_S \sum_T (x S * y T) *: extb S T.

(* the sum over r, s of the grade f(r,s) part of <x>_r <y>_s (None: nothing) *)
Definition selprod (mul : mval R n -> mval R n -> mval R n) (f : nat -> nat -> option nat) x y :=
  \sum_(r < n.+1) \sum_(s < n.+1)
    (if f r s is Some k then gpart k (mul (gpart r x) (gpart s y)) else 0).
End Grade.

(* the textbook grade rules *)
Definition outer_grade (r s : nat) : option nat := Some (r + s)%N.
Definition left_grade (r s : nat) : option nat := if (r <= s)%N then Some (s - r)%N else None.
Definition right_grade (r s : nat) : option nat := if (s <= r)%N then Some (r - s)%N else None.
(* Hestenes' inner product: |r - s| unless one factor is a scalar *)
Definition hestenes_grade (r s : nat) : option nat :=
  if (r == 0)%N || (s == 0)%N then None else Some (maxn r s - minn r s)%N.
Definition scalar_grade (r s : nat) : option nat := Some 0%N.
