(* Spec_Index.v -- specification vocabulary for basis indices.
   Independent of the model: plain combinatorics of lists of numbers. *)
From mathcomp Require Import all_ssreflect all_algebra.
Set Implicit Arguments.
Unset Strict Implicit.
Unset Printing Implicit Defensive.

(* strictly increasing tuples of indices below n *)
Definition wfI (n : nat) (I : seq nat) : bool := sorted ltn I && all (fun i => i < n) I.

(* lexicographic order of tuples *)
Fixpoint lexlt (a b : seq nat) : bool :=
  match a, b with
  | x :: a', y :: b' => (x < y) || ((x == y) && lexlt a' b')
  | [::], _ :: _ => true
  | _, _ => false
  end.

(* the number of inversions of a list, i.e. of pairs of positions i < j with
   l_i > l_j *)
Fixpoint inversions (l : seq nat) : nat :=
  if l is x :: l' then count (fun y => y < x) l' + inversions l' else 0.

(* the number of pairs (x, y) with x in l, y in m and x > y *)
Definition crossings (l m : seq nat) : nat := \sum_(x <- l) count (fun y => y < x) m.

(* the indices below n that lie in exactly one of I, J *)
Definition symdiff (n : nat) (I J : seq nat) : seq nat :=
  [seq k <- iota 0 n | (k \in I) (+) (k \in J)].
(* the indices below n that lie in one of I, J *)
Definition union (n : nat) (I J : seq nat) : seq nat :=
  [seq k <- iota 0 n | (k \in I) || (k \in J)].
