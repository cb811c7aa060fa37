(* Comps_Model.v -- the listing of the components of a multilinear function:
   Mlt.comps (galgebra/lt.py:989-1000).

   str of a number is an input ([show]).  Simplifications: the value of T on basis vectors is a
   number (C33); an exception is None. *)
From Coq Require Import String Ascii.
From mathcomp Require Import all_ssreflect all_algebra.
From Verif Require Import PyBase PyStr Parser_Model Ga_Model Mv_Model Mv_Expr Dual_Model Coef_Model Lt_Model Mlt_Model Dop_Model.
Set Implicit Arguments.
Unset Strict Implicit.
Unset Printing Implicit Defensive.
Import GRing.Theory.
Local Open Scope seq_scope.

(* str of a tuple of integers: (), (3,), (3, 0, 1) *)
Definition str_nat_text (i : nat) : text := txt (str_nat i).
Definition str_tuple (ix : seq nat) : text :=
  match ix with
  | [::] => txt "()"
  | [:: i] => txt "(" ++ str_nat_text i ++ txt ",)"
  | i :: J => txt "(" ++ str_nat_text i ++ flatten [seq txt ", " ++ str_nat_text j | j <- J] ++ txt ")"
  end.
(* '\n' *)
Definition newline : text := [:: "010"%char].

Section Comps.
Variables (R : comUnitRingType) (a : ga R) (show : R -> text).
Let n := ga_n a.
(* one turn of the loop, lt.py:996-999; the state is what was printed and output.  i_index[-1] of
   the empty tuple raises *)
Definition comps_step (slots : nat) (T : mlt R) (st : text * text) (r : nat * (seq (mv R) * seq nat)) : option (text * text) :=
  let: (i, (e, ix)) := r in
  if ix is [::] then None else
  let printed := if last 0%N ix %% n == 0 then st.1 ++ newline else st.1 in
  LET p := mlt_call a slots T [seq Vec x | x <- e] IN
  LET v := pol_number p IN
  Some (printed, st.2 ++ str_nat_text i ++ txt ":" ++ str_tuple ix ++ txt ":" ++ show v ++ newline).
(* lt.py:989-1000 comps: what is printed, and the result *)
Definition mlt_comps (slots : nat) (T : mlt R) : option (text * text) :=
  let basis := [seq mv_basis_vec R k | k <- iota 0 n] in
  let ndim := size basis in
  let i_indexes := cartesian (nseq (ml_nargs T) (iota 0 ndim)) in
  let indexes := cartesian (nseq (ml_nargs T) basis) in
  let rows := zip indexes i_indexes in
  ofoldl (comps_step slots T) (zip (iota 0 (size rows)) rows) ([::], [::]).
End Comps.
