(* Inverse_Model.v -- model of Mv.shirokov_inverse and Mv.hitzer_inverse
   (galgebra/mv.py:1422-1485).  Exceptions are None. *)
From mathcomp Require Import all_ssreflect all_algebra.
From Verif Require Import PyBase Ga_Model Mv_Model.
Set Implicit Arguments.
Unset Strict Implicit.
Unset Printing Implicit Defensive.
Import GRing.Theory.
Local Open Scope ring_scope.

Section Inverse.
Variable R : comUnitRingType.
Notation ga := (ga R).
Notation mv := (mv R).
Implicit Types (a : ga) (X U A : mv).

(* mv.py:1427-1429: n, exponent, N *)
Definition shirokov_N (n : nat) : nat := (2 ^ ((n + 1) %/ 2))%N.

(* mv.py:1431-1434, the body of the loop for k: the new adjU and Uk.  The quotient
   (N / k) of two Python integers is a parameter: Python computes the nearest double. *)
Definition shirokov_step (quot : nat -> nat -> R) a X (k : nat) U : option (mv * mv) :=
  let Ck := quot (shirokov_N (ga_n a)) k * mv_scalar U in
  LET adjU := mv_rsubc a U Ck IN
  LET mX := mv_neg a X IN
  LET U' := mv_mul a mX adjU IN
  Some (adjU, U').
(* mv.py:1431-1434: for k in range(1, N), from k with m passes left; adjU is unbound
   before the first pass *)
Fixpoint shirokov_loop (quot : nat -> nat -> R) a X (m k : nat) (adjU : option mv) U : option (option mv * mv) :=
  if m is m'.+1 then
    LET r := shirokov_step quot a X k U IN shirokov_loop quot a X m' k.+1 (Some r.1) r.2
  else Some (adjU, U).
(* mv.py:1422-1438.  The first None is the ValueError; reading adjU before it is
   assigned is an UnboundLocalError. *)
Definition mv_shirokov (quot : nat -> nat -> R) a X : option mv :=
  LET r := shirokov_loop quot a X (shirokov_N (ga_n a) - 1) 1 None X IN
  if mv_scalar r.2 == 0 then None
  else LET adjU := r.1 IN mv_divc a adjU (- mv_scalar r.2).

(* mv.py:1448-1479: the numerator; the final None is the NotImplementedError *)
Definition hitzer_num a X : option mv :=
  match ga_n a with
  | 0 => LET z := mv_scale a 0 X IN mv_addc a z 1
  | 1 => mv_invol a X
  | 2 => mv_ccon a X
  | 3 => LET c := mv_ccon a X IN
         LET d := mv_mul a X c IN
         LET r := mv_rev a d IN
         mv_mul a c r
  | 4 => LET c := mv_ccon a X IN
         LET d := mv_mul a X c IN
         LET d3 := mv_grade a d 3 IN
         LET t3 := mv_scale a 2%:R d3 IN
         LET s3 := mv_sub a d t3 IN
         LET d4 := mv_grade a d 4 IN
         LET t4 := mv_scale a 2%:R d4 IN
         LET m34 := mv_sub a s3 t4 IN
         mv_mul a c m34
  | 5 => LET c := mv_ccon a X IN
         LET d := mv_mul a X c IN
         LET r := mv_rev a d IN
         LET combo := mv_mul a c r IN
         LET x := mv_mul a X combo IN
         LET x1 := mv_grade a x 1 IN
         LET t1 := mv_scale a 2%:R x1 IN
         LET s1 := mv_sub a x t1 IN
         LET x4 := mv_grade a x 4 IN
         LET t4 := mv_scale a 2%:R x4 IN
         LET m14 := mv_sub a s1 t4 IN
         mv_mul a combo m14
  | _ => None
  end.
(* mv.py:1440-1485 *)
Definition mv_hitzer a X : option mv :=
  LET num := hitzer_num a X IN
  LET p := mv_mul a X num IN
  if mv_scalar p == 0 then None else mv_divc a num (mv_scalar p).
End Inverse.
