(* Spec_Corr.v -- the correlation coefficient of two lists of numbers *)
From mathcomp Require Import all_ssreflect all_algebra.
From Verif Require Import PyBase Corr_Model.
Set Implicit Arguments.
Unset Strict Implicit.
Unset Printing Implicit Defensive.
Import GRing.Theory Num.Theory.
Local Open Scope ring_scope.

Section Spec.
Variables (R : rcfType) (n : nat).
Implicit Types x y : 'I_n -> R.
(* a column matrix and a row matrix *)
Definition column x : smatrix R := SMatrix n 1 [seq x i | i <- enum 'I_n].
Definition row x : smatrix R := SMatrix 1 n [seq x i | i <- enum 'I_n].
Definition mean x : R := (\sum_i x i) / n%:R.
Definition covariance x y : R := \sum_i (x i - mean x) * (y i - mean y).
Definition deviation x : R := Num.sqrt (\sum_i (x i - mean x) ^+ 2).
(* Pearson's correlation coefficient *)
Definition pearson x y : R := covariance x y / (deviation x * deviation y).
Definition constant x : Prop := forall i j, x i = x j.
End Spec.
