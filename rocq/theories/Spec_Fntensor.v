(* Spec_Fntensor.v -- multilinear functions and their values. *)
From mathcomp Require Import all_ssreflect all_algebra.
From Verif Require Import PyBase Ga_Model Mv_Model Mv_Expr Lt_Model Spec_Lt Mlt_Model Spec_Mlt Fntensor_Model.
Set Implicit Arguments.
Unset Strict Implicit.
Unset Printing Implicit Defensive.
Import GRing.Theory.
Local Open Scope ring_scope.

Section Spec.
Variables (R : comUnitRingType) (a : ga R).
(* each of the k arguments occurs exactly once in each term; the A are vectors *)
Definition multilinear (k : nat) (f : fn R) : bool :=
  all (fun t => perm_eq [seq F.2 | F <- t.2] (iota 0 k) && all (fun F => vector a F.1) t.2) f.
(* the inner product of two vectors *)
Definition inner (A X : mv R) : R := if mv_dot a A X is Some d then mv_scalar d else 0.
(* the value of the function: the sum of the products c (A_1|x_i) ... (A_m|x_j) *)
Definition fn_value (f : fn R) (Xs : seq (mv R)) : R :=
  \sum_(t <- f) t.1 * \prod_(F <- t.2) inner F.1 (nth (mv_const a 0) Xs F.2).
(* T(x_1, ..., x_k) for vectors x_i, as a number *)
Definition fvalue_at (slots : nat) (T : fmlt R) (Xs : seq (mv R)) : option R :=
  LET p := fmlt_call a slots T [seq Vec X | X <- Xs] IN pol_number p.
(* a tensor: every term of its component expression has one coefficient of each slot vector, and the
   component expression is the value of its function, if it has one, on the slot vectors *)
Definition fm_tensor (T : fmlt R) : Prop := tensor a (fm_ml T) /\
  if fm_fn T is Some f then multilinear (ml_nargs (fm_ml T)) f /\
    fn_run a f [seq Slot R i | i <- iota 0 (ml_nargs (fm_ml T))] = Some (ml_value (fm_ml T)) else True.
End Spec.
