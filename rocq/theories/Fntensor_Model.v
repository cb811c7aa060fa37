(* Fntensor_Model.v -- multilinear functions given by a Python function (galgebra/lt.py:833-852,
   854-915), on top of Mlt_Model.v.

   Simplification: the body of the function is a sum of terms c * (A_1|x_i) * ... * (A_m|x_j) with
   constants c, vectors A and the arguments x of the function; every scalar-valued multilinear
   function has this form.  An exception is None. *)
From mathcomp Require Import all_ssreflect all_algebra.
From Verif Require Import PyBase Ga_Model Mv_Model Mv_Expr Dual_Model Coef_Model Lt_Model Mlt_Model.
Set Implicit Arguments.
Unset Strict Implicit.
Unset Printing Implicit Defensive.
Import GRing.Theory.
Local Open Scope ring_scope.

Section Fn.
Variables (R : comUnitRingType) (a : ga R).
Notation poly := (poly R).
(* the body of the function: a sum of terms; a factor (A, i) is (A | x_i).scalar() *)
Definition fn : Type := seq (R * seq (mv R * nat)).
(* Python evaluates the body on the arguments, vectors or slot vectors *)
Definition fn_factor (args : seq (marg R)) (F : mv R * nat) : option poly :=
  LET x := ohead (drop F.2 args) IN dot_arg a F.1 x.
Definition fn_term (args : seq (marg R)) (t : R * seq (mv R * nat)) : option poly :=
  LET ps := omapM (fn_factor args) t.2 IN Some (foldr (fun p q => pol_mul p q) (pol_const t.1) ps).
Definition fn_run (f : fn) (args : seq (marg R)) : option poly :=
  LET ps := omapM (fn_term args) f IN Some (flatten ps).

(* lt.py:803-852: the fields nargs and fvalue, and the field f *)
Record fmlt := Fmlt { fm_ml : mlt R; fm_fn : option fn }.
Implicit Types T : fmlt.
(* lt.py:837-842: f is called on the slot vectors *)
Definition mlt_of_fn (f : fn) (nargs slots : nat) : nat * option fmlt :=
  (increment_slots nargs slots, LET p := fn_run f [seq Slot R i | i <- iota 0 nargs] IN Some (Fmlt (Mlt nargs p) (Some f))).
(* lt.py:854-868 __call__; a wrong number of arguments of a Python function raises *)
Definition fmlt_call (slots : nat) T (args : seq (marg R)) : option poly :=
  if args is [::] then Some (ml_value (fm_ml T)) else
  match fm_fn T with
  | Some f => if size args == ml_nargs (fm_ml T) then fn_run f args else None
  | None => mlt_call a slots (fm_ml T) args
  end.
(* lt.py:870-886 __add__, __sub__: of the component expressions *)
Definition fmlt_add T1 T2 : option fmlt := LET T := mlt_add (fm_ml T1) (fm_ml T2) IN Some (Fmlt T None).
Definition fmlt_sub T1 T2 : option fmlt := LET T := mlt_sub (fm_ml T1) (fm_ml T2) IN Some (Fmlt T None).
(* lt.py:888-897 __mul__ by a tensor and by a scalar *)
Definition fmlt_mul T1 T2 (slots : nat) : nat * option fmlt :=
  let k1 := ml_nargs (fm_ml T1) in let k2 := ml_nargs (fm_ml T2) in
  let slots' := increment_slots (k1 + k2)%N slots in
  (slots', LET p := fmlt_call slots' T1 [seq Slot R i | i <- iota 0 k1] IN
           LET q := fmlt_call slots' T2 [seq Slot R i | i <- iota k1 k2] IN
           Some (Fmlt (Mlt (k1 + k2)%N (pol_mul p q)) None)).
Definition fmlt_scale (c : R) T : fmlt := Fmlt (mlt_scale c (fm_ml T)) None.
End Fn.
