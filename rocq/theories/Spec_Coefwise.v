(* Spec_Coefwise.v -- substitution in a Python expression over multivectors *)
From mathcomp Require Import all_ssreflect all_algebra.
From Verif Require Import PyBase Ga_Model Mv_Model Mv_Expr.
Set Implicit Arguments.
Unset Strict Implicit.
Unset Printing Implicit Defensive.
Local Open Scope ring_scope.

Section Spec.
Variables (R : comUnitRingType) (on_objects : mv R -> mv R) (on_scalars : R -> R).
(* the same expression with the objects and the scalars in it replaced *)
Fixpoint replaced (p : py R) : py R :=
  match p with
  | Val X => Val (on_objects X)
  | Num c => Num (on_scalars c)
  | Neg p => Neg (replaced p)
  | Add p q => Add (replaced p) (replaced q)
  | Sub p q => Sub (replaced p) (replaced q)
  | AddC p c => AddC (replaced p) (on_scalars c)
  | SubC p c => SubC (replaced p) (on_scalars c)
  | RSubC c p => RSubC (on_scalars c) (replaced p)
  | Scale c p => Scale (on_scalars c) (replaced p)
  | Mul p q => Mul (replaced p) (replaced q)
  | Wedge p q => Wedge (replaced p) (replaced q)
  | Dot p q => Dot (replaced p) (replaced q)
  | LC p q => LC (replaced p) (replaced q)
  | RC p q => RC (replaced p) (replaced q)
  | Pow p k => Pow (replaced p) k
  | Com p q => Com (replaced p) (replaced q)
  | Anticom p q => Anticom (replaced p) (replaced q)
  | Grade p r => Grade (replaced p) r
  | Even p => Even (replaced p)
  | Odd p => Odd (replaced p)
  | Invol p => Invol (replaced p)
  | Rev p => Rev (replaced p)
  | Ccon p => Ccon (replaced p)
  | BaseRep p => BaseRep (replaced p)
  | BladeRep p => BladeRep (replaced p)
  end.
End Spec.
