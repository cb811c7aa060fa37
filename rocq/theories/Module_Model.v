(* Module_Model.v -- model of the functions of the module galgebra/mv.py that call
   the method of the same purpose (dual, undual, even, odd, g_invol, exp, grade, inv,
   shirokov_inverse, hitzer_inverse, qform, norm2, norm, mag2, mag, proj, rot, refl,
   rev, ccon, scalar, sp). *)
From mathcomp Require Import all_ssreflect all_algebra.
From Coq Require Import String.
From Verif Require Import PyBase PyStr Ga_Model Mv_Model Mv_Expr Dual_Model Coef_Model Create_Model.
From Verif Require Import Blade_Model Exp_Model Inverse_Model Norm_Model.
Set Implicit Arguments.
Unset Strict Implicit.
Unset Printing Implicit Defensive.
Import GRing.Theory.
Local Open Scope ring_scope.

(* An argument: a multivector, a number (a sympy expression), or anything else. *)
Inductive pyobj (R : comUnitRingType) := PMv of mv R | PNum of R | POther.
Arguments POther {R}.
(* The outcome of a call: a value, an exception whose class is known, or an exception
   raised inside the method (None in the models of the methods). *)
Inductive outcome (T : Type) := Value of T | Raised of err | Fails.
Arguments Raised {T}.
Arguments Fails {T}.
Definition of_method (T : Type) (o : option T) : outcome T := if o is Some x then Value x else Fails.

Section Module.
Variables (R : comUnitRingType) (a : ga R).
Notation mv := (mv R).
Notation pyobj := (pyobj R).

(* mv.py:2078-2083 dual; the mode and the pair (I, 1/I) are those of A.Ga *)
Definition m_dual (mode : string) (ii : mv * mv) (A : pyobj) : outcome mv :=
  if A is PMv X then of_method (run a (dual_prog mode ii X)) else Raised ValueError.
(* mv.py:2087-2096 undual *)
Definition m_undual (mode : string) (ii : mv * mv) (A : pyobj) : outcome mv :=
  if A is PMv X then of_method (run a (undual_prog mode ii X)) else Raised ValueError.
(* mv.py:2100-2104 even *)
Definition m_even (A : pyobj) : outcome mv :=
  if A is PMv X then of_method (mv_even a X) else Raised ValueError.
(* mv.py:2107-2111 odd *)
Definition m_odd (A : pyobj) : outcome mv :=
  if A is PMv X then of_method (mv_odd a X) else Raised ValueError.
(* mv.py:2115-2124 g_invol *)
Definition m_g_invol (A : pyobj) : outcome mv :=
  if A is PMv X then of_method (mv_invol a X) else Raised ValueError.
(* mv.py:2128-2137 exp; ex is sympy's exp, which refuses what is no expression *)
Definition m_exp (f : elementary R) (ex : R -> R) (A : pyobj) (hint : string) : outcome pyobj :=
  match A with
  | PMv X => of_method (LET Y := mv_exp f a hint X IN Some (PMv Y))
  | PNum c => Value (PNum (ex c))
  | POther => Fails
  end.
(* mv.py:2140-2145 grade *)
Definition m_grade (A : pyobj) (r : nat) : outcome mv :=
  if A is PMv X then of_method (mv_grade a X r) else Raised ValueError.
(* mv.py:2148-2152 inv *)
Definition m_inv (A : pyobj) : outcome mv :=
  if A is PMv X then of_method (mv_inv a X) else Raised ValueError.
(* mv.py:2155-2159 shirokov_inverse *)
Definition m_shirokov_inverse (quot : nat -> nat -> R) (A : pyobj) : outcome mv :=
  if A is PMv X then of_method (mv_shirokov quot a X) else Raised ValueError.
(* mv.py:2162-2166 hitzer_inverse *)
Definition m_hitzer_inverse (A : pyobj) : outcome mv :=
  if A is PMv X then of_method (mv_hitzer a X) else Raised ValueError.
(* mv.py:2170-2180 qform *)
Definition m_qform (A : pyobj) : outcome R :=
  if A is PMv X then of_method (mv_qform a X) else Raised TypeError.
(* mv.py:2257-2262 proj; a blade that is no multivector has no method is_blade *)
Definition m_proj (B A : pyobj) : outcome mv :=
  if A is PMv X then
    if B is PMv Y then of_method (project_in_blade a X Y) else Raised AttributeError
  else Raised ValueError.
(* mv.py:2265-2273 rot; the exponential of an itheta that is no multivector fails *)
Definition m_rot (f : elementary R) (itheta A : pyobj) (hint : string) : outcome mv :=
  if A is PMv X then
    if itheta is PMv T then of_method (rotate_multivector f a hint X T) else Fails
  else Raised ValueError.
(* mv.py:2276-2289 refl *)
Definition m_refl (B A : pyobj) : outcome mv :=
  if A is PMv X then
    if B is PMv Y then of_method (reflect_in_blade a X Y) else Raised AttributeError
  else Raised ValueError.
(* mv.py:2292-2297 rev *)
Definition m_rev (A : pyobj) : outcome mv :=
  if A is PMv X then of_method (mv_rev a X) else Raised ValueError.
(* mv.py:2301-2310 ccon *)
Definition m_ccon (A : pyobj) : outcome mv :=
  if A is PMv X then of_method (mv_ccon a X) else Raised ValueError.
(* mv.py:2314-2318 scalar *)
Definition m_scalar (A : pyobj) : outcome R :=
  if A is PMv X then Value (mv_scalar X) else Raised ValueError.
(* mv.py:2322-2333 sp, and the method mv.py:1161-1178 *)
Definition m_sp (A B : pyobj) (switch : string) : outcome R :=
  if A is PMv X then
    if B is PMv Y then
      if switch == ""%string then of_method (mv_sp a X Y)
      else if switch == "rev"%string then of_method (mv_sprev a X Y)
      else Raised ValueError
    else Raised ValueError
  else Raised ValueError.
End Module.

Section Norms.
Variables (R : realFieldType) (t : sign_tests R) (a : ga R).
(* mv.py:2185-2203 norm2 *)
Definition m_norm2 (A : pyobj R) (hint : string) : outcome R :=
  if A is PMv X then of_method (mv_norm2 t a X hint) else Raised TypeError.
(* mv.py:2207-2221 norm *)
Definition m_norm (A : pyobj R) (hint : string) : outcome R :=
  if A is PMv X then of_method (mv_norm t a X hint) else Raised TypeError.
(* mv.py:2225-2239 mag2 *)
Definition m_mag2 (A : pyobj R) : outcome R :=
  if A is PMv X then of_method (mv_mag2 t a X) else Raised TypeError.
(* mv.py:2243-2254 mag *)
Definition m_mag (A : pyobj R) : outcome R :=
  if A is PMv X then of_method (mv_mag t a X) else Raised TypeError.
End Norms.
