(* Spec_MltPrint.v -- what the components of a multilinear function and their printed form
   should be. *)
From Coq Require Import Ascii String.
From mathcomp Require Import all_ssreflect all_algebra.
From Verif Require Import PyBase PyStr Parser_Model MltPrint_Model.
Set Implicit Arguments.
Unset Strict Implicit.
Unset Printing Implicit Defensive.
Import GRing.Theory.
Local Open Scope ring_scope.

Section Spec.
Variable R : comUnitRingType.
Implicit Type e : sx R.
(* the slot symbols of a product, in the order in which they are written *)
Definition slots e : seq nat := pmap (fun f => if f is SSlot i then Some i else None) (sargs e).
(* the product of the other factors *)
Definition is_slot e : bool := if e is SSlot _ then true else false.
Definition coefficient (rho : nat -> R) e : R := \prod_(f <- sargs e | ~~ is_slot f) value rho f.
Definition is_product e : bool := if e is SMul _ then true else false.
(* strictly increasing for the order of tuples *)
Fixpoint tuple_lt (x y : seq nat) : bool :=
  match x, y with
  | _, [::] => false
  | [::], _ :: _ => true
  | i :: x', j :: y' => (i < j)%N || ((i == j) && tuple_lt x' y')
  end.
End Spec.

(* the lines of a listing with m items per line *)
Fixpoint lines_fuel (T : Type) (fuel m : nat) (s : seq T) : seq (seq T) :=
  if fuel is k.+1 then if s is [::] then [::] else take m s :: lines_fuel k m (drop m s) else [::].
Definition lines (T : Type) (m : nat) (s : seq T) : seq (seq T) := lines_fuel (size s) m s.
(* texts joined by a separator *)
Fixpoint joint (sep : text) (l : seq text) : text :=
  match l with [::] => [::] | [:: x] => x | x :: l' => x ++ sep ++ joint sep l' end.
(* a printed component: the coefficient, in parentheses if it is a sum, and the symbols; a plus
   sign in front unless it is the first one or the coefficient brings its own minus sign *)
Definition shown (first : bool) (c : comp) : text :=
  let own_minus := (head " "%char (c_str c) == "-"%char) && ~~ c_add c in
  (if first || own_minus then [::] else txt " + ")
  ++ (if c_add c then txt "\left ( " ++ c_latex c ++ txt "\right ) " else c_latex c)
  ++ flatten [seq x ++ txt " " | x <- c_syms c].
Definition shown_all (cs : seq comp) : seq text :=
  if cs is c :: r then shown true c :: [seq shown false x | x <- r] else [::].
