(* Spec_Agrad.v -- what the derivative by a multivector has to satisfy.

   The multivector A one differentiates by is generic for a list of grades: every
   blade of one of these grades has its own symbol as coefficient, the other
   blades do not occur.  The scalar ring contains the symbols x_0 .. x_(N-1),
   recognised by sym_of; sym_diff k is the partial derivative by x_k. *)
From mathcomp Require Import all_ssreflect all_algebra.
From Verif Require Import Spec_Index Spec_Mv Spec_Diff PyBase Ga_Model Mv_Model Mv_Expr Diff_Model Agrad_Model.
Set Implicit Arguments.
Unset Strict Implicit.
Unset Printing Implicit Defensive.
Import GRing.Theory.
Local Open Scope ring_scope.
Open Scope py_scope.

Section Spec.
Variables (R : comUnitRingType) (sy : symbols R) (a : ga R).
Notation n := (ga_n a).
(* the product op of r and f, with r on the left of f or (right) on its right *)
Definition placed (right : bool) (d : dmode) (r f : py R) : py R :=
  let: (p, q) := if right then (f, r) else (r, f) in
  match d with MMul => p *. q | MWedge => p ^. q | MDot => p ||. q | MLt => p <. q | MGt => p >. q end.
(* independent symbols; the metric does not contain them *)
Definition independent (N : nat) (x : nat -> R) : Prop :=
  [/\ forall k, derivation (sym_diff sy k),
      forall k l, (k < N)%N -> (l < N)%N -> sym_diff sy k (x l) = (k == l)%:R,
      forall k, (k < N)%N -> sym_of sy (x k) = Some k &
      forall k i j, sym_diff sy k (gij a i j) = 0].
(* lab I: the number of the symbol of the blade e_I *)
Definition labels (N : nat) (Gs : seq nat) (lab : seq nat -> nat) : Prop :=
  (forall I, wfI n I -> size I \in Gs -> (lab I < N)%N) /\
  (forall I J, wfI n I -> wfI n J -> size I \in Gs -> size J \in Gs -> lab I = lab J -> I = J).
Definition generic (x : nat -> R) (Gs : seq nat) (lab : seq nat -> nat) (A : mv R) : Prop :=
  forall I, wfI n I -> coefficient (obj A) (mk_blade I) = if size I \in Gs then x (lab I) else 0.
(* the field does not depend on the symbols *)
Definition constant (B : mv R) : Prop := forall k w, sym_diff sy k (coefficient (obj B) w) = 0.
(* the part of B in the given grades *)
Definition in_grades (Gs : seq nat) (B : py R) : py R := foldr (fun r p => Grade B r +. p) (Num 0) (undup Gs).
(* DF k: the field F differentiated by symbol k, coefficient by coefficient *)
Definition partial_of (F : mv R) (DF : nat -> mv R) : Prop := forall k, [/\ mv_valid a (DF k), brep (DF k) || is_ortho a &
  forall w, coefficient (obj (DF k)) w = sym_diff sy k (coefficient (obj F) w)].
(* the basis blade e_I as an object *)
Definition blade_mv (I : seq nat) : mv R := Mv [:: (1, mk_blade I)] true.
End Spec.
