(* Spec_Mv.v -- what an expression of the model means as a multivector.

   [mv_of n x] reads an expression in the blade basis: the coefficient of the
   blade with index set S is the total coefficient of that blade's symbol.
   [den mul x] gives a meaning to every expression, whatever mixture of blade
   symbols and base symbols (products of basis vectors) it contains: symbols
   are multiplied with the product [mul]. *)
From mathcomp Require Import all_ssreflect all_algebra.
From Verif Require Import Exterior Ga_Model.
Set Implicit Arguments.
Unset Strict Implicit.
Unset Printing Implicit Defensive.
Import GRing.Theory.
Local Open Scope ring_scope.

Section Mv.
Variables (R : comUnitRingType) (n : nat).

(* index lists and index sets *)
Definition idx_set (I : seq nat) : {set 'I_n} := [set i : 'I_n | val i \in I].
Definition idx_list (S : {set 'I_n}) : seq nat := [seq val i | i <- enum S].

(* total coefficient of a symbol *)
Definition coefficient (x : expr R) (w : word) : R := \sum_(t <- x | t.2 == w) t.1.
Definition mv_of (x : expr R) : mval R n :=
  [ffun S => coefficient x (mk_blade (idx_list S))].

(* basis vector number k *)
Definition bvec (k : nat) : mval R n :=
  if insub k is Some i then bl R [set (i : 'I_n)] else 0.

Variable mul : mval R n -> mval R n -> mval R n.
Definition prodl (l : seq (mval R n)) : mval R n := foldr mul (bl R set0) l.
Definition den_sym (s : bool * seq nat) : mval R n :=
  if s.1 then prodl [seq bvec k | k <- s.2] else bl R (idx_set s.2).
Definition den_word (w : word) : mval R n := prodl [seq den_sym s | s <- w].
Definition den (x : expr R) : mval R n := \sum_(t <- x) t.1 *: den_word t.2.
End Mv.
