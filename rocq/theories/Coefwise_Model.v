(* Coefwise_Model.v -- model of the functions that work on the coefficients of a
   multivector: linear_expand as a loop, collect, Mv.collect, Mv.func, Mv.simplify,
   Mv.subs and Ga.split_multivector.

   Simplification: an expression is given by the list of the terms SymPy's expand
   produces (several terms may have the same symbol); a substitution or a mode is
   a function on scalars. *)
From mathcomp Require Import all_ssreflect all_algebra.
From Verif Require Import PyBase Ga_Model Mv_Model Mv_Expr.
Set Implicit Arguments.
Unset Strict Implicit.
Unset Printing Implicit Defensive.
Import GRing.Theory.
Local Open Scope ring_scope.

Section Model.
Variable R : comUnitRingType.
Notation expr := (expr R).
Notation mv := (mv R).

(* metric.py:59-76: the body of the loop; the scalar 1 is the empty word *)
Definition lin_step (s : seq R * seq word) (t : R * word) : seq R * seq word :=
  let base := first_sym t.2 in
  if base \in s.2 then (set_nth 0 s.1 (index base s.2) (nth 0 s.1 (index base s.2) + t.1), s.2)
  else (rcons s.1 t.1, rcons s.2 base).
(* metric.py:32-77 linear_expand: the lists coefs and bases *)
Definition linear_expand_lists (ts : expr) : seq R * seq word :=
  if ts is [::] then ([:: 0], [:: [::]]) else foldl lin_step ([::], [::]) ts.
(* list.pop(i) *)
Definition pop (T : Type) (i : nat) (l : seq T) : seq T := take i l ++ drop i.+1 l.
(* metric.py:102-107: one symbol of nc_list *)
Definition collect_step (s : seq R * seq word * expr) (x : word) : seq R * seq word * expr :=
  let: (cs, bs, C) := s in
  if x \in bs then let i := index x bs in (pop i cs, pop i bs, rcons C (nth 0 cs i, x)) else s.
(* metric.py:85-113 collect: the terms of the sum C *)
Definition collect (ts : expr) (nc_list : seq word) : expr :=
  let: (cs, bs) := linear_expand_lists ts in
  let: (cs, bs, C) := foldl collect_step (cs, bs, [::]) nc_list in
  C ++ zip cs bs.

Variable a : ga R.
(* mv.py:892-918 Mv.collect.  With deep=True sympy.collect is called without its
   second argument and raises *)
Definition collect_dict (ts : expr) : seq (word * R) :=
  foldl (fun d t => if dget d t.2 is Some c then dset d t.2 (c + t.1) else dset d t.2 t.1) [::] ts.
Definition mv_collect (deep : bool) (X : mv) : option mv :=
  let d := collect_dict (linear_expand (obj X)) in
  if deep && ~~ nilp d then None else Some (mk_mv a [seq (kv.2, kv.1) | kv <- d]).
(* mv.py:1487-1493 func *)
Definition mv_func (f : R -> R) (X : mv) : mv := mk_mv a [seq (f t.1, t.2) | t <- linear_expand (obj X)].
(* mv.py:1498-1512 simplify; metric.py:22-29 apply_function_list, 309-313 Simp.apply *)
Definition mv_simplify (modes : seq (R -> R)) (X : mv) : mv :=
  mk_mv a [seq (foldl (fun c m => m c) t.1 modes, t.2) | t <- linear_expand (obj X)].
(* mv.py:1514-1519 subs *)
Definition mv_subs (f : R -> R) (X : mv) : mv := mk_mv a [seq (f t.1, t.2) | t <- linear_expand (obj X)].
(* ga.py:1677-1699 split_multivector *)
Definition split_multivector (X : mv) : expr * expr :=
  ([seq t <- obj X | nilp t.2], [seq t <- obj X | ~~ nilp t.2]).
End Model.
