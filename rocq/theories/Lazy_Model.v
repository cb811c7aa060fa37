(* Lazy_Model.v -- the lazily filled product tables (galgebra/ga.py) and the
   cached properties (galgebra/_utils/cached_property.py) as state machines.

   Simplification: the six tables of an algebra (geometric product and the five
   grade-selecting products) are one dictionary whose keys carry the number of
   the table.  [calls] records every call of f_value, for the theorems only. *)
From mathcomp Require Import all_ssreflect all_algebra.
From Verif Require Import PyBase Ga_Model.
Set Implicit Arguments.
Unset Strict Implicit.
Unset Printing Implicit Defensive.
Import GRing.Theory.
Local Open Scope ring_scope.

Section Lazy.
Variable R : comUnitRingType.
Notation expr := (expr R).
Definition tkey : Type := (nat * (seq (bool * seq nat) * seq (bool * seq nat)))%type.
Record lstate := LState { entries : seq ((nat * (seq (bool * seq nat) * seq (bool * seq nat))) * expr);
                          calls : seq (nat * (seq (bool * seq nat) * seq (bool * seq nat))) }.
(* a computation that may fill tables and may raise; the state survives an exception *)
Definition comp (A : Type) : Type := lstate -> lstate * option A.
Definition lift (A : Type) (o : option A) : comp A := fun st => (st, o).
Definition bindc (A B : Type) (m : comp A) (f : A -> comp B) : comp B :=
  fun st => let: (st1, r) := m st in if r is Some x then f x st1 else (st1, None).
Fixpoint mapc (A B : Type) (f : A -> comp B) (l : seq A) : comp (seq B) :=
  if l is x :: l' then bindc (f x) (fun y => bindc (mapc f l') (fun r => lift (Some (y :: r))))
  else lift (Some [::]).

(* ga.py:57-90 lazy_dict.__getitem__ / __missing__ *)
Definition lookup (k : nat) (f : word -> word -> comp expr) (b1 b2 : word) : comp expr :=
  fun st =>
    let key : nat * (seq (bool * seq nat) * seq (bool * seq nat)) := (k, (b1, b2)) in
    if dget (entries st) key is Some v then (st, Some v)
    else
      let: (st1, r) := f b1 b2 (LState (entries st) (rcons (calls st) key)) in
      if r is Some v then (LState (dset (entries st1) key v) (calls st1), Some v) else (st1, None).

(* ga.py:93-117 update_and_substitute over a lazy table *)
Definition lazy_subst (x y : expr) (tab : word -> word -> comp expr) : comp expr :=
  bindc (mapc (fun p : (R * word) * (R * word) =>
           bindc (tab p.1.2 p.2.2) (fun v => lift (Some (escale (p.1.1 * p.2.1) v))))
           [seq (t, u) | t <- linear_expand x, u <- linear_expand y])
        (fun ts => lift (Some (canon (flatten ts)))).

(* ga.py:203-231, 387-424 ga.mul *)
Definition lazy_mul (a : ga R) (x y : expr) : comp expr :=
  lazy_subst x y (lookup 0 (fun b1 b2 => lift (mul_bb a b1 b2))).

Definition kind_no (k : prodkind) : nat :=
  match k with Hestenes => 1 | LeftC => 2 | RightC => 3 | ScalarProd => 4 | WedgeK => 5 end%N.
(* ga.py:292-322 _of_basis_blades_non_ortho: ga.mul goes through its own table *)
Definition lazy_non_ortho (a : ga R) (k : prodkind) (b1 b2 : word) : comp expr :=
  bindc (lift (dget (blades_to_grades (ga_n a)) b1)) (fun r =>
  bindc (lift (dget (blades_to_grades (ga_n a)) b2)) (fun s =>
  if result_grade (ga_n a) k r s is Some grade then
    bindc (lift (blade_expansion_dict a)) (fun bed =>
    bindc (lift (dget bed b1)) (fun x1 =>
    bindc (lift (dget bed b2)) (fun x2 =>
    bindc (lazy_mul a x1 x2) (fun x12 =>
    bindc (lift (base_to_blade_rep a x12)) (fun y12 =>
    bindc (lift (grade_decomposition a y12)) (fun gd =>
    lift (Some (if dget gd grade is Some v then canon v else [::]))))))))
  else lift (Some [::]))).
Definition lazy_single_bb (a : ga R) (k : prodkind) (b1 b2 : word) : comp expr :=
  if k is WedgeK then lift (wedge_bb a b1 b2)
  else if is_ortho a then lift (single_ortho a k b1 b2)
  else lazy_non_ortho a k b1 b2.
Definition lazy_single (a : ga R) (k : prodkind) (x y : expr) : comp expr :=
  lazy_subst x y (lookup (kind_no k) (lazy_single_bb a k)).

(* a history of products on one algebra *)
Inductive prod_op := OpMul of expr & expr | OpSingle of prodkind & expr & expr.
Definition exec_op (a : ga R) (op : prod_op) : comp expr :=
  match op with OpMul x y => lazy_mul a x y | OpSingle k x y => lazy_single a k x y end.
Fixpoint exec (a : ga R) (ops : seq prod_op) (st : lstate) : lstate * seq (option expr) :=
  if ops is op :: ops' then
    let: (st1, r) := exec_op a op st in let: (st2, rs) := exec a ops' st1 in (st2, r :: rs)
  else (st, [::]).
Definition fresh : lstate := LState [::] [::].
End Lazy.

(* _utils/cached_property.py:1-28: the first access computes and stores the
   value, which then hides the property; None in [slot] = not yet accessed *)
Section Cached.
Variables (O V : Type).
Record cslot := CSlot { slot : option V; gets : nat }.
Definition cget (fget : O -> V) (o : O) (s : cslot) : cslot * V :=
  if slot s is Some v then (s, v) else let v := fget o in (CSlot (Some v) (gets s).+1, v).
Fixpoint cgets (fget : O -> V) (o : O) (n : nat) (s : cslot) : cslot * seq V :=
  if n is n'.+1 then let: (s1, v) := cget fget o s in let: (s2, vs) := cgets fget o n' s1 in (s2, v :: vs)
  else (s, [::]).
End Cached.
