(* Mlt_Model.v -- model of multilinear transformations (galgebra/lt.py, class Mlt).

   A slot vector a_{i+1} has the symbols a_{i+1}__k as coefficients; the symbol is
   written (i, k) here.  A component expression is a polynomial in these symbols:
   a list of terms (coefficient, product of symbols).
   Simplification: the tensors are scalar valued component expressions (the field
   f, a Python function that __call__ applies, is not modelled); expand and the
   order of terms are not visible; a product of a multivector with a slot vector
   is taken coefficient by coefficient. *)
From mathcomp Require Import all_ssreflect all_algebra.
From Verif Require Import PyBase Ga_Model Mv_Model Mv_Expr Dual_Model Coef_Model Metric_Model Diff_Model Lt_Model.
Set Implicit Arguments.
Unset Strict Implicit.
Unset Printing Implicit Defensive.
Import GRing.Theory.
Local Open Scope ring_scope.

Definition slotsym : Type := nat * nat.
Section Poly.
Variable R : comUnitRingType.
Definition poly : Type := seq (R * seq slotsym).
(* sums, products and multiples of component expressions *)
Definition pol_mul (p q : poly) : poly := flatten [seq [seq (s.1 * t.1, s.2 ++ t.2) | t <- q] | s <- p].
Definition pol_scale (c : R) (p : poly) : poly := [seq (c * t.1, t.2) | t <- p].
Definition pol_const (c : R) : poly := [:: (c, [::])].
(* expr.subs(lst, simultaneous=True) *)
Definition term_subs (d : seq (slotsym * poly)) (t : R * seq slotsym) : poly :=
  foldr (fun v q => pol_mul (if dget d v is Some r then r else [:: (1, [:: v])]) q) (pol_const t.1) t.2.
Definition pol_subs (d : seq (slotsym * poly)) (p : poly) : poly := flatten [seq term_subs d t | t <- p].
(* renaming of the symbols *)
Definition pol_map (f : slotsym -> slotsym) (p : poly) : poly := [seq (t.1, map f t.2) | t <- p].
(* the number an expression without slot symbols stands for *)
Definition pol_number (p : poly) : option R :=
  if all (fun t => nilp t.2) p then Some (foldr (fun t s => t.1 + s) 0 p) else None.
(* itertools.product(s, repeat=k), itertools.product( *ss ) *)
Fixpoint cartesian (T : Type) (ss : seq (seq T)) : seq (seq T) :=
  if ss is s :: ss' then flatten [seq [seq x :: l | l <- cartesian ss'] | x <- s] else [:: [::]].
End Poly.

Section Mlt.
Variables (R : comUnitRingType) (a : ga R).
Notation mv := (mv R).
Notation poly := (poly R).
Let n := ga_n a.
(* lt.py:803-852: the fields nargs and fvalue *)
Record mlt := Mlt { ml_nargs : nat; ml_value : poly }.
Implicit Types (T : mlt).
(* ga.py:720-722, lt.py:683-696: the state is the number of slot vectors made so
   far; increment_slots *)
Definition increment_slots (nargs slots : nat) : nat := maxn nargs slots.
Definition slot_coefs (i : nat) : seq slotsym := [seq (i, k) | k <- iota 0 n].

(* arguments: a vector of the algebra, or a slot vector *)
Inductive marg := Vec of mv | Slot of nat.
(* (A | x).scalar() *)
Definition dot_arg (A : mv) (x : marg) : option poly :=
  match x with
  | Vec X => LET d := mv_dot a A X IN Some (pol_const (mv_scalar d))
  | Slot i => LET cs := omapM (fun k => LET d := mv_dot a A (mv_basis_vec R k) IN Some (mv_scalar d)) (iota 0 n) IN
              Some [seq (c.1, [:: (i, c.2)]) | c <- zip cs (iota 0 n)]
  end.
(* lt.py:854-868 __call__ *)
Definition mlt_call (slots : nat) T (args : seq marg) : option poly :=
  if args is [::] then Some (ml_value T) else
  LET rs := r_basis_mv a IN
  LET ds := omapM (fun xi : marg * nat =>
      omapM (fun rv : mv * slotsym => LET p := dot_arg rv.1 xi.1 IN Some (rv.2, p)) (zip rs (slot_coefs xi.2)))
    (zip args (iota 0 slots)) IN
  Some (pol_subs (flatten ds) (ml_value T)).

(* lt.py:803-852 __init__ *)
(* f is a vector: f | a_1 *)
Definition mlt_of_vector (f : mv) (slots : nat) : nat * option mlt :=
  (increment_slots 1 slots, LET v := is_vector a f IN
   if v then LET p := dot_arg f (Slot 0) IN Some (Mlt 1 p) else None).
(* f is a linear transformation: a_1 | f(a_2) *)
Definition mlt_of_lt (L : lt R) (slots : nat) : nat * option mlt :=
  (increment_slots 2 slots,
   LET rows := omapM (fun k => LET y := lt_call a L (mv_basis_vec R k) IN
                               LET p := omapM (fun j => LET d := mv_dot a (mv_basis_vec R j) y IN Some (mv_scalar d)) (iota 0 n) IN
                               Some [seq (cj.1, [:: (0, cj.2); (1, k)]%N) | cj <- zip p (iota 0 n)]) (iota 0 n) IN
   Some (Mlt 2 (flatten rows))).
(* f is a name: coef gives the symbol (or function) for a list of indices; the second
   product runs over all slot vectors made so far *)
Definition mlt_of_name (coef : seq nat -> R) (nargs slots : nat) : nat * option mlt :=
  let slots' := increment_slots nargs slots in
  (slots', Some (Mlt nargs [seq (coef ip.1, ip.2) | ip <- zip (cartesian (nseq nargs (iota 0 n)))
                                                             (cartesian [seq slot_coefs i | i <- iota 0 slots'])])).
(* a component expression *)
Definition mlt_of_expr (p : poly) (nargs slots : nat) : nat * option mlt :=
  (increment_slots nargs slots, Some (Mlt nargs p)).

(* lt.py:870-886 __add__, __sub__ *)
Definition mlt_add T1 T2 : option mlt :=
  if ml_nargs T1 == ml_nargs T2 then Some (Mlt (ml_nargs T1) (ml_value T1 ++ ml_value T2)) else None.
Definition mlt_sub T1 T2 : option mlt :=
  if ml_nargs T1 == ml_nargs T2 then Some (Mlt (ml_nargs T1) (ml_value T1 ++ pol_scale (-1) (ml_value T2))) else None.
(* lt.py:888-897 __mul__ by a tensor and by a scalar *)
Definition mlt_mul T1 T2 (slots : nat) : nat * option mlt :=
  let nargs := (ml_nargs T1 + ml_nargs T2)%N in
  let slots' := increment_slots nargs slots in
  (slots', LET p := mlt_call slots' T1 [seq Slot i | i <- iota 0 (ml_nargs T1)] IN
           LET q := mlt_call slots' T2 [seq Slot i | i <- iota (ml_nargs T1) (ml_nargs T2)] IN
           Some (Mlt nargs (pol_mul p q))).
Definition mlt_scale (c : R) T : mlt := Mlt (ml_nargs T) (pol_scale c (ml_value T)).

(* lt.py:933-939 remove_slot: the symbols of the later slots are renamed one by one *)
Definition remove_slot (slot nargs : nat) (l : seq slotsym) : seq slotsym :=
  if slot == nargs then l
  else foldl (fun l i => [seq (if v.1 == i then (i.-1, v.2) else v) | v <- l]) l (iota slot (nargs - slot)).
End Mlt.

(* lt.py:941-961 contract.  A multivector whose coefficients contain slot symbols is
   a list of terms (multivector, product of symbols); slot symbols do not depend on
   the coordinates, so grad acts on the multivectors. *)
Section Contract.
Variables (R : comUnitRingType) (me : metric_env R) (m : metric R) (dga : diff_ga R).
Notation a := (metric_ga m).
Definition set_slot (k : int) (st : dstate R) : dstate R := DState (ds_bases st) (ds_conn st) k (ds_flag st).
Fixpoint grad_terms (d : dmode) (ts : seq (mv R * seq slotsym)) : prog R (seq (mv R * seq slotsym)) :=
  if ts is t :: ts' then
    bnd (grad_mul me m dga d true t.1) (fun X => bnd (grad_terms d ts') (fun l => @ret R _ ((X, t.2) :: l)))
  else @ret R _ [::].
Definition mlt_contract (T : mlt R) (slot1 slot2 : nat) : prog R (mlt R) := fun st =>
  let lo := minn slot1 slot2 in let hi := maxn slot1 slot2 in
  let k := ml_nargs T in
  bnd (grad_terms MMul [seq (mv_const a t.1, t.2) | t <- ml_value T]) (fun g1 st1 =>
  let g1' := [seq (t.1, remove_slot lo k t.2) | t <- g1] in
  bnd (grad_terms MDot g1') (fun g2 =>
  @ret R _ (Mlt (k - 2) [seq (mv_scalar t.1, remove_slot hi.-1 k.-1 t.2) | t <- g2]))
    (set_slot ((hi%:Z - 2%:Z)%R) st1)) (set_slot ((lo%:Z - 1%:Z)%R) st).
End Contract.
