(* Dop_Model.v -- model of differential operators: classes Sdop and Pdop
   (galgebra/dop.py) and Dop (galgebra/mv.py).

   Simplification: coordinate symbols are given by their number; comparison of a
   scalar with zero is exact; simplify is the identity on values. *)
From mathcomp Require Import all_ssreflect all_algebra.
From Verif Require Import PyBase Ga_Model Mv_Model Mv_Expr Dual_Model Metric_Model Diff_Model.
Set Implicit Arguments.
Unset Strict Implicit.
Unset Printing Implicit Defensive.
Import GRing.Theory.
Local Open Scope ring_scope.

(* left fold of a computation that may raise *)
Fixpoint ofoldl (A B : Type) (f : A -> B -> option A) (l : seq B) (x : A) : option A :=
  if l is b :: l' then LET y := f x b IN ofoldl f l' y else Some x.

(* ---- dop.py:271-387 Pdop: the dictionary coordinate -> order ---- *)
Definition pdop : Type := seq (nat * nat).
(* dop.py:318-329: Pdop(x) *)
Definition pdop_sym (x : nat) : pdop := [:: (x, 1%N)].
(* dop.py:309-316 __eq__: equality of dictionaries *)
Definition pd_eq (p q : pdop) : bool :=
  (size p == size q) && all (fun kv => dget q kv.1 == Some kv.2) p.
(* dop.py:334-341 _eval_derivative_n_times *)
Definition pd_inc (p : pdop) (x n : nat) : pdop :=
  dset p x (if dget p x is Some k then (k + n)%N else n).

(* ---- dop.py:18-67: lists of terms (coefficient, Pdop).  The coefficients are
   any Python objects with +, comparison with 0 and differentiation ---- *)
Record coefs (T : Type) := Coefs {
  c_add : T -> T -> option T;             (* x + y *)
  c_radd0 : T -> option T;                (* S.Zero + x *)
  c_isz : T -> option bool;               (* x == 0 *)
  c_diff : nat -> T -> option T }.        (* _basic_diff(x, coordinate), dop.py:260-268 *)

Section Terms.
Variables (T : Type) (K : coefs T).
Notation term := (T * pdop)%type.

(* dop.py:18-32 _consolidate_terms *)
Fixpoint add_to (l : seq term) (c : T) (p : pdop) : option (seq term) :=
  if l is (c', p') :: l' then
    if pd_eq p' p then LET s := c_add K c' c IN Some ((s, p') :: l')
    else LET r := add_to l' c p IN Some ((c', p') :: r)
  else Some [:: (c, p)].
Definition consolidate (ts : seq term) : option (seq term) :=
  ofoldl (fun l t => LET z := c_isz K t.1 IN if z then Some l else add_to l t.1 t.2) ts [::].

(* dop.py:35-52 _merge_terms; the coefficient None is the initial S.Zero *)
Fixpoint add_at (l : seq (option T * pdop)) (c : T) (p : pdop) : option (seq (option T * pdop)) :=
  if l is (c', p') :: l' then
    if pd_eq p' p then LET s := (if c' is Some x then c_add K x c else c_radd0 K c) IN Some ((Some s, p') :: l')
    else LET r := add_at l' c p IN Some ((c', p') :: r)
  else None.
Fixpoint drop_zeros (l : seq (option T * pdop)) : option (seq term) :=
  if l is (c, p) :: l' then
    LET r := drop_zeros l' IN
    if c is Some x then LET z := c_isz K x IN Some (if z then r else (x, p) :: r) else Some r
  else Some [::].
Definition merge_terms (t1 t2 : seq term) : option (seq term) :=
  let p1 := [seq t.2 | t <- t1] in
  let p2 := [seq t.2 | t <- t2] in
  let ps := p1 ++ [seq x <- p2 | ~~ has (fun y => pd_eq y x) p1] in
  LET l1 := ofoldl (fun l (t : term) => add_at l t.1 t.2) t1 [seq (None, p) | p <- ps] IN
  LET l2 := ofoldl (fun l (t : term) => add_at l t.1 t.2) t2 l1 IN
  drop_zeros l2.

(* dop.py:55-67 _eval_derivative_n_times_terms *)
Definition diff_term (x : nat) (t : term) : option (seq term) :=
  LET dc := c_diff K x t.1 IN
  LET z := c_isz K dc IN
  Some ((if z then [::] else [:: (dc, t.2)]) ++ [:: (t.1, pd_inc t.2 x 1)]).
Fixpoint diff_times (x n : nat) (ts : seq term) : option (seq term) :=
  if n is n'.+1 then LET l := omapM (diff_term x) ts IN diff_times x n' (flatten l) else Some ts.
Definition eval_derivative (ts : seq term) (x n : nat) : option (seq term) :=
  LET l := diff_times x n ts IN consolidate l.
(* dop.py:343-350 Pdop.__call__ on an operator *)
Definition pd_on_terms (p : pdop) (ts : seq term) : option (seq term) :=
  ofoldl (fun ts (kv : nat * nat) => eval_derivative ts kv.1 kv.2) p ts.
End Terms.

(* ---- dop.py:77-254 Sdop: scalar coefficients ---- *)
Section Sdop.
Variables (R : comUnitRingType) (D : nat -> R -> R).
Definition sdop : Type := seq (R * pdop).
Definition scalar_coefs : coefs R :=
  Coefs (fun x y => Some (x + y)) (fun x => Some (0 + x)) (fun x => Some (x == 0)) (fun x c => Some (D x c)).
(* dop.py:343-350 Pdop.__call__ on a function *)
Definition pd_call (p : pdop) (f : R) : R := foldl (fun f (kv : nat * nat) => iter kv.2 (D kv.1) f) f p.
(* dop.py:164-196 constructors: Sdop(symbol), Sdop(coefs, pdiffs); 355-357 c*Pdop *)
Definition sdop_sym (x : nat) : sdop := [:: (1, pdop_sym x)].
Definition sdop_lists (cs : seq R) (ps : seq pdop) : option sdop :=
  if size cs == size ps then Some (zip cs ps) else None.
Definition pdop_rmul (c : R) (p : pdop) : sdop := [:: (c, p)].
(* dop.py:198-205 __call__ on a function.  Simplification: an operator without
   terms gives 0 (the code adds a term 0*d/d(dummy)) *)
Definition sdop_call (d : sdop) (f : R) : R := foldl (fun s (t : R * pdop) => s + t.1 * pd_call t.2 f) 0 d.
(* dop.py:207-208 __neg__; 247-248 __rmul__ *)
Definition sdop_neg (d : sdop) : sdop := [seq (- t.1, t.2) | t <- d].
Definition sdop_rmul (c : R) (d : sdop) : sdop := [seq (c * t.1, t.2) | t <- d].
(* dop.py:210-222 Add; a value v becomes the operator v*Pdop({}) *)
Definition sdop_of (v : R) : sdop := [:: (v, [::])].
Definition sdop_add (d1 d2 : sdop) : option sdop := merge_terms scalar_coefs d1 d2.
(* dop.py:238-242 __sub__, __rsub__ *)
Definition sdop_sub (d1 d2 : sdop) : option sdop := sdop_add d1 (sdop_neg d2).
Definition sdop_rsub (v : R) (d : sdop) : option sdop := sdop_add (sdop_neg d) (sdop_of v).
(* dop.py:224-230 __eq__ *)
Definition sdop_eq (d1 d2 : sdop) : option bool := LET d := sdop_sub d1 d2 IN Some (nilp d).
(* dop.py:198-205, 244-246: __call__ and * on an operator; sum starts from 0.
   Simplification: the operator without terms gives the operator without terms *)
Definition sdop_mul (d1 d2 : sdop) : option sdop :=
  if nilp d1 then Some [::]
  else ofoldl (fun s (t : R * pdop) => LET q := pd_on_terms scalar_coefs t.2 d2 IN sdop_add s (sdop_rmul t.1 q))
         d1 (sdop_of 0).
(* dop.py:93-101 consolidate_coefs *)
Definition sdop_consolidate (d : sdop) : option sdop := consolidate scalar_coefs d.
(* dop.py:250-251 diff(D, x, n) *)
Definition sdop_diff (d : sdop) (x n : nat) : option sdop := eval_derivative scalar_coefs d x n.
End Sdop.

(* ---- mv.py:1583-1978 Dop: multivector coefficients ---- *)
Section Dop.
Variables (R : comUnitRingType) (me : metric_env R) (m : metric R) (dga : diff_ga R).
Notation mv := (mv R).
Let a := metric_ga m.
(* terms and complement flag; the algebra is fixed *)
Record dopr := Dop { dp_terms : seq (mv * pdop); dp_cmp : bool }.
(* ga.py:2016-2059 pDiff on a new algebra (C38: the value does not depend on the
   calls made before) *)
Definition mv_pdiff (i : nat) (A : mv) : option mv := (pDiff me m dga A i (ds_init dga)).2.
Definition mv_coefs : coefs mv :=
  Coefs (fun x y => mv_add a x y) (fun x => mv_addc a x 0) (fun x => mv_eqc a x 0) mv_pdiff.
(* mv.py:1543-1546 Mv._eval_derivative_n_times *)
Fixpoint mv_diff_times (x n : nat) (A : mv) : option mv :=
  if n is n'.+1 then LET B := mv_pdiff x A IN mv_diff_times x n' B else Some A.
(* dop.py:343-350 Pdop.__call__ on a multivector *)
Definition pd_on_mv (p : pdop) (A : mv) : option mv :=
  ofoldl (fun A (kv : nat * nat) => mv_diff_times kv.1 kv.2 A) p A.
(* mv.py:1698-1702 consolidate_coefs *)
Definition dop_consolidate (d : dopr) : option dopr :=
  LET ts := consolidate mv_coefs (dp_terms d) IN Some (Dop ts (dp_cmp d)).
(* mv.py:1704-1727 Add: operators; a multivector becomes A*Pdop({}) *)
Definition dop_of (A : mv) (cmp : bool) : dopr := Dop [:: (A, [::])] cmp.
Definition dop_add (d1 d2 : dopr) : option dopr :=
  if dp_cmp d1 != dp_cmp d2 then None
  else LET ts := merge_terms mv_coefs (dp_terms d1) (dp_terms d2) IN Some (Dop ts (dp_cmp d1)).
(* mv.py:1735-1739 __neg__; 1741-1742 __sub__ *)
Definition dop_neg (d : dopr) : option dopr :=
  LET ts := omapM (fun t : mv * pdop => LET c := mv_neg a t.1 IN Some (c, t.2)) (dp_terms d) IN Some (Dop ts (dp_cmp d)).
Definition dop_sub (d1 d2 : dopr) : option dopr := LET e := dop_neg d2 IN dop_add d1 e.
(* mv.py:1840-1848 __eq__ *)
Definition dop_eq (d1 d2 : dopr) : option bool := LET d := dop_sub d1 d2 IN Some (nilp (dp_terms d)).
(* dop.py:343-350 Pdop.__call__ on a Dop; mv.py:1977-1978 *)
Definition pd_on_dop (p : pdop) (d : dopr) : option dopr :=
  LET ts := pd_on_terms mv_coefs p (dp_terms d) IN Some (Dop ts (dp_cmp d)).

(* mv.py:1747-1802 Mul.  Simplification: operands are multivectors or operators
   of the algebra (scalars are converted by the caller) *)
(* mv.py:1776-1780: a multivector times an operator acting on the right *)
Definition mul_mv_dop (o : dmode) (A : mv) (d : dopr) : option dopr :=
  LET ts := omapM (fun t : mv * pdop => LET c := mv_op m o A t.1 IN Some (c, t.2)) (dp_terms d) IN
  dop_consolidate (Dop ts false).
(* mv.py:1797-1801: an operator acting on the left times a multivector *)
Definition mul_dop_mv (o : dmode) (d : dopr) (A : mv) : option dopr :=
  LET ts := omapM (fun t : mv * pdop => LET c := mv_op m o t.1 A IN Some (c, t.2)) (dp_terms d) IN
  dop_consolidate (Dop ts true).
(* mv.py:1792-1796: an operator acting on the right, applied *)
Definition dop_apply (o : dmode) (d : dopr) (F : mv) : option mv :=
  ofoldl (fun s (t : mv * pdop) => LET dF := pd_on_mv t.2 F IN LET q := mv_op m o t.1 dF IN mv_add a s q)
    (dp_terms d) (mv_const a 0).
(* mv.py:1781-1785: an operator acting on the left, applied *)
Definition dop_apply_left (o : dmode) (F : mv) (d : dopr) : option mv :=
  ofoldl (fun s (t : mv * pdop) => LET dF := pd_on_mv t.2 F IN LET q := mv_op m o dF t.1 IN mv_add a s q)
    (dp_terms d) (mv_const a 0).
Inductive operand := OMv of mv | ODop of dopr.
Definition dop_Mul (o : dmode) (l r : operand) : option operand :=
  match l, r with
  | ODop dl, ODop dr =>
      if dp_cmp dl != dp_cmp dr then None
      else
        LET p := (if ~~ dp_cmp dl then
              ofoldl (fun s (t : mv * pdop) => LET q := pd_on_dop t.2 dr IN LET p := mul_mv_dop o t.1 q IN dop_add s p)
                (dp_terms dl) (Dop [::] false)
            else
              ofoldl (fun s (t : mv * pdop) => LET q := pd_on_dop t.2 dl IN LET p := mul_dop_mv o q t.1 IN dop_add s p)
                (dp_terms dr) (Dop [::] true)) IN
        LET c := dop_consolidate p IN Some (ODop c)
  | OMv A, ODop d =>
      if dp_cmp d then LET x := dop_apply_left o A d IN Some (OMv x) else LET x := mul_mv_dop o A d IN Some (ODop x)
  | ODop d, OMv A =>
      if dp_cmp d then LET x := mul_dop_mv o d A IN Some (ODop x) else LET x := dop_apply o d A IN Some (OMv x)
  | OMv A, OMv B => None       (* not an operation of Dop *)
  end.
(* mv.py:1809-1814 __truediv__ by a scalar *)
Definition dop_divc (d : dopr) (c : R) : option dopr :=
  LET ts := omapM (fun t : mv * pdop => LET x := mv_divc a t.1 c IN Some (x, t.2)) (dp_terms d) IN Some (Dop ts (dp_cmp d)).
(* mv.py:1804-1807 TSimplify: the complement flag is not passed on *)
Definition dop_TSimplify (d : dopr) : dopr := Dop (dp_terms d) false.
(* ga.py:762-781, 940-951: grad, rgrad *)
Definition dop_grad (cmp : bool) : dopr :=
  Dop (zip (dg_grad dga) [seq pdop_sym i | i <- iota 0 (m_n m)]) cmp.
End Dop.
