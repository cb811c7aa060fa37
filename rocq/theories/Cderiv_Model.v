(* Cderiv_Model.v -- the covariant derivative of a multilinear function:
   Mlt.cderiv (galgebra/lt.py:963-983), and the directional derivative Mlt.dd (lt.py:917-920).

   As in Mlt_Model.v, a multivector whose coefficients contain slot symbols is a list of
   terms (multivector, product of symbols); products with it are taken term by term, and
   slot symbols do not depend on the coordinates. *)
From mathcomp Require Import all_ssreflect all_algebra.
From Verif Require Import PyBase Ga_Model Mv_Model Mv_Expr Dual_Model Coef_Model Metric_Model Diff_Model Lt_Model Mlt_Model.
Set Implicit Arguments.
Unset Strict Implicit.
Unset Printing Implicit Defensive.
Import GRing.Theory.
Local Open Scope ring_scope.

Section Call.
Variables (R : comUnitRingType) (a : ga R).
Let n := ga_n a.
Definition sterms : Type := seq (mv R * seq slotsym).
(* the slot vector a_{i+1} *)
Definition slot_terms (i : nat) : sterms := [seq (mv_basis_vec R k, [:: (i, k)]) | k <- iota 0 n].
(* (A | x).scalar() *)
Definition dot_terms (A : mv R) (x : sterms) : option (poly R) :=
  omapM (fun t => LET d := mv_dot a A t.1 IN Some (mv_scalar d, t.2)) x.
(* lt.py:854-868 __call__ with such multivectors as arguments *)
Definition call_terms (slots : nat) (T : mlt R) (args : seq sterms) : option (poly R) :=
  if args is [::] then Some (ml_value T) else
  LET rs := r_basis_mv a IN
  LET ds := omapM (fun xi : sterms * nat =>
      omapM (fun rv : mv R * slotsym => LET p := dot_terms rv.1 xi.1 IN Some (rv.2, p)) (zip rs (slot_coefs a xi.2)))
    (zip args (iota 0 slots)) IN
  Some (pol_subs (flatten ds) (ml_value T)).
End Call.

Section Cderiv.
Variables (R : comUnitRingType) (me : metric_env R) (m : metric R) (dga : diff_ga R).
Notation a := (metric_ga m).
Let n := m_n m.
(* lt.py:972: the coefficients of agrad = a_{k+1} | grad; mv.py:1775-1782 (Dop.Mul) *)
Definition agrad_coef (k l : nat) : option (poly R) :=
  omapM (fun j => LET d := mv_dot a (mv_basis_vec R j) (nth (mv_const a 0) (dg_grad dga) l) IN
                  Some (mv_scalar d, [:: (k, j)])) (iota 0 n).
(* pDiff, term by term *)
Fixpoint diff_each (l : nat) (ts : sterms R) : prog R (sterms R) :=
  if ts is t :: ts' then
    bnd (pDiff me m dga t.1 l) (fun X => bnd (diff_each l ts') (fun r => @ret R _ ((X, t.2) :: r)))
  else @ret R _ [::].
(* agrad * A; mv.py:1789-1800 *)
Definition agrad_mul (k : nat) (ts : sterms R) : prog R (sterms R) :=
  pfold (fun s l =>
    bnd (@lift R _ (agrad_coef k l)) (fun c =>
    bnd (diff_each l ts) (fun ds =>
    @ret R _ (s ++ flatten [seq [seq (mk_mv a (escale q.1 (obj d.1)), q.2 ++ d.2) | d <- ds] | q <- c]))))
    (iota 0 n) [::].
(* lt.py:963-983 cderiv.  The test tmp.obj != 0 skips a subtraction of zero.  The first
   component is the new number of slot vectors *)
Definition mlt_cderiv (T : mlt R) (slots : nat) : nat * prog R (mlt R) :=
  let k := ml_nargs T in
  let slots' := increment_slots k.+1 slots in
  (slots',
   bnd (agrad_mul k [seq (mv_const a t.1, t.2) | t <- ml_value T]) (fun s0 =>
   bnd (pfold (fun CD i =>
          bnd (agrad_mul k (slot_terms a i)) (fun tmp =>
          let args := set_nth [::] [seq slot_terms a j | j <- iota 0 k] i tmp in
          @lift R _ (LET p := call_terms a slots' T args IN Some (CD ++ pol_scale (-1) p))))
        (iota 0 k) [seq (mv_scalar x.1, x.2) | x <- s0]) (fun CD =>
   @ret R _ (Mlt k.+1 CD)))).
(* lt.py:917-920 dd: (a_{k+1} | grad) * fvalue.  The operator is applied to a sympy expression, so
   each term is differentiated (dop.py:345-352) without pDiff.  Simplification: the new fvalue is a
   scalar multivector, held here by its coefficient; it is not a vector, so Mlt.__init__ keeps it
   (lt.py:810-818) *)
Definition mlt_dd (T : mlt R) (slots : nat) : nat * option (mlt R) :=
  let k := ml_nargs T in
  (increment_slots k.+1 slots,
   LET cs := omapM (agrad_coef k) (iota 0 n) IN
   Some (Mlt k.+1 (flatten [seq flatten [seq [seq (q.1 * me_diff me cl.2 t.1, q.2 ++ t.2) | t <- ml_value T] | q <- cl.1]
                           | cl <- zip cs (iota 0 n)]))).
End Cderiv.
