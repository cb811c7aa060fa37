(* Props_Exp_Case.v -- the concrete case for Props_Exp.v: the Euclidean plane over
   the complex numbers, the bivector c e0^e1. *)
From Coq Require Import Reals.
From mathcomp Require Import all_ssreflect all_algebra.
From Coq Require Import String.
From Verif Require Import NatTac AlgTactics Exterior Clifford Blades Spec_Grade Grades GradeLaws ContrLaws.
From Verif Require Import Spec_Index PyBase PyStr Ga_Model Ga_Proof_Tables Ga_Proof_Sort Ga_Proof_Sem Ga_Proof_Reduce.
From Verif Require Import Ga_Sem Ga_Proof_Rep Ga_Proof_Conv Ga_Proof_Mul Spec_Clifford Clifford_Unique Spec_Mv Ga_Proof_Den Ga_Proof_Wedge Ga_Proof_Inner.
From Verif Require Import Ga_Proof_Grade Mv_Model Mv_Proof Mv_Expr Mv_Proof_Expr Props_Mv Det Props_Dual Coef_Model Props_Versor.
From Verif Require Import Props_Blade Exp_Model Spec_Exp Cplx Props_Exp.
Set Implicit Arguments.
Unset Strict Implicit.
Unset Printing Implicit Defensive.
Import GRing.Theory.
Local Open Scope ring_scope.
Open Scope py_scope.

(* c e_i^e_j is a bivector whose square is the number c^2 (g_ij^2 - g_ii g_jj) *)
Section Bivector.
Variables (R : comUnitRingType) (two : (2%:R : R) \is a GRing.unit) (a : ga R).
Hypothesis wf : wf_ga a.
Notation g := (ga_metric two a).
Lemma bivector_case (i j : 'I_(ga_n a)) (c : R) : exists T,
  [/\ run a (c ##. (basis_mv R i ^. basis_mv R j)) = Some T, mv_valid a T, blade_form a T,
    run_eq a (Grade T 2) T = Some true &
    run_eq a (T *. T) (Num (c * c * (geff a i j ^+ 2 - geff a i i * geff a j j))) = Some true].
Proof.
have Hc : is_clifford_product (fun i j : 'I_(ga_n a) => geff a i j) (cmul g) := clifford_product_exists g.
have [oi vi bi _] := basis_ok two i; have [oj vj bj _] := basis_ok two j.
have l : legal a (c ##. (basis_mv R i ^. basis_mv R j)) by rewrite /= !mv_validE oi oj.
have [T E [oT vT bT]] := run_yields two wf Hc l.
set x : cl two a := bl R [set i]; set y : cl two a := bl R [set j].
have vT' : Mv_Proof.mvv two a T = c *: ext (bl R [set i]) (bl R [set j]).
  by rewrite vT -[LHS]/(c *: ext (den (cmul g) (obj (basis_mv R i))) (den (cmul g) (obj (basis_mv R j)))) !(den_ok two Hc) // vi vj.
have hT : mv_valid a T by rewrite mv_validE.
have hi : homog 1 (bl R [set i]) by rewrite -(cards1 i); exact: homog_bl.
have hj : homog 1 (bl R [set j]) by rewrite -(cards1 j); exact: homog_bl.
exists T; split=> //.
- exact: bT.
- apply: (run_law two wf Hc) => //=; first by rewrite hT; exact: bT.
  rewrite (den_ok two Hc) // vT'.
  by rewrite (gpart_homog _ (Det.homogZ c (homog_ext two hi hj))).
apply: (run_law two wf Hc); rewrite /= ?hT // (den_ok two Hc) // vT'.
have rij := cgen_rel g i j; have rii := cgen_rel g i i; have rjj := cgen_rel g j j.
have hf (u : cl two a) (k : R) : u + u = (k *+ 2) *: 1 -> u = k *: 1.
  move=> e; rewrite -[LHS]scale1r -(mulVr two) -scalerA scaler_nat [u *+ 2]mulr2n e scalerA mulrnAr -mulrnAl.
  by rewrite -(mulr_natr _^-1) mulVr // mul1r.
have s0 (k : R) : (k *: bl R set0 : mval R (ga_n a)) set0 = k by rewrite !ffunE eqxx mulr1.
have dE : gform g x y = geff a i j.
  have := vec_rel g hi hj; rewrite -/x -/y => e.
  have : (geff a i j *+ 2) *: (1 : cl two a) = (gform g x y *+ 2) *: (1 : cl two a) by rewrite -e; symmetry; exact: rij.
  move=> /(congr1 (fun z : cl two a => (z : mval R (ga_n a)) set0)).
  rewrite [X in X = _]s0 [X in _ = X]s0 => /esym; rewrite -(mulr_natr (gform g x y)) -(mulr_natr (geff a i j)); exact: (mulIr two).
have eE : ext x y = (x : cl two a) * y - geff a i j *: 1.
  rewrite (vec_mul g y hi) -(hestenes_left g hi hj) // vec_dot // dE.
  by rewrite addrC addKr.
have sq := bivector_square (x := x) (y := y) (d := geff a i j) (qx := geff a i i) (qy := geff a j j).
rewrite -/x -/y eE.
apply: etrans (_ : (c *: (x * y - (geff a i j)%:A)) * (c *: (x * y - (geff a i j)%:A)) = _) _; first by [].
rewrite -scalerAl -scalerAr scalerA sq ?scalerA //.
- by rewrite -rij addrC addKr.
- exact: hf rii.
- exact: hf rjj.
Qed.
End Bivector.

(* the Euclidean plane over the complex numbers *)
Notation K := cplx_comUnitRingType.
Definition plane : ga K := @Ga K 2 [:: [:: 1; 0]; [:: 0; 1]].
Definition angle (theta : R) : K := (theta, R0).
Definition x_axis : mv K := basis_mv K 0.
Definition y_axis : mv K := basis_mv K 1.

(* T = theta e0^e1 meets the hypotheses of every theorem of Props_Exp.v: it is a
   bivector, of square -theta^2, and 0 is no real angle theta here *)
Theorem C21_case (theta : R) : theta <> R0 -> exists T, [/\ run plane (angle theta ##. (x_axis ^. y_axis)) = Some T,
  [/\ wf_ga plane, mv_valid plane T, blade_form plane T & run_eq plane (Grade T 2) T = Some true],
  run_eq plane (T *. T) (Num (- (angle theta * angle theta))) = Some true,
  (- (angle theta * angle theta)) != 0 &
  forall num pos hint, gives plane (mv_exp (complex_functions num pos) plane hint T)
    (Num (ccos (angle theta) : K) +. ((csin (angle theta) : K) / angle theta) ##. T)].
Proof.
move=> t0; have wf : wf_ga plane by [].
have [T [E hT bT gT eT]] := bivector_case cplx_two wf (@Ordinal 2 0 isT) (@Ordinal 2 1 isT) (angle theta).
have {}eT : run_eq plane (T *. T) (Num (- (angle theta * angle theta))) = Some true.
  rewrite -[RHS]eT; congr (run_eq _ _ (Num _)).
  by rewrite -[geff _ _ _]/(0 : K) expr2 mul0r sub0r mulr1 mulrN1.
have q0 : (- (angle theta * angle theta)) != 0.
  rewrite oppr_eq0 mulf_eq0 orbb; apply/eqP => -[]; exact: t0.
exists T; split=> //.
move=> num pos hint; apply: (@C21_trig cplx_fieldType cplx_two plane wf _ _ (complex_laws num pos) hint T _ (angle theta) hT eT q0).
by rewrite opprK.
Qed.
Print Assumptions complex_laws.
Print Assumptions C21_case.
