(* Props_Inner.v -- properties C10, C11 at the level of Ga's product functions:
   the outer product and the grade-selecting inner products.

   ext (Spec_Grade.v) is the exterior product defined from the index sets
   alone, without any metric; selprod mul f x y is the sum over r, s of the
   grade f(r,s) part of the product of the grade-r part of x and the grade-s
   part of y. *)
From mathcomp Require Import all_ssreflect all_algebra.
From Verif Require Import Exterior Clifford Blades Spec_Grade Grades Spec_Index PyBase Ga_Model.
From Verif Require Import Ga_Proof_Tables Ga_Proof_Sem Ga_Proof_Reduce Ga_Sem Ga_Proof_Rep Ga_Proof_Conv Ga_Proof_Mul.
From Verif Require Import Spec_Clifford Clifford_Unique Spec_Mv Ga_Proof_Den Ga_Proof_Wedge Ga_Proof_Inner.
Set Implicit Arguments.
Unset Strict Implicit.
Unset Printing Implicit Defensive.
Import GRing.Theory.
Local Open Scope ring_scope.

Section Props.
Variables (R : comUnitRingType) (two : (2%:R : R) \is a GRing.unit) (a : ga R).
Notation n := (ga_n a).
Implicit Types (x y : expr R).

(* ---- C10: the outer product is the metric-free exterior product ---- *)
Theorem C10_wedge x y : blade_expr n x -> blade_expr n y ->
  exists z, [/\ ga_wedge a x y = Some z, blade_expr n z & mv_of n z = ext (mv_of n x) (mv_of n y)].
Proof.
move=> bx b_y; have [z E [bz _ vz]] := ga_wedgeP two bx b_y; exists z; split=> //.
by rewrite -!(value_mv_of two).
Qed.
(* ... the same expression in two algebras of the same dimension *)
Theorem C10_wedge_metric_free (b : ga R) x y : ga_n b = n -> ga_wedge b x y = ga_wedge a x y.
Proof. by rewrite /ga_wedge /update_and_substitute /wedge_bb => ->. Qed.
(* ... and it is the top-grade part of the Clifford product of any metric *)
Theorem C10_wedge_is_grade_selection (mul : mval R n -> mval R n -> mval R n) x y :
  wf_ga a -> is_clifford_product (fun i j : 'I_n => geff a i j) mul ->
  blade_expr n x -> blade_expr n y ->
  exists z, [/\ ga_wedge a x y = Some z, blade_expr n z &
     mv_of n z = selprod mul outer_grade (mv_of n x) (mv_of n y)].
Proof.
move=> wf H bx b_y; have [z E [bz _ vz]] := ga_wedgeP two bx b_y; exists z; split=> //.
rewrite -!(value_mv_of two) // vz (ext_selprod two (ga_metric two a)) /selprod.
by apply: eq_bigr => r _; apply: eq_bigr => s _; rewrite (mulE two H).
Qed.

(* ---- C11: the inner products ---- *)
Lemma selprodE (mul : mval R n -> mval R n -> mval R n) f (x y : mval R n) :
  is_clifford_product (fun i j : 'I_n => geff a i j) mul ->
  selprod (fun u v : cl two a => u * v) f x y = selprod mul f x y.
Proof.
move=> H; rewrite /selprod; apply: eq_bigr => r _; apply: eq_bigr => s _.
by case: f => // k; rewrite (mulE two H).
Qed.
Lemma single_spec (mul : mval R n -> mval R n -> mval R n) k x y :
  wf_ga a -> is_clifford_product (fun i j : 'I_n => geff a i j) mul ->
  blade_expr n x -> blade_expr n y ->
  exists z, [/\ ga_single a k x y = Some z, blade_expr n z &
     mv_of n z = selprod mul (rule_of k) (mv_of n x) (mv_of n y)].
Proof.
move=> wf H bx b_y; have [z E [bz _ vz]] := ga_singleP two wf k bx b_y; exists z; split=> //.
by rewrite -!(value_mv_of two) // vz (selprodE _ _ _ H).
Qed.
Theorem C11_left_contraction mul x y :
  wf_ga a -> is_clifford_product (fun i j : 'I_n => geff a i j) mul ->
  blade_expr n x -> blade_expr n y ->
  exists z, [/\ ga_single a LeftC x y = Some z, blade_expr n z &
     mv_of n z = selprod mul left_grade (mv_of n x) (mv_of n y)].
Proof. exact: (@single_spec mul LeftC). Qed.
Theorem C11_right_contraction mul x y :
  wf_ga a -> is_clifford_product (fun i j : 'I_n => geff a i j) mul ->
  blade_expr n x -> blade_expr n y ->
  exists z, [/\ ga_single a RightC x y = Some z, blade_expr n z &
     mv_of n z = selprod mul right_grade (mv_of n x) (mv_of n y)].
Proof. exact: (@single_spec mul RightC). Qed.
Theorem C11_hestenes_dot mul x y :
  wf_ga a -> is_clifford_product (fun i j : 'I_n => geff a i j) mul ->
  blade_expr n x -> blade_expr n y ->
  exists z, [/\ ga_single a Hestenes x y = Some z, blade_expr n z &
     mv_of n z = selprod mul hestenes_grade (mv_of n x) (mv_of n y)].
Proof. exact: (@single_spec mul Hestenes). Qed.
Theorem C11_scalar_product mul x y :
  wf_ga a -> is_clifford_product (fun i j : 'I_n => geff a i j) mul ->
  blade_expr n x -> blade_expr n y ->
  exists z, [/\ ga_single a ScalarProd x y = Some z, blade_expr n z &
     mv_of n z = selprod mul scalar_grade (mv_of n x) (mv_of n y)].
Proof. exact: (@single_spec mul ScalarProd). Qed.
(* the two code paths agree where both apply: the orthogonal loop computes what
   the definition through the geometric product computes *)
Theorem C11_orthogonal_loop mul k I J :
  wf_ga a -> is_ortho a -> is_clifford_product (fun i j : 'I_n => geff a i j) mul ->
  wfI n I -> wfI n J -> k <> WedgeK ->
  exists z, [/\ single_ortho a k (mk_blade I) (mk_blade J) = Some z, blade_expr n z &
     mv_of n z = (if rule_of k (size I) (size J) is Some gr
                  then gpart gr (mul (bl R (idx_set n I)) (bl R (idx_set n J))) else 0)].
Proof.
move=> wf ort H wI wJ nw; have [z E [bz vz]] := single_orthoP two wf ort wI wJ nw.
exists z; split=> //; rewrite -(value_mv_of two) // vz rule_ofE.
by case: rule_of => // gr; rewrite (mulE two H).
Qed.
End Props.
Print Assumptions C10_wedge.
Print Assumptions C10_wedge_metric_free.
Print Assumptions C10_wedge_is_grade_selection.
Print Assumptions C11_left_contraction.
Print Assumptions C11_right_contraction.
Print Assumptions C11_hestenes_dot.
Print Assumptions C11_scalar_product.
Print Assumptions C11_orthogonal_loop.

(* ---- concrete cases: the oblique plane e0.e0 = 1, e0.e1 = 3, e1.e1 = 2 and
   the orthogonal space diag(1, -1, 2) over the rationals ---- *)
Definition in_ga : ga rat_comUnitRing := @Ga rat_comUnitRing 2 [:: [:: 1; 3%:R]; [:: 3%:R; 2%:R]].
Definition in_ortho : ga rat_comUnitRing :=
  @Ga rat_comUnitRing 3 [:: [:: 1; 0; 0]; [:: 0; -1; 0]; [:: 0; 0; 2%:R]].
Example in_hyps : wf_ga in_ga /\ is_ortho in_ga = false /\ wf_ga in_ortho /\ is_ortho in_ortho.
Proof. by split; [|split; [|split]]; vm_compute. Qed.
(* e1 < (e0^e1) = (e1.e0) e1 - (e1.e1) e0 *)
Example C11_ex_left : ga_single in_ga LeftC [:: (1 : rat, mk_blade [:: 1%N])] [:: (1, mk_blade [:: 0; 1]%N)] =
  Some [:: (- (2%:R : rat), mk_blade [:: 0%N]); (3%:R : rat, mk_blade [:: 1%N])].
Proof. by vm_compute. Qed.
(* (e0^e1) | (e0^e1^e2) = -(e0.e0)(e1.e1) e2 *)
Example C11_ex_ortho : ga_single in_ortho Hestenes
  [:: (1 : rat, mk_blade [:: 0; 1]%N)] [:: (1, mk_blade [:: 0; 1; 2]%N)] = Some [:: (1 : rat, mk_blade [:: 2%N])].
Proof. by vm_compute. Qed.
Example C10_ex : ga_wedge in_ortho
  [:: (1 : rat, mk_blade [:: 2%N])] [:: (3%:R : rat, mk_blade [:: 0%N]); (1, mk_blade [:: 2%N])] =
  Some [:: (- (3%:R : rat), mk_blade [:: 0; 2]%N)].
Proof. by vm_compute. Qed.
