(* Props_Lt_Cases.v -- concrete linear transformations that meet the hypotheses of
   Props_Lt.v, and cases in which the claims are false. *)
From mathcomp Require Import all_ssreflect all_algebra fraction.
From Verif Require Import NatTac AlgTactics Exterior Clifford Blades Spec_Grade Grades PyBase Spec_Index Ga_Model.
From Verif Require Import Ga_Sem Ga_Proof_Tables Ga_Proof_Sort Ga_Proof_Sem Ga_Proof_Reduce Ga_Proof_Rep Ga_Proof_Conv.
From Verif Require Import Ga_Proof_Mul Spec_Clifford Clifford_Unique Spec_Mv Ga_Proof_Den Ga_Proof_Wedge Ga_Proof_Inner Ga_Proof_Grade.
From Verif Require Import GradeLaws Det Outer Mv_Model Mv_Proof Mv_Expr Mv_Proof_Expr Props_Mv Dual_Model Dual_Proof Props_Dual.
From Verif Require Import Coef_Model Coef_Proof Props_Coef Props_Versor Metric_Model Props_Metric Spec_Diff Nabla Diff_Model Diff_Proof.
From Verif Require Import Lt_Model Spec_Lt Lt_Proof Props_Lt.
Set Implicit Arguments.
Unset Strict Implicit.
Unset Printing Implicit Defensive.
Import GRing.Theory.
Local Open Scope ring_scope.
Open Scope py_scope.

(* ---- the plane with e0.e0 = 1, e0.e1 = 3, e1.e1 = 2 (mv_ga in Props_Mv.v) ---- *)
Notation Q := rat_comUnitRing.
Definition case_M1 : mat Q := [:: [:: 1; 2%:R]; [:: 3%:R; 5%:R]].
Definition case_M2 : mat Q := [:: [:: 0; 1]; [:: 2%:R; 0]].
Definition case_sing : mat Q := [:: [:: 1; 2%:R]; [:: 2%:R; 4%:R]].
Definition case_L (M : mat Q) : lt Q :=
  [:: (0%N, [:: (mat_at M 0 0, mk_blade [:: 0%N]); (mat_at M 1 0, mk_blade [:: 1%N])]);
      (1%N, [:: (mat_at M 0 1, mk_blade [:: 0%N]); (mat_at M 1 1, mk_blade [:: 1%N])])].
Lemma rat2 : (2%:R : Q) \is a GRing.unit. Proof. by vm_compute. Qed.
Lemma case_det : \det (metric_mx mv_ga) \is a GRing.unit.
Proof.
rewrite (expand_det_row _ ord0) !big_ord_recl big_ord0 /cofactor !det_mx11 !mxE /geff /gij /=.
by vm_compute.
Qed.
Example C27_case : [/\ wf_ga mv_ga, rect mv_ga case_M1 && rect mv_ga case_M2,
  [&& transformation mv_ga (case_L case_M1), transformation mv_ga (case_L case_M2) & transformation mv_ga (case_L case_sing)],
  [&& plain mv_ga mv_X, plain mv_ga mv_Y & vector mv_ga mv_V] &
  [/\ lt_of_matrix mv_ga case_M1 = Some (case_L case_M1), lt_of_matrix mv_ga case_M2 = Some (case_L case_M2) &
     lt_of_matrix mv_ga case_sing = Some (case_L case_sing)]].
Proof. by split=> //; vm_compute. Qed.
(* e0 - e1 goes to (1-2) e0 + (3-5) e1 *)
Example C27_case_call : omap (fun Z => obj Z == [:: (- (1 : rat), mk_blade [:: 0%N]); (- (2%:R : rat), mk_blade [:: 1%N])])
  (lt_call mv_ga (case_L case_M1) mv_V) = Some true.
Proof. by vm_compute. Qed.
Example C28_case : omap (fun L => omap (fun M => M == [:: [:: 4%:R; 1]; [:: 10%:R; 3%:R]] :> seq (seq rat)) (lt_matrix mv_ga L))
  (lt_mul mv_ga (case_L case_M1) (case_L case_M2)) = Some (Some true).
Proof. by vm_compute. Qed.
Example C29_case : omap (fun d => d == - (1 : rat)) (lt_det mv_ga (case_L case_M1)) = Some true /\
  omap (fun d => d == - (2%:R : rat)) (lt_det mv_ga (case_L case_M2)) = Some true.
Proof. by split; vm_compute. Qed.
Example C30_case : [/\ symmetric_metric mv_ga, \det (metric_mx mv_ga) \is a GRing.unit & det_declared mv_ga None].
Proof. by split=> //; [move=> [|[|i]] [|[|j]] | exact: case_det]. Qed.
Example C31_case : lt_is_singular mv_ga (case_L case_sing) = Some true /\
  (lt_is_singular mv_ga (case_L case_M1) = Some false /\ exists L', lt_inv mv_ga (case_L case_M1) = Some L').
Proof.
have s : lt_is_singular mv_ga (case_L case_M1) = Some false by vm_compute.
split; first by vm_compute.
have [[s' _]|//] : _ := C31_field (F := rat_fieldType) rat2 (L := case_L case_M1) mv_ga_wf isT case_det.
by move: s'; rewrite s.
Qed.
(* the reflection X -> -V*X/V *)
Example C27_case_versor : plain mv_ga mv_V /\ answers_versor mv_ga mv_V = Some true.
Proof. by split; vm_compute. Qed.
(* the functions of C27_function include every transformation *)
Lemma C27_function_call (R : comUnitRingType) (two : (2%:R : R) \is a GRing.unit) (a : ga R) L : wf_ga a ->
  transformation a L -> linear_function a (lt_call a L).
Proof.
move=> wf tL; split=> [A|A B|A B c d] vA.
- exact: (C27_vectors_to_vectors two wf tL vA).
- move=> vB; apply: (C27_extensional two wf tL); exact: vector_plain.
move=> vB; exact: (C27_linear two wf c d tL (vector_plain vA) (vector_plain vB)).
Qed.

(* ---- false cases ---- *)
(* a transformation leaves the symbols of a base representation as they are:
   L(B) and L(B.blade_rep()) differ *)
Theorem C29_base_rep_refuted : exists (a : ga Q) L B,
  [/\ wf_ga a, transformation a L, mv_valid a B, run_eq a (BladeRep B) B = Some true &
      same a (lt_call a L B) (LET x := blade_rep a B IN lt_call a L x) = Some false].
Proof. by exists mv_ga, (case_L case_M1), mv_B; split; vm_compute. Qed.
(* a dictionary that lacks a basis vector is accepted; the basis vector is then its
   own image, but the sum takes the image as zero, and matrix() raises *)
Theorem C28_missing_key_refuted : exists (a : ga Q) L1 L2 X,
  [/\ wf_ga a, transformation a L2, vector a X, lt_matrix a L1 = None &
      same a (lt_call a (lt_add L1 L2) X) (LET x := lt_call a L1 X IN LET y := lt_call a L2 X IN mv_add a x y) = Some false].
Proof. by exists mv_ga, (take 1 (case_L case_M1)), (case_L case_M2), mv_V; split; vm_compute. Qed.
(* lists of any length are accepted: missing rows are missing keys, further rows are ignored *)
Theorem C27_lists_refuted : exists (a : ga Q) rows1 rows2,
  [/\ wf_ga a, ~~ rect a rows1, lt_matrix a (lt_of_lists a rows1) = None, ~~ rect a rows2 & transformation a (lt_of_lists a rows2)].
Proof. by exists mv_ga, [:: [:: 1; 1]], [:: [:: 1; 1]; [:: 1; 2%:R]; [:: 1; 1]]; split; vm_compute. Qed.

(* the constructor from a function tests additivity only: differentiation of the
   coefficient passes the test, and the transformation is then zero *)
Section Additive.
Variables (R : comUnitRingType) (two : (2%:R : R) \is a GRing.unit) (me : metric_env R) (x : R).
Hypotheses (par : partials (me_diff me)) (dx : me_diff me 0 x = 1).
Definition line1 : metric R := Metric 1 (Some 1%N) [:: [:: 1]] [:: [:: 1]] true None.
Notation a := (metric_ga line1).
Definition dfun (X : mv R) : option (mv R) := Some (mk_mv a (diff_terms me 0 (obj X))).
Lemma line1_wf : wf_ga a. Proof. by []. Qed.
Lemma dfun_additive (A B : mv R) : vector a A -> vector a B ->
  exists2 L, lt_of_function a A B dfun = Some L & same a (lt_call a L (Mv [:: (x, mk_blade [:: 0%N])] true)) (dfun (Mv [:: (x, mk_blade [:: 0%N])] true)) = Some false.
Proof.
have der k : derivation (me_diff me k) by case: par.
have dP X : vector a X -> @yields R two a true (dfun X) (dcoef (me_diff me 0) (mvv two a X)).
  move=> vX; have [oX bX _ _] := vectorP two vX.
  have b : blade_expr 1 (diff_terms me 0 (obj X)) by rewrite (@blade_diff R me line1); exact: (bladed_blade oX bX).
  by apply: yields_blade => //; apply: (@value_diff R two me line1 der) => //; exact: (bladed_blade oX bX).
have d1 : me_diff me 0 1 = 0 by exact: (drv1 (der 0%N)).
move=> vA vB; rewrite /lt_of_function.
have [S ES [vS sE]] : exists2 S, mv_add a A B = Some S & vector a S /\ mvv two a S = mvv two a A + mvv two a B.
  have [oA bA _ hA] := vectorP two vA; have [oB bB _ hB] := vectorP two vB.
  have [S ES [pS sS]] := yields_plain (yieldsW (fun _ => introT orP (or_introl bA)) (mv_addP two line1_wf oA oB)).
  exists S => //; split=> //; rewrite /Spec_Lt.vector pS; have [oS bS] := plainP pS.
  by apply: (@vec_object _ two a) => //; rewrite sS; exact: homogD.
have [FS EFS [oFS vFS bFS]] := dP _ vS; have [FA EFA [oFA vFA bFA]] := dP _ vA; have [FB EFB [oFB vFB bFB]] := dP _ vB.
rewrite ES /= in EFS *; case: EFS => ->; rewrite /= in EFA EFB *; case: EFA => ->; case: EFB => ->.
have [T ET [oT vT _]] := mv_addP two line1_wf oFA oFB; rewrite ET /= (mv_eqP two line1_wf oFS oT).
rewrite vFS vT vFA vFB sE (dcoD (der 0%N)) eqxx /=.
rewrite /mk_mv /= /canon /= d1 eqxx /=; eexists; first by [].
rewrite /same /lt_call /call_obj /=.
have nx : (x == 0) = false by apply/eqP=> e; have := dx; rewrite e (drv0 (der 0%N)) => /esym/eqP; rewrite oner_eq0.
have s1 : sort leq [:: 1%N] = [:: 1%N] by vm_compute.
have g : is_vector a (Mv [:: (x, mk_blade [:: 0%N])] true) = Some true by rewrite /is_vector /ga_grades /canon /= nx /= s1.
rewrite g /= dx -[mk_mv a (xreplace _ _)]/(Mv [::] true).
have -> : mk_mv a [:: (1 : R, [:: (false, [:: 0%N])])] = Mv [:: (1, mk_blade [:: 0%N])] true by rewrite /mk_mv /canon /= oner_eq0.
have oX : mv_ok a (Mv [::] true : mv R) by [].
have l0 : (0 < 1)%N by [].
have [oY bY lY vY] := @basis_vecP R two a 0 l0; rewrite (mv_eqP two line1_wf oX oY) vY /=.
congr Some; apply/negbTE/eqP => /ffunP/(_ [set ord0]).
rewrite /mvv /= value_nil ffunE -[0%N]/(val (ord0 : 'I_1)) valK bl_coef.
by rewrite eqxx => /esym/eqP; rewrite oner_eq0.
Qed.
End Additive.
Theorem C27_function_refuted : exists (a : ga [comUnitRingType of ratfun]) F X, [/\ wf_ga a, vector a X &
  forall A B, vector a A -> vector a B ->
    exists2 L, lt_of_function a A B F = Some L & same a (lt_call a L X) (F X) = Some false].
Proof.
exists (metric_ga (line1 _)), (dfun (rf_env (fun _ _ => 0))), (Mv [:: (rf_x, mk_blade [:: 0%N])] true); split=> //.
  by rewrite /vector /plain /mv_valid /= rf_x_neq0.
move=> A B vA vB; exact: (@dfun_additive [comUnitRingType of ratfun] rf_two (rf_env (fun _ _ => 0)) rf_x rf_partials rf_diff_x A B vA vB).
Qed.

Print Assumptions C27_function_call.
Print Assumptions C29_base_rep_refuted.
Print Assumptions C28_missing_key_refuted.
Print Assumptions C27_lists_refuted.
Print Assumptions C27_function_refuted.
