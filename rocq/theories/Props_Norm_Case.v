(* Props_Norm_Case.v -- the concrete case for Props_Norm.v: Coq's real numbers, with
   their square root, satisfy Spec_Norm.v.  Together with Cplx.v this is the only
   file that uses the axioms of Coq's real numbers. *)
From Coq Require Import Reals Lra.
From mathcomp Require Import all_ssreflect all_algebra.
From Coq Require Import String.
From Verif Require Import PyBase PyStr Ga_Model Ga_Proof_Sem Ga_Sem Ga_Proof_Rep Mv_Model Mv_Expr Props_Mv Norm_Model Spec_Norm Props_Norm Cplx.
Set Implicit Arguments.
Unset Strict Implicit.
Unset Printing Implicit Defensive.
Import GRing.Theory Num.Theory Order.POrderTheory.

(* ---- the real numbers as an ordered field ---- *)
Lemma RaddA : associative Rplus. Proof. by move=> x y z; rewrite Rplus_assoc. Qed.
Lemma RmulA : associative Rmult. Proof. by move=> x y z; rewrite Rmult_assoc. Qed.
Lemma RmulD : left_distributive Rmult Rplus. Proof. by move=> x y z; ring. Qed.
Lemma Radd0 : left_id R0 Rplus. Proof. by move=> x; ring. Qed.
Lemma RaddN : left_inverse R0 Ropp Rplus. Proof. by move=> x; ring. Qed.
Lemma Rmul1 : left_id R1 Rmult. Proof. by move=> x; ring. Qed.
Lemma R10 : R1 != R0. Proof. by apply/eqP; lra. Qed.
Canonical R_zmodType := ZmodType R (ZmodMixin RaddA Rplus_comm Radd0 RaddN).
Canonical R_ringType := RingType R (ComRingMixin RmulA Rmult_comm Rmul1 RmulD R10).
Canonical R_comRingType := ComRingType R Rmult_comm.
Definition Rinvx (x : R) : R := if x == R0 then R0 else Rinv x.
Lemma RmulV (x : R) : x != R0 -> Rmult (Rinvx x) x = R1.
Proof. by move=> h; rewrite /Rinvx (negPf h); apply: Rinv_l; apply/eqP. Qed.
Lemma Rinvx0 : Rinvx R0 = R0. Proof. by rewrite /Rinvx eqxx. Qed.
Definition R_unitMixin := @FieldUnitMixin R_comRingType Rinvx RmulV Rinvx0.
Canonical R_unitRingType := UnitRingType R R_unitMixin.
Canonical R_comUnitRingType := [comUnitRingType of R].
Lemma R_fieldMixin : GRing.Field.mixin_of R_unitRingType. Proof. by []. Qed.
Canonical R_idomainType := IdomainType R (FieldIdomainMixin R_fieldMixin).
Canonical R_fieldType := FieldType R R_fieldMixin.
Definition Rleb (x y : R) : bool := if Rle_dec x y then true else false.
Definition Rltb (x y : R) : bool := if Rlt_dec x y then true else false.
Lemma RleP x y : reflect (Rle x y) (Rleb x y).
Proof. by rewrite /Rleb; case: Rle_dec => h; constructor. Qed.
Lemma RltP x y : reflect (Rlt x y) (Rltb x y).
Proof. by rewrite /Rltb; case: Rlt_dec => h; constructor. Qed.
Lemma Rle0_add x y : Rleb R0 x -> Rleb R0 y -> Rleb R0 (Rplus x y).
Proof. by move=> /RleP hx /RleP hy; apply/RleP; lra. Qed.
Lemma Rle0_mul x y : Rleb R0 x -> Rleb R0 y -> Rleb R0 (Rmult x y).
Proof. by move=> /RleP hx /RleP hy; apply/RleP; exact: Rmult_le_pos. Qed.
Lemma Rle0_anti x : Rleb R0 x -> Rleb x R0 -> x = R0.
Proof. by move=> /RleP hx /RleP hy; exact: Rle_antisym. Qed.
Lemma Rsub_ge0 x y : Rleb R0 (Rplus y (Ropp x)) = Rleb x y.
Proof. by apply/RleP/RleP; lra. Qed.
Lemma Rle0_total x : Rleb R0 x || Rleb x R0.
Proof. by apply/orP; case: (Rle_dec R0 x) => h; [left|right]; apply/RleP; lra. Qed.
Lemma RnormN x : Rabs (Ropp x) = Rabs x. Proof. exact: Rabs_Ropp. Qed.
Lemma Rge0_norm x : Rleb R0 x -> Rabs x = x.
Proof. by move=> /RleP h; apply: Rabs_right; lra. Qed.
Lemma Rlt_defb x y : Rltb x y = (y != x) && Rleb x y.
Proof.
apply/RltP/andP => [h|[/eqP h1 /RleP h2]]; last by case: h2 => // e; case: h1.
by split; [apply/eqP; lra|apply/RleP; lra].
Qed.
Definition R_leMixin : realLeMixin R_idomainType :=
  RealLeMixin Rle0_add Rle0_mul Rle0_anti Rsub_ge0 Rle0_total RnormN Rge0_norm Rlt_defb.
Canonical R_porderType := POrderType ring_display R R_leMixin.
Canonical R_latticeType := LatticeType R R_leMixin.
Canonical R_distrLatticeType := DistrLatticeType R R_leMixin.
Canonical R_orderType := OrderType R R_leMixin.
Canonical R_numDomainType := NumDomainType R R_leMixin.
Canonical R_normedZmodType := NormedZmodType R R R_leMixin.
Canonical R_numFieldType := [numFieldType of R].
Canonical R_realDomainType := [realDomainType of R].
Canonical R_realFieldType := [realFieldType of R].

Local Open Scope ring_scope.
(* SymPy knows nothing about the expressions, and factors e as e^1; whether it
   notices that the metric is positive definite does not matter *)
Definition real_tests (b : bool) : sign_tests R_realFieldType :=
  SignTests (R := R_realFieldType) (fun _ => false) (fun _ => false) (fun _ => false) b (fun e => (1, [:: (e, 1%N)])) sqrt.
(* the plane with metric diag(1, s) *)
Definition rplane (s : R) : ga R_realFieldType := Ga 2 [:: [:: 1; 0]; [:: 0; s]].
Lemma sqrt_ge0 (e : R) : 0 <= e -> (0 : R) <= sqrt e.
Proof. by move=> _; apply/RleP; exact: sqrt_pos. Qed.
Lemma sqrt_sq (e : R) : 0 <= e -> (sqrt e : R) ^+ 2 = e.
Proof. by move=> /RleP h; rewrite expr2; exact: sqrt_sqrt. Qed.
Lemma rplane_pd (s : R) : 0 < s -> positive_definite (rplane s).
Proof.
move=> s0 x [i xi]; rewrite !big_ord_recl !big_ord0 /= /gij /= !mulr1 !mulr0 !addr0 add0r.
have h (y : R) : 0 <= y * y by rewrite -expr2 sqr_ge0.
have h' (y : R) : y != 0 -> 0 < y * y by move=> y0; rewrite lt0r h mulf_neq0.
have := h (x ord0); have := h (x (lift ord0 ord0)); move=> h1 h0.
have i2 : (i == ord0) || (i == lift ord0 ord0) by case: i {xi} => [[|[|]]].
have := xi; case/orP: i2 => /eqP -> /h' e; first by rewrite ltr_paddr // mulr_ge0 // ltW.
by rewrite ltr_paddl // mulr_gt0.
Qed.
Lemma real_correct (s : R) : 0 < s -> correct (rplane s) (real_tests true).
Proof.
move=> s0; split=> //=; [by move=> _; exact: rplane_pd| |exact: sqrt_ge0|exact: sqrt_sq].
by move=> e; rewrite big_seq1 mul1r expr1.
Qed.
Definition rx : mv R_realFieldType := Mv [:: (1, mk_blade [:: 0%N])] true.
Definition rxy : mv R_realFieldType := Mv [:: (1, mk_blade [:: 0%N; 1%N]); (1, mk_blade [:: 1%N])] true.
(* the hypotheses of the theorems of Props_Norm.v hold in the plane with metric
   diag(1, s), for e0 and e0^e1 + e1 *)
Theorem C22_case (s : R) : 0 < s ->
  [/\ wf_ga (rplane s), forall i j, (i < 2)%N -> (j < 2)%N -> gij (rplane s) i j = gij (rplane s) j i,
    positive_definite (rplane s), correct (rplane s) (real_tests true) &
    [&& mv_valid (rplane s) rx, mv_valid (rplane s) rxy, blade_form (rplane s) rx & blade_form (rplane s) rxy]].
Proof.
move=> s0; split=> //; [by case=> [|[|]] // [|[|]]|exact: rplane_pd|exact: real_correct|].
by rewrite /mv_valid /= oner_eq0.
Qed.
(* the documentation of square_root_of_expr promises the absolute value, but the
   root of x**2 is x: at x = -1 the result is negative *)
Definition square_tests (b : bool) : sign_tests R_realFieldType :=
  SignTests (R := R_realFieldType) (fun _ => false) (fun _ => false) (fun _ => false) b
    (fun e => if e == 1 then (1, [:: (-1, 2%N)]) else (1, [:: (e, 1%N)])) sqrt.
(* finding: square_root_of_expr takes x as the root of x**2, which is negative at x = -1; norm() repairs this *)
Theorem C22_root_sign_refuted : exists (a : ga R_realFieldType) t e r,
  [/\ correct a t, square_root_of_expr t e "0" = Some r & r < 0].
Proof.
exists (rplane 1), (square_tests false), 1, (-1); split; [|by rewrite /square_root_of_expr /= eqxx /root_coef eqxx /= mul1r expr1|by rewrite ltr_oppl oppr0 ltr01].
split=> //=; [|exact: sqrt_ge0|exact: sqrt_sq].
by move=> e; case: (e =P 1) => [->|_] /=; rewrite big_seq1 mul1r /= ?expr1 // sqrrN expr1n.
Qed.
Print Assumptions C22_case.
Print Assumptions C22_root_sign_refuted.
