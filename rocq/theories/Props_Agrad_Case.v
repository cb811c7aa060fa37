(* Props_Agrad_Case.v -- a case that meets the hypotheses of the theorems of
   Props_Agrad.v *)
From mathcomp Require Import all_ssreflect all_algebra.
From Verif Require Import NatTac AlgTactics Exterior Clifford Blades Spec_Grade Grades GradeLaws ContrLaws Det Outer BladeLaws RecipBlades Nabla.
From Verif Require Import Spec_Index PyBase Ga_Model Ga_Proof_Tables Ga_Proof_Sort Ga_Proof_Sem Ga_Proof_Reduce.
From Verif Require Import Ga_Sem Ga_Proof_Rep Ga_Proof_Conv Ga_Proof_Mul Spec_Clifford Clifford_Unique Spec_Mv Ga_Proof_Den Ga_Proof_Wedge Ga_Proof_Inner.
From Verif Require Import Ga_Proof_Grade Mv_Model Mv_Proof Mv_Expr Mv_Proof_Expr Props_Mv Dual_Model Dual_Proof Props_Dual Spec_Diff Coef_Proof Diff_Model Dop_Model.
From Verif Require Import Agrad_Model Agrad_Proof Spec_Agrad Props_Agrad.
Set Implicit Arguments.
Unset Strict Implicit.
Unset Printing Implicit Defensive.
Import GRing.Theory.
Local Open Scope ring_scope.
Open Scope py_scope.

(* a case: the symbols x and y are the variables of Q[x][y], the basis is not
   orthogonal, and the derivative is by the vector x e_1 + y e_2 *)
Section Case.
Definition QXY : comUnitRingType := [comUnitRingType of {poly {poly rat}}].
Definition xy (k : nat) : QXY := if k == 0%N then 'X%:P else 'X.
Definition dxy (k : nat) (p : {poly {poly rat}}) : {poly {poly rat}} :=
  if k == 0%N then map_poly (@deriv _) p else if k == 1%N then p^`() else 0.
Definition sxy : symbols QXY :=
  Symbols (fun c : QXY => if c == xy 0 then Some 0%N else if c == xy 1 then Some 1%N else None) dxy.
Definition axy : ga QXY := Ga 2 [:: [:: 2%:R; 1]; [:: 1; 2%:R]].
Definition Axy : mv QXY := Mv [:: (xy 0, mk_blade [:: 0%N]); (xy 1, mk_blade [:: 1%N])] true.
Lemma unit_poly (F : idomainType) (c : F) : c \is a GRing.unit -> (c%:P : {poly F}) \is a GRing.unit.
Proof.
move=> u; have c0 : c != 0 by apply: contraTneq u => ->; rewrite unitr0.
by rewrite poly_unitE size_polyC c0 coefC eqxx u.
Qed.
Lemma unitxy (k : nat) : (0 < k)%N -> (k%:R : QXY) \is a GRing.unit.
Proof.
move=> k0; have -> : (k%:R : QXY) = (k%:R)%:P%:P by rewrite !polyCMn.
do 2!apply: unit_poly; by rewrite unitfE Num.Theory.pnatr_eq0 -lt0n.
Qed.
Lemma derxy k : derivation (dxy k : QXY -> QXY).
Proof.
rewrite /dxy; case: eqP => _; last case: eqP => _; split=> p q.
- by apply/polyP => i; rewrite !(coefD, coef_map_id0) ?raddf0 // raddfD.
- apply/polyP => i; rewrite coef_map_id0 ?raddf0 // coefD !coefM raddf_sum -big_split; apply: eq_bigr => j _ /=.
  by rewrite derivM !coef_map_id0 ?raddf0.
- by rewrite derivD.
- by rewrite derivM.
- by rewrite addr0.
- by rewrite mul0r mulr0 addr0.
Qed.
Lemma wfI2 I : wfI 2 I -> I \in [:: [::]; [:: 0%N]; [:: 1%N]; [:: 0%N; 1%N]].
Proof.
case/andP; case: I => [|i [|j [|k I]]] //=; rewrite ?andbT.
- by move=> _; case: i => [|[|]].
- by move=> + /andP[]; case: i => [|[|]] // ; case: j => [|[|]].
by case/and3P=> ij jk _ /and4P[_ _ kl _]; move: (leq_ltn_trans (leq_ltn_trans (leq0n i) ij : (1 <= j)%N) jk); case: k kl jk => [|[|]].
Qed.
(* the hypothesis of C60_grad_product and C60_grad_self *)
Example C60_ex_fact (k : nat) : (k`!%:R : QXY) \is a GRing.unit.
Proof. exact: unitxy (fact_gt0 k). Qed.
Example C60_ex : [/\ wf_ga axy, \det (metric_mx axy) \is a GRing.unit, independent sxy axy 2 xy &
  [/\ labels axy 2 [:: 1%N] (head 0%N), mv_valid axy Axy, blade_form axy Axy & generic axy xy [:: 1%N] (head 0%N) Axy]].
Proof.
have xn : xy 1 != xy 0.
  by apply/eqP => /(congr1 (fun p : {poly {poly rat}} => size p)); rewrite /xy /= size_polyX size_polyC polyX_eq0.
split=> //.
- have -> : \det (metric_mx axy) = 3%:R; last exact: unitxy.
  rewrite (expand_det_row _ ord0) !big_ord_recl big_ord0 /cofactor !det_mx11 !mxE /geff /gij /=.
  by rewrite /bump /= expr0 expr1 !mul1r mulr1 addr0 -natrM (natrD _ 3 1) addrK.
- split=> [k|[|[|//]] [|[|//]] _ _|[|[|//]] _|k i j].
  + exact: derxy.
  + by rewrite /= /dxy /xy /= map_polyC /= derivX.
  + by rewrite /= /dxy /xy /=; apply/polyP => i; rewrite coef_map_id0 ?raddf0 // coefX coef0; case: eqP => _; rewrite ?raddf0 // -[1]/(1%:P) derivC.
  + by rewrite /= /dxy /xy /= derivC.
  + by rewrite /= /dxy /xy /= derivX.
  + by rewrite /= eqxx.
  + by rewrite /= eqxx (negbTE xn).
  + have d0 c : dxy k (c%:R : QXY) = 0.
      rewrite /dxy; case: eqP => _; last case: eqP => _ //; last first.
        have -> : (c%:R : QXY) = (c%:R)%:P by rewrite polyCMn.
        by rewrite derivC.
      have -> : (c%:R : QXY) = (c%:R)%:P%:P by rewrite !polyCMn.
      by rewrite map_polyC /= derivC polyC0.
    have -> : gij axy i j = (if (i < 2)%N && (j < 2)%N then if i == j then 2%:R else 1%:R else 0%:R) by case: i j => [|[|i]] [|[|j]]; rewrite /gij /= ?nth_nil //= ?nth_nil.
    by case: ifP => _; [case: ifP|].
- split=> //.
  + split=> [I /wfI2|I J /wfI2 + /wfI2].
      by rewrite !inE => /or4P[] /eqP->.
    by rewrite !inE => /or4P[] /eqP-> /or4P[] /eqP->.
  + by rewrite mv_validE /mv_ok /canonical /= /xy /= polyC_eq0 !polyX_eq0.
  + move=> I /wfI2; rewrite !inE => /or4P[] /eqP->; rewrite /coefficient /= unlock /= ?addr0 //.
Qed.
End Case.
