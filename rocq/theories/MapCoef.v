(* MapCoef.v -- a ring endomorphism of the scalars that fixes the metric, applied
   to the coefficients of multivectors, commutes with all products *)
From mathcomp Require Import all_ssreflect all_algebra.
From Verif Require Import AlgTactics Exterior Clifford Spec_Grade Grades.
Set Implicit Arguments.
Unset Strict Implicit.
Unset Printing Implicit Defensive.
Import GRing.Theory.
Local Open Scope ring_scope.

Section Map.
Variables (R : comUnitRingType) (n : nat) (f : {rmorphism R -> R}).
Notation M := (mval R n).
Implicit Types (x y : M) (S T : {set 'I_n}) (i j k : 'I_n).
Definition mapc x : M := [ffun S : {set 'I_n} => f (x S)].
Lemma mapcD x y : mapc (x + y) = mapc x + mapc y.
Proof. by apply/ffunP=> S; rewrite !ffunE rmorphD. Qed.
Lemma mapcN x : mapc (- x) = - mapc x.
Proof. by apply/ffunP=> S; rewrite !ffunE rmorphN. Qed.
Lemma mapc0 : mapc 0 = 0.
Proof. by apply/ffunP=> S; rewrite !ffunE rmorph0. Qed.
Lemma mapcZ (c : R) x : mapc (c *: x) = f c *: mapc x.
Proof. by apply/ffunP=> S; rewrite !(ffunE, scale_coef) rmorphM. Qed.
Lemma mapc_sum (I : Type) (r : seq I) (P : pred I) (F : I -> M) :
  mapc (\sum_(i <- r | P i) F i) = \sum_(i <- r | P i) mapc (F i).
Proof. by elim/big_rec2: _ => [|i x y _ <-]; [exact: mapc0 | exact: mapcD]. Qed.
Lemma mapc_bl S : mapc (bl R S) = bl R S.
Proof. by apply/ffunP=> T; rewrite !ffunE rmorph_nat. Qed.
Lemma mapc_sgn m S : mapc ((-1) ^+ m *: bl R S) = (-1) ^+ m *: bl R S.
Proof. by rewrite mapcZ mapc_bl rmorph_sign. Qed.
(* operators whose values on the basis blades are fixed *)
Lemma mapc_lin (h : M -> M) : linear h -> (forall S, mapc (h (bl R S)) = h (bl R S)) -> forall x, mapc (h x) = h (mapc x).
Proof.
move=> hl h0 x; pose hL := Linear hl; rewrite -[h]/(hL : M -> M).
rewrite {1}[x]mval_decomp linear_sum mapc_sum [mapc x]mval_decomp linear_sum; apply: eq_bigr => S _.
by rewrite !linearZ /= mapcZ h0 ffunE.
Qed.
Lemma mapc_contr i x : mapc (contr_op i x) = contr_op i (mapc x).
Proof.
apply: mapc_lin => [|S]; first exact: contr_op_is_linear.
by rewrite contr_op_bl /Cb; case: ifP => _; [exact: mapc_sgn | exact: mapc0].
Qed.
Lemma mapc_wedge i x : mapc (wedge_op i x) = wedge_op i (mapc x).
Proof.
apply: mapc_lin => [|S]; first exact: wedge_op_is_linear.
by rewrite wedge_op_bl /Wb; case: ifP => _; [exact: mapc0 | exact: mapc_sgn].
Qed.
Lemma mapc_ext x y : mapc (ext x y) = ext (mapc x) (mapc y).
Proof.
rewrite /ext mapc_sum; apply: eq_bigr => S _; rewrite mapc_sum; apply: eq_bigr => T _.
rewrite mapcZ rmorphM !ffunE; congr (_ *: _).
by rewrite /extb; case: ifP => _; [exact: mapc_sgn | exact: mapc0].
Qed.
Lemma mapc_gpart r x : mapc (gpart r x) = gpart r (mapc x).
Proof. by apply/ffunP=> S; rewrite !ffunE; case: eqP => // _; rewrite rmorph0. Qed.
Lemma mapc_invol x : mapc (minvol x) = minvol (mapc x).
Proof. by apply/ffunP=> S; rewrite !ffunE rmorphM rmorph_sign. Qed.
Lemma mapc_rev x : mapc (mrev x) = mrev (mapc x).
Proof. by apply/ffunP=> S; rewrite !ffunE rmorphM rmorph_sign. Qed.
Lemma mapc_even x : mapc (meven x) = meven (mapc x).
Proof. by apply/ffunP=> S; rewrite !ffunE; case: ifP; rewrite ?rmorph0. Qed.
Lemma mapc_odd x : mapc (modd x) = modd (mapc x).
Proof. by apply/ffunP=> S; rewrite !ffunE; case: ifP; rewrite ?rmorph0. Qed.

Variable g : cmetric R n.
Hypothesis fg : forall i j, f (g i j) = g i j.
Notation C := (clifford g).
Lemma mapc_gcontr i x : mapc (gcontr g i x) = gcontr g i (mapc x).
Proof. by rewrite !gcontrE mapc_sum; apply: eq_bigr => j _; rewrite mapcZ fg mapc_contr. Qed.
Lemma mapc_lmul i x : mapc (lmul g i x) = lmul g i (mapc x).
Proof. by rewrite /lmul mapcD mapc_wedge mapc_gcontr. Qed.
Lemma mapc_half : f 2%:R^-1 = 2%:R^-1.
Proof. by rewrite rmorphV ?rmorph_nat // (two_unit g). Qed.
Lemma mapc_Op w x : mapc (Op g w x) = Op g w (mapc x).
Proof.
elim: w x => [|i w IH] x //=; rewrite mapcZ mapc_half mapcD mapcZ rmorph_sign mapc_lmul IH.
by rewrite IH mapc_lmul.
Qed.
Lemma mapc_mul (x y : C) : mapc (x * y : C) = (mapc x : C) * (mapc y : C).
Proof.
rewrite -[x * y]/(cmul g x y) -[RHS]/(cmul g _ _) /cmul mapc_sum; apply: eq_bigr => S _.
by rewrite mapcZ mapc_Op ffunE.
Qed.
Lemma mapc_sel h (x y : C) : mapc (selprod (fun u v : C => u * v) h x y) = selprod (fun u v : C => u * v) h (mapc x) (mapc y).
Proof.
rewrite /selprod mapc_sum; apply: eq_bigr => r _; rewrite mapc_sum; apply: eq_bigr => s _.
by case: h => [k|]; rewrite ?mapc0 // mapc_gpart mapc_mul !mapc_gpart.
Qed.
End Map.
