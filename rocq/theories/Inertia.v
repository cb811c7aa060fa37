(* Inertia.v -- Sylvester's law of inertia for diagonalised quadratic forms. *)
From mathcomp Require Import all_ssreflect all_algebra.
Set Implicit Arguments.
Unset Strict Implicit.
Unset Printing Implicit Defensive.
Import Order.TTheory GRing.Theory Num.Theory.
Local Open Scope ring_scope.

Section Inertia.
Variables (R : realFieldType) (n : nat).
Implicit Types (A B : 'rV[R]_n) (S : 'M[R]_n) (x y : 'rV[R]_n).

Lemma qdiag A x : (x *m diag_mx A *m x^T) 0 0 = \sum_i A 0 i * x 0 i ^+ 2.
Proof.
rewrite mxE; apply: eq_bigr => i _; rewrite !mxE (bigD1 i) //= mxE eqxx mulr1n big1 ?addr0.
  by rewrite expr2 mulrA [x 0 i * _]mulrC.
by move=> j /negbTE ne; rewrite mxE ne mulr0n mulr0.
Qed.
Lemma inertia_le A B S : S \in unitmx -> S^T *m diag_mx A *m S = diag_mx B ->
  (#|[set i | (0 < A 0 i)%R]| <= #|[set i | (0 < B 0 i)%R]|)%N.
Proof.
move=> Su e; rewrite leqNgt; apply/negP=> lt.
set PA := [set i | 0 < A 0 i] in lt *; set PB := [set i | 0 < B 0 i] in lt *.
pose T : 'M[R]_n := invmx S^T.
pose M1 : 'M[R]_(n, #|~: PA|) := \matrix_(i, j) (i == enum_val j)%:R.
pose M2 : 'M[R]_(n, #|PB|) := \matrix_(i, j) T i (enum_val j).
have /rowV0Pn[x /sub_kermxP] : kermx (row_mx M1 M2) != 0.
  rewrite -mxrank_eq0 mxrank_ker subn_eq0 -ltnNge.
  apply: leq_ltn_trans (rank_leq_col _) _.
  by rewrite -[X in (_ < X)%N](card_ord n) -(cardsC PA) addnC ltn_add2r.
rewrite mul_mx_row => e0 x0.
have [k1 k2] : x *m M1 = 0 /\ x *m M2 = 0 by apply: eq_row_mx; rewrite e0 row_mx0.
have zA i : i \notin PA -> x 0 i = 0.
  move=> ni; have ic : i \in ~: PA by rewrite inE.
  move/matrixP/(_ 0 (enum_rank_in ic i)): k1; rewrite !mxE (bigD1 i) //= big1 ?addr0 => [|j ne].
    by rewrite !mxE enum_rankK_in // eqxx mulr1.
  by rewrite !mxE enum_rankK_in // (negbTE ne) mulr0.
pose y := x *m T.
have yS : x = y *m S^T by rewrite /y -mulmxA mulVmx ?unitmx_tr // mulmx1.
have zB i : i \in PB -> y 0 i = 0.
  move=> ic; move/matrixP/(_ 0 (enum_rank_in ic i)): k2; rewrite !mxE => e2.
  by rewrite -[RHS]e2; apply: eq_bigr => j _; rewrite [M2 _ _]mxE enum_rankK_in.
have qA : (x *m diag_mx A *m x^T) 0 0 = (y *m diag_mx B *m y^T) 0 0.
  by rewrite -e yS trmx_mul trmxK !mulmxA.
have le0 : (y *m diag_mx B *m y^T) 0 0 <= 0.
  rewrite qdiag -oppr_ge0 -sumrN; apply: sumr_ge0 => i _; case: (boolP (i \in PB)) => ic.
    by rewrite zB // expr0n mulr0 oppr0.
  by rewrite oppr_ge0; apply: mulr_le0_ge0; rewrite ?sqr_ge0 // real_leNgt ?num_real //; move: ic; rewrite inE.
have : 0 < (x *m diag_mx A *m x^T) 0 0; last by rewrite qA ltNge le0.
have [i xi] : exists i, x 0 i != 0.
  by apply/rV0Pn.
have iA : i \in PA by apply: contraR xi => ni; rewrite zA.
rewrite qdiag (bigD1 i) //= ltr_paddr //.
  apply: sumr_ge0 => j _; case: (boolP (j \in PA)) => jA; last by rewrite zA // expr0n mulr0.
  by apply: mulr_ge0; rewrite ?sqr_ge0 // ltW //; rewrite inE in jA.
by apply: mulr_gt0; rewrite ?exprn_even_gt0 ?xi //; rewrite inE in iA.
Qed.
Lemma inertia_pos A B S : S \in unitmx -> S^T *m diag_mx A *m S = diag_mx B ->
  #|[set i | 0 < A 0 i]| = #|[set i | 0 < B 0 i]|.
Proof.
move=> Su e; apply/eqP; rewrite eqn_leq (inertia_le Su e) /=.
apply: (@inertia_le _ _ (invmx S)); first by rewrite unitmx_inv.
rewrite -e !mulmxA -trmx_mul mulmxV // trmx1 mul1mx -mulmxA mulmxV // mulmx1 //.
Qed.
Lemma inertia_neg A B S : S \in unitmx -> S^T *m diag_mx A *m S = diag_mx B ->
  #|[set i | A 0 i < 0]| = #|[set i | B 0 i < 0]|.
Proof.
move=> Su e; have nd (C : 'rV[R]_n) : diag_mx (- C) = - diag_mx C.
  by apply/matrixP=> i j; rewrite !mxE mulNrn.
have := @inertia_pos (- A) (- B) S Su; rewrite !nd mulmxN mulNmx e => /(_ erefl).
have sw (C : 'rV[R]_n) : [set i | 0 < (- C) 0 i] = [set i | C 0 i < 0].
  by apply/setP=> i; rewrite !inE mxE oppr_gt0.
by rewrite !sw.
Qed.
End Inertia.
