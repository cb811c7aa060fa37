(* Calculus.v -- exterior derivative and divergence of a metric compatible derivative
   without torsion; derivative of a determinant. *)
From mathcomp Require Import all_ssreflect all_algebra.
From mathcomp Require Import fingroup perm.
From Verif Require Import AlgTactics Exterior Clifford Spec_Grade Grades GradeLaws Det ExtDeriv Spec_Diff Nabla.
Set Implicit Arguments.
Unset Strict Implicit.
Unset Printing Implicit Defensive.
Import GRing.Theory.
Local Open Scope ring_scope.

(* ---- the derivative of a determinant (Jacobi) ---- *)
Section Jacobi.
Variables (R : comUnitRingType) (n : nat) (d : R -> R) (der : derivation d).
Implicit Types A : 'M[R]_n.
Definition drow A (k : 'I_n) : 'M[R]_n := \matrix_(i, j) (if i == k then d (A i j) else A i j).
Lemma d_sum (J : Type) (s : seq J) (P : pred J) (F : J -> R) : d (\sum_(i <- s | P i) F i) = \sum_(i <- s | P i) d (F i).
Proof. by apply: (big_morph d) => [x y|]; [exact: (drvD der) | exact: (drv0 der)]. Qed.
Lemma d_sign (b : nat) : d ((-1) ^+ b) = 0.
Proof. by elim: b => [|b IH]; rewrite ?expr0 ?(drv1 der) // exprS (drvM der) IH mulr0 addr0 (drvN der) (drv1 der) oppr0 mul0r. Qed.
Lemma d_prod (s : seq 'I_n) (F : 'I_n -> R) : uniq s ->
  d (\prod_(i <- s) F i) = \sum_(k <- s) \prod_(i <- s) (if i == k then d (F i) else F i).
Proof.
elim: s => [|i s IH] /=; first by rewrite !big_nil (drv1 der).
case/andP=> ni us; rewrite !big_cons (drvM der) IH // eqxx; congr (_ + _).
  by congr (_ * _); rewrite !big_seq; apply: eq_bigr => j js; rewrite ifN //; apply: contraNneq ni => <-.
rewrite mulr_sumr !big_seq; apply: eq_bigr => k ks; rewrite big_cons ifN //.
by apply: contraNneq ni => ->.
Qed.
Lemma d_det_rows A : d (\det A) = \sum_k \det (drow A k).
Proof.
rewrite /determinant d_sum exchange_big /=; apply: eq_bigr => s _; rewrite (drvM der) d_sign mul0r add0r -mulr_sumr.
congr (_ * _).
rewrite -big_enum /= d_prod ?enum_uniq //= big_enum /=; apply: eq_bigr => k _; rewrite big_enum /=.
by apply: eq_bigr => i _; rewrite mxE.
Qed.
Lemma d_det A : \det A \is a GRing.unit ->
  d (\det A) = \det A * \sum_i \sum_j invmx A i j * d (A j i).
Proof.
move=> u; rewrite d_det_rows [in RHS]exchange_big mulr_sumr; apply: eq_bigr => k _ /=.
rewrite (expand_det_row _ k) mulr_sumr; apply: eq_bigr => j _; rewrite mxE eqxx.
have -> : cofactor (drow A k) k j = cofactor A k j.
  rewrite /cofactor; congr (_ * \det _); apply/matrixP=> p q; rewrite !mxE ifN //.
  by rewrite eq_sym neq_lift.
by rewrite /invmx unitmxE u !mxE !mulrA mulrV // mul1r [X in _ = X]mulrC mulrA.
Qed.
End Jacobi.

Section Calc.
Variables (R : comUnitRingType) (n : nat) (two : (2%:R : R) \is a GRing.unit) (g : cmetric R n).
Notation M := (mval R n).
Notation gf := (gform g).
Variables (D : 'I_n -> R -> R) (nab : 'I_n -> M -> M) (E r : 'I_n -> M).
Hypothesis der : forall i, derivation (D i).
Hypothesis comm : forall i j f, D i (D j f) = D j (D i f).
Hypothesis nabD : forall i x y, nab i (x + y) = nab i x + nab i y.
Hypothesis nabZ : forall i c x, nab i (c *: x) = D i c *: x + c *: nab i x.
Hypothesis nab1 : forall i, nab i (bl R set0) = 0.
Hypothesis nab_ext : forall i x y, nab i (ext x y) = ext (nab i x) y + ext x (nab i y).
Hypothesis nab_homog : forall i k x, homog k x -> homog k (nab i x).
Hypothesis compat : forall i x y, homog 1 x -> homog 1 y -> D i (gf x y) = gf (nab i x) y + gf x (nab i y).
Hypothesis gsym : forall x y, gf x y = gf y x.
Hypothesis hE : forall i, homog 1 (E i).
Hypothesis hr : forall i, homog 1 (r i).
Hypothesis dual : forall i j, gf (E j) (r i) = (i == j)%:R.
Hypothesis torsion : forall i j, nab i (E j) = nab j (E i).
Hypothesis nondeg : forall x, homog 1 x -> (forall j, gf (E j) x = 0) -> x = 0.

Lemma gfDr x y z : gf x (y + z) = gf x y + gf x z.
Proof. by rewrite /gform -big_split; apply: eq_bigr => i _; rewrite -big_split; apply: eq_bigr => j _; rewrite ffunE mulrDr mulrDl. Qed.
Lemma gfZr c x y : gf x (c *: y) = c * gf x y.
Proof. by rewrite /gform mulr_sumr; apply: eq_bigr => i _; rewrite mulr_sumr; apply: eq_bigr => j _; rewrite ffunE mulrCA -!mulrA. Qed.
Lemma gf0r x : gf x 0 = 0. Proof. by rewrite -[0 in LHS](scale0r 0) gfZr mul0r. Qed.
Lemma gf_sumr (J : Type) (s : seq J) (P : pred J) (F : J -> M) x : gf x (\sum_(i <- s | P i) F i) = \sum_(i <- s | P i) gf x (F i).
Proof. by apply: (big_morph (gf x)) => [y z|]; [exact: gfDr | exact: gf0r]. Qed.
Lemma gfZl c x y : gf (c *: x) y = c * gf x y. Proof. by rewrite gsym gfZr gsym. Qed.
Lemma gf_suml (J : Type) (s : seq J) (P : pred J) (F : J -> M) x : gf (\sum_(i <- s | P i) F i) x = \sum_(i <- s | P i) gf (F i) x.
Proof. by rewrite gsym gf_sumr; apply: eq_bigr => i _; rewrite gsym. Qed.
Lemma nab0 i : nab i 0 = 0. Proof. by rewrite -[0 in LHS](scale0r 0) nabZ (drv0 (der i)) !scale0r addr0. Qed.
Lemma nab_sum i (J : Type) (s : seq J) (P : pred J) (F : J -> M) : nab i (\sum_(j <- s | P j) F j) = \sum_(j <- s | P j) nab i (F j).
Proof. by apply: (big_morph (nab i)) => [y z|]; [exact: nabD | exact: nab0]. Qed.

(* the two expansions of a vector *)
Lemma expand_r x : homog 1 x -> x = \sum_i gf (E i) x *: r i.
Proof.
move=> hx; apply/eqP; rewrite -subr_eq0 -scaleN1r; apply/eqP; apply: nondeg.
  by apply: homogD => //; apply: homogZ; apply: homog_big => i _; exact: homogZ.
move=> j; rewrite gfDr gfZr gf_sumr (bigD1 j) //= big1 => [|i ij]; last by rewrite gfZr dual (negbTE ij) mulr0.
by rewrite gfZr dual eqxx mulr1 addr0 mulN1r subrr.
Qed.
Definition H i j : R := gf (r i) (r j).
Definition G i j : R := gf (E i) (E j).
Lemma GH i k : \sum_j G i j * H j k = (i == k)%:R.
Proof.
rewrite eq_sym -(dual k i) [in RHS](expand_r (hE i)) gf_suml; apply: eq_bigr => j _.
by rewrite gfZl /G gsym.
Qed.
Lemma HG i k : \sum_j H i j * G j k = (i == k)%:R.
Proof.
have := @mulmx1C R n (\matrix_(i, j) G i j) (\matrix_(i, j) H i j).
have -> : (\matrix_(i, j) G i j) *m (\matrix_(i, j) H i j) = 1%:M.
  by apply/matrixP=> p q; rewrite !mxE -GH; apply: eq_bigr => j _; rewrite !mxE.
move=> /(_ erefl) /matrixP/(_ i k); rewrite !mxE => <-; by apply: eq_bigr => j _; rewrite !mxE.
Qed.
Lemma r_expand i : r i = \sum_l H i l *: E l.
Proof.
transitivity (\sum_l H i l *: \sum_k G l k *: r k); last first.
  by apply: eq_bigr => l _; congr (_ *: _); rewrite {1}(expand_r (hE l)); apply: eq_bigr => k _; rewrite /G gsym.
transitivity (\sum_k (\sum_l H i l * G l k) *: r k).
  under eq_bigr => k _ do rewrite HG.
  rewrite (bigD1 i) //= big1 => [|k ki]; last by rewrite eq_sym (negbTE ki) scale0r.
  by rewrite eqxx scale1r addr0.
under eq_bigr => k _ do rewrite scaler_suml; rewrite exchange_big; apply: eq_bigr => l _ /=.
by rewrite scaler_sumr; apply: eq_bigr => k _; rewrite scalerA.
Qed.
Lemma expand_E x : homog 1 x -> x = \sum_i gf (r i) x *: E i.
Proof.
move=> hx; rewrite {1}(expand_r hx).
under eq_bigr => i _ do rewrite r_expand scaler_sumr.
rewrite exchange_big; apply: eq_bigr => l _ /=.
under eq_bigr => i _ do rewrite scalerA.
rewrite -scaler_suml; congr (_ *: _); rewrite r_expand gf_suml; apply: eq_bigr => i _.
by rewrite gfZl mulrC /H gsym.
Qed.

(* ---- the exterior derivative ---- *)
Let EDl := @extDl R n two. Let EDr := @extDr R n two.
Let EZl := @extZl R n two. Let EZr := @extZr R n two.
Definition ed (x : M) : M := \sum_i ext (r i) (nab i x).
Lemma edD x y : ed (x + y) = ed x + ed y.
Proof. by rewrite /ed -big_split; apply: eq_bigr => i _; rewrite nabD EDr. Qed.
Lemma ed0 : ed 0 = 0.
Proof. by rewrite /ed big1 // => i _; rewrite nab0 (ext0r two). Qed.
Lemma edN x : ed (- x) = - ed x.
Proof. by apply/eqP; rewrite -addr_eq0 -edD addNr ed0. Qed.
Lemma ed_sum (J : Type) (s : seq J) (P : pred J) (F : J -> M) : ed (\sum_(j <- s | P j) F j) = \sum_(j <- s | P j) ed (F j).
Proof. by apply: (big_morph ed) => [y z|]; [exact: edD | exact: ed0]. Qed.
Lemma edS k x : ed ((-1) ^+ k *: x) = (-1) ^+ k *: ed x.
Proof. by rewrite -signr_odd; case: (odd k); rewrite ?expr1 ?expr0 ?scale1r // !scaleN1r edN. Qed.
Lemma edZ c x : ed (c *: x) = ext (\sum_i D i c *: r i) x + c *: ed x.
Proof.
rewrite (ext_suml two) scaler_sumr -big_split; apply: eq_bigr => i _.
by rewrite nabZ EDr !EZr EZl.
Qed.
Lemma ed_fun f : ed (f *: bl R set0) = \sum_i D i f *: r i.
Proof. by rewrite edZ (ext1r two) /ed [X in _ + _ *: X]big1 ?scaler0 ?addr0 // => i _; rewrite nab1 (ext0r two). Qed.
Lemma antisym0 (c : 'I_n -> 'I_n -> R) : (forall i j, c i j = c j i) -> \sum_i \sum_j c i j *: ext (r i) (r j) = 0.
Proof.
move=> cs; set S := \sum_i _.
have e : S = - S.
  rewrite {1}/S exchange_big /S -sumrN; apply: eq_bigr => i _; rewrite -sumrN; apply: eq_bigr => j _.
  by rewrite cs (ext_swap (hr j) (hr i)) expr1 scaleN1r scalerN.
have : (2%:R : R) *: S = 0 by rewrite scaler_nat mulr2n {1}e addNr.
by move=> /(congr1 ( *:%R (2%:R)^-1)); rewrite scalerA mulVr // scale1r scaler0.
Qed.
Lemma nab_r i j : nab i (r j) = - \sum_l gf (nab i (E l)) (r j) *: r l.
Proof.
rewrite (expand_r (nab_homog i (hr j))) -sumrN; apply: eq_bigr => l _; rewrite -scaleNr; congr (_ *: _).
apply/eqP; rewrite -addr_eq0 addrC -compat // dual.
by case: (j == l); rewrite ?(drv1 (der i)) ?(drv0 (der i)).
Qed.
Lemma ed_r j : ed (r j) = 0.
Proof.
rewrite /ed (eq_bigr (fun i => - \sum_l gf (nab i (E l)) (r j) *: ext (r i) (r l))) => [|i _]; last first.
  by rewrite nab_r (extNr two) (ext_sumr two); congr (- _); apply: eq_bigr => l _; rewrite EZr.
by rewrite sumrN antisym0 ?oppr0 // => i l; rewrite torsion.
Qed.
Lemma ed_homog k x : homog k x -> homog k.+1 (ed x).
Proof. by move=> hx; apply: homog_big => i _; apply: (homog_ext two (hr i)); exact: nab_homog. Qed.
Lemma ed_ext k x y : homog k x -> ed (ext x y) = ext (ed x) y + (-1) ^+ k *: ext x (ed y).
Proof.
move=> hx; rewrite /ed (ext_suml two) (ext_sumr two) scaler_sumr -big_split; apply: eq_bigr => i _ /=.
by rewrite nab_ext EDr !(extA two) (ext_swap (hr i) hx) mul1n EZl.
Qed.
Definition closed x := ed (ed x) = 0.
Lemma closed_ext k x y : homog k x -> closed x -> closed y -> closed (ext x y).
Proof.
rewrite /closed => hx cx cy; rewrite (ed_ext _ hx) edD edS (ed_ext _ hx) (ed_ext _ (ed_homog hx)) cx cy.
by rewrite (ext0l two) (ext0r two) scaler0 add0r addr0 exprS mulN1r scaleNr addNr.
Qed.
Lemma closed_fun f : closed (f *: bl R set0).
Proof.
rewrite /closed ed_fun ed_sum.
under eq_bigr => i _ do rewrite edZ ed_r scaler0 addr0 (ext_suml two).
rewrite exchange_big /=.
under eq_bigr => i _ do under eq_bigr => j _ do rewrite EZl.
by apply: antisym0 => i j; exact: comm.
Qed.
Lemma closedZ c x : closed x -> closed (c *: x).
Proof.
move=> cx; rewrite -[x](ext1l two) -EZl.
by apply: (@closed_ext 0%N) => //; [apply: homogZ; have := @homog_bl R n set0; rewrite cards0 | exact: closed_fun].
Qed.
Lemma closed_sum (J : Type) (s : seq J) (P : pred J) (F : J -> M) : (forall j, P j -> closed (F j)) -> closed (\sum_(j <- s | P j) F j).
Proof. by move=> h; rewrite /closed ed_sum ed_sum big1. Qed.
Lemma closed_bl S : closed (bl R S).
Proof.
have [m] := ubnP #|S|; elim: m S => // m IH S; rewrite ltnS => hS.
case: (set_0Vmem S) => [->|[i iS]]; first by rewrite -[bl _ _]scale1r; exact: closed_fun.
have e : (-1) ^+ nlt i (S :\ i) *: wedge_op i (bl R (S :\ i)) = bl R S.
  by rewrite wedge_op_bl /Wb !inE eqxx /= signrZK setD1K.
have lt : (#|S :\ i| < m)%N by move: hS; rewrite (cardsD1 i S) iS.
have hi : homog 1 (bl R [set i]) by have := @homog_bl R n [set i]; rewrite cards1.
rewrite -e; apply: closedZ; rewrite (wedge_opE two); apply: (closed_ext hi _ (IH _ lt)).
by rewrite (expand_r hi); apply: closed_sum => j _; apply: closedZ; rewrite /closed ed_r ed0.
Qed.
Theorem ed_ed x : ed (ed x) = 0.
Proof. by rewrite [x]mval_decomp; apply: closed_sum => S _; apply: closedZ; exact: closed_bl. Qed.
(* with the derivatives on the left *)
Definition edr (x : M) : M := \sum_i ext (nab i x) (r i).
Lemma edrD x y : edr (x + y) = edr x + edr y.
Proof. by rewrite /edr -big_split; apply: eq_bigr => i _; rewrite nabD EDl. Qed.
Lemma edr0 : edr 0 = 0.
Proof. by rewrite /edr big1 // => i _; rewrite nab0 (ext0l two). Qed.
Lemma edr_sum (J : Type) (s : seq J) (P : pred J) (F : J -> M) : edr (\sum_(j <- s | P j) F j) = \sum_(j <- s | P j) edr (F j).
Proof. by apply: (big_morph edr) => [y z|]; [exact: edrD | exact: edr0]. Qed.
Lemma edr_homog k x : homog k x -> edr x = (-1) ^+ k *: ed x.
Proof.
move=> hx; rewrite /edr /ed scaler_sumr; apply: eq_bigr => i _.
by rewrite (ext_swap (nab_homog i hx) (hr i)) muln1.
Qed.
Theorem edr_edr x : edr (edr x) = 0.
Proof.
have e : edr x = \sum_(S : {set 'I_n}) edr (x S *: bl R S) by rewrite {1}[x]mval_decomp edr_sum.
rewrite e edr_sum big1 // => S _; have h := homogZ (x S) (@homog_bl R n S).
by rewrite (edr_homog h) (edr_homog (homogZ _ (ed_homog h))) edS ed_ed !scaler0.
Qed.

(* ---- the divergence ---- *)
Definition theta j : R := \sum_i gf (r i) (nab j (E i)).
Lemma div_E V : homog 1 V ->
  \sum_i gf (r i) (nab i V) = \sum_i (D i (gf (r i) V) + gf (r i) V * theta i).
Proof.
move=> hV; rewrite big_split /=.
transitivity (\sum_i \sum_j (D i (gf (r j) V) * gf (r i) (E j) + gf (r j) V * gf (r i) (nab i (E j)))).
  apply: eq_bigr => i _; rewrite {1}(expand_E hV) nab_sum gf_sumr; apply: eq_bigr => j _.
  by rewrite nabZ gfDr !gfZr.
under eq_bigr => i _ do rewrite big_split /=; rewrite big_split /=; congr (_ + _).
  apply: eq_bigr => i _; rewrite (bigD1 i) //= big1 => [|j ji]; first by rewrite (gsym (r i) (E _)) dual eqxx mulr1 addr0.
  by rewrite (gsym (r i) (E _)) dual eq_sym (negbTE ji) mulr0.
rewrite exchange_big; apply: eq_bigr => j _ /=; rewrite /theta mulr_sumr; apply: eq_bigr => i _.
by rewrite torsion.
Qed.
Lemma theta_G j : theta j *+ 2 = \sum_i \sum_l H i l * D j (G l i).
Proof.
transitivity (\sum_i \sum_l (H i l * gf (nab j (E l)) (E i) + H i l * gf (E l) (nab j (E i)))); last first.
  by apply: eq_bigr => i _; apply: eq_bigr => l _; rewrite /G compat // mulrDr.
under eq_bigr => i _ do rewrite big_split /=; rewrite big_split /= mulr2n; congr (_ + _); last first.
  by apply: eq_bigr => i _; rewrite [r i]r_expand gf_suml; apply: eq_bigr => l _; rewrite gfZl.
rewrite exchange_big; apply: eq_bigr => l _ /=; rewrite gsym [r l]r_expand gf_sumr; apply: eq_bigr => i _.
by rewrite gfZr /H gsym.
Qed.
(* in terms of the determinant of the Gram matrix *)
Notation Gm := (\matrix_(i, j) G i j).
Lemma Gm_inv : invmx Gm = \matrix_(i, j) H i j.
Proof.
have e : (\matrix_(i, j) H i j) *m Gm = 1%:M.
  by apply/matrixP=> p q; rewrite !mxE -HG; apply: eq_bigr => j _; rewrite !mxE.
have u : Gm \in unitmx by have /mulmx1_unit[] := e.
by rewrite -[RHS]mulmx1 -(mulmxV u) mulmxA e mul1mx.
Qed.
Lemma Gm_unit : \det Gm \is a GRing.unit.
Proof.
have e : (\matrix_(i, j) H i j) *m Gm = 1%:M.
  by apply/matrixP=> p q; rewrite !mxE -HG; apply: eq_bigr => j _; rewrite !mxE.
by have /mulmx1_unit[_] := e; rewrite unitmxE.
Qed.
Lemma theta_det j : theta j = D j (\det Gm) / (2%:R * \det Gm).
Proof.
have ud := Gm_unit; rewrite (d_det (der j)) // Gm_inv.
have -> : \sum_i \sum_k (\matrix_(i, j) H i j) i k * D j (Gm k i) = theta j *+ 2.
  by rewrite theta_G; apply: eq_bigr => i _; apply: eq_bigr => k _; rewrite !mxE.
by rewrite -[theta j *+ 2]mulr_natl mulrA [_ * 2%:R]mulrC mulrAC divrr ?mul1r // unitrM two.
Qed.
Theorem div_det V : homog 1 V ->
  \sum_i gf (r i) (nab i V) = \sum_i (D i (gf (r i) V) + gf (r i) V * (D i (\det Gm) / (2%:R * \det Gm))).
Proof. by move=> hV; rewrite div_E //; apply: eq_bigr => i _; rewrite theta_det. Qed.
(* the gradient of a function *)
Lemma grad_fun f i : gf (r i) (\sum_j D j f *: r j) = \sum_j H i j * D j f.
Proof. by rewrite gf_sumr; apply: eq_bigr => j _; rewrite gfZr mulrC. Qed.
End Calc.
