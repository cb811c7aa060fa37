(* Shirokov.v -- Shirokov's recursion ends in a scalar, in every Clifford algebra over a
   ring that contains the rational numbers. *)
From mathcomp Require Import all_ssreflect all_algebra all_field.
From Verif Require Import NatTac AlgTactics Exterior Clifford Blades Spec_Grade Grades GradeLaws.
From Verif Require Import Transfer FadLev Gamma.
Set Implicit Arguments.
Unset Strict Implicit.
Unset Printing Implicit Defensive.
Import GRing.Theory.
Local Open Scope ring_scope.

(* U_(k+1) of the recursion *)
Section Rec.
Variables (R : comUnitRingType) (n : nat) (g : cmetric R n).
Notation C := (clifford g).
Definition shN : nat := (2 ^ (n.+1)./2)%N.
Definition shc (k : nat) (V : C) : R := shN%:R / k%:R * (V : mval R n) set0.
Fixpoint sh (U : C) (k : nat) : C :=
  if k is k'.+1 then U * (sh U k' - (shc k (sh U k'))%:A) else U.
End Rec.

Section ShNat.
Variables (R S : comUnitRingType) (f : {rmorphism R -> S}) (n : nat).
Variables (g : cmetric R n) (h : cmetric S n).
Hypothesis gh : forall i j, h i j = f (g i j).
Hypothesis qa : rational_ring R.
Lemma mapv_alg (c : R) : mapv f (c%:A : clifford g) = ((f c)%:A : clifford h).
Proof. by rewrite mapvZ (mapv1 f g h). Qed.
Lemma mapv_shc k (V : clifford g) : f (shc k.+1 V) = shc k.+1 (mapv f V : clifford h).
Proof. by rewrite /shc rmorphM rmorphM rmorphV ?qa // !rmorph_nat mapv_coef. Qed.
Lemma mapv_sh (U : clifford g) k : mapv f (sh U k) = sh (mapv f U : clifford h) k.
Proof.
elim: k => //= k IH; rewrite (mapv_mul gh) mapvB (mapv_alg (shc k.+1 (sh U k))) mapv_shc.
by rewrite IH.
Qed.
End ShNat.

(* ---- the scalar product is nondegenerate when the metric is ---- *)
Section Nondeg.
Variables (R : comUnitRingType) (n : nat) (g : cmetric R n).
Notation C := (clifford g).
Notation M := (mval R n).
Hypothesis det : \det (\matrix_(i, j) g i j) \is a GRing.unit.
Definition rad (y : C) : Prop := forall z : C, (y * z : M) set0 = 0.
Lemma rad_ginv (y : C) : rad y -> rad (ginv y : C).
Proof.
move=> ry z; have e : (ginv y : C) * z = ginv (y * (ginv z : C)) by rewrite ginvM ginvK.
rewrite e -minvolE; have := ry (ginv z : C); move: (_ * _ : C) => w w0.
by rewrite ffunE w0 mulr0.
Qed.
Lemma rad_gcontr i (y : C) : rad y -> rad (gcontr g i y : C).
Proof.
move=> ry z; have e : (gcontr g i y : C) = (2%:R)^-1 *: (cgen g i * y - (ginv y : C) * cgen g i).
  rewrite cgen_mul cgen_mulr /lmul /rmul ginvK opprB [X in X + _]addrC addrACA subrr addr0 -mulr2n -scaler_nat scalerA.
  by rewrite mulVr ?(two_unit g) ?scale1r.
have sb (u v : M) A : (u - v) A = u A - v A by rewrite !ffunE.
rewrite e -scalerAl mulrBl scale_coef sb -!mulrA scalar_swap -mulrA (ry _).
by rewrite (rad_ginv ry) subrr mulr0.
Qed.
Lemma radD (x y : C) : rad x -> rad y -> rad (x + y).
Proof. by move=> rx ry z; rewrite mulrDl ffunE rx ry addr0. Qed.
Lemma radZ c (x : C) : rad x -> rad (c *: x).
Proof. by move=> rx z; rewrite -scalerAl scale_coef rx mulr0. Qed.
Lemma rad_contr i (y : C) : rad y -> rad (contr_op i y : C).
Proof.
move=> ry; pose G : 'M[R]_n := \matrix_(i, j) g i j.
have e : (contr_op i y : C) = \sum_j (invmx G) i j *: (gcontr g j y : C).
  transitivity (\sum_k (1%:M : 'M[R]_n) i k *: contr_op k y : M).
    rewrite (bigD1 i) //= mxE eqxx scale1r big1 ?addr0 // => k ki.
    by rewrite mxE eq_sym (negPf ki) scale0r.
  rewrite -(mulVmx (det : G \in unitmx)) //.
  rewrite (eq_bigr (fun k => \sum_j (invmx G i j * g j k) *: contr_op k y : M)) => [|k _]; last first.
    by rewrite mxE scaler_suml; apply: eq_bigr => j _; rewrite mxE.
  rewrite exchange_big; apply: eq_bigr => j _; rewrite gcontrE scaler_sumr.
  by apply: eq_bigr => k _; rewrite scalerA.
rewrite e; elim/big_ind: _ => [z|x z|j _]; first by rewrite mul0r ffunE.
- exact: radD.
- by apply: radZ; apply: rad_gcontr.
Qed.
Lemma contr_coef i (y : M) (A : {set 'I_n}) : i \notin A -> (contr_op i y) A = (-1) ^+ nlt i (i |: A) * y (i |: A).
Proof.
move=> iA; rewrite {1}(mval_decomp y) raddf_sum /= sum_coef (bigD1 (i |: A)) //= linearZ /= scale_coef.
rewrite contr_op_bl /Cb setU11 scale_coef setU1K // bl_coef eqxx mulr1 big1 ?addr0 1?mulrC // => B BA.
rewrite linearZ /= scale_coef contr_op_bl /Cb; case: ifP => iB; last by rewrite ffunE mulr0.
rewrite scale_coef bl_coef; case: eqP => [E|_]; last by rewrite !mulr0.
by case/eqP: BA; rewrite -(setD1K iB) -E.
Qed.
Lemma rad0 (y : C) : rad y -> y = 0.
Proof.
move=> ry; apply/ffunP => A; rewrite [RHS]ffunE.
elim: {A}_.+1 {-2}A (ltnSn #|A|) y ry => // m IH A cA y ry.
have [->|[i iA]] := set_0Vmem A; first by rewrite -[y]mulr1; exact: ry.
have := IH (A :\ i) _ _ (rad_contr i ry); rewrite contr_coef ?setD11 // setD1K // => h.
apply: (can_inj (mulKr (unitrX (nlt i A) (unitrN1 _)))); rewrite mulr0; apply: h.
by move: cA; rewrite (cardsD1 i) iA.
Qed.
End Nondeg.

(* ---- the representation by matrices of size 2^((n+1)/2) ---- *)
Section Rep.
Variables (n : nat) (g : cmetric [comUnitRingType of algC] n).
Notation C := (clifford g).
Notation M := (mval [comUnitRingType of algC] n).
Hypothesis det : \det (\matrix_(i, j) g i j) != 0.
Let m := (n.+1)./2.

Lemma rep_gens : exists e : 'I_n -> Mg m,
  (forall i j, e i * e j + e j * e i = (g i j *+ 2)%:A) /\ (forall i, chir m * e i = - (e i * chir m)).
Proof.
have [P eP] : exists P : 'M[algC]_n, \matrix_(i, j) g i j = P *m P^T.
  by apply: sym_square; apply/matrixP => i j; rewrite !mxE gram_sym.
have jm (j : 'I_n) : (j < m.*2)%N by have := ltn_ord j; have := odd_double_half n.+1; rewrite /m; case: odd; nlia.
exists (fun i => \sum_j P i j *: gam m j); split=> [i j|i]; last first.
  rewrite mulr_sumr mulr_suml -sumrN; apply: eq_bigr => k _.
  by rewrite -scalerAr -scalerAl chir_gam scalerN.
have -> : g i j = \sum_k P i k * P j k.
  by have /matrixP/(_ i j) := eP; rewrite !mxE => ->; apply: eq_bigr => k _; rewrite mxE.
transitivity (\sum_k \sum_l (P i k * P j l) *: (gam m k * gam m l + gam m l * gam m k)).
  rewrite mulr_suml [X in _ + X]mulr_sumr -big_split; apply: eq_bigr => k _ /=.
  rewrite mulr_sumr mulr_suml -big_split; apply: eq_bigr => l _ /=.
  by rewrite -!scalerAl -!scalerAr !scalerA scalerDr [P j l * _]mulrC.
rewrite -sumrMnl scaler_suml; apply: eq_bigr => k _; rewrite (bigD1 k) //= big1 ?addr0 => [|l lk].
  by rewrite gam_rel // eqxx mulr1n scalerA mulr_natr.
by rewrite gam_rel // val_eqE eq_sym (negPf lk) mulr0n scale0r scaler0.
Qed.

Variable e : 'I_n -> Mg m.
Hypothesis rel : forall i j, e i * e j + e j * e i = (g i j *+ 2)%:A.
Hypothesis che : forall i, chir m * e i = - (e i * chir m).
Notation B := (blade_of e).

Lemma mtrC (x y : Mg m) : \tr (x * y) = \tr (y * x). Proof. exact: mxtrace_mulC. Qed.
Lemma chir_blade w : chir m * B w = (-1) ^+ size w *: (B w * chir m).
Proof.
elim: w => [|i w IH]; first by rewrite /= mul1r mulr1 expr0 scale1r.
rewrite [B _]/= exprS mulN1r -scalerAr -scalerAl scalerA [_ * 2%:R^-1]mulrC -scalerA; congr (_ *: _).
move: (B w) IH => b; move: ((-1) ^+ size w) => s IH.
have e1 : chir m * (e i * b) = - s *: (e i * b * chir m).
  by rewrite mulrA che mulNr -mulrA IH -scalerAr mulrA scaleNr.
have e2 : chir m * (b * e i) = - s *: (b * e i * chir m).
  by rewrite mulrA IH -scalerAl -(mulrA b (chir m)) che mulrN scalerN scaleNr mulrA.
by rewrite mulrDr mulrDl -scalerAr -scalerAl scalerDr e1 e2 !scalerA [s * _]mulrC.
Qed.
Lemma tr_blade w : w != [::] -> \tr (B w) = 0.
Proof.
case: w => // i w _; have t2 : (2%:R : algC) != 0 by exact: algC2.
case: (boolP (odd (size w))) => ow.
  rewrite /= mxtraceZ raddfD /= mxtraceZ -signr_odd ow expr1 mtrC mulN1r subrr mulr0 //.
have: \tr (B (i :: w)) = - \tr (B (i :: w)).
  rewrite -{1}[B _]mul1r -(chir_sq m) -mulrA mtrC chir_blade -scalerAl -mulrA chir_sq mulr1.
  by rewrite mxtraceZ -signr_odd /= ow expr1 mulN1r.
by move/eqP; rewrite -addr_eq0 -mulr2n -mulr_natl mulf_eq0 (negPf t2) => /eqP.
Qed.

Notation rho := (@cl_map _ n g _ e).
Lemma tr_rho (x : C) : \tr (rho x) = (shN n)%:R * (x : M) set0.
Proof.
rewrite /cl_map raddf_sum (bigD1 set0) //= mxtraceZ enum_set0 /= [\tr 1](mxtrace_scalar) mulrC.
rewrite big1 ?addr0 => [|S S0]; first by rewrite -/(shN n) gdimE.
rewrite mxtraceZ tr_blade ?mulr0 //.
by apply: contra_neq S0 => h; apply/setP => z; rewrite -mem_enum h inE.
Qed.

Theorem sh_scalar_base (U : C) : sh U (shN n).-1 = ((sh U (shN n).-1 : M) set0)%:A.
Proof.
pose y : C := sh U (shN n).-1 - ((sh U (shN n).-1 : M) set0)%:A.
suff ry : rho y = 0.
  apply/eqP; rewrite -subr_eq0 -/y; apply/eqP; apply: (rad0 (g := g)).
    by rewrite unitfE.
  move=> z; have t := tr_rho (y * z); rewrite (cl_mapM rel) ry mul0r mxtrace0 in t.
  have N0 : ((shN n)%:R : algC) != 0 by rewrite Num.Theory.pnatr_eq0 /shN -lt0n expn_gt0.
  by apply/eqP; move/esym/eqP: t; rewrite mulf_eq0 (negPf N0).
have N1 : (0 < shN n)%N by rewrite /shN expn_gt0.
have NE : (gdim m).+1 = shN n by exact: gdimE.
pose V k := rho (sh U k.-1); pose c k := shc k (sh U k.-1).
have FL := @FL_scalar [comRingType of algC] (gdim m).+1 (rho U) _ V c (ltn0Sn _).
have rA (k : algC) : rho (k%:A : C) = k%:A by rewrite linearZ /= cl_map1.
have /FL h : forall k (x : algC), x *+ k.+1 = 0 -> x = 0.
  by move=> k x /eqP; rewrite -mulr_natl mulf_eq0 Num.Theory.pnatr_eq0 => /eqP.
have {h} : rho (sh U (shN n).-1) = - ((char_poly (rho U))`_0)%:M.
  rewrite -NE -/(V (gdim m).+1); apply: h => //.
    move=> k /andP[k0 kN]; rewrite tr_rho -[LHS]mulr_natr /c /shc mulrAC; congr (_ * _).
    by rewrite mulfVK // Num.Theory.pnatr_eq0 -lt0n.
  move=> [|k] // /andP[_ kN]; rewrite /V /= (cl_mapM rel) raddfB /= rA.
  by congr (_ * (_ - _)); rewrite scalemx1.
rewrite /y raddfB /= rA; move: (_`_0) => q E.
have := tr_rho (sh U (shN n).-1); rewrite {1}E raddfN /= mxtrace_scalar => T; rewrite NE in T; rewrite E.
have N0 : ((shN n)%:R : algC) != 0 by rewrite Num.Theory.pnatr_eq0 -lt0n.
have -> : (sh U (shN n).-1 : M) set0 = - q.
  by apply: (mulfI N0); rewrite -T mulr_natl mulNrn.
by rewrite scaleNr scalemx1 subrr.
Qed.
End Rep.

Theorem sh_scalar (R : comUnitRingType) (n : nat) (g : cmetric R n) (U : clifford g) : rational_ring R ->
  sh U (shN n).-1 = ((sh U (shN n).-1 : mval R n) set0)%:A.
Proof.
move=> qa.
pose E (S : comUnitRingType) (h : cmetric S n) (x : mval S n) : mval S n :=
  sh (x : clifford h) (shN n).-1 - ((sh (x : clifford h) (shN n).-1 : mval S n) set0)%:A.
suff: E R g U = 0 by move/eqP; rewrite subr_eq0 => /eqP.
apply: (@transfer n E) => // [R' S f g' h qa' gh x|h x d].
  by rewrite /E mapvB (mapv_alg f g' h) -mapv_coef (mapv_sh gh qa').
have [e [rel che]] := rep_gens h.
by apply/eqP; rewrite subr_eq0; apply/eqP; apply: (sh_scalar_base d rel che).
Qed.
