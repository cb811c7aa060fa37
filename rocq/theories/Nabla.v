(* Nabla.v -- covariant partial derivative of a multivector field: coefficients
   are differentiated and every basis vector e_i is replaced in turn by its
   derivative Gam i.  It is a derivation of the outer product, and, when Gam is
   compatible with the metric, of the geometric product. *)
From mathcomp Require Import all_ssreflect all_algebra.
From Verif Require Import AlgTactics Exterior Clifford Spec_Grade Grades GradeLaws ExtDeriv Spec_Diff.
Set Implicit Arguments.
Unset Strict Implicit.
Unset Printing Implicit Defensive.
Import GRing.Theory.
Local Open Scope ring_scope.

Section Def.
Variables (R : comUnitRingType) (n : nat).
Notation M := (mval R n).
Variables (d : R -> R) (c : 'I_n -> 'I_n -> R).
(* derivative of the coefficients *)
Definition dcoef (x : M) : M := [ffun S : {set 'I_n} => d (x S)].
(* derivative of the basis vector e_i *)
Definition dbasis (i : 'I_n) : M := \sum_j c i j *: bl R [set j].
(* derivative of the basis blades: e_i is replaced by its derivative in turn *)
Definition dblades (x : M) : M := \sum_i ext (dbasis i) (contr_op i x).
Definition nabla (x : M) : M := dcoef x + dblades x.
End Def.

Section Nabla.
Variables (R : comUnitRingType) (n : nat) (two : (2%:R : R) \is a GRing.unit).
Notation M := (mval R n).
Variables (d : R -> R) (der : derivation d) (c : 'I_n -> 'I_n -> R).
Implicit Types (x y z : M) (S T : {set 'I_n}) (i j k : 'I_n).
Notation dco := (dcoef d).
Notation L := (dblades c).
Notation Gam := (dbasis c).
Notation nab := (nabla d c).
Let EDl := @extDl R n two. Let EDr := @extDr R n two.
Let EZl := @extZl R n two. Let EZr := @extZr R n two.

Lemma dcoD x y : dco (x + y) = dco x + dco y.
Proof. by apply/ffunP=> S; rewrite !ffunE (drvD der). Qed.
Lemma dcoZ (a : R) x : dco (a *: x) = d a *: x + a *: dco x.
Proof. by apply/ffunP=> S; rewrite !(ffunE, scale_coef) (drvM der). Qed.
Lemma dco0 : dco (0 : M) = 0.
Proof. by apply/ffunP=> S; rewrite !ffunE (drv0 der). Qed.
Lemma dco_sum (I : Type) (r : seq I) (P : pred I) (F : I -> M) :
  dco (\sum_(i <- r | P i) F i) = \sum_(i <- r | P i) dco (F i).
Proof. by elim/big_rec2: _ => [|i x y _ <-]; [exact: dco0 | exact: dcoD]. Qed.
Lemma dco_bl S : dco (bl R S) = 0.
Proof. by apply/ffunP=> T; rewrite !ffunE (drv_nat der). Qed.
Lemma dco_sgn m S : dco ((-1) ^+ m *: bl R S) = 0.
Proof. by rewrite dcoZ dco_bl (drv_sgn der) scale0r scaler0 addr0. Qed.
(* operators with constant coefficients *)
Lemma dco_const (f : M -> M) : linear f -> (forall S, dco (f (bl R S)) = 0) -> forall x, dco (f x) = f (dco x).
Proof.
move=> fl f0 x; pose fL := Linear fl; rewrite -[f]/(fL : M -> M).
rewrite {1}[x]mval_decomp linear_sum dco_sum [dco x]mval_decomp linear_sum; apply: eq_bigr => S _.
by rewrite !linearZ /= dcoZ f0 scaler0 addr0 ffunE.
Qed.
Lemma dco_contr i x : dco (contr_op i x) = contr_op i (dco x).
Proof.
apply: dco_const => [|S]; first exact: contr_op_is_linear.
by rewrite contr_op_bl /Cb; case: ifP => _; [exact: dco_sgn | exact: dco0].
Qed.
Lemma dco_ext x y : dco (ext x y) = ext (dco x) y + ext x (dco y).
Proof.
rewrite {1}[x]mval_decomp {1}[y]mval_decomp /ext !dco_sum -big_split; apply: eq_bigr => S _.
rewrite dco_sum -big_split; apply: eq_bigr => T _ /=.
rewrite -!mval_decomp dcoZ (drvM der) !ffunE scalerDl.
suff -> : dco (extb R S T) = 0 by rewrite scaler0 addr0.
by rewrite /extb; case: ifP => _; [exact: dco_sgn | exact: dco0].
Qed.
Lemma dco_gpart r x : dco (gpart r x) = gpart r (dco x).
Proof. by apply/ffunP=> S; rewrite !ffunE; case: eqP => // _; exact: (drv0 der). Qed.

(* ---- blades ---- *)
Lemma L_linear : linear L.
Proof.
move=> a x y; rewrite /dblades scaler_sumr -big_split; apply: eq_bigr => i _ /=.
by rewrite linearP EDr EZr.
Qed.
Canonical L_additive := Additive L_linear.
Canonical L_lin := Linear L_linear.
Lemma homog_Gam i : homog 1 (Gam i).
Proof.
rewrite /homog /dbasis linear_sum; apply: eq_bigr => j _ /=.
by rewrite linearZ /= gpart_bl cards1.
Qed.
Lemma ginv_homog r x : homog r x -> ginv x = (-1) ^+ r *: x.
Proof.
move=> <-; apply/ffunP=> S; rewrite !(ffunE, scale_coef).
by case: eqP => [->|]; rewrite ?mulr0.
Qed.
Lemma ext_vec_swap v x : homog 1 v -> ext (ginv x) v = ext v x.
Proof.
move=> hv; pose f := fun x => ext (ginv x) v; pose h := fun x => ext v x.
rewrite -[LHS]/(f x) -[RHS]/(h x); apply: ext_lin => [a u w|a u w|S]; rewrite /f /h.
- by rewrite linearP EDl EZl.
- by rewrite EDr EZr.
rewrite ginv_bl EZl (@ext_swap _ _ #|S| 1 (bl R S) v) ?muln1 ?signrZK //.
by rewrite /homog gpart_bl eqxx.
Qed.
Lemma ext_vec_comm v x y : homog 1 v -> ext v (ext (ginv x) y) = ext x (ext v y).
Proof. by move=> hv; rewrite !(extA two) -(ext_vec_swap (ginv x) hv) ginvK. Qed.
Lemma L_ext x y : L (ext x y) = ext (L x) y + ext x (L y).
Proof.
rewrite /dblades (ext_suml two) (ext_sumr two) -big_split; apply: eq_bigr => i _ /=.
by rewrite (contr_ext two) EDr -(extA two) ext_vec_comm //; exact: homog_Gam.
Qed.
Lemma L_one : L (bl R set0) = 0.
Proof. by rewrite /dblades big1 // => i _; rewrite contr_one (ext0r two). Qed.
Lemma contr_e i j : contr_op i (bl R [set j]) = (i == j)%:R *: bl R set0.
Proof.
rewrite contr_vec ?bl_coef; last by rewrite /homog gpart_bl cards1.
by rewrite (inj_eq (@set1_inj _)).
Qed.
Lemma L_e i : L (bl R [set i]) = Gam i.
Proof.
rewrite /dblades (bigD1 i) //= contr_e eqxx scale1r (ext1r two) big1 ?addr0 // => j /negbTE ne.
by rewrite contr_e ne scale0r (ext0r two).
Qed.
Lemma contr_Gam j i : contr_op j (Gam i) = c i j *: bl R set0.
Proof.
rewrite (contr_vec _ (homog_Gam i)) /dbasis sum_coef (bigD1 j) //= scale_coef bl_coef eqxx mulr1.
rewrite big1 ?addr0 // => k /negbTE ne.
by rewrite scale_coef bl_coef (inj_eq (@set1_inj _)) eq_sym ne mulr0.
Qed.
Lemma L_contr j x : contr_op j (L x) = \sum_k c k j *: contr_op k x + L (contr_op j x).
Proof.
rewrite /dblades linear_sum -big_split; apply: eq_bigr => k _ /=.
rewrite (contr_ext two) contr_Gam EZl (ext1l two); congr (_ + _).
rewrite -[contr_op k (contr_op j x)]opprK -(contr_anti j k) (extNr two) -(extNl two); congr (ext _ _).
by rewrite (ginv_homog (homog_Gam k)) expr1 scaleN1r.
Qed.
Lemma homog_L r x : homog r x -> homog r (L x).
Proof.
case: r => [|r] h; last first.
  rewrite /homog /dblades linear_sum; apply: eq_bigr => i _ /=.
  by have := homog_ext two (homog_Gam i) (homog_contr i h); rewrite add1n.
have -> : L x = 0; last by rewrite /homog linear0.
rewrite -h [gpart 0 x]mval_decomp linear_sum big1 // => S _ /=; rewrite linearZ /= ffunE.
by case: eqP => [/cards0_eq ->|_]; rewrite ?L_one ?scaler0 ?scale0r.
Qed.
Lemma L_gpart r x : L (gpart r x) = gpart r (L x).
Proof.
rewrite {2}[x]gpart_sum (linear_sum L_lin) (linear_sum (gpart_linear _ _ r)); case: (ltnP r n.+1) => rn.
  rewrite (bigD1 (Ordinal rn)) //= big1 ?addr0 => [|k ne].
    by rewrite (homog_L (x := gpart r x)) // /homog gpart_gpart eqxx.
  have h : homog k (L (gpart k x)) by apply: homog_L; rewrite /homog gpart_gpart eqxx.
  by rewrite -h gpart_gpart; case: eqP => // e; case/eqP: ne; apply/val_inj.
by rewrite gpart_out // linear0 big1 // => k _; exact: gpart_out.
Qed.

(* ---- the covariant derivative ---- *)
Lemma nablaD x y : nab (x + y) = nab x + nab y.
Proof. by rewrite /nabla dcoD linearD addrACA. Qed.
Lemma nablaZ (a : R) x : nab (a *: x) = d a *: x + a *: nab x.
Proof. by rewrite /nabla dcoZ linearZ /= scalerDr addrA. Qed.
Lemma nabla0 : nab 0 = 0. Proof. by rewrite /nabla dco0 linear0 addr0. Qed.
Lemma nabla_sum (I : Type) (r : seq I) (P : pred I) (F : I -> M) :
  nab (\sum_(i <- r | P i) F i) = \sum_(i <- r | P i) nab (F i).
Proof. by elim/big_rec2: _ => [|i x y _ <-]; [exact: nabla0 | exact: nablaD]. Qed.
Lemma nablaN x : nab (- x) = - nab x.
Proof. by apply/eqP; rewrite -addr_eq0 -nablaD addNr nabla0. Qed.
Lemma nablaB x y : nab (x - y) = nab x - nab y. Proof. by rewrite nablaD nablaN. Qed.
Lemma nabla_bl S : nab (bl R S) = L (bl R S). Proof. by rewrite /nabla dco_bl add0r. Qed.
Lemma nabla_one : nab (bl R set0) = 0. Proof. by rewrite nabla_bl L_one. Qed.
Lemma nabla_e i : nab (bl R [set i]) = Gam i. Proof. by rewrite nabla_bl L_e. Qed.
Theorem nabla_ext x y : nab (ext x y) = ext (nab x) y + ext x (nab y).
Proof. by rewrite /nabla dco_ext L_ext EDl EDr addrACA. Qed.
Lemma nabla_gpart r x : nab (gpart r x) = gpart r (nab x).
Proof. by rewrite /nabla dco_gpart L_gpart linearD. Qed.
Lemma homog_nabla r x : homog r x -> homog r (nab x).
Proof. by move=> h; rewrite /homog -nabla_gpart h. Qed.
End Nabla.

Section Metric.
Variables (R : comUnitRingType) (n : nat) (g : cmetric R n).
Notation M := (mval R n).
Notation C := (clifford g).
Variables (d : R -> R) (der : derivation d) (c : 'I_n -> 'I_n -> R).
Let two := two_unit g.
Notation nab := (nabla d c).
(* d (e_i . e_j) = (d e_i) . e_j + e_i . (d e_j) *)
Hypothesis compat : forall i j, d (g i j) = \sum_k c i k * g k j + \sum_k c j k * g i k.
Implicit Types (x y z : M) (S T : {set 'I_n}) (i j k : 'I_n).

Lemma contrD i x y : contr_op i (x + y) = contr_op i x + contr_op i y. Proof. exact: linearD. Qed.
Lemma nabla_gcontr i x : nab (gcontr g i x) = \sum_k c i k *: gcontr g k x + gcontr g i (nab x).
Proof.
rewrite !gcontrE (nabla_sum two der).
have e j : nab (g i j *: contr_op j x) = d (g i j) *: contr_op j x - g i j *: (\sum_k c k j *: contr_op k x)
    + g i j *: contr_op j (nab x).
  rewrite (nablaZ two der) -addrA; congr (_ + _).
  rewrite /nabla contrD (L_contr two) (dco_contr der) -scalerN -scalerDr; congr (_ *: _).
  by rewrite addrCA addKr.
rewrite (eq_bigr _ (fun j _ => e j)) big_split /=; congr (_ + _); rewrite big_split /=.
have -> : \sum_j - (g i j *: (\sum_k c k j *: contr_op k x)) = - \sum_k (\sum_j c k j * g i j) *: contr_op k x.
  rewrite sumrN; congr (- _).
  under eq_bigr do rewrite scaler_sumr.
  rewrite exchange_big; apply: eq_bigr => k _; rewrite scaler_suml; apply: eq_bigr => j _.
  by rewrite scalerA mulrC.
have -> : \sum_j d (g i j) *: contr_op j x =
    \sum_j (\sum_k c i k * g k j) *: contr_op j x + \sum_j (\sum_k c j k * g i k) *: contr_op j x.
  by rewrite -big_split; apply: eq_bigr => j _; rewrite compat scalerDl.
rewrite addrK [RHS](_ : _ = \sum_k \sum_j (c i k * g k j) *: contr_op j x).
  by rewrite exchange_big; apply: eq_bigr => j _; rewrite scaler_suml.
by apply: eq_bigr => k _; rewrite gcontrE scaler_sumr; apply: eq_bigr => j _; rewrite scalerA.
Qed.
Lemma nabla_lmul i x : nab (lmul g i x) = \sum_k c i k *: lmul g k x + lmul g i (nab x).
Proof.
rewrite /lmul (nablaD two der) nabla_gcontr (wedge_opE two) (nabla_ext two der) (nabla_e two der) -(wedge_opE two).
rewrite addrACA; congr (_ + _); rewrite /dbasis (ext_suml two) -big_split; apply: eq_bigr => k _ /=.
by rewrite (extZl two) -(wedge_opE two) scalerDr.
Qed.
(* the product rule for a fixed left factor *)
Definition leib x := forall y, nab ((x : C) * (y : C)) = (nab x : C) * (y : C) + (x : C) * (nab y : C).
Lemma leib0 : leib 0.
Proof. by move=> y; rewrite (nabla0 two der) !mul0r (nabla0 two der) addr0. Qed.
Lemma leibD x z : leib x -> leib z -> leib (x + z).
Proof.
move=> hx hz y; have E : (x + z : C) * (y : C) = (x : C) * (y : C) + (z : C) * (y : C) by rewrite mulrDl.
by rewrite E !(nablaD two der) hx hz !mulrDl addrACA.
Qed.
Lemma leibZ (a : R) x : leib x -> leib (a *: x).
Proof.
have E (b : R) (u v : M) : (b *: u : C) * (v : C) = b *: ((u : C) * (v : C)) by rewrite -scalerAl.
by move=> hx y; rewrite E !(nablaZ two der) hx [in RHS](mulrDl (d a *: x : C)) !E scalerDr addrA.
Qed.
Lemma leib_sum (I : Type) (r : seq I) (P : pred I) (F : I -> M) :
  (forall i : I, P i -> leib (F i)) -> leib (\sum_(i <- r | P i) F i).
Proof. by move=> h; elim/big_rec: _ => [|i x Pi hx]; [exact: leib0 | apply: leibD => //; exact: h]. Qed.
Lemma cmulE x y : (x : C) * (y : C) = cmul g x y. Proof. by []. Qed.
Lemma lmulE i x : lmul g i x = (bl R [set i] : C) * (x : C). Proof. by rewrite cmulE cmul_vec. Qed.
Lemma leib_lmul i x : leib x -> leib (lmul g i x).
Proof.
move=> hx y.
have E : (lmul g i x : C) * (y : C) = lmul g i ((x : C) * (y : C)) by rewrite !lmulE mulrA.
rewrite E !nabla_lmul hx (mulrDl (\sum_k c i k *: lmul g k x : C)) linearD /= addrA; congr (_ + _ + _).
- by rewrite mulr_suml; apply: eq_bigr => k _; rewrite -scalerAl !lmulE mulrA.
- by rewrite !lmulE mulrA.
by rewrite !lmulE mulrA.
Qed.
Lemma leib_bl S : leib (bl R S).
Proof.
have [m] := ubnP #|S|; elim: m S => // m IH S; rewrite ltnS => hS.
case: (set_0Vmem S) => [->|[i iS]].
  by move=> y; rewrite (nabla_one two der) mul0r add0r !cmulE !cmul1x.
have e : (-1) ^+ nlt i (S :\ i) *: wedge_op i (bl R (S :\ i)) = bl R S.
  by rewrite wedge_op_bl /Wb !inE eqxx /= signrZK setD1K.
have lt : (#|S :\ i| < m)%N by move: hS; rewrite (cardsD1 i S) iS.
rewrite -e; apply: leibZ; have -> : wedge_op i (bl R (S :\ i)) = lmul g i (bl R (S :\ i)) - gcontr g i (bl R (S :\ i)).
  by rewrite addrK.
apply: leibD; first by apply: leib_lmul; exact: IH.
rewrite -scaleN1r; apply: leibZ; rewrite gcontrE; apply: leib_sum => j _; apply: leibZ.
rewrite contr_op_bl /Cb; case: ifP => jS; last exact: leib0.
apply: leibZ; apply: IH; apply: leq_ltn_trans lt.
by rewrite [X in (_ <= X)%N](cardsD1 j) jS leq_addl.
Qed.
Theorem nablaM x y : nab ((x : C) * (y : C)) = (nab x : C) * (y : C) + (x : C) * (nab y : C).
Proof.
suff : leib x by apply.
by rewrite [x]mval_decomp; apply: leib_sum => S _; apply: leibZ; exact: leib_bl.
Qed.
Theorem nabla_selprod (f : nat -> nat -> option nat) x y :
  nab (selprod (fun u v : C => u * v) f x y) =
  selprod (fun u v : C => u * v) f (nab x) y + selprod (fun u v : C => u * v) f x (nab y).
Proof.
rewrite /selprod (nabla_sum two der) -big_split; apply: eq_bigr => r _ /=.
rewrite (nabla_sum two der) -big_split; apply: eq_bigr => s _ /=.
case: (f r s) => [t|]; last by rewrite (nabla0 two der) addr0.
by rewrite (nabla_gpart two der) nablaM !(nabla_gpart two der) linearD.
Qed.
End Metric.
