(* RecipSum.v -- the sum of the reciprocal blades of a grade times the blades: in a
   Clifford algebra of dimension n, sum_{|S| = r} e^S e_S is the binomial number C(n,r). *)
From mathcomp Require Import all_ssreflect all_algebra.
From Verif Require Import AlgTactics Exterior Clifford Blades Spec_Grade Grades GradeLaws ContrLaws Det Outer BladeLaws RecipBlades.
Set Implicit Arguments.
Unset Strict Implicit.
Unset Printing Implicit Defensive.
Import GRing.Theory.
Local Open Scope ring_scope.

Section Sum.
Variables (R : comUnitRingType) (n : nat) (g : cmetric R n).
Notation M := (mval R n).
Notation C := (clifford g).
Notation two := (two_unit g).
Notation mulC := (fun u v : C => u * v).
Implicit Types (x y z u b : M).
Notation lc := (selprod mulC left_grade).
Notation rc := (selprod mulC right_grade).
Variables (s : R) (r : 'I_n -> M).
Hypothesis hr : forall i, homog 1 (r i).
Hypothesis dr : forall i j, gform g (bl R [set j]) (r i) = (j == i)%:R * s.
Hypothesis us : s \is a GRing.unit.
Notation e_ := (rbs s r).
Definition rv (i : 'I_n) : M := s^-1 *: r i.
Lemma rv_homog i : homog 1 (rv i). Proof. exact: homogZ. Qed.
Lemma lc_rv i x : lc (rv i) x = contr_op i x.
Proof. by rewrite /rv selZ (lc_recip hr dr) scalerA mulVr // scale1r. Qed.
Lemma mrev_vec u : homog 1 u -> mrev u = u.
Proof. by move=> h; rewrite -h mrev_gpart expr0 scale1r. Qed.
Lemma mrev_rc x y : mrev (rc x y) = lc (mrev y) (mrev x).
Proof. by rewrite -[lc _ _](@mrevK R n) (mrev_lc g) !mrevK. Qed.
Lemma scalar_rc x y : ((x : C) * (y : C) : M) set0 = rc x y set0.
Proof. by rewrite -[rc x y set0]mrev_set0 mrev_rc -scalar_lc -mrevM mrev_set0. Qed.
(* the product by a vector on the right *)
Lemma mul_vec x u : homog 1 u -> (x : C) * (u : C) = rc x u + ext x u :> M.
Proof.
move=> hu; apply: (can_inj (@mrevK R n)); rewrite mrevM (mrev_vec hu) (vec_mul g _ hu).
by rewrite mrevD mrev_rc (mrev_ext g) (mrev_vec hu).
Qed.
(* the adjoints of the contraction and of the outer product by a vector *)
Lemma adj_contr i x y : ((x : C) * (contr_op i y : C) : M) set0 = ((ext x (rv i) : C) * (y : C) : M) set0.
Proof. by rewrite !scalar_lc -lc_rv lc_lc. Qed.
Lemma adj_ext u x y : ((x : C) * (ext u y : C) : M) set0 = ((rc x u : C) * (y : C) : M) set0.
Proof. by rewrite !scalar_rc (rc_rc g). Qed.
(* the blades and the reciprocal blades are dual: an operator moves to its adjoint *)
Lemma dual_move (L L' : M -> M) (h : {linear M -> M}) : (forall x y, ((x : C) * (L y : C) : M) set0 = ((L' x : C) * (y : C) : M) set0) ->
  \sum_(S : {set 'I_n}) (e_ S : C) * (h (L (bl R S)) : C) = \sum_(S : {set 'I_n}) (L' (e_ S) : C) * (h (bl R S) : C).
Proof.
move=> adj; pose c S T := ((bl R S : C) * (L' (e_ T) : C) : M) set0.
have e1 S : h (L (bl R S)) = \sum_T c S T *: h (bl R T).
  rewrite {1}[L _]mval_decomp linear_sum; apply: eq_bigr => T _.
  rewrite linearZ; congr (_ *: _).
  by rewrite -(rbs_coef hr dr us) adj scalar_swap.
have e2 T : L' (e_ T) = \sum_S c S T *: e_ S.
  by rewrite (rbs_expand hr dr us predT); apply/ffunP => S; rewrite ffunE.
under eq_bigr => S _ do rewrite e1 mulr_sumr.
rewrite exchange_big; apply: eq_bigr => T _ /=; rewrite e2 mulr_suml.
by apply: eq_bigr => S _; rewrite -scalerAr; exact: (@scalerAl _ [algType R of C]).
Qed.
(* grades *)
Lemma gpart_contr k i x : gpart k (contr_op i x) = contr_op i (gpart k.+1 x).
Proof.
move: x; apply: ext_lin => [c x y|c x y|S].
- by rewrite linearP linearP.
- by rewrite linearP linearP.
rewrite gpart_bl contr_op_bl /Cb; case: ifP => iS; last first.
  rewrite linear0; case: ifP; last by rewrite linear0.
  by rewrite contr_op_bl /Cb iS.
rewrite linearZ /= gpart_bl.
have -> : (#|S| == k.+1) = (#|S :\ i| == k) by rewrite (cardsD1 i S) iS.
case: ifP => _; last by rewrite [RHS]linear0 scaler0.
by rewrite contr_op_bl /Cb iS.
Qed.
Lemma gpart_ext k u x : homog 1 u -> gpart k.+1 (ext u x) = ext u (gpart k x).
Proof.
move=> hu; rewrite {1}[x]gpart_sum (ext_sumr two) linear_sum /=.
have e (j : nat) : gpart k.+1 (ext u (gpart j x)) = if k == j then ext u (gpart j x) else 0.
  by rewrite (gpart_homog _ (homog_ext two hu (homog_gpart j x))) add1n eqSS.
under eq_bigr => j _ do rewrite e.
case: (ltnP k n.+1) => kn.
  rewrite (bigD1 (Ordinal kn)) //= eqxx big1 ?addr0 // => j jk; case: eqP => // kj.
  by move: jk; rewrite -val_eqE /= -kj eqxx.
rewrite gpart_out // (ext0r two) big1 // => j _; case: eqP => // kj.
by have := ltn_ord j; rewrite -kj ltnNge kn.
Qed.
Lemma gpart0_ext u x : homog 1 u -> gpart 0 (ext u x) = 0.
Proof.
move=> hu; rewrite {1}[x]gpart_sum (ext_sumr two) linear_sum /= big1 // => j _.
by rewrite (gpart_homog _ (homog_ext two hu (homog_gpart j x))) add1n.
Qed.
(* Euler's identity *)
Lemma euler k x : homog k x -> \sum_j wedge_op j (contr_op j x) = k%:R *: x.
Proof.
move=> <-; rewrite [X in _ = _ *: X]mval_decomp.
under eq_bigr => j _ do rewrite [gpart k x]mval_decomp.
rewrite scaler_sumr.
under eq_bigr => j _ do rewrite !linear_sum /=.
rewrite exchange_big; apply: eq_bigr => S _ /=.
under eq_bigr => j _ do rewrite !linearZ /=.
rewrite -scaler_sumr ffunE; case: eqP => [<-|_]; last by rewrite !scale0r scaler0.
rewrite scalerA mulrC -scalerA; congr (_ *: _).
have e j : wedge_op j (contr_op j (bl R S)) = if j \in S then bl R S else 0.
  rewrite contr_op_bl /Cb; case: ifP => jS; last by rewrite linear0.
  rewrite linearZ /= wedge_op_bl /Wb !inE eqxx /= setD1K // (nlt_del j jS) ltnn addn0 signrZK //.
under eq_bigr => j _ do rewrite e.
by rewrite -big_mkcond /= sumr_const scaler_nat.
Qed.
Lemma euler' k x : homog k x -> \sum_j contr_op j (wedge_op j x) = (n%:R - k%:R) *: x.
Proof.
move=> hx; rewrite scalerBl -(euler hx) -[n in n%:R]card_ord scaler_nat -sumr_const -sumrB.
by apply: eq_bigr => j _; rewrite -{2}[x]scale1r -[1]/((true)%:R) -(eqxx j) -wedge_contr addrC addKr.
Qed.
(* the vectors e^j /\ e_j cancel *)
Lemma rv_curl : \sum_j ext (rv j) (bl R [set j]) = 0.
Proof.
pose c (i k : 'I_n) := r i [set k].
have rE i : r i = \sum_k c i k *: bl R [set k] by apply: vec_decomp.
have cE i k : gform g (r i) (r k) = c i k * s.
  have -> : gform g (r i) (r k) = \sum_j c i j * gform g (bl R [set j]) (r k).
    rewrite /gform; apply: eq_bigr => j _; rewrite mulr_sumr [RHS](bigD1 j) //= [X in _ = _ + X]big1 ?addr0.
      by rewrite mulr_sumr; apply: eq_bigr => l _; rewrite bl_coef eqxx mul1r mulrA.
    by move=> l lj; rewrite big1 ?mulr0 // => m _; rewrite bl_coef (inj_eq set1_inj) (negbTE lj) !mul0r.
  rewrite (bigD1 k) //= dr eqxx mul1r big1 ?addr0 // => j jk; by rewrite dr (negbTE jk) mul0r mulr0.
have csym i k : c i k = c k i by apply: (mulIr us); rewrite -!cE gform_sym.
have h1 (j : 'I_n) : homog 1 (bl R [set j]) by have := @homog_bl R n [set j]; rewrite cards1.
have -> : \sum_j ext (rv j) (bl R [set j]) = s^-1 *: \sum_j \sum_k c j k *: ext (bl R [set k]) (bl R [set j]).
  rewrite scaler_sumr; apply: eq_bigr => j _; rewrite /rv (extZl two); congr (_ *: _).
  by rewrite {1}rE (ext_suml two); apply: eq_bigr => k _; rewrite (extZl two).
set T := \sum_j _; suff T2 : T = - T.
  have : (2%:R : R) *: T = 0 by rewrite scaler_nat mulr2n {2}T2 subrr.
  by move=> /(congr1 (fun z => (2%:R : R)^-1 *: z)); rewrite scalerA mulVr ?two // scale1r scaler0 => ->; rewrite scaler0.
rewrite {2}/T exchange_big /= -sumrN /T; apply: eq_bigr => i _; rewrite -sumrN; apply: eq_bigr => k _.
by rewrite (ext_swap (h1 k) (h1 i)) expr1 scaleN1r scalerN csym.
Qed.
Lemma rv_curl' : \sum_j ext (bl R [set j]) (rv j) = 0.
Proof.
have h1 (j : 'I_n) : homog 1 (bl R [set j]) by have := @homog_bl R n [set j]; rewrite cards1.
under eq_bigr => j _ do rewrite (ext_swap (h1 j) (rv_homog j)) expr1 scaleN1r.
by rewrite sumrN rv_curl oppr0.
Qed.
Definition tsum (k : nat) : C := \sum_(S : {set 'I_n}) (e_ S : C) * (gpart k (bl R S) : C).
Lemma tsum_step k : k.+1%:R *: tsum k.+1 = (n%:R - k%:R) *: tsum k.
Proof.
pose h0 (j : 'I_n) (y : M) : M := wedge_op j (gpart k y).
have lh j : linear (h0 j) by move=> c x y; rewrite /h0 linearP linearP.
pose h j : {linear M -> M} := Linear (lh j).
have hE j y : h j y = wedge_op j (gpart k y) by [].
transitivity (\sum_j \sum_(S : {set 'I_n}) (ext (e_ S) (rv j) : C) * (h j (bl R S) : C)).
  transitivity (\sum_j \sum_(S : {set 'I_n}) (e_ S : C) * (h j (contr_op j (bl R S)) : C)).
    rewrite exchange_big scaler_sumr; apply: eq_bigr => S _ /=; rewrite -mulr_sumr scalerAr; congr (_ * _).
    by rewrite -(euler (homog_gpart k.+1 (bl R S))); apply: eq_bigr => j _; rewrite /h0 gpart_contr.
  by apply: eq_bigr => j _; rewrite (@dual_move (contr_op j) (fun x => ext x (rv j)) (h j)) => // x y; exact: adj_contr.
transitivity (\sum_j (\sum_(S : {set 'I_n}) (e_ S : C) * ((rv j : C) * (h j (bl R S) : C)) -
    \sum_(S : {set 'I_n}) (rc (e_ S) (rv j) : C) * (h j (bl R S) : C))).
  apply: eq_bigr => j _; rewrite -sumrB; apply: eq_bigr => S _; rewrite mulrA -mulrBl; congr (_ * _).
  by rewrite (mul_vec _ (rv_homog j)) addrC addKr.
rewrite sumrB; set P := \sum_j _; set Q := \sum_j _.
have -> : Q = 0.
  have -> : Q = \sum_j \sum_(S : {set 'I_n}) (e_ S : C) * (h j (ext (rv j) (bl R S)) : C).
    by apply: eq_bigr => j _; rewrite (@dual_move (ext (rv j)) (fun x => rc x (rv j)) (h j)) => // x y; exact: adj_ext.
  rewrite exchange_big big1 // => S _ /=; rewrite -mulr_sumr; set Z := \sum_j _; suff -> : Z = 0 by rewrite mulr0.
  rewrite /Z /= /h0.
  case: (k) => [|k'].
    by rewrite big1 // => j _; rewrite (gpart0_ext _ (rv_homog j)) linear0.
  under eq_bigr => j _ do rewrite (gpart_ext _ _ (rv_homog j)) (wedge_opE two) (extA two).
  by rewrite -(ext_suml two) rv_curl' (ext0l two).
rewrite subr0 /P exchange_big scaler_sumr; apply: eq_bigr => S _ /=; rewrite -mulr_sumr scalerAr; congr (_ * _).
rewrite -(euler' (homog_gpart k (bl R S))).
rewrite /= /h0; under eq_bigr => j _ do rewrite (vec_mul g _ (rv_homog j)) lc_rv (wedge_opE two) (extA two).
by rewrite big_split /= -(ext_suml two) rv_curl (ext0l two) addr0; apply: eq_bigr => j _; rewrite (wedge_opE two).
Qed.
Lemma tsum0 : tsum 0 = 1.
Proof.
rewrite /tsum (bigD1 set0) //= big1 ?addr0 => [|S S0].
  rewrite gpart_bl cards0 eqxx -[bl R set0 in X in _ * X]/(1 : C) mulr1 /rbs cards0 expr0 invr1 scale1r.
  by rewrite enum_set0.
by rewrite gpart_bl cards_eq0 (negbTE S0) mulr0.
Qed.
Lemma tsumE k : (k`!%:R : R) \is a GRing.unit -> tsum k = 'C(n, k)%:R *: (1 : C).
Proof.
move=> uk; have e j : j`!%:R *: tsum j = (n ^_ j)%:R *: (1 : C).
  elim: j => [|j IH]; first by rewrite tsum0 fact0 ffactn0.
  rewrite factS natrM mulrC -scalerA tsum_step scalerA mulrC -scalerA IH scalerA ffactnSr natrM.
  congr (_ *: _); case: (leqP j n) => jn; first by rewrite natrB // mulrC.
  by rewrite ffact_small // !(mul0r, mulr0).
rewrite -[LHS]scale1r -(mulVr uk) -scalerA e scalerA; congr (_ *: _).
by rewrite -bin_ffact natrM mulrCA mulVr ?mulr1.
Qed.
(* the sum over the blades of the grades in a list *)
Theorem rbs_sum (P : pred nat) : (forall k, P k -> (k <= n)%N -> (k`!%:R : R) \is a GRing.unit) ->
  \sum_(S : {set 'I_n} | P #|S|) (e_ S : C) * (bl R S : C) = #|[set S : {set 'I_n} | P #|S|]|%:R *: (1 : C).
Proof.
move=> uP; have cn (S : {set 'I_n}) : (#|S| < n.+1)%N by rewrite ltnS -[X in (_ <= X)%N]card_ord max_card.
transitivity (\sum_(k < n.+1 | P k) tsum k).
  rewrite (partition_big (fun S => Ordinal (cn S)) (fun k : 'I_n.+1 => P k)) //=.
  apply: eq_bigr => k Pk; rewrite /tsum [RHS](bigID (fun S : {set 'I_n} => #|S| == k)) /= [X in _ + X]big1 ?addr0.
    apply: eq_big => [S|S /andP[_ /eqP <-]]; last by rewrite gpart_bl eqxx.
    by rewrite -val_eqE /=; case: eqP => [->|_]; rewrite ?Pk ?andbT ?andbF.
  by move=> S /negbTE Sk; rewrite gpart_bl Sk mulr0.
under eq_bigr => k Pk do rewrite (tsumE (uP k Pk (leq_ord k))).
rewrite -scaler_suml -natr_sum; congr (_%:R *: _).
rewrite -sum1_card (partition_big (fun S => Ordinal (cn S)) (fun k : 'I_n.+1 => P k)) /=; last by move=> S; rewrite inE.
apply: eq_bigr => k Pk; rewrite -[n in 'C(n, _)]card_ord -card_draws -sum1_card.
apply: eq_bigl => S; rewrite !inE -val_eqE /=; case: eqP => [->|_]; by rewrite ?Pk ?andbF.
Qed.
End Sum.
