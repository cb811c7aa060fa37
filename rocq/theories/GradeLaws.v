(* GradeLaws.v -- further laws of the graded structure: the outer product,
   products with vectors, the scalar part.  Mathematical layer. *)
From mathcomp Require Import all_ssreflect all_algebra.
From Verif Require Import NatTac AlgTactics Exterior Clifford Blades Spec_Grade Grades.
Set Implicit Arguments.
Unset Strict Implicit.
Unset Printing Implicit Defensive.
Import GRing.Theory.
Local Open Scope ring_scope.

Section Ext.
Variables (R : comUnitRingType) (n : nat) (two : (2%:R : R) \is a GRing.unit).
Notation M := (mval R n).
Notation E := (clifford (g0 n two)).
Implicit Types (x y z u v : M) (S T : {set 'I_n}) (i j : 'I_n).

Lemma extA x y z : ext x (ext y z) = ext (ext x y) z.
Proof. by rewrite !(extE two) mulrA. Qed.
Lemma extDl x y z : ext (x + y) z = ext x z + ext y z.
Proof. by rewrite !(extE two); exact: (@mulrDl [ringType of E]). Qed.
Lemma extDr x y z : ext x (y + z) = ext x y + ext x z.
Proof. by rewrite !(extE two); exact: (@mulrDr [ringType of E]). Qed.
Lemma extZl (c : R) x y : ext (c *: x) y = c *: ext x y.
Proof. by rewrite !(extE two); exact: (esym (@scalerAl _ [lalgType R of E] c x y)). Qed.
Lemma extZr (c : R) x y : ext x (c *: y) = c *: ext x y.
Proof. by rewrite !(extE two); exact: (esym (@scalerAr _ [algType R of E] c x y)). Qed.
Lemma ext_bl S T : ext (bl R S) (bl R T) = extb R S T.
Proof. by rewrite (extE two) mul0_bl. Qed.
Lemma ext1l x : ext (bl R set0) x = x.
Proof. by rewrite (extE two); exact: (@mul1r [ringType of E]). Qed.
Lemma ext1r x : ext x (bl R set0) = x.
Proof. by rewrite (extE two); exact: (@mulr1 [ringType of E]). Qed.
Lemma ext0l x : ext 0 x = 0.
Proof. by have := extZl 0 0 x; rewrite !scale0r. Qed.
Lemma ext0r x : ext x 0 = 0.
Proof. by have := extZr 0 x 0; rewrite !scale0r. Qed.
Lemma extNl x y : ext (- x) y = - ext x y.
Proof. by rewrite -scaleN1r extZl scaleN1r. Qed.
Lemma extNr x y : ext x (- y) = - ext x y.
Proof. by rewrite -[- y]scaleN1r extZr scaleN1r. Qed.
Lemma ext_suml (J : Type) (r : seq J) (P : pred J) (F : J -> M) y :
  ext (\sum_(i <- r | P i) F i) y = \sum_(i <- r | P i) ext (F i) y.
Proof.
by elim/big_rec2: _ => [|i u v _ <-]; rewrite ?ext0l ?extDl.
Qed.
Lemma ext_sumr (J : Type) (r : seq J) (P : pred J) (F : J -> M) y :
  ext y (\sum_(i <- r | P i) F i) = \sum_(i <- r | P i) ext y (F i).
Proof.
by elim/big_rec2: _ => [|i u v _ <-]; rewrite ?ext0r ?extDr.
Qed.

Lemma cross_swap S T : [disjoint S & T] -> (cross S T + cross T S = #|S| * #|T|)%N.
Proof.
move=> dis; have crossE A B : cross A B = (\sum_(s in A) \sum_(t in B) (t < s))%N.
  apply: eq_bigr => s _; rewrite -sum1dep_card big_mkcondr; apply: eq_bigr => t _.
  by case: ltnP.
rewrite !crossE [X in (_ + X)%N]exchange_big /= -big_split /=.
rewrite -sum_nat_const; apply: eq_bigr => s sS; rewrite -big_split /= -sum1_card.
apply: eq_bigr => t tT; case: (ltngtP s t) => //= E.
by move/pred0P/(_ s): dis; rewrite /= sS (val_inj E) tT.
Qed.
Lemma extb_swap S T : extb R S T = (-1) ^+ (#|S| * #|T|) *: extb R T S.
Proof.
rewrite /extb disjoint_sym; case: ifP => dis; last by rewrite scaler0.
rewrite scalerA -exprD setUC -cross_swap; last by rewrite disjoint_sym.
by congr (_ *: _); apply: sgn_eq; rewrite !oddD; case: (odd (cross S T)); case: (odd (cross T S)).
Qed.
Lemma ext_swap r s x y : homog r x -> homog s y -> ext x y = (-1) ^+ (r * s) *: ext y x.
Proof.
move=> <- <-; rewrite /ext exchange_big scaler_sumr; apply: eq_bigr => T _.
rewrite scaler_sumr; apply: eq_bigr => S _; rewrite !ffunE.
case: (#|S| =P r) => [<-|_]; last by rewrite mul0r mulr0 !scale0r scaler0.
case: (#|T| =P s) => [<-|_]; last by rewrite mul0r mulr0 !scale0r scaler0.
by rewrite extb_swap !scalerA; congr (_ *: _); rewrite mulrC [y T * x S]mulrC.
Qed.
Lemma ext_vv x : homog 1 x -> ext x x = 0.
Proof.
move=> h; have := ext_swap h h; rewrite expr1 scaleN1r => E.
have : ext x x + ext x x = 0 by rewrite {1}E addNr.
by rewrite -mulr2n -scaler_nat => /(congr1 (fun v => 2%:R^-1 *: v)); rewrite scalerA mulVr // scale1r scaler0.
Qed.
Lemma homog_ext r s x y : homog r x -> homog s y -> homog (r + s) (ext x y).
Proof.
move=> <- <-; rewrite /homog -(ext_top two (g0 n two)).
by rewrite gpart_gpart eqxx.
Qed.

Lemma vec_decomp x : homog 1 x -> x = \sum_(i : 'I_n) x [set i] *: bl R [set i].
Proof.
move=> h; apply/ffunP => S; rewrite -{1}h ffunE sum_coef.
case: (#|S| =P 1%N) => [/eqP/cards1P [i ->]|nS].
  rewrite (bigD1 i) //= scale_coef bl_coef eqxx mulr1 big1 ?addr0 // => j ji.
  rewrite scale_coef bl_coef (inj_eq set1_inj); case: (i =P j) ji => [->|_]; first by rewrite eqxx.
  by rewrite mulr0.
rewrite big1 // => i _; rewrite scale_coef bl_coef; case: (S =P [set i]) nS => [->|_]; first by rewrite cards1.
by rewrite mulr0.
Qed.
Lemma wedge_opE i y : wedge_op i y = ext (bl R [set i]) y.
Proof.
by rewrite (extE two) -(lmul0 two); have := @cgen_mul _ _ (g0 n two) i y.
Qed.
End Ext.

Section Vec.
Variables (R : comUnitRingType) (n : nat) (g : cmetric R n).
Let two : (2%:R : R) \is a GRing.unit. Proof. by case: g. Qed.
Notation M := (mval R n).
Notation C := (clifford g).
Notation mulC := (fun u v : C => u * v).
Implicit Types (x y z u v : M) (S T : {set 'I_n}) (i j : 'I_n).

(* the contraction by a vector is the left contraction *)
Lemma gpart_low_gcontr i S : (0 < #|S|)%N -> homog (#|S| - 1) (gcontr g i (bl R S)).
Proof.
move=> S0; rewrite /homog gcontrE linear_sum; apply: eq_bigr => j _ /=; rewrite linearZ /=; congr (_ *: _).
rewrite contr_op_bl /Cb; case: ifP => jS; last by rewrite raddf0.
by rewrite linearZ /= gpart_bl (cardsD1 j S) jS add1n subn1 /= eqxx.
Qed.
Lemma homog_wedge i S : homog #|S|.+1 (wedge_op i (bl R S)).
Proof.
rewrite /homog wedge_op_bl /Wb; case: ifP => iS; first by rewrite raddf0.
by rewrite linearZ /= gpart_bl cardsU1 iS eqxx.
Qed.
Lemma gpart_homog r s x : homog s x -> gpart r x = if r == s then x else 0.
Proof. by move=> <-; rewrite gpart_gpart. Qed.

Section Sel.
Variable f : nat -> nat -> option nat.
Notation sel := (selprod mulC f).
Lemma selD x y z : sel (x + y) z = sel x z + sel y z.
Proof.
rewrite /selprod -big_split; apply: eq_bigr => r _; rewrite -big_split; apply: eq_bigr => s _ /=.
case: f => [k|]; last by rewrite addr0.
by rewrite raddfD /= -[RHS]raddfD /=; congr (gpart _ _); exact: (@mulrDl [ringType of C]).
Qed.
Lemma selDr x y z : sel z (x + y) = sel z x + sel z y.
Proof.
rewrite /selprod -big_split; apply: eq_bigr => r _; rewrite -big_split; apply: eq_bigr => s _ /=.
case: f => [k|]; last by rewrite addr0.
by rewrite [gpart s (_ + _)]raddfD /= -[RHS]raddfD /=; congr (gpart _ _); exact: (@mulrDr [ringType of C]).
Qed.
Lemma selZ (c : R) x z : sel (c *: x) z = c *: sel x z.
Proof.
rewrite /selprod scaler_sumr; apply: eq_bigr => r _; rewrite scaler_sumr; apply: eq_bigr => s _ /=.
case: f => [k|]; last by rewrite scaler0.
by rewrite linearZ /= -[RHS]linearZ /=; congr (gpart _ _); exact: (esym (@scalerAl _ [lalgType R of C] _ _ _)).
Qed.
Lemma selZr (c : R) x z : sel z (c *: x) = c *: sel z x.
Proof.
rewrite /selprod scaler_sumr; apply: eq_bigr => r _; rewrite scaler_sumr; apply: eq_bigr => s _ /=.
case: f => [k|]; last by rewrite scaler0.
by rewrite [gpart s (_ *: _)]linearZ /= -[RHS]linearZ /=; congr (gpart _ _); exact: (esym (@scalerAr _ [algType R of C] _ _ _)).
Qed.
Lemma sel0 z : sel 0 z = 0. Proof. by have := selZ 0 0 z; rewrite !scale0r. Qed.
Lemma sel0r z : sel z 0 = 0. Proof. by have := selZr 0 0 z; rewrite !scale0r. Qed.
Lemma sel_suml (J : Type) (r : seq J) (P : pred J) (F : J -> M) y :
  sel (\sum_(i <- r | P i) F i) y = \sum_(i <- r | P i) sel (F i) y.
Proof. by elim/big_rec2: _ => [|i u v _ <-]; rewrite ?sel0 ?selD. Qed.
Lemma sel_sumr (J : Type) (r : seq J) (P : pred J) (F : J -> M) y :
  sel y (\sum_(i <- r | P i) F i) = \sum_(i <- r | P i) sel y (F i).
Proof. by elim/big_rec2: _ => [|i u v _ <-]; rewrite ?sel0r ?selDr. Qed.
Lemma sel_homog r s x y : homog r x -> homog s y ->
  sel x y = if f r s is Some k then gpart k ((x : C) * (y : C)) else 0.
Proof.
move=> hx hy; rewrite /selprod.
have E k m z : homog m z -> (k == m) = false -> gpart k z = 0.
  by move=> h km; rewrite (gpart_homog _ h) km.
have sum (F : nat -> M) m z : homog m z -> (forall k, k != m -> F k = 0) -> (n < m)%N -> F m = 0 ->
    \sum_(k < n.+1) F k = F m by move=> _ h nm ->; rewrite big1 // => k _; apply: h; rewrite neq_ltn (leq_trans _ nm) ?ltn_ord // ltnS ltnW.
have out m z : homog m z -> (n < m)%N -> z = 0 by move=> <- nm; rewrite gpart_out.
have bigE (F : nat -> M) m z : homog m z -> (forall k, k != m -> F k = 0) -> (z = 0 -> F m = 0) ->
    \sum_(k < n.+1) F k = F m.
  move=> h hF h0; case: (leqP m n) => mn.
    rewrite (bigD1 (Ordinal (mn : (m < n.+1)%N))) //= big1 ?addr0 // => k km; apply: hF.
    by apply: contra km => /eqP e; apply/eqP/val_inj.
  by apply: (sum _ _ z) => //; apply: h0; exact: (out _ _ h).
rewrite (bigE (fun r => \sum_(s < n.+1) if f r s is Some k then gpart k ((gpart r x : C) * (gpart s y : C)) else 0) r x) //.
- rewrite (bigE (fun s => if f r s is Some k then gpart k ((gpart r x : C) * (gpart s y : C)) else 0) s y) //.
  + by rewrite hx hy.
  + by move=> k km; case: f => // l; rewrite (E k s) ?(negbTE km) // mulr0 raddf0.
  + by move=> y0; case: f => // l; rewrite y0 raddf0 mulr0 raddf0.
- by move=> k km; rewrite big1 // => l _; case: f => // m; rewrite (E k r) ?(negbTE km) // mul0r raddf0.
- by move=> x0; rewrite big1 // => l _; case: f => // m; rewrite x0 raddf0 mul0r raddf0.
Qed.
End Sel.

Lemma sel_left_gen i S : selprod mulC left_grade (bl R [set i]) (bl R S) = gcontr g i (bl R S).
Proof.
have h1 : homog 1 (bl R [set i]) by rewrite /homog gpart_bl cards1.
have hS : homog #|S| (bl R S) by rewrite /homog gpart_bl eqxx.
rewrite (sel_homog _ h1 hS) /left_grade; case: ifP => [S1|/negbT S0]; last first.
  have -> : S = set0 by apply: cards0_eq; move: S0; case: #|S|.
  by rewrite gcontr1.
rewrite -[(bl R [set i] : C)]/(cgen g i) cgen_mul /lmul raddfD /=.
rewrite (gpart_homog _ (gpart_low_gcontr i S1)) eqxx (gpart_homog _ (homog_wedge i S)).
by rewrite ifF ?add0r //; apply/negbTE; rewrite neq_ltn subn1 ltnS leq_pred.
Qed.
(* a*B = a<B + a^B *)
Lemma vec_mul u y : homog 1 u -> (u : C) * (y : C) = selprod mulC left_grade u y + ext u y.
Proof.
move=> /vec_decomp->; rewrite mulr_suml sel_suml (ext_suml two) -big_split; apply: eq_bigr => i _ /=.
rewrite [y]mval_decomp mulr_sumr sel_sumr (ext_sumr two) -big_split; apply: eq_bigr => S _ /=.
rewrite selZ selZr (extZl two) (extZr two) -scalerAl -scalerAr.
rewrite sel_left_gen -(wedge_opE two) -[(bl R [set i] : C)]/(cgen g i) cgen_mul /lmul addrC.
by rewrite !scalerA -scalerDr.
Qed.
Lemma hestenes_left u y r : homog 1 u -> homog r y -> (0 < r)%N ->
  selprod mulC hestenes_grade u y = selprod mulC left_grade u y.
Proof.
move=> hu hy r0; rewrite !(sel_homog _ hu hy) /hestenes_grade /left_grade r0 /=.
by rewrite (gtn_eqF r0) (maxn_idPr r0) (minn_idPl r0).
Qed.
Definition gform (x y : M) : R := \sum_i \sum_j x [set i] * y [set j] * g i j.
Lemma vec_dot u v : homog 1 u -> homog 1 v ->
  selprod mulC hestenes_grade u v = gform u v *: bl R set0.
Proof.
move=> hu hv; rewrite (hestenes_left hu hv) // {1}(vec_decomp hu) {1}(vec_decomp hv).
rewrite sel_suml /gform scaler_suml; apply: eq_bigr => i _.
rewrite sel_sumr scaler_suml; apply: eq_bigr => j _.
rewrite selZ selZr sel_left_gen gcontrE (bigD1 j) //= big1 ?addr0 => [|k kj].
  rewrite contr_op_bl /Cb inE eqxx (_ : nlt j [set j] = 0%N); last first.
    by apply/eqP; rewrite cards_eq0 -subset0; apply/subsetP => l; rewrite !inE => /andP[/eqP->]; rewrite ltnn.
  by rewrite expr0 scale1r setDv !scalerA.
by rewrite contr_op_bl /Cb inE (negbTE kj) scaler0.
Qed.

(* ---- the scalar part ---- *)
Definition high (m : nat) x := forall T, (#|T| < m)%N -> x T = 0.
Lemma high_add m x y : high m x -> high m y -> high m (x + y).
Proof. by move=> hx hy T h; rewrite !ffunE hx // hy // addr0. Qed.
Lemma high_scale m (c : R) x : high m x -> high m (c *: x).
Proof. by move=> hx T h; rewrite scale_coef hx // mulr0. Qed.
Lemma high_sum (J : Type) (r : seq J) (P : pred J) (F : J -> M) m :
  (forall k, P k -> high m (F k)) -> high m (\sum_(i <- r | P i) F i).
Proof. by move=> h T hT; rewrite sum_coef big1 // => i Pi; apply: h. Qed.
Lemma high_leq m k x : (m <= k)%N -> high k x -> high m x.
Proof. by move=> mk hx T h; apply: hx; apply: leq_trans mk. Qed.
Lemma high_wedge m i x : high m x -> high m (wedge_op i x).
Proof.
move=> hx T hT; rewrite [x]mval_decomp linear_sum sum_coef big1 // => S _.
rewrite linearZ /= scale_coef wedge_op_bl; case: (ltnP #|S| m) => mS; first by rewrite hx // mul0r.
rewrite /Wb; case: ifP => iS; first by rewrite ffunE mulr0.
rewrite scale_coef bl_coef; case: (T =P i |: S) => [E|_]; last by rewrite !mulr0.
by move: hT; rewrite E cardsU1 iS /= add1n ltnNge ltnW.
Qed.
Lemma high_contr m i x : high m.+1 x -> high m (contr_op i x).
Proof.
move=> hx T hT; rewrite [x]mval_decomp linear_sum sum_coef big1 // => S _.
rewrite linearZ /= scale_coef contr_op_bl; case: (ltnP #|S| m.+1) => mS; first by rewrite hx // mul0r.
rewrite /Cb; case: ifP => iS; last by rewrite ffunE mulr0.
rewrite scale_coef bl_coef; case: (T =P S :\ i) => [E|_]; last by rewrite !mulr0.
by move: mS; rewrite (cardsD1 i S) iS add1n ltnS leqNgt -E hT.
Qed.
Lemma high_lmul m i x : high m.+1 x -> high m (lmul g i x).
Proof.
move=> h; apply: high_add; first by apply: high_wedge; apply: high_leq h.
by rewrite gcontrE; apply: high_sum => j _; apply: high_scale; exact: high_contr.
Qed.
Lemma high_Op m w x : high (size w + m) x -> high m (Op g w x).
Proof.
elim: w m x => [|i w IH] m x h //=.
apply: high_scale; apply: high_add; first by apply: high_lmul; apply: IH; rewrite addnS.
by apply: high_scale; apply: IH; apply: high_lmul.
Qed.
Lemma high_bl S : high #|S| (bl R S).
Proof. by move=> T h; rewrite bl_coef; case: eqP h => // ->; rewrite ltnn. Qed.
Lemma scalar_bl_lt S T : (#|S| < #|T|)%N -> ((bl R S : C) * (bl R T : C) : M) set0 = 0.
Proof.
move=> h; rewrite mul_bl; have : high 1 (Op g (enum S) (bl R T)).
  by apply: high_Op; rewrite -cardE addn1; exact: (high_leq h (@high_bl T)).
by apply; rewrite cards0.
Qed.
Lemma mrev_set0 x : mrev x set0 = x set0.
Proof. by rewrite ffunE cards0 expr0 mul1r. Qed.
Lemma scalar_bl_neq S T : (#|S| != #|T|) -> ((bl R S : C) * (bl R T : C) : M) set0 = 0.
Proof.
rewrite neq_ltn => /orP[|h]; first exact: scalar_bl_lt.
rewrite -mrev_set0 mrevM !mrev_bl -scalerAl -scalerAr !scale_coef scalar_bl_lt //.
by rewrite !mulr0.
Qed.
(* <xy> = <yx> *)
Lemma scalar_bl_swap S T : ((bl R S : C) * (bl R T : C) : M) set0 = ((bl R T : C) * (bl R S : C) : M) set0.
Proof.
case: (#|S| =P #|T|) => [E|/eqP nE]; last by rewrite !scalar_bl_neq // eq_sym.
rewrite -mrev_set0 mrevM !mrev_bl -scalerAl -scalerAr !scale_coef E mulrA -exprD addnn -mul2n exprM.
by rewrite sqrrN expr1n expr1n mul1r.
Qed.
Lemma scalar_mul (x y : C) : (x * y : M) set0 = \sum_S \sum_T x S * (y T * ((bl R S : C) * (bl R T : C) : M) set0).
Proof.
rewrite {1}[x]mval_decomp mulr_suml sum_coef; apply: eq_bigr => S _.
rewrite {1}[y]mval_decomp mulr_sumr sum_coef; apply: eq_bigr => T _.
by rewrite -scalerAl -scalerAr !scale_coef.
Qed.
Lemma scalar_swap (x y : C) : (x * y : M) set0 = (y * x : M) set0.
Proof.
rewrite !scalar_mul exchange_big; apply: eq_bigr => T _; apply: eq_bigr => S _ /=.
by rewrite scalar_bl_swap mulrCA.
Qed.
End Vec.
