(* Grades.v -- grade filtration, outer product, involutions in the Clifford
   algebra.  Mathematical layer: nothing here mentions the code. *)
From mathcomp Require Import all_ssreflect all_algebra.
From Verif Require Import NatTac AlgTactics Exterior Clifford Blades Spec_Grade.
Set Implicit Arguments.
Unset Strict Implicit.
Unset Printing Implicit Defensive.
Import GRing.Theory.
Local Open Scope ring_scope.

Section Parts.
Variables (R : comUnitRingType) (n : nat).
Notation M := (mval R n).
Implicit Types (x y : M) (S T : {set 'I_n}).

Lemma gpart_is_linear r : linear (@gpart R n r).
Proof.
move=> c x y; apply/ffunP => S; rewrite !ffunE; case: ifP => _ //.
by rewrite mulr0 addr0.
Qed.
Canonical gpart_additive r := Additive (gpart_is_linear r).
Canonical gpart_linear r := Linear (gpart_is_linear r).
Lemma mrev_is_linear : linear (@mrev R n).
Proof. by move=> c x y; apply/ffunP => S; rewrite !ffunE mulrDr mulrCA. Qed.
Canonical mrev_additive := Additive mrev_is_linear.
Canonical mrev_linear := Linear mrev_is_linear.
Lemma minvolE x : minvol x = ginv x. Proof. by []. Qed.
Lemma meven_is_linear : linear (@meven R n).
Proof.
move=> c x y; apply/ffunP => S; rewrite !ffunE; case: ifP => _ //.
by rewrite mulr0 addr0.
Qed.
Canonical meven_additive := Additive meven_is_linear.
Canonical meven_linear := Linear meven_is_linear.
Lemma modd_is_linear : linear (@modd R n).
Proof.
move=> c x y; apply/ffunP => S; rewrite !ffunE; case: ifP => _ //.
by rewrite mulr0 addr0.
Qed.
Canonical modd_additive := Additive modd_is_linear.
Canonical modd_linear := Linear modd_is_linear.

Lemma gpart_bl r S : gpart r (bl R S) = if #|S| == r then bl R S else 0.
Proof.
apply/ffunP => T; rewrite !ffunE; case: (#|T| =P r) => [E|E].
  by case: ifP => h; rewrite ffunE //; case: eqP => // E'; rewrite -E E' eqxx in h.
case: ifP => h; rewrite ffunE //; case: eqP => // E'.
by case: E; rewrite E' (eqP h).
Qed.
Lemma gpart_gpart r s x : gpart r (gpart s x) = if r == s then gpart s x else 0.
Proof.
apply/ffunP => S; rewrite [LHS]ffunE; case: (r =P s) => [->|ne]; rewrite !ffunE.
  by case: ifP => // ->.
by case: eqP => // ->; case: eqP.
Qed.
Lemma gpart_sum x : x = \sum_(r < n.+1) gpart r x.
Proof.
apply/ffunP => S; rewrite sum_coef.
have h : (#|S| < n.+1)%N by rewrite ltnS -[X in (_ <= X)%N](card_ord n) max_card.
rewrite (bigD1 (Ordinal h)) //= ffunE eqxx big1 ?addr0 // => r ne.
by rewrite ffunE; case: eqP => // E; case/eqP: ne; apply: val_inj.
Qed.
Lemma gpart_out r x : (n < r)%N -> gpart r x = 0.
Proof.
move=> h; apply/ffunP => S; rewrite !ffunE; case: eqP => // E.
by move: h; rewrite -E ltnNge -[X in (_ <= X)%N](card_ord n) max_card.
Qed.
Lemma gpart_coef r x S : #|S| = r -> gpart r x S = x S.
Proof. by move=> h; rewrite ffunE h eqxx. Qed.

Lemma meven_odd x : x = meven x + modd x.
Proof. by apply/ffunP => S; rewrite !ffunE; case: ifP; rewrite ?add0r ?addr0. Qed.
Lemma minvol_eo x : minvol x = meven x - modd x.
Proof.
apply/ffunP => S; rewrite !ffunE -signr_odd; case: ifP; rewrite ?sub0r ?subr0 ?mulN1r //.
by rewrite expr0 mul1r.
Qed.
Lemma mrevK : involutive (@mrev R n).
Proof. by move=> x; apply/ffunP => S; rewrite !ffunE signrMK. Qed.
Lemma mrev_bl S : mrev (bl R S) = (-1) ^+ (#|S| * (#|S| - 1))./2 *: bl R S.
Proof.
apply/ffunP => T; rewrite !ffunE; case: eqP => [->|_] //; by rewrite !mulr0.
Qed.
Lemma gpart_mrev r x : gpart r (mrev x) = (-1) ^+ (r * (r - 1))./2 *: gpart r x.
Proof. by apply/ffunP => S; rewrite !ffunE; case: eqP => [->|_] //; rewrite mulr0. Qed.
Lemma mrev_gpart r x : mrev (gpart r x) = (-1) ^+ (r * (r - 1))./2 *: gpart r x.
Proof.
apply/ffunP => S; rewrite !ffunE; case: (#|S| =P r) => [->|_] //; by rewrite !mulr0.
Qed.
Lemma gpart_minvol r x : gpart r (minvol x) = (-1) ^+ r *: gpart r x.
Proof. by apply/ffunP => S; rewrite !ffunE; case: eqP => [->|_] //; rewrite mulr0. Qed.

(* only grades below m occur *)
Definition low (m : nat) x := forall T, (m <= #|T|)%N -> x T = 0.
Lemma low_add m x y : low m x -> low m y -> low m (x + y).
Proof. by move=> hx hy T h; rewrite !ffunE hx // hy // addr0. Qed.
Lemma low_scale m c x : low m x -> low m (c *: x).
Proof. by move=> hx T h; rewrite scale_coef hx // mulr0. Qed.
Lemma low_opp m x : low m x -> low m (- x).
Proof. by move=> hx T h; rewrite ffunE hx // oppr0. Qed.
Lemma low_leq m k x : (m <= k)%N -> low m x -> low k x.
Proof. by move=> mk hx T h; apply: hx; apply: leq_trans h. Qed.
Lemma low_sum (J : Type) (r : seq J) (P : pred J) (F : J -> M) m :
  (forall i, P i -> low m (F i)) -> low m (\sum_(i <- r | P i) F i).
Proof. by move=> h T hT; rewrite sum_coef big1 // => i Pi; apply: h. Qed.
Lemma low_bl S : low #|S|.+1 (bl R S).
Proof. by move=> T h; rewrite bl_coef; case: eqP h => // ->; rewrite ltnn. Qed.
Lemma low_gpart m r x : (r < m)%N -> low m (gpart r x).
Proof. by move=> rm T h; rewrite ffunE; case: eqP => // E; move: h; rewrite E leqNgt rm. Qed.
Lemma gpart_low m r x : low m x -> (m <= r)%N -> gpart r x = 0.
Proof. by move=> l mr; apply/ffunP => S; rewrite !ffunE; case: eqP => // E; rewrite l // E. Qed.
Lemma low_wedge m i x : low m x -> low m.+1 (wedge_op i x).
Proof.
move=> hx T hT; rewrite [x]mval_decomp linear_sum sum_coef big1 // => S _.
rewrite linearZ /= scale_coef wedge_op_bl; case: (leqP m #|S|) => mS.
  by rewrite hx // mul0r.
rewrite /Wb; case: ifP => iS; first by rewrite ffunE mulr0.
rewrite scale_coef bl_coef; case: eqP => [E|_]; last by rewrite !mulr0.
by move: hT; rewrite E cardsU1 iS /= add1n ltnS leqNgt mS.
Qed.
Lemma low_contr m i x : low m.+1 x -> low m (contr_op i x).
Proof.
move=> hx T hT; rewrite [x]mval_decomp linear_sum sum_coef big1 // => S _.
rewrite linearZ /= scale_coef contr_op_bl; case: (leqP m.+1 #|S|) => mS.
  by rewrite hx // mul0r.
rewrite /Cb; case: ifP => iS; last by rewrite ffunE mulr0.
rewrite scale_coef bl_coef; case: eqP => [E|_]; last by rewrite !mulr0.
by move: hT; rewrite E leqNgt -(ltn_add2l 1) add1n; move: mS; rewrite (cardsD1 i S) iS /= !add1n => ->.
Qed.
End Parts.

Section Cl.
Variables (R : comUnitRingType) (n : nat) (g : cmetric R n).
Notation C := (clifford g).
Notation M := (mval R n).
Implicit Types (x y : M) (S T : {set 'I_n}) (i j : 'I_n) (w : seq 'I_n).
Notation ltI := (fun i j : 'I_n => (i < j)%N).

Lemma low_gcontr m i x : low m.+1 x -> low m (gcontr g i x).
Proof.
move=> h; rewrite gcontrE; apply: low_sum => j _; apply: low_scale; exact: low_contr.
Qed.
Lemma low_lmul m i x : low m x -> low m.+1 (lmul g i x).
Proof.
move=> h; apply: low_add; first exact: low_wedge.
apply/(@low_leq _ _ m)/low_gcontr => //; exact: low_leq h.
Qed.
Lemma low_Op m w x : low m x -> low (size w + m) (Op g w x).
Proof.
elim: w m x => [|i w IH] m x h //=.
apply: low_scale; apply: low_add; first by apply: low_lmul; apply: IH.
by apply: low_scale; rewrite addSnnS; apply: IH; apply: low_lmul.
Qed.
Lemma mul_sum (x y : C) : x * y = \sum_S x S *: ((bl R S : C) * y).
Proof. by rewrite {1}[x]mval_decomp mulr_suml; apply: eq_bigr => S _; rewrite scalerAl. Qed.
Lemma mul_bl S (y : C) : (bl R S : C) * y = Op g (enum S) y.
Proof. exact: cmul_bl. Qed.
Lemma low_mul m k x y : low m.+1 x -> low k y -> low (m + k) ((x : C) * (y : C)).
Proof.
move=> hx hy; rewrite mul_sum; apply: low_sum => S _.
case: (leqP m.+1 #|S|) => h; first by rewrite hx // => T _; rewrite scale_coef mul0r.
rewrite mul_bl; apply: low_scale; apply: (@low_leq _ _ (size (enum S) + k)) => //; last exact: low_Op.
by rewrite -cardE leq_add2r.
Qed.
(* parity *)
Lemma ginv_lmul i x : ginv (lmul g i x) = - lmul g i (ginv x).
Proof. by rewrite /lmul raddfD /= ginv_wedge ginv_gcontr opprD. Qed.
Lemma ginv_Op w x : ginv (Op g w x) = (-1) ^+ size w *: Op g w (ginv x).
Proof.
elim: w x => [|i w IH] x /=; first by rewrite expr0 scale1r.
rewrite linearZ /= raddfD /= [ginv (_ *: _)]linearZ /= ginv_lmul IH IH ginv_lmul.
rewrite [lmul g i (_ *: _)]linearZ /= [Op g w (- _)]raddfN /= exprS.
by move: ((-1) ^+ size w) => s; lmod R.
Qed.
Lemma ginvM (x y : C) : ginv (x * y) = (ginv x : C) * (ginv y : C).
Proof.
rewrite mul_sum raddf_sum [RHS]mul_sum; apply: eq_bigr => S _ /=.
by rewrite linearZ /= !mul_bl ginv_Op -cardE scalerA !ffunE mulrC.
Qed.
(* reversion *)
Lemma half_step k : odd ((k.+1 * k)./2) = odd ((k * (k - 1))./2) (+) odd k.
Proof.
case: k => [|k] //; rewrite subn1 [k.+1.-1]/=.
have -> : (k.+2 * k.+1 = k.+1 * k + k.+1.*2)%N by rewrite -addnn; nlia.
by rewrite ssrnat.halfD odd_double andbF add0n doubleK oddD.
Qed.
Lemma mrev_wedge i x : mrev (wedge_op i x) = wedge_op i (ginv (mrev x)).
Proof.
rewrite [x]mval_decomp !linear_sum; apply: eq_bigr => S _ /=; rewrite !linearZ /=; congr (_ *: _).
rewrite wedge_op_bl mrev_bl !linearZ /= ginv_bl [wedge_op i (_ *: _)]linearZ /= wedge_op_bl /Wb.
case: ifP => iS; first by rewrite !scaler0 raddf0.
rewrite linearZ /= mrev_bl !scalerA cardsU1 iS add1n /= subn1 /=.
congr (_ *: _); rewrite -!exprD; apply: sgn_eq; rewrite !oddD half_step.
by case: (odd _); case: (odd _); case: (odd _).
Qed.
Lemma mrev_contr i x : mrev (contr_op i x) = - contr_op i (ginv (mrev x)).
Proof.
rewrite [x]mval_decomp !linear_sum; apply: eq_bigr => S _ /=; rewrite !linearZ /=; congr (_ *: _).
rewrite contr_op_bl mrev_bl !linearZ /= ginv_bl [contr_op i (_ *: _)]linearZ /= contr_op_bl /Cb.
case: ifP => iS; last by rewrite !scaler0 raddf0 oppr0 scaler0.
rewrite linearZ /= mrev_bl scalerN !scalerA -scaleNr.
have := cardsD1 i S; rewrite iS add1n => ->.
congr (_ *: _); rewrite -!exprD; apply: sgn_opp; rewrite !oddD [(#|_|.+1 - 1)%N]subn1 [_.+1.-1]/= half_step oddS.
by case: (odd _); case: (odd _); case: (odd _).
Qed.
Lemma mrev_gcontr i x : mrev (gcontr g i x) = - gcontr g i (ginv (mrev x)).
Proof.
rewrite !gcontrE raddf_sum -sumrN; apply: eq_bigr => j _ /=.
by rewrite linearZ /= mrev_contr scalerN.
Qed.
Lemma mrev_lmul i x : mrev (lmul g i x) = rmul g i (mrev x).
Proof. by rewrite /lmul /rmul raddfD /= mrev_wedge mrev_gcontr. Qed.
Lemma mrev_gen i (x : C) : mrev (cgen g i * x) = (mrev x : C) * cgen g i.
Proof. by rewrite cgen_mul cgen_mulr mrev_lmul. Qed.
Lemma mrev_cgen i : mrev (cgen g i) = cgen g i.
Proof. by rewrite /cgen mrev_bl cards1 /= expr0 scale1r. Qed.
Lemma mrev_cblade w (y : C) : mrev (cblade g w * y) = (mrev y : C) * (mrev (cblade g w) : C).
Proof.
rewrite /cblade; elim: w y => [|i w IH] y /=.
  by rewrite mul1r mrev_bl cards0 expr0 scale1r mulr1.
rewrite -scalerAl mulrDl -scalerAl !linearZ /= !raddfD /= !linearZ /= -!mulrA.
rewrite !mrev_gen !IH !mrev_gen mrev_cgen.
by move: ((-1) ^+ size w) (mrev _ : C) (mrev _ : C) (cgen g i) => s u v e; lalg R.
Qed.
Theorem mrevM (x y : C) : mrev (x * y) = (mrev y : C) * (mrev x : C).
Proof.
rewrite mul_sum raddf_sum {2}[x]mval_decomp raddf_sum mulr_sumr; apply: eq_bigr => S _ /=.
by rewrite !linearZ /= -scalerAr -(cblade_enum g) mrev_cblade.
Qed.
End Cl.

(* ------- the outer product is the Clifford product of the zero metric ------- *)
Section Ext.
Variables (R : comUnitRingType) (n : nat) (two : (2%:R : R) \is a GRing.unit).
Notation M := (mval R n).
Implicit Types (x y z : M) (S T : {set 'I_n}) (i j : 'I_n) (w : seq 'I_n).
Notation ltI := (fun i j : 'I_n => (i < j)%N).
Definition g0 : cmetric R n := @CMetric R n (fun _ _ => 0) (fun _ _ => erefl) two.
Notation E := (clifford g0).

Lemma lmul0 i x : lmul g0 i x = wedge_op i x.
Proof. by rewrite /lmul gcontrE big1 ?addr0 // => j _; rewrite scale0r. Qed.
Lemma foldr_wedge i w x : foldr (@wedge_op R n) (wedge_op i x) w =
  (-1) ^+ size w *: wedge_op i (foldr (@wedge_op R n) x w).
Proof.
elim: w => [|j w IH] /=; first by rewrite expr0 scale1r.
rewrite IH [wedge_op j (_ *: _)]linearZ /= wedge_anti exprS.
by move: ((-1) ^+ size w) => s; lmod R.
Qed.
Lemma Op0 w x : Op g0 w x = foldr (@wedge_op R n) x w.
Proof.
elim: w x => [|i w IH] x //=.
by rewrite !lmul0 !IH foldr_wedge signrZK halfV.
Qed.
Lemma cross_cons i S T : i \notin S -> cross (i |: S) T = (nlt i T + cross S T)%N.
Proof. by move=> h; rewrite /cross big_setU1. Qed.
Lemma foldr_wedge_bl w T : sorted ltI w ->
  foldr (@wedge_op R n) (bl R T) w = extb R [set k in w] T.
Proof.
elim: w => [|i w IH] so /=.
  rewrite /extb (_ : [set k in [::]] = set0); last by apply/setP => k; rewrite !inE.
  by rewrite disjoints_subset sub0set /cross big_set0 expr0 scale1r set0U.
have /= := so; rewrite path_sortedE; last exact: ltI_trans.
case/andP=> /allP iw so'; rewrite IH //.
have ni : i \notin [set k in w] by rewrite inE; apply/negP => /iw; rewrite ltnn.
rewrite (_ : [set k in i :: w] = i |: [set k in w]); last by apply/setP => k; rewrite !inE.
have -> : extb R (i |: [set k in w]) T = if [disjoint [set k in w] & T] && (i \notin T)
    then (-1) ^+ cross (i |: [set k in w]) T *: bl R ((i |: [set k in w]) :|: T) else 0.
  by rewrite /extb !disjoints_subset subUset sub1set inE andbC.
rewrite /extb cross_cons //; case: ifP => dis /=; last by rewrite raddf0.
rewrite linearZ /= wedge_op_bl /Wb in_setU (negbTE ni) /=; case: ifP => iT; rewrite ?scaler0 //=.
rewrite scalerA -exprD addnC setUA; congr ((-1) ^+ (_ + _) *: _).
apply: eq_card => k; rewrite !inE; case: (k \in w) (iw k) => //= /(_ isT) h.
by rewrite ltnNge ltnW // andbF.
Qed.
Lemma mul0_bl S T : (bl R S : E) * (bl R T : E) = extb R S T.
Proof.
rewrite mul_bl Op0 foldr_wedge_bl ?enum_sorted //; congr (extb _ _ _).
by apply/setP => k; rewrite inE mem_enum.
Qed.
Theorem extE x y : ext x y = (x : E) * (y : E).
Proof.
rewrite mul_sum /ext; apply: eq_bigr => S _; rewrite [X in _ * X]mval_decomp mulr_sumr scaler_sumr.
by apply: eq_bigr => T _; rewrite -scalerAr mul0_bl scalerA.
Qed.

(* the top grade part of the geometric product *)
Variable g : cmetric R n.
Notation C := (clifford g).
Lemma Op_top w k x : low k.+1 x -> low (size w + k) (Op g w x - Op g0 w x).
Proof.
elim: w k x => [|i w IH] k x h; first by rewrite /= subrr => T _; rewrite ffunE.
rewrite /= !lmul0.
have -> : forall (s t : R) (u u' v v' : M), s *: (u + t *: v) - s *: (u' + t *: v') =
   s *: ((u - u') + t *: (v - v')) by move=> s t u u' v v'; lmod R.
apply: low_scale; apply: low_add; last apply: low_scale.
  rewrite -(subrK (lmul g i (Op g0 w x)) (lmul g i (Op g w x))) -raddfB /= -addrA.
  apply: low_add; first by apply: low_lmul; apply: IH.
  rewrite /lmul addrAC subrr add0r; apply: (@low_leq _ _ (size w + k)); first by rewrite addSn.
  by apply: low_gcontr; rewrite -addnS; apply: low_Op.
rewrite {1}/lmul [Op g w _]raddfD /= addrAC; apply: low_add.
  by rewrite addSnnS; apply: IH; apply: low_wedge.
apply: (@low_leq _ _ (size w + k)); first by rewrite addSn.
by apply: low_Op; apply: low_gcontr.
Qed.
Lemma bl_top S T : gpart (#|S| + #|T|) ((bl R S : C) * (bl R T : C)) = extb R S T.
Proof.
rewrite mul_bl -(subrK (Op g0 (enum S) (bl R T)) (Op g _ _)) raddfD /=.
rewrite (@gpart_low _ _ (#|S| + #|T|)) //; last by rewrite {1}cardE; apply: Op_top; exact: low_bl.
rewrite add0r -mul_bl mul0_bl /extb; case: ifP => dis; last by rewrite raddf0.
by rewrite linearZ /= gpart_bl cardsU disjoint_setI0 // cards0 subn0 eqxx.
Qed.
Theorem ext_top r s x y : gpart (r + s) ((gpart r x : C) * (gpart s y : C)) = ext (gpart r x) (gpart s y).
Proof.
rewrite extE mul_sum [RHS]mul_sum raddf_sum; apply: eq_bigr => S _ /=.
rewrite linearZ /= ffunE; case: (#|S| =P r) => [rS|_]; last by rewrite !scale0r.
congr (_ *: _); rewrite [gpart s y]mval_decomp !mulr_sumr raddf_sum; apply: eq_bigr => T _ /=.
rewrite -!scalerAr linearZ /= ffunE; case: (#|T| =P s) => [sT|_]; last by rewrite !scale0r.
by rewrite -rS -sT bl_top mul0_bl.
Qed.
Theorem ext_selprod x y : ext x y = selprod (fun u v : C => u * v) outer_grade x y.
Proof.
rewrite /selprod /= {1}[x]gpart_sum extE mulr_suml; apply: eq_bigr => r _.
by rewrite {1}[y]gpart_sum mulr_sumr; apply: eq_bigr => s _; rewrite ext_top extE.
Qed.
End Ext.
