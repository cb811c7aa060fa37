(* Clifford.v -- the Clifford algebra of a symmetric bilinear form, for every
   dimension, built on the exterior algebra by Chevalley's action.

   Independent mathematical layer: nothing here mentions the code. *)
From mathcomp Require Import all_ssreflect all_algebra.
From Verif Require Import Exterior AlgTactics.
Set Implicit Arguments.
Unset Strict Implicit.
Unset Printing Implicit Defensive.
Import GRing.Theory.
Local Open Scope ring_scope.

(* A metric: a symmetric matrix of scalars over a ring in which 2 is
   invertible. *)
Record cmetric (R : comUnitRingType) (n : nat) := CMetric {
  gram :> 'I_n -> 'I_n -> R;
  gram_sym : forall i j, gram i j = gram j i;
  two_unit : (2%:R : R) \is a GRing.unit }.

Section Action.
Variables (R : comUnitRingType) (n : nat) (g : cmetric R n).
Notation M := (mval R n).
Implicit Types (i j k : 'I_n) (S T : {set 'I_n}) (x y z : M) (w : seq 'I_n).

Lemma halfD (V : lmodType R) (v : V) : 2%:R^-1 *: (v + v) = v.
Proof. by rewrite -mulr2n -scaler_nat scalerA mulVr ?scale1r // (two_unit g). Qed.

(* contraction by the vector e_i: g(e_i, -) *)
Definition gcontr i x : M := locked (\sum_j g i j *: contr_op j x).
(* left and right multiplication by e_i *)
Definition lmul i x : M := wedge_op i x + gcontr i x.
Definition rmul i x : M := wedge_op i (ginv x) - gcontr i (ginv x).

Lemma gcontrE i x : gcontr i x = \sum_j g i j *: contr_op j x.
Proof. by rewrite /gcontr -lock. Qed.

Lemma gcontr_is_linear i : linear (gcontr i).
Proof.
move=> a x y; rewrite !gcontrE scaler_sumr -big_split; apply: eq_bigr => j _ /=.
by rewrite linearP scalerDr !scalerA mulrC.
Qed.
Canonical gcontr_additive i := Additive (gcontr_is_linear i).
Canonical gcontr_linear i := Linear (gcontr_is_linear i).

Lemma lmul_is_linear i : linear (lmul i).
Proof. by move=> a x y; rewrite /lmul !linearP scalerDr addrACA. Qed.
Canonical lmul_additive i := Additive (lmul_is_linear i).
Canonical lmul_linear i := Linear (lmul_is_linear i).

Lemma rmul_is_linear i : linear (rmul i).
Proof. by move=> a x y; rewrite /rmul !linearP scalerDr scalerN addrACA. Qed.
Canonical rmul_additive i := Additive (rmul_is_linear i).
Canonical rmul_linear i := Linear (rmul_is_linear i).

Lemma gcontr2 i j x : gcontr i (gcontr j x) =
  \sum_k \sum_l (g i k * g j l) *: contr_op k (contr_op l x).
Proof.
rewrite gcontrE; apply: eq_bigr => k _.
rewrite !gcontrE linear_sum scaler_sumr; apply: eq_bigr => l _.
by rewrite linearZ /= scalerA.
Qed.

Lemma gcontr_anti i j x : gcontr i (gcontr j x) = - gcontr j (gcontr i x).
Proof.
rewrite !gcontr2 exchange_big -sumrN; apply: eq_bigr => l _.
rewrite -sumrN; apply: eq_bigr => k _ /=.
by rewrite contr_anti scalerN mulrC.
Qed.

Lemma wedge_gcontr i j x : wedge_op i (gcontr j x) + gcontr j (wedge_op i x) = g j i *: x.
Proof.
rewrite !gcontrE linear_sum -big_split (bigD1 i) //= big1 => [|k nki].
  by rewrite linearZ /= -scalerDr wedge_contr eqxx scale1r addr0.
by rewrite linearZ /= -scalerDr wedge_contr eq_sym (negbTE nki) scale0r scaler0.
Qed.

Lemma ginv_gcontr i x : ginv (gcontr i x) = - gcontr i (ginv x).
Proof.
rewrite !gcontrE linear_sum -sumrN; apply: eq_bigr => j _.
by rewrite linearZ /= ginv_contr scalerN.
Qed.

Lemma lmul_anti i j x : lmul i (lmul j x) + lmul j (lmul i x) = (g i j *+ 2) *: x.
Proof.
have h1 := wedge_gcontr i j x; have h2 := wedge_gcontr j i x.
rewrite mulr2n scalerDl -{1}h2 (gram_sym g) -h1.
rewrite /lmul !linearD /= (wedge_anti i j) (gcontr_anti i j).
zmod.
Qed.

Lemma lrmul i j x : lmul i (rmul j x) = rmul j (lmul i x).
Proof.
have h1 := wedge_gcontr i j (ginv x); have h2 := wedge_gcontr j i (ginv x).
have E : wedge_op i (gcontr j (ginv x)) + gcontr j (wedge_op i (ginv x))
       = wedge_op j (gcontr i (ginv x)) + gcontr i (wedge_op j (ginv x)).
  by rewrite h1 h2 (gram_sym g).
have E' : gcontr i (wedge_op j (ginv x)) = wedge_op i (gcontr j (ginv x))
   + gcontr j (wedge_op i (ginv x)) - wedge_op j (gcontr i (ginv x)).
  by rewrite E; zmod.
rewrite /lmul /rmul !linearD /= !linearN /= ginv_wedge ginv_gcontr.
rewrite !linearN /= (wedge_anti i j) (gcontr_anti i j) E'; zmod.
Qed.

Local Notation one := (bl R (set0 : {set 'I_n})).

(* exterior product of the basis vectors listed in w *)
Definition wword w : M := foldr (@wedge_op R n) one w.

(* left multiplication by the blade e_w, through the recursion
   e_{i w} = 1/2 (e_i e_w + (-1)^{|w|} e_w e_i) *)
Fixpoint Op w y : M :=
  if w is i :: w' then
    2%:R^-1 *: (lmul i (Op w' y) + (-1) ^+ size w' *: Op w' (lmul i y))
  else y.

Lemma Op_is_linear w : linear (Op w).
Proof.
elim: w => [|i w IH] a x y //=; rewrite IH linearP [lmul i (_ + _)]linearP /= IH.
lmod R.
Qed.
Canonical Op_additive w := Additive (Op_is_linear w).
Canonical Op_linear w := Linear (Op_is_linear w).

Lemma Op_rmul w j y : Op w (rmul j y) = rmul j (Op w y).
Proof.
elim: w y => [|i w IH] y //=.
rewrite lrmul !IH lrmul [RHS]linearZ /=; congr (_ *: _).
by rewrite [RHS]linearD /=; congr (_ + _); rewrite [RHS]linearZ.
Qed.

Lemma gcontr1 i : gcontr i one = 0.
Proof. by rewrite gcontrE big1 // => j _; rewrite contr_op_bl /Cb inE scaler0. Qed.

Lemma ginv1 : ginv one = one.
Proof. by rewrite ginv_bl cards0 scale1r. Qed.

Lemma wedge1 i : wedge_op i one = bl R [set i].
Proof. by rewrite wedge_op_bl /Wb inE nlt0 scale1r setU0. Qed.

Lemma lmul1 i : lmul i one = bl R [set i].
Proof. by rewrite /lmul gcontr1 addr0 wedge1. Qed.
Lemma rmul1 i : rmul i one = bl R [set i].
Proof. by rewrite /rmul ginv1 gcontr1 subr0 wedge1. Qed.

Lemma ginv_wword w : ginv (wword w) = (-1) ^+ size w *: wword w.
Proof.
elim: w => [|i w IH] /=; first by rewrite ginv1 scale1r.
by rewrite ginv_wedge IH linearZ /= exprS mulN1r scaleNr.
Qed.

Lemma Op1 w : Op w one = wword w.
Proof.
elim: w => [|i w IH] //=.
rewrite lmul1 -rmul1 Op_rmul IH /lmul /rmul ginv_wword !linearZ /=.
rewrite (scalerDr ((-1) ^+ size w)) !signrZK -[RHS]halfD; congr (_ *: _); zmod.
Qed.

Lemma wword_sorted w : sorted (fun i j : 'I_n => (i < j)%N) w ->
  wword w = bl R [set k in w].
Proof.
elim: w => [|i w IH] /=; first by move=> _; congr bl; apply/setP=> k; rewrite !inE.
rewrite path_sortedE; last by move=> a b c; apply: ltn_trans.
case/andP => /allP hi /IH ->; rewrite wedge_op_bl /Wb inE.
case: ifP => [/hi|_]; first by rewrite ltnn.
have -> : nlt i [set k in w] = 0%N.
  by apply: eq_card0 => k; rewrite !inE; apply/negP => /andP[/hi/ltnW]; rewrite leqNgt => /negP.
by rewrite scale1r; congr bl; apply/setP=> k; rewrite !inE.
Qed.

Lemma enum_sorted S : sorted (fun i j : 'I_n => (i < j)%N) (enum S).
Proof.
rewrite /enum_mem -enumT; apply: (sorted_filter (leT := fun i j : 'I_n => (i < j)%N)).
  by move=> a b c; apply: ltn_trans.
by have := iota_ltn_sorted 0 n; rewrite -val_enum_ord sorted_map.
Qed.

Lemma wword_enum S : wword (enum S) = bl R S.
Proof. by rewrite wword_sorted ?enum_sorted //; congr bl; apply/setP=> k; rewrite inE mem_enum. Qed.

(* a linear map commuting with every right multiplication is determined by
   its value on 1 *)
Lemma rmul_ext (f h : M -> M) : linear f -> linear h ->
  (forall j x, f (rmul j x) = rmul j (f x)) ->
  (forall j x, h (rmul j x) = rmul j (h x)) ->
  f one = h one -> f =1 h.
Proof.
move=> lf lh cf ch e1; pose f' := Linear lf; pose h' := Linear lh.
apply: ext_lin => // S; move: {2}(#|S|) (leqnn #|S|) => m.
elim: m S => [|m IH] S; first by rewrite leqn0 cards_eq0 => /eqP ->.
have [->|[i iS]] := set_0Vmem S; first by [].
rewrite (cardsD1 i) iS add1n ltnS => cS.
set S' := S :\ i in cS.
have hW : wedge_op i (bl R S') = (-1) ^+ nlt i S' *: bl R S.
  by rewrite wedge_op_bl /Wb setD11 setD1K.
have hb : bl R S = (-1) ^+ nlt i S' *: ((-1) ^+ #|S'| *: rmul i (bl R S') + gcontr i (bl R S')).
  rewrite /rmul ginv_bl !linearZ /= (scalerDr ((-1) ^+ #|S'|)) !signrZK.
  by rewrite subrK hW signrZK.
have Zf a x : f (a *: x) = a *: f x by exact: (linearZ_LR f').
have Zh a x : h (a *: x) = a *: h x by exact: (linearZ_LR h').
have Df x y : f (x + y) = f x + f y by exact: (linearD f').
have Dh x y : h (x + y) = h x + h y by exact: (linearD h').
have Sf (F : 'I_n -> M) : f (\sum_k F k) = \sum_k f (F k) by exact: (linear_sum f').
have Sh (F : 'I_n -> M) : h (\sum_k F k) = \sum_k h (F k) by exact: (linear_sum h').
have Of : f 0 = 0 by exact: (linear0 f').
have Oh : h 0 = 0 by exact: (linear0 h').
have hg : f (gcontr i (bl R S')) = h (gcontr i (bl R S')).
  rewrite gcontrE Sf Sh; apply: eq_bigr => j _.
  rewrite /= Zf Zh contr_op_bl /Cb; congr (_ *: _).
  case: ifP => jS'; last by rewrite Of Oh.
  rewrite Zf Zh; congr (_ *: _).
  apply: IH; apply: leq_trans cS; rewrite [in X in (_ <= X)%N](cardsD1 j) jS' add1n.
  exact: leqnSn.
by rewrite hb !(Zf, Zh) !(Df, Dh) !(Zf, Zh) cf ch hg (IH _ cS).
Qed.

(* the geometric product *)
Definition cmul x y : M := \sum_(S : {set 'I_n}) x S *: Op (enum S) y.

Lemma cmul_linr x : linear (cmul x).
Proof.
move=> a y z; rewrite /cmul scaler_sumr -big_split; apply: eq_bigr => S _ /=.
by rewrite linearP scalerDr !scalerA mulrC.
Qed.
Lemma cmul_linl y : linear (cmul^~ y).
Proof.
move=> a x z; rewrite /cmul scaler_sumr -big_split; apply: eq_bigr => S _ /=.
by rewrite !ffunE scalerDl scalerA.
Qed.
Lemma cmul_bl S y : cmul (bl R S) y = Op (enum S) y.
Proof.
rewrite /cmul (bigD1 S) //= big1 ?addr0 ?ffunE ?eqxx ?scale1r //.
by move=> T nTS; rewrite ffunE (negbTE nTS) scale0r.
Qed.
Lemma cmul1x : left_id one cmul.
Proof. by move=> y; rewrite cmul_bl enum_set0. Qed.
Lemma cmulx1 : right_id one cmul.
Proof.
move=> x; rewrite {2}(mval_decomp x); apply: eq_bigr => S _.
by rewrite Op1 wword_enum.
Qed.
Lemma cmul_rmul x j y : cmul x (rmul j y) = rmul j (cmul x y).
Proof.
rewrite /cmul raddf_sum; apply: eq_bigr => S _ /=.
by rewrite linearZ /= Op_rmul.
Qed.
Lemma cmulA : associative cmul.
Proof.
move=> x y z; pose l1 := Linear (cmul_linr x); pose l2 := Linear (cmul_linr y).
apply: (@rmul_ext (fun z => cmul x (cmul y z)) (cmul (cmul x y))).
- by move=> a u v; rewrite (cmul_linr y) (cmul_linr x).
- exact: cmul_linr.
- by move=> j u; rewrite !cmul_rmul.
- by move=> j u; rewrite !cmul_rmul.
- by rewrite !cmulx1.
Qed.
Lemma cmulDl : left_distributive cmul +%R.
Proof. by move=> x y z; have := cmul_linl z 1 x y; rewrite !scale1r. Qed.
Lemma cmulDr : right_distributive cmul +%R.
Proof. by move=> x y z; have := cmul_linr x 1 y z; rewrite !scale1r. Qed.
Lemma one_neq0 : one != 0.
Proof. by apply/eqP => /ffunP/(_ set0)/eqP; rewrite !ffunE eqxx oner_eq0. Qed.
Lemma cmul_vec i y : cmul (bl R [set i]) y = lmul i y.
Proof. by rewrite cmul_bl enum_set1 /= scale1r halfD. Qed.
Lemma cmul_vecr i y : cmul y (bl R [set i]) = rmul i y.
Proof. by rewrite -rmul1 cmul_rmul cmulx1. Qed.

End Action.

(* the Clifford algebra of g; g is a phantom argument selecting the product *)
Definition clifford (R : comUnitRingType) (n : nat) (g : cmetric R n) := mval R n.

Section Structure.
Variables (R : comUnitRingType) (n : nat) (g : cmetric R n).
Local Notation clifford := (clifford g).
Canonical clifford_eqType := Eval hnf in [eqType of clifford].
Canonical clifford_choiceType := Eval hnf in [choiceType of clifford].
Canonical clifford_zmodType := Eval hnf in [zmodType of clifford].
Definition clifford_ringMixin :=
  RingMixin (cmulA g) (cmul1x g) (cmulx1 g) (cmulDl g) (cmulDr g) (one_neq0 R n).
Canonical clifford_ringType := Eval hnf in RingType clifford clifford_ringMixin.
Canonical clifford_lmodType := Eval hnf in [lmodType R of clifford].
Lemma cmul_scall (a : R) (x y : clifford) : a *: (x * y) = a *: x * y.
Proof.
have h := cmul_linl g y a x 0; rewrite /= addr0 in h.
have h0 : cmul g 0 y = 0 by exact: (mul0r (y : clifford_ringType)).
by rewrite h0 addr0 in h; symmetry.
Qed.
Canonical clifford_lalgType := Eval hnf in LalgType R clifford cmul_scall.
Lemma cmul_scalr (a : R) (x y : clifford) : a *: (x * y) = x * (a *: y).
Proof.
have h := cmul_linr g x a y 0; rewrite /= addr0 in h.
have h0 : cmul g x 0 = 0 by exact: (mulr0 (x : clifford_ringType)).
by rewrite h0 addr0 in h; symmetry.
Qed.
Canonical clifford_algType := Eval hnf in AlgType R clifford cmul_scalr.

End Structure.
