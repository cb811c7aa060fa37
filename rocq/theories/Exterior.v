(* Exterior.v -- values of multivectors over n basis vectors.

   Independent mathematical layer: nothing here mentions the code.  A
   multivector value is a function from subsets of the basis indices (the
   basis blades) to scalars.  [wedge_op i] and [contr_op i] are the exterior
   multiplication by e_i and the contraction by the i-th coordinate form. *)
From mathcomp Require Import all_ssreflect all_algebra.
Set Implicit Arguments.
Unset Strict Implicit.
Unset Printing Implicit Defensive.
Import GRing.Theory.
Local Open Scope ring_scope.

Section Exterior.
Variables (R : comUnitRingType) (n : nat).

Definition mval := {ffun {set 'I_n} -> R}.
Canonical mval_eqType := Eval hnf in [eqType of mval].
Canonical mval_choiceType := Eval hnf in [choiceType of mval].
Canonical mval_zmodType := Eval hnf in [zmodType of mval].

Definition mscale (a : R) (x : mval) : mval := [ffun S => a * x S].
Fact mscaleA a b x : mscale a (mscale b x) = mscale (a * b) x.
Proof. by apply/ffunP=> S; rewrite !ffunE mulrA. Qed.
Fact mscale1 : left_id 1 mscale.
Proof. by move=> x; apply/ffunP=> S; rewrite !ffunE mul1r. Qed.
Fact mscaleDr : right_distributive mscale +%R.
Proof. by move=> a x y; apply/ffunP=> S; rewrite !ffunE mulrDr. Qed.
Fact mscaleDl x : {morph mscale^~ x : a b / a + b}.
Proof. by move=> a b; apply/ffunP=> S; rewrite !ffunE mulrDl. Qed.
Definition mval_lmodMixin := LmodMixin mscaleA mscale1 mscaleDr mscaleDl.
Canonical mval_lmodType := Eval hnf in LmodType R mval mval_lmodMixin.

Implicit Types (i j k : 'I_n) (S T : {set 'I_n}) (x y z : mval).

(* the basis blade with index set S *)
Definition bl (S : {set 'I_n}) : mval := [ffun T => (T == S)%:R].

(* linear extension of a map given on basis blades *)
Definition lin (f : {set 'I_n} -> mval) (x : mval) : mval :=
  \sum_S x S *: f S.

(* number of elements of S below i: sign exponent when e_i moves into S *)
Definition nlt (i : 'I_n) (S : {set 'I_n}) : nat := #|[set k in S | (k < i)%N]|.

Definition Wb (i : 'I_n) (S : {set 'I_n}) : mval :=
  if i \in S then 0 else (-1) ^+ nlt i S *: bl (i |: S).
Definition Cb (i : 'I_n) (S : {set 'I_n}) : mval :=
  if i \in S then (-1) ^+ nlt i S *: bl (S :\ i) else 0.

(* locked: unfolding them would defeat the canonical linear structures *)
Definition wedge_op i : mval -> mval := locked (lin (Wb i)).
Definition contr_op i : mval -> mval := locked (lin (Cb i)).

(* grade involution *)
Definition ginv (x : mval) : mval :=
  [ffun S : {set 'I_n} => (-1) ^+ #|S| * x S].

Lemma lin_is_linear f : linear (lin f).
Proof.
move=> a x y; rewrite /lin scaler_sumr -big_split; apply: eq_bigr => S _ /=.
by rewrite !ffunE scalerDl scalerA.
Qed.
Canonical lin_additive f := Additive (lin_is_linear f).
Canonical lin_linear f := Linear (lin_is_linear f).
Lemma wedge_op_is_linear i : linear (wedge_op i).
Proof. rewrite /wedge_op -lock; exact: lin_is_linear. Qed.
Canonical wedge_op_additive i := Additive (wedge_op_is_linear i).
Canonical wedge_op_linear i := Linear (wedge_op_is_linear i).
Lemma contr_op_is_linear i : linear (contr_op i).
Proof. rewrite /contr_op -lock; exact: lin_is_linear. Qed.
Canonical contr_op_additive i := Additive (contr_op_is_linear i).
Canonical contr_op_linear i := Linear (contr_op_is_linear i).

Lemma ginv_is_linear : linear ginv.
Proof.
move=> a x y; apply/ffunP => S; rewrite !ffunE mulrDr; congr (_ + _).
by rewrite mulrCA.
Qed.
Canonical ginv_additive := Additive ginv_is_linear.
Canonical ginv_linear := Linear ginv_is_linear.

Lemma scale_coef a x S : (a *: x) S = a * x S.
Proof. by rewrite ffunE. Qed.

Lemma sum_coef (I : Type) (r : seq I) (P : pred I) (F : I -> mval) S :
  (\sum_(i <- r | P i) F i) S = \sum_(i <- r | P i) F i S.
Proof. by elim/big_rec2: _ => [|i y x _ <-]; rewrite !ffunE. Qed.

Lemma bl_coef S T : bl S T = (T == S)%:R.
Proof. by rewrite ffunE. Qed.

Lemma mval_decomp (x : mval) : x = \sum_S x S *: bl S.
Proof.
apply/ffunP => T; rewrite sum_coef (bigD1 T) //= big1.
  by rewrite !ffunE eqxx addr0 mulr1.
by move=> S nST; rewrite !ffunE eq_sym (negbTE nST) mulr0.
Qed.

Lemma lin_bl f S : lin f (bl S) = f S.
Proof.
rewrite /lin (bigD1 S) //= big1 ?addr0 ?ffunE ?eqxx ?scale1r //.
by move=> T nTS; rewrite ffunE (negbTE nTS) scale0r.
Qed.

Lemma linear_ext (V : lmodType R) (f h : {linear mval -> V}) :
  (forall S, f (bl S) = h (bl S)) -> f =1 h.
Proof.
move=> fh x; rewrite (mval_decomp x) !linear_sum; apply: eq_bigr => S _.
by rewrite !linearZ fh.
Qed.

Lemma ext_lin (f h : mval -> mval) : linear f -> linear h ->
  (forall S, f (bl S) = h (bl S)) -> f =1 h.
Proof.
move=> lf lh fh; exact: (@linear_ext _ (Linear lf) (Linear lh) fh).
Qed.

Lemma wedge_op_bl i S : wedge_op i (bl S) = Wb i S.
Proof. rewrite /wedge_op -lock; exact: lin_bl. Qed.
Lemma contr_op_bl i S : contr_op i (bl S) = Cb i S.
Proof. rewrite /contr_op -lock; exact: lin_bl. Qed.

Lemma ginv_bl S : ginv (bl S) = (-1) ^+ #|S| *: bl S.
Proof.
apply/ffunP => T; rewrite !ffunE.
by case: eqP => [->|_]; rewrite ?mulr0.
Qed.

Lemma ginvK : involutive ginv.
Proof. by move=> x; apply/ffunP=> S; rewrite !ffunE mulrA -exprMn mulrNN mulr1 expr1n mul1r. Qed.

Lemma nlt_add i j S : i \notin S -> nlt j (i |: S) = (nlt j S + (i < j))%N.
Proof.
move=> iS; rewrite /nlt.
have [ij|ij] := boolP (i < j)%N; last first.
  rewrite addn0; apply: eq_card => k; rewrite !inE.
  by case: (k =P i) => [->|_] //=; rewrite (negbTE ij) andbF.
rewrite addn1 [in LHS](cardsD1 i) !inE eqxx ij /= add1n; congr _.+1.
apply: eq_card => k; rewrite !inE.
by case: (k =P i) => [->|_] //=; rewrite (negbTE iS).
Qed.

Lemma nlt_del i j S : i \in S -> nlt j S = (nlt j (S :\ i) + (i < j))%N.
Proof. by move=> iS; rewrite -nlt_add ?setD11 // setD1K. Qed.

Lemma nlt0 i : nlt i set0 = 0%N.
Proof. by rewrite /nlt; apply: eq_card0 => k; rewrite !inE. Qed.

Lemma sgn_eq (m p : nat) : odd m = odd p -> (-1) ^+ m = (-1) ^+ p :> R.
Proof. by move=> h; rewrite -signr_odd h signr_odd. Qed.

Lemma sgn_opp (m p : nat) : odd m = ~~ odd p -> (-1) ^+ m = - (-1) ^+ p :> R.
Proof. by move=> h; rewrite -signr_odd h signrN signr_odd. Qed.

Lemma ltn_neqb (i j : 'I_n) : i != j -> (i < j)%N = ~~ (j < i)%N.
Proof. by move=> nij; rewrite -leqNgt ltn_neqAle nij. Qed.

Lemma wedge_anti i j x :
  wedge_op i (wedge_op j x) = - wedge_op j (wedge_op i x).
Proof.
move: x; apply: ext_lin => [a x y|a x y|S]; first by rewrite !linearP.
  by rewrite !linearP.
rewrite !wedge_op_bl /Wb.
have [<-|nij] := eqVneq i j.
  case: ifP => iS; first by rewrite linear0 oppr0.
  by rewrite linearZ /= wedge_op_bl /Wb setU11 scaler0 oppr0.
case: ifP => jS; case: ifP => iS; rewrite ?linear0 ?oppr0 //.
- by rewrite linearZ /= wedge_op_bl /Wb !inE jS orbT scaler0 oppr0.
- by rewrite linearZ /= wedge_op_bl /Wb !inE iS orbT scaler0.
rewrite !linearZ /= !wedge_op_bl /Wb !inE iS jS (negbTE nij) eq_sym (negbTE nij) /=.
rewrite !nlt_add ?iS ?jS // ?scalerN !scalerA -!exprD setUCA -scaleNr.
congr (_ *: _); apply: sgn_opp;  rewrite !oddD !oddb (ltn_neqb nij).
by case: (odd _); case: (odd _); case: (_ < _)%N.
Qed.

Lemma contr_anti i j x :
  contr_op i (contr_op j x) = - contr_op j (contr_op i x).
Proof.
move: x; apply: ext_lin => [a x y|a x y|S]; first by rewrite !linearP.
  by rewrite !linearP.
rewrite !contr_op_bl /Cb.
have [<-|nij] := eqVneq i j.
  case: ifP => iS; last by rewrite linear0 oppr0.
  by rewrite linearZ /= contr_op_bl /Cb setD11 scaler0 oppr0.
case: ifP => jS; case: ifP => iS; rewrite ?linear0 ?oppr0 //.
- rewrite !linearZ /= !contr_op_bl /Cb !inE iS jS nij eq_sym nij /=.
  rewrite (nlt_del j iS) (nlt_del i jS) setDDl setUC -setDDl.
  rewrite ?scalerN !scalerA -!exprD -scaleNr.
  congr (_ *: _); apply: sgn_opp;  rewrite !oddD !oddb (ltn_neqb nij).
  by case: (odd _); case: (odd _); case: (_ < _)%N.
- by rewrite linearZ /= contr_op_bl /Cb !inE iS andbF scaler0.
- by rewrite linearZ /= contr_op_bl /Cb !inE jS andbF scaler0 oppr0.
Qed.

Lemma signrZK (m : nat) (v : mval) : (-1) ^+ m *: ((-1) ^+ m *: v) = v.
Proof. by rewrite scalerA -exprMn mulrNN mulr1 expr1n scale1r. Qed.

Lemma wedge_contr i j x :
  wedge_op i (contr_op j x) + contr_op j (wedge_op i x) = (i == j)%:R *: x.
Proof.
move: x; apply: ext_lin => [a x y|a x y|S].
- by rewrite !linearP scalerDr addrACA.
- by rewrite scalerDr !scalerA mulrC.
rewrite wedge_op_bl contr_op_bl /Wb /Cb.
have [<-|nij] := eqVneq i j.
  rewrite scale1r; case: ifP => iS; rewrite linear0 ?addr0 ?add0r.
    rewrite linearZ /= wedge_op_bl /Wb setD11 (nlt_del i iS) ltnn addn0.
    by rewrite setD1K // signrZK.
  rewrite linearZ /= contr_op_bl /Cb setU11 nlt_add ?iS // ltnn addn0.
  by rewrite setU1K ?iS // signrZK.
rewrite scale0r.
case: ifP => jS; case: ifP => iS; rewrite ?linear0 ?addr0 ?add0r ?scaler0 //.
- by rewrite linearZ /= wedge_op_bl /Wb !inE nij iS scaler0.
- rewrite !linearZ /= wedge_op_bl contr_op_bl /Wb /Cb !inE iS jS andbF orbT.
  rewrite nlt_add ?iS // (nlt_del i jS) !scalerA -!exprD.
  have -> : (i |: S) :\ j = i |: (S :\ j).
    by apply/setP=> k; rewrite !inE; case: (k =P i) => [->|_] //=; rewrite nij.
  rewrite -scalerDl [X in X + _](_ : _ = - (-1) ^+ (nlt i (S :\ j) + (j < i) + (nlt j S + (i < j)))).
    by rewrite addNr scale0r.
  apply: sgn_opp; rewrite !oddD !oddb (ltn_neqb nij).
  by case: (odd _); case: (odd _); case: (_ < _)%N.
- by rewrite linearZ /= contr_op_bl /Cb !inE eq_sym (negbTE nij) jS scaler0.
Qed.

Lemma ginv_wedge i x : ginv (wedge_op i x) = - wedge_op i (ginv x).
Proof.
move: x; apply: ext_lin => [a x y|a x y|S]; first by rewrite !linearP.
  by rewrite !linearP.
rewrite ginv_bl linearZ /= wedge_op_bl /Wb.
case: ifP => iS; first by rewrite linear0 scaler0 oppr0.
rewrite linearZ /= ginv_bl ?scalerN !scalerA -!exprD cardsU1 iS -scaleNr; congr (_ *: _).
by apply: sgn_opp; rewrite !oddD; case: (odd (nlt _ _)); case: (odd #|_|).
Qed.

Lemma ginv_contr i x : ginv (contr_op i x) = - contr_op i (ginv x).
Proof.
move: x; apply: ext_lin => [a x y|a x y|S]; first by rewrite !linearP.
  by rewrite !linearP.
rewrite ginv_bl linearZ /= contr_op_bl /Cb.
case: ifP => iS; last by rewrite linear0 scaler0 oppr0.
rewrite linearZ /= ginv_bl ?scalerN !scalerA -!exprD (cardsD1 i S) iS -scaleNr; congr (_ *: _).
by apply: sgn_opp; rewrite !oddD; case: (odd (nlt _ _)); case: (odd #|_|).
Qed.

End Exterior.
