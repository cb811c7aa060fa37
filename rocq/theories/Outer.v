(* Outer.v -- outermorphisms: the extension of a map of vectors to all
   multivectors that turns outer products into outer products.

   Independent mathematical layer: nothing here mentions the code. *)
From mathcomp Require Import all_ssreflect all_algebra.
From Verif Require Import NatTac AlgTactics Exterior Clifford Blades Spec_Grade Grades GradeLaws Det.
Set Implicit Arguments.
Unset Strict Implicit.
Unset Printing Implicit Defensive.
Import GRing.Theory.
Local Open Scope ring_scope.

Section Outer.
Variables (R : comUnitRingType) (two : (2%:R : R) \is a GRing.unit) (n : nat).
Notation M := (mval R n).
Implicit Types (x y z : M) (S T : {set 'I_n}) (v w : 'I_n -> M).

(* the outermorphism with e_i |-> v i *)
Definition om v x : M := \sum_S x S *: wedges [seq v i | i <- enum S].

Lemma om_is_linear v : linear (om v).
Proof.
move=> c x y; rewrite /om scaler_sumr -big_split; apply: eq_bigr => S _ /=.
by rewrite !ffunE scalerDl scalerA.
Qed.
Canonical om_additive v := Additive (om_is_linear v).
Canonical om_linear v := Linear (om_is_linear v).
Lemma om_bl v S : om v (bl R S) = wedges [seq v i | i <- enum S].
Proof.
rewrite /om (bigD1 S) //= big1 ?addr0 ?bl_coef ?eqxx ?scale1r //.
by move=> T nTS; rewrite bl_coef (negbTE nTS) scale0r.
Qed.
Lemma om_one v : om v (bl R set0) = bl R set0.
Proof. by rewrite om_bl enum_set0. Qed.
Lemma om_bvec v i : om v (bl R [set i]) = v i.
Proof. by rewrite om_bl enum_set1 /wedges /= (ext1r two). Qed.
Lemma om_vec v x : homog 1 x -> om v x = \sum_i x [set i] *: v i.
Proof.
move=> h; rewrite {1}(vec_decomp h) raddf_sum; apply: eq_bigr => i _ /=.
by rewrite linearZ /= om_bvec.
Qed.
Lemma eq_om v w : v =1 w -> om v =1 om w.
Proof. by move=> h x; apply: eq_bigr => S _; rewrite (eq_map h). Qed.

Lemma extl_is_linear x : linear (ext x).
Proof. by move=> c y z; rewrite (extDr two) (extZr two). Qed.
Definition extl x := Linear (extl_is_linear x).

Section Vec.
Variable v : 'I_n -> M.
Hypothesis hv : forall i, homog 1 (v i).
Let f i := extl (v i).
Lemma f_anti i j x : f i (f j x) = - f j (f i x).
Proof.
by rewrite /f /= !(extA two) (ext_swap (hv i) (hv j)) /= expr1 scaleN1r (extNl two).
Qed.
Lemma f_sq i x : f i (f i x) = 0.
Proof. by rewrite /f /= (extA two) (ext_vv two) ?hv // (ext0l two). Qed.
Lemma om_act : om v =1 act f (bl R set0).
Proof.
move=> x; apply: eq_bigr => S _; congr (_ *: _).
by elim: (enum S) => //= i s IH; rewrite /wedges /= -IH.
Qed.
Lemma om_wedge i y : om v (wedge_op i y) = ext (v i) (om v y).
Proof. by rewrite !om_act (act_wedge f_anti f_sq). Qed.
Lemma wword_ext (w : seq 'I_n) y : foldr (@wedge_op R n) y w = ext (wword R w) y.
Proof.
elim: w => [|i w IH] /=; first by rewrite (ext1l two).
by rewrite IH !(wedge_opE two) (extA two).
Qed.
Theorem om_ext x y : om v (ext x y) = ext (om v x) (om v y).
Proof.
have lin1 : linear (fun x => om v (ext x y)).
  by move=> c u u'; rewrite (extDl two) (extZl two) linearP.
have lin2 : linear (fun x => ext (om v x) (om v y)).
  by move=> c u u'; rewrite linearP (extDl two) (extZl two).
move: x; apply: (@ext_lin _ _ _ _ lin1 lin2) => S; rewrite -(wword_enum R S).
elim: (enum S) => [|i w IH] /=; first by rewrite /= (ext1l two) om_one (ext1l two).
rewrite om_wedge [in LHS](wedge_opE two) -(extA two) -(wedge_opE two) om_wedge IH.
by rewrite (extA two).
Qed.
Lemma wedges_homog (l : seq M) : (forall x, x \in l -> homog 1 x) -> homog (size l) (wedges l).
Proof.
elim: l => [|x l IH] h /=; first by rewrite -(cards0 [finType of 'I_n]); exact: homog_bl.
rewrite -add1n; apply: (homog_ext two); first by apply: h; rewrite mem_head.
by apply: IH => y yl; apply: h; rewrite inE yl orbT.
Qed.
Lemma om_homog r x : homog r x -> homog r (om v x).
Proof.
move=> h; rewrite (homog_sum h) raddf_sum; apply: homog_big => S /eqP cS /=.
rewrite linearZ /= om_bl; apply: homogZ.
have := @wedges_homog [seq v i | i <- enum S]; rewrite size_map -cardE cS; apply.
by move=> y /mapP[i _ ->].
Qed.
Lemma om_gpart r x : gpart r (om v x) = om v (gpart r x).
Proof.
move: x; apply: (@linear_ext _ _ _ [linear of @gpart R n r \o om v] [linear of om v \o @gpart R n r]) => S /=.
rewrite gpart_bl.
have h : gpart #|S| (om v (bl R S)) = om v (bl R S) := om_homog (homog_bl R S).
case: (altP (#|S| =P r)) => [<-//|ne].
by rewrite raddf0 -h gpart_gpart eq_sym (negbTE ne).
Qed.
End Vec.

(* uniqueness *)
Theorem om_uniq v (h : {linear M -> M}) : (forall i, homog 1 (v i)) ->
  h (bl R set0) = bl R set0 -> (forall x y, h (ext x y) = ext (h x) (h y)) -> (forall i, h (bl R [set i]) = v i) ->
  h =1 om v.
Proof.
move=> hv h1 hM he; apply: linear_ext => S; rewrite -(wword_enum R S).
elim: (enum S) => [|i w IH] /=; first by rewrite h1 om_one.
by rewrite om_wedge // -IH (wedge_opE two) hM he.
Qed.
Theorem om_comp v w x : (forall i, homog 1 (v i)) -> (forall i, homog 1 (w i)) ->
  om w (om v x) = om (fun i => om w (v i)) x.
Proof.
move=> hv hw; apply: (@om_uniq _ [linear of om w \o om v]) => /= [i|||i].
- exact: om_homog.
- by rewrite !om_one.
- by move=> y z; rewrite !om_ext.
- by rewrite om_bvec.
Qed.
Lemma om_id x : om (fun i => bl R [set i]) x = x.
Proof.
rewrite -[RHS]/([linear of @idfun M] x); symmetry; apply: om_uniq => //= i.
by have := homog_bl R [set i]; rewrite cards1.
Qed.
Theorem om_ps (A : 'M[R]_n) : om (fun j => \sum_i A i j *: bl R [set i]) (bl R setT) = \det A *: bl R setT.
Proof.
rewrite om_bl enum_setT -enumT -det_tr -(wedges_det two); congr wedges; apply: eq_map => i.
by apply: eq_bigr => j _; rewrite mxE.
Qed.
End Outer.
