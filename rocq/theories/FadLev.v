(* FadLev.v -- the Faddeev-LeVerrier recursion for square matrices: the coefficients of
   the adjugate of X - A, and their traces. *)
From mathcomp Require Import all_ssreflect all_algebra.
Set Implicit Arguments.
Unset Strict Implicit.
Unset Printing Implicit Defensive.
Import GRing.Theory.
Local Open Scope ring_scope.

(* ---- the derivative of a determinant ---- *)
Section DerivDet.
Variable R : comRingType.
Lemma deriv_bigprod (I : finType) (F : I -> {poly R}) :
  (\prod_i F i)^`() = \sum_i \prod_j (if j == i then (F j)^`() else F j).
Proof.
have H (s : seq I) : uniq s ->
  (\prod_(i <- s) F i)^`() = \sum_(i <- s) \prod_(j <- s) (if j == i then (F j)^`() else F j).
  elim: s => [|i s IH] /=; first by rewrite !big_nil -[1]/(1%:P) derivC.
  case/andP => ns us; rewrite !big_cons derivM IH // eqxx; congr (_ * _ + _).
    by rewrite !big_seq; apply: eq_bigr => j js; case: eqP => // ji; rewrite -ji js in ns.
  rewrite mulr_sumr !big_seq; apply: eq_bigr => j js; rewrite big_cons; case: eqP => // ij.
  by rewrite ij js in ns.
by rewrite -!big_enum H ?enum_uniq //; apply: eq_bigr => i _; rewrite -big_enum.
Qed.
Lemma deriv_det m (M : 'M[{poly R}]_m) :
  (\det M)^`() = \sum_i \det (\matrix_(k, j) if k == i then (M k j)^`() else M k j).
Proof.
rewrite /determinant raddf_sum exchange_big /=; apply: eq_bigr => s _.
have sg (q : {poly R}) : ((-1) ^+ perm.odd_perm s * q)^`() = (-1) ^+ perm.odd_perm s * q^`().
  by case: (perm.odd_perm s); rewrite ?expr0 ?expr1 ?mul1r // !mulN1r derivN.
rewrite sg deriv_bigprod mulr_sumr; apply: eq_bigr => i _; congr (_ * _).
by apply: eq_bigr => j _; rewrite mxE.
Qed.
End DerivDet.

Section FL.
Variables (R : comRingType) (n : nat) (A : 'M[R]_n).
Notation X := (char_poly_mx A).
Notation p := (char_poly A).

Lemma deriv_char_poly : p^`() = \tr (\adj X).
Proof.
rewrite /char_poly deriv_det; apply: eq_bigr => i _.
rewrite (expand_det_row _ i) (bigD1 i) //= big1 ?addr0 => [|j ji]; last first.
  by rewrite !mxE eqxx derivB derivC subr0 eq_sym (negPf ji) mulr0n -[0]/(0%:P) derivC mul0r.
rewrite !mxE eqxx derivB derivC subr0 mulr1n derivX mul1r /cofactor; congr (_ * \det _).
by apply/matrixP => k l; rewrite !mxE eq_sym (negPf (neq_lift _ _)).
Qed.

Definition FLB k : 'M[R]_n := \matrix_(i, j) (\adj X i j)`_k.

Lemma FL_entry i j : 'X * \adj X i j - \sum_l (A i l)%:P * \adj X l j = p *+ (i == j).
Proof.
move: (mul_mx_adj X); rewrite -/p; move: (\adj X) => B /matrixP/(_ i j); rewrite !mxE => <-.
rewrite [RHS](eq_bigr (fun l => ('X *+ (i == l)) * B l j - (A i l)%:P * B l j)) => [|l _]; last first.
  by rewrite ?mxE mulrBl.
rewrite sumrB [Y in _ = Y - _](bigD1 i) //= eqxx mulr1n [Y in _ = _ + Y - _]big1 ?addr0 // => l li.
by rewrite eq_sym (negPf li) mulr0n mul0r.
Qed.
Lemma FL_coef k i j : (if k == 0%N then 0 else FLB k.-1 i j) - (A *m FLB k) i j = p`_k *+ (i == j).
Proof.
have /(congr1 (fun q : {poly R} => q`_k)) := FL_entry i j.
rewrite coefB coefXM coefMn coef_sum => <-; congr (_ - _).
  by case: eqP => // _; rewrite mxE.
by rewrite !mxE; apply: eq_bigr => l _; rewrite coefCM mxE.
Qed.
Lemma FL_rec k : FLB k = A *m FLB k.+1 + (p`_k.+1)%:M.
Proof.
apply/matrixP => i j; have /= e := FL_coef k.+1 i j.
by rewrite [RHS]mxE [Y in _ + Y]mxE -e addrC subrK.
Qed.
Lemma FL_last : A *m FLB 0 = - (p`_0)%:M.
Proof.
apply/matrixP => i j; have /= e := FL_coef 0%N i j.
by rewrite [RHS]mxE [Y in - Y]mxE -e sub0r opprK.
Qed.
Lemma FL_top k : (n <= k)%N -> FLB k = 0.
Proof.
pose b := \max_i \max_j size (\adj X i j).
have big q : (b <= q)%N -> FLB q = 0.
  move=> bq; apply/matrixP => i j; rewrite mxE [RHS]mxE nth_default //; apply: leq_trans bq.
  apply: leq_trans (leq_bigmax (F := fun z => \max_w size (\adj X z w)) i).
  exact: (leq_bigmax (F := fun w => size (\adj X i w)) j).
suff H d q : (n <= q)%N -> (b <= q + d)%N -> FLB q = 0 by move=> nk; apply: (H b); rewrite ?leq_addl.
elim: d q => [|d IH] q nq; first by rewrite addn0 => /big.
rewrite addnS -addSn => bq; rewrite FL_rec IH ?(leqW nq) // mulmx0 add0r.
by rewrite nth_default ?size_char_poly // raddf0.
Qed.
Lemma FL_tr k : \tr (FLB k) = p`_k.+1 *+ k.+1.
Proof.
rewrite -coef_deriv deriv_char_poly coef_sum; apply: eq_bigr => i _; by rewrite mxE.
Qed.

(* the recursion: U_1 = A, c_k = tr U_k / k, U_(k+1) = A (U_k - c_k) *)
Hypothesis tf : forall k (x : R), x *+ k.+1 = 0 -> x = 0.
Lemma FL_scalar (U : nat -> 'M[R]_n) (c : nat -> R) : (0 < n)%N -> U 1%N = A ->
  (forall k, (0 < k < n)%N -> c k *+ k = \tr (U k)) ->
  (forall k, (0 < k < n)%N -> U k.+1 = A *m (U k - (c k)%:M)) ->
  U n = - (p`_0)%:M.
Proof.
move=> n0 U1 ck Uk.
have pn : p`_n = 1.
  by have := char_poly_monic A; rewrite monicE lead_coefE size_char_poly => /eqP.
suff H k : (0 < k <= n)%N -> U k = A *m FLB (n - k).
  by rewrite (H n) ?n0 ?leqnn // subnn FL_last.
elim: k => // -[|k] IH.
  by move=> _; rewrite U1 subn1 FL_rec prednK // FL_top ?leqnn // mulmx0 add0r pn mulmx1.
case/andP => _ kn; have kn' : (0 < k.+1 < n)%N by [].
have e := IH (ltnW kn); rewrite Uk // e.
have nk : (n - k.+1 = (n - k.+2).+1)%N by rewrite -subSn.
suff -> : c k.+1 = - p`_(n - k.+1) by rewrite raddfN opprK nk -FL_rec.
apply/eqP; rewrite -addr_eq0; apply/eqP; apply: (tf (k := k)).
rewrite mulrnDl ck // e nk; have := FL_tr (n - k.+2); rewrite FL_rec raddfD /= mxtrace_scalar.
move/(canRL (addrK _)) => ->; rewrite -nk addrAC -mulrnDr subnK ?subrr //; exact: ltnW.
Qed.
End FL.
