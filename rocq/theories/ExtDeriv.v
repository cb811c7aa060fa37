(* ExtDeriv.v -- contraction is a graded derivation of the outer product, and a
   bivector whose outer square vanishes is an outer product of two vectors.
   Mathematical layer; nothing here models code. *)
From mathcomp Require Import all_ssreflect all_algebra.
From Verif Require Import NatTac AlgTactics Exterior Clifford Blades Spec_Grade Grades GradeLaws Det.
Set Implicit Arguments.
Unset Strict Implicit.
Unset Printing Implicit Defensive.
Import GRing.Theory.
Local Open Scope ring_scope.

Section Deriv.
Variables (R : comUnitRingType) (n : nat) (two : (2%:R : R) \is a GRing.unit).
Notation M := (mval R n).
Implicit Types (x y z u v B : M) (S T : {set 'I_n}) (i j : 'I_n).

Lemma contr_one i : contr_op i (bl R set0) = 0 :> M.
Proof. by rewrite contr_op_bl /Cb inE. Qed.
Lemma contr_ext_word i w y : contr_op i (ext (wword R w) y) =
  ext (contr_op i (wword R w)) y + ext (ginv (wword R w)) (contr_op i y).
Proof.
elim: w y => [|j w IH] y /=.
  by rewrite !(ext1l two) contr_one (ext0l two) add0r ginv_bl cards0 expr0 scale1r (ext1l two).
have cw z : contr_op i (wedge_op j z) = (j == i)%:R *: z - wedge_op j (contr_op i z).
  by rewrite -(wedge_contr j i z) addrAC subrr add0r.
rewrite -/(wword R w) cw ginv_wedge (extDl two) !(extNl two) (extZl two).
rewrite [in LHS](wedge_opE two) -(extA two) -(wedge_opE two) cw IH linearD /=.
rewrite !(wedge_opE two) !(extA two) opprD addrA; congr (_ + _).
Qed.
Theorem contr_ext i x y : contr_op i (ext x y) = ext (contr_op i x) y + ext (ginv x) (contr_op i y).
Proof.
move: x; apply: ext_lin => [c u v|c u v|S].
- by rewrite (extDl two) (extZl two) linearP.
- by rewrite !linearP /= !(extDl two) !(extZl two) scalerDr addrACA.
by rewrite -wword_enum contr_ext_word.
Qed.
Lemma homog_contr r i x : homog r.+1 x -> homog r (contr_op i x).
Proof.
move=> hx; rewrite (homog_sum hx) linear_sum; apply: homog_big => S /eqP cS.
rewrite linearZ /=; apply: homogZ; rewrite contr_op_bl /Cb; case: ifP => iS; last exact: homog0.
apply: homogZ; have <- : #|S :\ i| = r by apply/eqP; move: cS; rewrite (cardsD1 i S) iS add1n => -[->].
exact: homog_bl.
Qed.
Lemma nlt_self i : nlt i [set i] = 0%N.
Proof. by apply/eqP; rewrite cards_eq0; apply/eqP/setP => k; rewrite !inE; case: eqP => [->|] //=; rewrite ltnn. Qed.
Lemma contr_vec i u : homog 1 u -> contr_op i u = u [set i] *: bl R set0.
Proof.
move=> hu; rewrite {1}(vec_decomp hu) linear_sum (bigD1 i) //= big1 => [|j ji].
  by rewrite addr0 linearZ /= contr_op_bl /Cb inE eqxx setDv nlt_self expr0 scale1r.
by rewrite linearZ /= contr_op_bl /Cb inE eq_sym (negPf ji) scaler0.
Qed.
(* u_j * B = u ^ v with u, v the contractions of B *)
Theorem bivector_split B i j : homog 2 B -> ext B B = 0 ->
  (contr_op i B) [set j] *: B = ext (contr_op i B) (contr_op j B).
Proof.
move=> hB BB; set u := contr_op i B; have hu : homog 1 u by exact: homog_contr.
have gB : ginv B = B.
  by apply/ffunP => S; rewrite -hB !ffunE; case: eqP => [->|_]; rewrite ?mulr0 // sqrrN expr1n mul1r.
have gu : ginv u = - u.
  by apply/ffunP => S; rewrite -hu !ffunE; case: eqP => [->|_]; rewrite ?mulr0 ?oppr0 // expr1 mulN1r.
have uB : ext u B = 0.
  have := contr_ext i B B; rewrite BB linear0 gB (ext_swap hB hu) -/u sqrrN expr1n scale1r.
  by move/esym/(congr1 ( *:%R 2%:R^-1)); rewrite (halfV two) scaler0.
have := contr_ext j u B; rewrite uB linear0 gu (extNl two) (contr_vec j hu) (extZl two) (ext1l two).
by move/esym/eqP; rewrite subr_eq0 => /eqP.
Qed.
Lemma contr_coef i x T : i \notin T -> contr_op i x T = (-1) ^+ nlt i T * x (i |: T).
Proof.
move=> iT; rewrite {1}[x]mval_decomp linear_sum sum_coef (bigD1 (i |: T)) //= big1 => [|S nS].
  rewrite addr0 linearZ /= contr_op_bl /Cb setU11 scale_coef scale_coef setU1K // bl_coef eqxx mulr1 mulrC.
  by rewrite (nlt_del i (setU11 i T)) setU1K // ltnn addn0.
rewrite linearZ /= contr_op_bl /Cb scale_coef; case: ifP => iS; last by rewrite ffunE mulr0.
rewrite scale_coef bl_coef; case: eqP => [E|_]; last by rewrite !mulr0.
by case/eqP: nS; rewrite E setD1K.
Qed.
(* a non-zero bivector has a non-zero contraction coefficient *)
Lemma bivector_coef B : homog 2 B -> B != 0 -> exists i j, contr_op i B [set j] != 0.
Proof.
move=> hB B0; have [S BS] : exists S, B S != 0.
  apply/existsP; apply: contraR B0 => /existsPn h; apply/eqP/ffunP => S; rewrite ffunE.
  by apply/eqP; have := h S; rewrite negbK.
have c2 : #|S| == 2%N by apply: contraR BS => h; rewrite -hB ffunE (negPf h).
have /cards2P[i [j [ij ES]]] := c2; exists i, j.
rewrite contr_coef ?inE // -ES; apply: contra BS => /eqP /(congr1 ( *%R ((-1) ^+ nlt i [set j]))).
by rewrite mulr0 mulrA -exprMn mulrNN mulr1 expr1n mul1r => ->.
Qed.
End Deriv.
