(* ContrLaws.v -- laws between the outer product and the contractions of a
   Clifford algebra:  (x^y)<z = x<(y<z),  (x>y)>z = x>(y^z),  (x<y)>z = x<(y>z). *)
From mathcomp Require Import all_ssreflect all_algebra.
From Verif Require Import AlgTactics Exterior Clifford Spec_Grade Grades GradeLaws.
Set Implicit Arguments.
Unset Strict Implicit.
Unset Printing Implicit Defensive.
Import GRing.Theory.
Local Open Scope ring_scope.

Section Contr.
Variables (R : comUnitRingType) (n : nat) (g : cmetric R n).
Notation M := (mval R n).
Notation C := (clifford g).
Let two := two_unit g.
Notation mulC := (fun u v : C => u * v).
Implicit Types (x y z : M).
Notation lc := (selprod mulC left_grade).
Notation rc := (selprod mulC right_grade).

Lemma high0 x : high 0 x. Proof. by []. Qed.
Lemma high_mul r s x y : low r.+1 x -> high s y -> high (s - r) ((x : C) * (y : C)).
Proof.
move=> lx hy; case: (leqP r s) => rs; last by rewrite (eqP (ltnW rs)).
rewrite mul_sum; apply: high_sum => S _.
case: (leqP #|S| r) => Sr; last by move=> T _; rewrite (lx _ Sr) scale_coef mul0r.
apply: high_scale; rewrite mul_bl; apply: high_Op; rewrite -cardE; apply: high_leq hy.
by rewrite -{2}(subnKC rs) leq_add2r.
Qed.
Lemma high_mulr r s x y : high s x -> low r.+1 y -> high (s - r) ((x : C) * (y : C)).
Proof.
have hr k z : high k z -> high k (mrev z) by move=> h T hT; rewrite ffunE h // mulr0.
have lr k z : low k z -> low k (mrev z) by move=> h T hT; rewrite ffunE h // mulr0.
move=> hx ly; have := high_mul (lr _ _ ly) (hr _ _ hx); rewrite -mrevM => /hr.
by rewrite mrevK.
Qed.
Lemma gpart_high r k x : high k x -> (r < k)%N -> gpart r x = 0.
Proof. by move=> h rk; apply/ffunP=> T; rewrite !ffunE; case: eqP => // e; rewrite h ?e. Qed.
Lemma homog_low r x : homog r x -> low r.+1 x.
Proof. by move=> <-; apply: low_gpart. Qed.
Lemma homog_high r x : homog r x -> high r x.
Proof. by move=> <- T hT; rewrite ffunE (ltn_eqF hT). Qed.
(* the parts of a product of homogeneous elements outside the extreme grade *)
Lemma above k x : high k x -> high k.+1 (x - gpart k x).
Proof.
move=> h T; rewrite ltnS leq_eqVlt !ffunE => /orP[/eqP e|lt]; first by rewrite e eqxx subrr.
by rewrite h // (ltn_eqF lt) subrr.
Qed.
Lemma below k x : low k.+1 x -> low k (x - gpart k x).
Proof.
move=> h T; rewrite leq_eqVlt !ffunE => /orP[/eqP <-|lt]; first by rewrite eqxx subrr.
by rewrite h // (gtn_eqF lt) subrr.
Qed.
Lemma cutB k x y : gpart k (x - y) = 0 -> gpart k x = gpart k y.
Proof. by move/eqP; rewrite linearB subr_eq0 => /eqP. Qed.
Lemma cmulBl (x y z : C) : (x * z - y * z : C) = (x - y) * z. Proof. by rewrite mulrBl. Qed.
Lemma cmulBr (x y z : C) : (x * y - x * z : C) = x * (y - z). Proof. by rewrite mulrBr. Qed.
(* products in which the last grade is the least possible *)
Lemma chain_l r s t x y z : homog r x -> homog s y -> homog t z -> (r + s <= t)%N ->
  gpart (t - (r + s)) ((ext x y : C) * (z : C)) = gpart (t - (r + s)) ((x : C) * (y : C) * (z : C)).
Proof.
move=> hx hy hz le; apply/esym/cutB; rewrite cmulBl.
have e : ext x y = gpart (r + s) ((x : C) * (y : C)) by rewrite -{1}hx -{1}hy -(ext_top two g) hx hy.
case: (posnP (r + s)) => [rs0|rs].
  have -> : (x : C) * (y : C) - ext x y = 0; last by rewrite mul0r linear0.
  have lo : low 1 ((x : C) * (y : C)).
    have := @low_mul _ _ g r s.+1 x y (homog_low hx) (homog_low hy); by rewrite addnS rs0.
  by have := below lo; rewrite -rs0 -e => h; apply/ffunP=> T; rewrite h ?ffunE // rs0.
have lo : low (r + s).-1.+1 ((x : C) * (y : C) - ext x y).
  rewrite prednK // e; apply: below; rewrite -addnS; exact: low_mul (homog_low hx) (homog_low hy).
apply: (gpart_high (high_mul lo (homog_high hz))).
by rewrite -(prednK rs) subnSK ?prednK.
Qed.
(* in a product only the least grade of the factor next to it counts *)
Lemma chain_hl r s x y : homog r x -> high s y -> (r <= s)%N ->
  gpart (s - r) ((x : C) * (gpart s y : C)) = gpart (s - r) ((x : C) * (y : C)).
Proof.
move=> hx hy le; apply/esym/cutB; rewrite cmulBr.
by apply: (gpart_high (high_mul (homog_low hx) (above hy))); rewrite subSn.
Qed.
Lemma chain_hr r s x y : high s x -> homog r y -> (r <= s)%N ->
  gpart (s - r) ((gpart s x : C) * (y : C)) = gpart (s - r) ((x : C) * (y : C)).
Proof.
move=> hx hy le; apply/esym/cutB; rewrite cmulBl.
by apply: (gpart_high (high_mulr (above hx) (homog_low hy))); rewrite subSn.
Qed.
Lemma homog_gpart r x : homog r (gpart r x). Proof. by rewrite /homog gpart_gpart eqxx. Qed.
Lemma tri_ext (f h : M -> M -> M -> M) :
  (forall x x' y z, f (x + x') y z = f x y z + f x' y z) -> (forall x y y' z, f x (y + y') z = f x y z + f x y' z) ->
  (forall x y z z', f x y (z + z') = f x y z + f x y z') ->
  (forall x x' y z, h (x + x') y z = h x y z + h x' y z) -> (forall x y y' z, h x (y + y') z = h x y z + h x y' z) ->
  (forall x y z z', h x y (z + z') = h x y z + h x y z') ->
  (forall r s t x y z, homog r x -> homog s y -> homog t z -> f x y z = h x y z) ->
  forall x y z, f x y z = h x y z.
Proof.
move=> f1 f2 f3 h1 h2 h3 e x y z.
have sum (F H : M -> M) : (forall u v, F (u + v) = F u + F v) -> (forall u v, H (u + v) = H u + H v) ->
    (forall r u, homog r u -> F u = H u) -> forall u, F u = H u.
  move=> FD HD E u; have Z (P : M -> M) : (forall u v, P (u + v) = P u + P v) -> P 0 = 0.
    by move=> PD; have := PD 0 0; rewrite addr0 => /eqP; rewrite eq_sym -subr_eq0 addrK => /eqP.
  rewrite [u]gpart_sum (big_morph F FD (Z _ FD)) (big_morph H HD (Z _ HD)).
  by apply: eq_bigr => r _; apply: (E r); exact: homog_gpart.
apply: (sum (fun x => f x y z) (fun x => h x y z)) => [u v|u v|r {}x hx]; rewrite ?f1 ?h1 //.
apply: (sum (fun y => f x y z) (fun y => h x y z)) => [u v|u v|s {}y hy]; rewrite ?f2 ?h2 //.
by apply: (sum (f x y) (h x y)) => [u v|u v|t {}z hz]; rewrite ?f3 ?h3 //; apply: (e r s t).
Qed.
Theorem lc_lc x y z : lc (ext x y) z = lc x (lc y z).
Proof.
pose f x y z := lc (ext x y) z; pose h x y z := lc x (lc y z).
rewrite -[LHS]/(f x y z) -[RHS]/(h x y z); move: x y z.
apply: tri_ext => [x x' y z|x y y' z|x y z z'|x x' y z|x y y' z|x y z z'|r s t x y z hx hy hz]; rewrite /f /h.
- by rewrite (extDl two) selD.
- by rewrite (extDr two) selD.
- by rewrite selDr.
- by rewrite selD.
- by rewrite selD selDr.
- by rewrite !selDr.
rewrite (sel_homog g left_grade (homog_ext two hx hy) hz) [lc y z](sel_homog g left_grade hy hz) /left_grade.
case: (leqP s t) => st; last by rewrite sel0r leqNgt (leq_trans st) ?leq_addl.
have hyz : high (t - s) ((y : C) * (z : C)) := high_mul (homog_low hy) (homog_high hz).
rewrite (sel_homog g left_grade hx (homog_gpart _ _)) /left_grade.
have -> : (r <= t - s)%N = (r + s <= t)%N by rewrite leq_subRL // addnC.
case: ifP => // le.
rewrite chain_l // [(r + s)%N]addnC subnDA chain_hl ?mulrA //.
by rewrite -(leq_add2r s) subnK.
Qed.
Lemma mrev_homog r x : homog r x -> homog r (mrev x).
Proof. by move=> h; rewrite /homog gpart_mrev -mrev_gpart h. Qed.
Lemma mrevD x y : mrev (x + y) = mrev x + mrev y. Proof. exact: (linearD (Linear (@mrev_is_linear R n))). Qed.
Lemma mrev_lc x y : mrev (lc x y) = rc (mrev y) (mrev x).
Proof.
pose f (x y u : M) := mrev (lc x y) ; pose h (x y u : M) := rc (mrev y) (mrev x).
suff : forall r s x y, homog r x -> homog s y -> mrev (lc x y) = rc (mrev y) (mrev x).
  move=> e; rewrite [x]gpart_sum [y]gpart_sum; rewrite !sel_suml !(big_morph (@mrev R n) mrevD (linear0 (Linear (@mrev_is_linear R n)))).
  rewrite sel_sumr; apply: eq_bigr => r _; rewrite sel_sumr sel_suml.
  rewrite !(big_morph (@mrev R n) mrevD (linear0 (Linear (@mrev_is_linear R n)))).
  by apply: eq_bigr => s _; apply: e; exact: homog_gpart.
move=> {x y} {}r s x y hx hy; rewrite (sel_homog g left_grade hx hy) (sel_homog g right_grade (mrev_homog hy) (mrev_homog hx)).
rewrite /left_grade /right_grade; case: ifP => // _; last exact: (linear0 (Linear (@mrev_is_linear R n))).
by rewrite mrev_gpart -gpart_mrev mrevM.
Qed.
Lemma mrev_ext x y : mrev (ext x y) = ext (mrev y) (mrev x).
Proof. by rewrite !(extE two) (@mrevM _ _ (g0 n two)). Qed.
Theorem rc_rc x y z : rc (rc x y) z = rc x (ext y z).
Proof.
apply: (can_inj (@mrevK R n)).
have e u v : mrev (rc u v) = lc (mrev v) (mrev u) by rewrite -[lc _ _](@mrevK R n) mrev_lc !mrevK.
by rewrite !e mrev_ext lc_lc.
Qed.
Theorem lc_rc x y z : rc (lc x y) z = lc x (rc y z).
Proof.
pose f x y z := rc (lc x y) z; pose h x y z := lc x (rc y z).
rewrite -[LHS]/(f x y z) -[RHS]/(h x y z); move: x y z.
apply: tri_ext => [x x' y z|x y y' z|x y z z'|x x' y z|x y y' z|x y z z'|r s t x y z hx hy hz]; rewrite /f /h.
- by rewrite !selD.
- by rewrite selDr selD.
- by rewrite selDr.
- by rewrite selD.
- by rewrite selD selDr.
- by rewrite !selDr.
rewrite (sel_homog g left_grade hx hy) (sel_homog g right_grade hy hz) /left_grade /right_grade.
have hxy : high (s - r) ((x : C) * (y : C)) := high_mul (homog_low hx) (homog_high hy).
have hyz : high (s - t) ((y : C) * (z : C)) := high_mulr (homog_high hy) (homog_low hz).
case: (leqP r s) => rs; case: (leqP t s) => ts.
- rewrite (sel_homog g right_grade (homog_gpart _ _) hz) (sel_homog g left_grade hx (homog_gpart _ _)) /left_grade /right_grade.
  have -> : (t <= s - r)%N = (r + t <= s)%N by rewrite leq_subRL.
  have -> : (r <= s - t)%N = (r + t <= s)%N by rewrite leq_subRL // addnC.
  case: ifP => // le.
  have l1 : (t <= s - r)%N by rewrite -(leq_add2r r) subnK // addnC.
  have l2 : (r <= s - t)%N by rewrite -(leq_add2r t) subnK.
  by rewrite chain_hr // chain_hl // subnAC mulrA.
- rewrite (sel_homog g right_grade (homog_gpart _ _) hz) /right_grade sel0r leqNgt.
  by rewrite (leq_ltn_trans (leq_subr _ _) ts).
- rewrite (sel_homog g left_grade hx (homog_gpart _ _)) /left_grade sel0 leqNgt.
  by rewrite (leq_ltn_trans (leq_subr _ _) rs).
by rewrite sel0 sel0r.
Qed.
End Contr.
