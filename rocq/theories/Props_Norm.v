(* Props_Norm.v -- property C22, the norms: norm2 is the absolute value of the
   quadratic form, norm its root, mag2 the sum over the grades. *)
From mathcomp Require Import all_ssreflect all_algebra.
From Coq Require Import String.
From Verif Require Import NatTac AlgTactics Exterior Clifford Blades Spec_Grade Grades GradeLaws ContrLaws.
From Verif Require Import Spec_Index PyBase PyStr Ga_Model Ga_Proof_Tables Ga_Proof_Sort Ga_Proof_Sem Ga_Proof_Reduce.
From Verif Require Import Ga_Sem Ga_Proof_Rep Ga_Proof_Conv Ga_Proof_Mul Spec_Clifford Clifford_Unique Spec_Mv Ga_Proof_Den Ga_Proof_Wedge Ga_Proof_Inner.
From Verif Require Import Ga_Proof_Grade Mv_Model Mv_Proof Mv_Expr Mv_Proof_Expr Props_Mv.
From Verif Require Import PosDef Norm_Model Spec_Norm.
Set Implicit Arguments.
Unset Strict Implicit.
Unset Printing Implicit Defensive.
Import GRing.Theory Num.Theory Order.POrderTheory Order.TotalTheory.
Local Open Scope ring_scope.
Open Scope py_scope.

Section Root.
Variables (R : realFieldType) (a : ga R) (t : sign_tests R).
Hypothesis cor : correct a t.
Implicit Types (e q : R) (hint : string).

Lemma absP e hint : truthful hint e -> abs_with_hint t e hint = Some `|e|.
Proof.
rewrite /truthful /abs_with_hint; case: (is_num t e) => //.
case: ifP => [/(ge0_true cor) e0|_]; first by rewrite ger0_norm.
case: ifP => [/(le0_true cor) e0|_]; first by rewrite ler0_norm.
case: eqP => //= _; case: eqP => [-> /=|_ /=]; first by rewrite orbF => e0; rewrite ger0_norm.
by case: eqP => //= _ e0; rewrite ler0_norm.
Qed.
Lemma root_norm_sqr e : root t `|e| ^+ 2 = `|e|.
Proof. by rewrite (root_sqr cor). Qed.
Lemma root_loopP e hint coef pw : truthful hint e -> 
  coef ^+ 2 * `| \prod_(fn <- pw) fn.1 ^+ fn.2 | = `|e| ->
  exists2 r, root_loop t e hint coef pw = Some r & r ^+ 2 = `|e|.
Proof.
move=> he; elim: pw coef => [|[f n] pw IH] coef /=; first by rewrite big_nil normr1 mulr1; exists coef.
rewrite big_cons /= => E; rewrite (absP he) /=; case: eqP => n2 /=; last by exists (root t `|e|); rewrite ?root_norm_sqr.
apply: IH; rewrite -E normrM mulrA; congr (_ * _); rewrite exprMn; congr (_ * _).
by rewrite -exprM [in RHS](divn_eq n 2) n2 addn0 exprM normrX real_normK ?num_real.
Qed.
(* metric.square_root_of_expr: the square of the result is |expr| *)
Theorem C22_square_root e hint : truthful hint e ->
  exists2 r, square_root_of_expr t e hint = Some r & r ^+ 2 = `|e|.
Proof.
move=> he; rewrite /square_root_of_expr /root_number; case: ifP => _.
  by rewrite absP //=; exists (root t `|e|) => //; exact: root_norm_sqr.
have := sqf_product cor e; case: (sqf t e) => c pw /= E.
have [r rE r2] : exists2 r, root_coef t c = Some r & r ^+ 2 = `|c|.
  rewrite /root_coef; case: eqP => [->|_] /=; first by exists 1; rewrite // normr1 expr1n.
  by case: ifP => _; [rewrite /root_number absP //=|]; exists (root t `|c|) => //; exact: root_norm_sqr.
by rewrite rE /=; apply: root_loopP => //; rewrite r2 -normrM -E.
Qed.
End Root.

Section Props.
Variables (R : realFieldType) (a : ga R) (t : sign_tests R).
Hypothesis wf : wf_ga a.
(* the metric is given as a symmetric matrix *)
Hypothesis sym : forall i j, (i < ga_n a)%N -> (j < ga_n a)%N -> gij a i j = gij a j i.
Hypothesis cor : correct a t.
Implicit Types (p : py R) (X Y : mv R) (hint : string) (c : R).
Lemma real_two : (2%:R : R) \is a GRing.unit.
Proof. by rewrite unitfE Num.Theory.pnatr_eq0. Qed.
Let two := real_two.
Notation n := (ga_n a).
Notation C := (cl two a).
Notation g := (ga_metric two a).
Notation mvv := (mvv two a).
Let cm : mval R n -> mval R n -> mval R n := cmul g.
Let Hc : is_clifford_product (fun i j : 'I_n => geff a i j) cm := clifford_product_exists g.
Let VE X : mv_ok a X -> den cm (obj X) = mvv X. Proof. exact: den_ok. Qed.

Lemma geff_gij (i j : 'I_n) : geff a i j = gij a i j.
Proof. by rewrite /geff; case: (leqP i j) => // ij; rewrite sym. Qed.
Lemma qformE X : mv_valid a X -> blade_form a X -> mv_qform a X = Some (qf (g := g) (mvv X)).
Proof. by rewrite mv_validE => oX bX; rewrite (mv_qformP two wf oX bX). Qed.
Lemma pd_metric : positive_definite a -> 
  forall x : 'I_n -> R, (exists i, x i != 0) -> 0 < \sum_i \sum_j x i * x j * g i j.
Proof.
move=> pd x /pd; congr (_ < _); apply: eq_bigr => i _; apply: eq_bigr => j _; congr (_ * _).
by rewrite -geff_gij.
Qed.
(* in a positive definite metric the quadratic form is positive, and 0 only at 0 *)
Theorem C22_positive X : positive_definite a -> mv_valid a X -> blade_form a X ->
  exists q, [/\ mv_qform a X = Some q, 0 <= q & q = 0 -> run_eq a X (Num 0) = Some true].
Proof.
move=> pd hX bX; have [h1 h2] := qf_posdef (pd_metric pd) (mvv X).
exists (qf (g := g) (mvv X)); split=> //; first exact: qformE.
move=> /h2 e; have oX : mv_ok a X by rewrite -mv_validE.
by apply: (run_law two wf Hc) => //=; rewrite (VE oX) e /num scale0r.
Qed.
(* norm2 is the absolute value of the quadratic form *)
Theorem C22_norm2 X hint : mv_valid a X -> blade_form a X ->
  exists2 q, mv_qform a X = Some q & truthful hint q -> mv_norm2 t a X hint = Some `|q|.
Proof.
move=> hX bX; exists (qf (g := g) (mvv X)); first exact: qformE.
move=> hq; rewrite /mv_norm2 qformE //=; case: ifP => [/(posdef_true cor) pd|_]; last exact: (absP cor).
by have [h1 _] := qf_posdef (pd_metric pd) (mvv X); rewrite ger0_norm.
Qed.
(* norm is the nonnegative number whose square is norm2 *)
Theorem C22_norm X hint : mv_valid a X -> blade_form a X ->
  exists2 q, mv_qform a X = Some q & truthful hint q ->
    exists r, [/\ mv_norm t a X hint = Some r, 0 <= r & r ^+ 2 = `|q|].
Proof.
move=> hX bX; have [q qE n2E] := C22_norm2 hint hX bX; exists q => // /n2E {}n2E.
rewrite /mv_norm n2E /=; have tq : truthful "+" `|q| by rewrite /truthful /= normr_ge0.
have [r rE r2] := C22_square_root cor tq; rewrite rE normr_id /= in r2 * .
case: ifP => [/(ge0_true cor) r0|_]; first by exists r.
by exists `|r|; rewrite normr_ge0 real_normK ?num_real.
Qed.
(* a hint that is none of '0', '+', '-' raises, unless the sign is known *)
Theorem C22_hint_raises X hint : mv_valid a X -> blade_form a X -> hint \notin [:: "0"; "+"; "-"]%string ->
  exists2 q, mv_qform a X = Some q & 
    ~~ posdef t -> ~~ is_num t q -> ~~ ge0 t q -> ~~ le0 t q -> mv_norm2 t a X hint = None /\ mv_norm t a X hint = None.
Proof.
move=> hX bX; rewrite !inE !negb_or => /and3P[h1 h2 h3]; exists (qf (g := g) (mvv X)); first exact: qformE.
rewrite /mv_norm /mv_norm2 qformE //= /abs_with_hint.
by do 4!move/negPf ->; rewrite (negPf h1) (negPf h2) (negPf h3).
Qed.
(* the grades are orthogonal *)
Lemma bf_grades (x y : C) (r s : nat) : homog r x -> homog s y -> r != s -> ((mrev x : C) * y : mval R n) set0 = 0.
Proof.
move=> hx hy rs; rewrite scalar_mul big1 // => S _; rewrite big1 // => T _.
case: (#|S| =P r) => [cS|/eqP cS]; last by rewrite ffunE -hx ffunE (negPf cS) mulr0 mul0r.
case: (#|T| =P s) => [cT|/eqP cT]; last first.
  have -> : y T = 0 by rewrite -hy ffunE (negPf cT).
  by rewrite mul0r mulr0.
by rewrite scalar_bl_neq ?cS ?cT // !mulr0.
Qed.
Lemma qf_grades (x : C) : qf x = \sum_(r < n.+1) qf (gpart r x : C).
Proof.
rewrite /qf {1 2}[x]gpart_sum (linear_sum (Linear (@mrev_is_linear R n))) /= mulr_suml sum_coef.
apply: eq_bigr => r _; rewrite mulr_sumr sum_coef (bigD1 r) //= big1 ?addr0 // => s sr.
by apply: bf_grades (homog_gpart _ _) (homog_gpart _ _) _; rewrite eq_sym.
Qed.
Lemma gradeE X k : mv_valid a X -> blade_form a X -> exists Y, [/\ mv_grade a X k = Some Y, mv_valid a Y, blade_form a Y & mvv Y = gpart k (mvv X)].
Proof.
rewrite mv_validE => oX bX; have [Y E [oY vY bY]] := mv_gradeP two k true oX bX.
by exists Y; rewrite mv_validE oY; split=> //; exact: bY.
Qed.
(* the quadratic forms of the grade parts, one for each grade 0, ..., n *)
Definition grade_qforms X : option (seq R) :=
  omapM (fun k => LET x := mv_grade a X k IN mv_qform a x) (iota 0 n.+1).
(* mag2 is the sum of the absolute values of the quadratic forms of the grade
   parts; the quadratic form is their sum *)
Theorem C22_mag2 X : mv_valid a X -> blade_form a X ->
  exists2 qs, grade_qforms X = Some qs &
    mv_mag2 t a X = Some (\sum_(q <- qs) `|q|) /\ mv_qform a X = Some (\sum_(q <- qs) q).
Proof.
move=> hX bX; pose q k := qf (gpart k (mvv X) : C); exists [seq q k | k <- iota 0 n.+1].
  apply: Ga_Proof_Rep.omapM_some => k _; have [Y [-> hY bY vY]] := gradeE k hX bX.
  by rewrite /= qformE // vY.
split; last first.
  by rewrite qformE // qf_grades big_map -(big_mkord xpredT q) /index_iota subn0.
suff H ks m : mag2_loop t a X ks m = Some (m + \sum_(k <- ks) `|q k|) by rewrite /mv_mag2 H add0r big_map.
elim: ks m => [|k ks IH] m /=; first by rewrite big_nil addr0.
rewrite big_cons addrA -IH; have [Y [-> hY bY vY]] := gradeE k hX bX; rewrite /=.
have [q' q'E ->] := C22_norm2 "0" hY bY; last by [].
by move: q'E; rewrite qformE // vY => -[<-]; rewrite /= normr_id.
Qed.
(* mag is at least norm, and equal to it in a positive definite metric *)
Theorem C22_mag X hint : mv_valid a X -> blade_form a X ->
  exists2 q, mv_qform a X = Some q & truthful hint q ->
    exists r m, [/\ mv_norm t a X hint = Some r, mv_mag t a X = Some m, r <= m & positive_definite a -> r = m].
Proof.
move=> hX bX; have [q qE n1] := C22_norm hint hX bX; exists q => // /n1 [r [-> r0 r2]].
have [qs qsE [m2E]] := C22_mag2 hX bX; rewrite qE => -[qq].
exists r, (root t (\sum_(q <- qs) `|q|)); rewrite /mv_mag m2E /=.
have s0 : 0 <= \sum_(q <- qs) `|q| by apply: sumr_ge0 => z _; exact: normr_ge0.
have rs : r ^+ 2 <= root t (\sum_(q <- qs) `|q|) ^+ 2.
  by rewrite r2 (root_sqr cor s0) qq; exact: ler_norm_sum.
split=> //; first by rewrite -(ler_pexpn2r (n := 2)) // nnegrE // (root_ge0 cor).
move=> pd; apply/eqP; rewrite -(eqr_expn2 (n := 2)) // ?(root_ge0 cor) // r2 (root_sqr cor s0) qq.
have qpos z : z \in qs -> 0 <= z.
  move=> zs; have [k _ ->] : exists2 k, k \in iota 0 n.+1 & z = qf (gpart k (mvv X) : C).
    have : grade_qforms X = Some [seq qf (gpart k (mvv X) : C) | k <- iota 0 n.+1].
      apply: Ga_Proof_Rep.omapM_some => k _; have [Y [-> hY bY vY]] := gradeE k hX bX.
      by rewrite /= qformE // vY.
    by rewrite qsE => /Some_inj e; move: zs; rewrite e => /mapP[k kn ->]; exists k.
  by have [] := qf_posdef (pd_metric pd) (gpart k (mvv X)).
rewrite ger0_norm; last by rewrite big_seq; apply: sumr_ge0.
by apply/eqP; apply: eq_big_seq => z /qpos z0; rewrite ger0_norm.
Qed.
Lemma run_obj p : legal a p -> inblade a p ->
  exists Z, [/\ run a p = Some Z, mv_valid a Z, blade_form a Z & mvv Z = sem cm p].
Proof.
move=> lp bp; have [Z E [oZ vZ bZ]] := run_yields two wf Hc lp.
by exists Z; rewrite mv_validE oZ; split=> //; exact: bZ.
Qed.
Lemma normE X : mv_valid a X -> blade_form a X ->
  exists r, [/\ mv_norm t a X "0" = Some r, 0 <= r & r ^+ 2 = `|qf (g := g) (mvv X)|].
Proof.
move=> hX bX; have [q qE] := C22_norm "0" hX bX; move: qE; rewrite qformE // => -[<-].
by apply.
Qed.
Lemma sqr_inj (r s : R) : 0 <= r -> 0 <= s -> r ^+ 2 = s ^+ 2 -> r = s.
Proof. by move=> r0 s0 /eqP; rewrite eqr_expn2 // => /eqP. Qed.
(* the norm of a multiple *)
Theorem C22_norm_scale X c : mv_valid a X -> blade_form a X ->
  exists Y r, [/\ run a (c ##. X) = Some Y, mv_norm t a X "0" = Some r & mv_norm t a Y "0" = Some (`|c| * r)].
Proof.
move=> hX bX; have [Y [E hY bY vY]] := @run_obj (c ##. X) hX bX; exists Y.
have [r [rE r0 r2]] := normE hX bX; have [s [sE s0 s2]] := normE hY bY.
exists r; split=> //; rewrite sE; congr Some; apply: sqr_inj => //; first by rewrite mulr_ge0.
have oX : mv_ok a X by rewrite -mv_validE.
rewrite exprMn r2 s2 vY /= VE // /qf (linearZ_LR (Linear (@mrev_is_linear R n))) /= -scalerAl -scalerAr !scale_coef !normrM.
by rewrite mulrA expr2.
Qed.
(* the norm of a product with a versor on the left *)
Theorem C22_norm_product X Y k : mv_valid a X -> mv_valid a Y -> blade_form a X -> blade_form a Y ->
  run_eq a (Rev X *. X) (Num k) = Some true ->
  exists Z rx ry, [/\ run a (X *. Y) = Some Z, mv_norm t a X "0" = Some rx, mv_norm t a Y "0" = Some ry &
    mv_norm t a Z "0" = Some (rx * ry)].
Proof.
move=> hX hY bX bY e; have [qx [qy [qxE qyE qzE]]] := C22_multiplicative two wf hX hY bX bY e.
have lXY : legal a (X *. Y) by rewrite /= hX hY.
have bXY : inblade a (X *. Y) by [].
have [Z [E hZ bZ vZ]] := run_obj lXY bXY; exists Z.
move: qxE qyE qzE; rewrite /qform_of E /= !qformE // => -[qxE] [qyE] [qzE].
have [rx [rxE rx0 rx2]] := normE hX bX; have [ry [ryE ry0 ry2]] := normE hY bY; have [rz [rzE rz0 rz2]] := normE hZ bZ.
exists rx, ry; split=> //; rewrite rzE; congr Some; apply: sqr_inj => //; first by rewrite mulr_ge0.
by rewrite exprMn rx2 ry2 rz2 qzE normrM -qxE -qyE.
Qed.
(* Cauchy-Schwarz *)
Lemma cauchy (x y : C) : positive_definite a ->
  (((mrev x : C) * y : mval R n) set0) ^+ 2 <= qf (g := g) x * qf (g := g) y.
Proof.
move=> pd; have P := qf_posdef (pd_metric pd).
set b := _ set0.
have E (s : R) : qf (g := g) (x + s *: y) = qf (g := g) x + s * b *+ 2 + s ^+ 2 * qf (g := g) y.
  rewrite /qf mrevD (linearZ_LR (Linear (@mrev_is_linear R n))) /= mulrDr !mulrDl.
  rewrite -!scalerAl -!scalerAr !ffunE /= -/b.
  have -> : ((mrev y : C) * x : mval R n) set0 = b.
    by rewrite /b -mrev_set0 mrevM mrevK.
  by rewrite mulr2n mulrA -expr2 -!addrA.
have [qy0 qyz] := P y; have [qx0 _] := P x.
move: qy0; rewrite le_eqVlt eq_sym => /orP[/eqP e|qy0].
  have b0 : b = 0 by rewrite /b (qyz e) mulr0 ffunE.
  by rewrite e b0 mulr0 expr0n.
have [] := P (x + (- b / qf (g := g) y) *: y); rewrite E => h _.
rewrite -subr_ge0; move: (qf (g := g) x) (qf (g := g) y) qy0 h => u v v0; rewrite mulNr.
have -> : b = b / v * v by rewrite mulfVK // gt_eqF.
rewrite mulfK ?gt_eqF //; move: (b / v) => w h.
suff -> : u * v - (w * v) ^+ 2 = (u + (- w) * (w * v) *+ 2 + (- w) ^+ 2 * v) * v by rewrite mulr_ge0 // ltW.
rewrite -addrA mulrDl; congr (_ + _); rewrite sqrrN mulNr mulrA -expr2 mulr2n -addrA addNr addr0 mulNr.
by rewrite exprMn [v ^+ 2]expr2 mulrA.
Qed.
(* the triangle inequality, in a positive definite metric *)
Theorem C22_triangle X Y : positive_definite a -> mv_valid a X -> mv_valid a Y -> blade_form a X -> blade_form a Y ->
  exists Z rx ry rz, [/\ run a (X +. Y) = Some Z, mv_norm t a X "0" = Some rx, mv_norm t a Y "0" = Some ry,
    mv_norm t a Z "0" = Some rz & rz <= rx + ry].
Proof.
move=> pd hX hY bX bY.
have lXY : legal a (X +. Y) by rewrite /= hX hY.
have bXY : inblade a (X +. Y) by rewrite /=; move: bX bY; rewrite /blade_form => -> ->.
have [Z [E hZ bZ vZ]] := run_obj lXY bXY.
have [rx [rxE rx0 rx2]] := normE hX bX; have [ry [ryE ry0 ry2]] := normE hY bY; have [rz [rzE rz0 rz2]] := normE hZ bZ.
exists Z, rx, ry, rz; split=> //.
have oX : mv_ok a X by rewrite -mv_validE.
have oY : mv_ok a Y by rewrite -mv_validE.
have P := qf_posdef (pd_metric pd).
have qpos x : `|qf (g := g) x| = qf (g := g) x by rewrite ger0_norm //; have [] := P x.
rewrite !qpos in rx2 ry2 rz2.
have := cauchy (mvv X) (mvv Y) pd; set b := _ set0 => cs.
have E2 : qf (g := g) (mvv Z) = qf (g := g) (mvv X) + b *+ 2 + qf (g := g) (mvv Y).
  rewrite vZ /= !VE // /qf mrevD mulrDr !mulrDl !ffunE /= -/b.
  have -> : ((mrev (mvv Y) : C) * mvv X : mval R n) set0 = b by rewrite /b -mrev_set0 mrevM mrevK.
  by rewrite mulr2n -!addrA.
have bl : b <= rx * ry.
  apply: le_trans (ler_norm b) _; rewrite -(ler_pexpn2r (n := 2)) ?nnegrE ?mulr_ge0 //.
  by rewrite real_normK ?num_real // exprMn rx2 ry2.
rewrite -(ler_pexpn2r (n := 2)) ?nnegrE ?addr_ge0 // rz2 E2 sqrrD rx2 ry2 ler_add2r ler_add2l.
by rewrite ler_muln2r.
Qed.
End Props.

Print Assumptions C22_square_root.
Print Assumptions C22_positive.
Print Assumptions C22_norm2.
Print Assumptions C22_norm.
Print Assumptions C22_hint_raises.
Print Assumptions C22_mag2.
Print Assumptions C22_mag.
Print Assumptions C22_norm_scale.
Print Assumptions C22_norm_product.
Print Assumptions C22_triangle.
