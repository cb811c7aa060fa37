(* Props_Calculus.v -- C65: gradient, divergence, curl and Laplacian in curvilinear coordinates. *)
From mathcomp Require Import all_ssreflect all_algebra.
From Verif Require Import NatTac AlgTactics Exterior Clifford Blades Spec_Grade Grades PyBase Spec_Index Ga_Model.
From Verif Require Import Ga_Sem Ga_Proof_Tables Ga_Proof_Sort Ga_Proof_Sem Ga_Proof_Reduce Ga_Proof_Rep Ga_Proof_Conv.
From Verif Require Import Ga_Proof_Mul Spec_Clifford Clifford_Unique Spec_Mv Ga_Proof_Den Ga_Proof_Wedge Ga_Proof_Inner Ga_Proof_Grade.
From Verif Require Import GradeLaws ContrLaws Det Outer Mv_Model Mv_Proof Mv_Expr Mv_Proof_Expr Props_Mv Dual_Model Dual_Proof Props_Dual.
From Verif Require Import Coef_Model Coef_Proof Props_Coef Props_Versor Metric_Model Props_Metric Spec_Diff Nabla Diff_Model Diff_Proof.
From Verif Require Import Props_Diff Lt_Model Spec_Lt Lt_Proof Props_Lt Mlt_Model Spec_Mlt Props_Mlt Spec_Cderiv Props_Cderiv.
From Verif Require Import Dop_Model Props_Dop Props_Dop_Cases Calculus Spec_Calculus.
Set Implicit Arguments.
Unset Strict Implicit.
Unset Printing Implicit Defensive.
Import GRing.Theory.
Local Open Scope ring_scope.
Open Scope py_scope.

Section Props.
Variables (R : comUnitRingType) (two : (2%:R : R) \is a GRing.unit) (me : metric_env R).
Notation D := (me_diff me).
Variables (coords : nat) (garg : garg R) (norm : bool) (m : metric R) (gsym : option R) (dga : diff_ga R).
Notation n := (m_n m).
Notation a := (metric_ga m).
Notation G := (mx n n (m_graw m)).
Notation C := (cl two a).
Notation mvv := (mvv two a).
(* as for C37 *)
Hypothesis par : partials D.
Hypotheses (mk : make_metric me n (Some coords) garg norm = Some m) (lec : (n <= coords)%N).
Hypotheses (sh : shape n n (m_graw m)) (sy : symmetric_mx G).
Hypothesis rooted : norm -> forall i : 'I_n, let x := G i i in me_root me x ^+ 2 = x \/ me_root me x ^+ 2 = - x.
Hypotheses (u : \det (metric_mx a) \is a GRing.unit) (gs : det_declared a gsym).
Hypothesis mkd : make_diff_ga me gsym m = Some dga.

Let der k : derivation (D k). Proof. by case: par. Qed.
Let u' : gmat a \in unitmx. Proof. by rewrite unitmxE. Qed.
Let wf : wf_ga a := m_wf mk sh.
Let con : [/\ dg_connect dga = [exists i : 'I_n, exists j : 'I_n, exists k : 'I_n, D k (G i j) != 0],
      dg_connect dga -> de_shape two m dga,
      forall ib j l : 'I_n, D ib (geff a j l) =
        \sum_k coef_of two dga ib j k * geff a k l + \sum_k coef_of two dga ib l k * geff a j k,
      dg_connect dga -> forall i j l : 'I_n, \sum_k cof two dga i j k * geff a l k = low me i j l &
      grad_ok two m (dg_grad dga)].
Proof. by have [d] := make_diffP two der mk lec sh sy u' gs rooted; rewrite mkd => -[<-]. Qed.
Let dok : dg_connect dga -> de_shape two m dga. Proof. by case: con. Qed.
Notation nab := (nab two me dga).
Notation gf := (gform (ga_metric two a)).
Notation opv := (opv (two := two) (m := m)).
Notation deriv := (deriv me m dga).
Notation gradient := (gradient me m dga).
Implicit Types (A X V W : mv R).

(* ---- the coordinate basis and the reciprocal vectors ---- *)
Definition Ev (i : 'I_n) : mval R n := norm_factor m i *: bl R [set i].
Definition rv (i : 'I_n) : mval R n := mvv (nth (mv_const a 0) (dg_grad dga) i).
Lemma hb (i : 'I_n) : homog 1 (bl R [set i] : mval R n).
Proof. by have := @homog_bl R n [set i]; rewrite cards1. Qed.
Lemma hEv i : homog 1 (Ev i). Proof. by apply: homogZ; exact: hb. Qed.
Lemma hrv i : homog 1 (rv i). Proof. by have [_ _ _ _ [_ gok]] := con; have [_ _ h _] := gok i. Qed.
Lemma nf_unit (i : 'I_n) : norm_factor m i \is a GRing.unit.
Proof. exact: (efac_unit mk sh i). Qed.
Lemma gf_blZ c (i : 'I_n) (x : mval R n) : gf (c *: bl R [set i]) x = c * gf (bl R [set i]) x.
Proof.
rewrite (@gform_expand R two a) (bigD1 i) //= big1 ?addr0 => [|q ql]; first by rewrite scale_coef bl_coef eqxx mulr1.
by rewrite scale_coef bl_coef (inj_eq set1_inj) (negbTE ql) mulr0 mul0r.
Qed.
Lemma dual_rv (i j : 'I_n) : gf (Ev j) (rv i) = (i == j)%:R.
Proof.
have [_ _ _ _ [_ gok]] := con; have [_ _ _ g] := gok i; rewrite gf_blZ (@gform_bl R two a) g eq_sym /nfac.
have := nf_unit j; rewrite /norm_factor; case: eqP => [->|_] uj; last by rewrite mul0r mulr0.
by case: (m_enorm m) uj => [N|] uj; rewrite mul1r ?mulr1 ?mulrV.
Qed.
Lemma nondeg (x : mval R n) : homog 1 x -> (forall j, gf (Ev j) x = 0) -> x = 0.
Proof.
move=> hx h; have e : gmat a *m (\col_i x [set i]) = 0.
  apply/matrixP=> i k; rewrite !mxE; have := h i; rewrite gf_blZ (@gform_bl R two a) => E.
  apply: (mulrI (nf_unit i)); rewrite mulr0 -[RHS]E; congr (_ * _); apply: eq_bigr => j _.
  by rewrite !mxE mulrC.
have {}e : \col_i x [set i] = 0 by rewrite -[LHS]mul1mx -(mulVmx u') -mulmxA e mulmx0.
rewrite (vec_decomp hx) big1 // => i _.
by have /matrixP/(_ i 0) := e; rewrite !mxE => ->; rewrite scale0r.
Qed.
Lemma Ev_val (j : 'I_n) : exists2 P, run a (E_ m j) = Some P & field m P /\ mvv P = Ev j.
Proof.
have [oj vj bj _] := @basis_ok R two a j.
have fj : field m (basis_mv R j) by rewrite /field mv_validE oj.
have [P Ep [fP vP]] := yields_field (yields_scale (norm_factor m j) (yields_val two fj)).
by exists P => //; rewrite vP vj.
Qed.
Lemma same_val p q v w : run_eq a p q = Some true -> @yields R two a true (run a p) v ->
  @yields R two a true (run a q) w -> v = w.
Proof.
move=> + [X E [oX vX _]] [Y F [oY vY _]]; rewrite /run_eq E F /= (mv_eqP two wf oX oY) => -[/eqP].
by rewrite vX vY.
Qed.
Lemma gamma (i j l : 'I_n) : gf (Ev l) (nab i (Ev j)) =
  2%:R^-1 * (D i (ment (m_graw m) j l) + D j (ment (m_graw m) i l) - D l (ment (m_graw m) i j)).
Proof.
have [P [P' [EP EP' E]]] := C37_basis two par mk lec sh sy rooted u gs mkd (ltn_ord i) (ltn_ord j) (ltn_ord l).
have [Q EQ [fQ vQ]] := Ev_val j; move: EQ; rewrite EP => -[?]; subst Q.
have [L EL [fL vL]] := Ev_val l.
have [Q EQ [fQ' vQ']] := yields_field (derivP two par mk lec sh sy rooted u gs mkd i fQ).
move: EQ; rewrite EP' => -[?]; subst Q.
have hn : homog 1 (nab i (Ev j)) by apply: (homog_nabla two (der _)); exact: hEv.
have y : @yields R two a true (run a (E_ m l ||. P')) (gf (Ev l) (nab i (Ev j)) *: bl R set0).
  have yl : @yields R two a true (run a (E_ m l)) (Ev l) by rewrite EL -vL; exact: yields_val.
  apply: yields_eq (yields_dop mk sh MDot yl (yields_val two fQ')) _; rewrite vQ' vQ.
  exact: (vec_dot (ga_metric two a) (hEv l) hn).
have := same_val E y (yields_num two m _) => /ffunP/(_ set0).
by rewrite !scale_coef bl_coef eqxx !mulr1.
Qed.
Lemma torsion (i j : 'I_n) : nab i (Ev j) = nab j (Ev i).
Proof.
have hn p q : homog 1 (nab p (Ev q)) by apply: (homog_nabla two (der _)); exact: hEv.
apply/eqP; rewrite -subr_eq0; apply/eqP; apply: nondeg => [|l]; first exact: homogB.
have -> (x y z : mval R n) : gf x (y - z) = gf x y - gf x z.
  by rewrite -scaleN1r gfDr gfZr mulN1r.
rewrite !gamma; have -> : ment (m_graw m) j i = ment (m_graw m) i j by exact: (symE sy).
by rewrite [D j _ + _]addrC subrr.
Qed.
(* the Gram matrix of the coordinate basis is the given matrix *)
Lemma gramE (i j : 'I_n) : gf (Ev i) (Ev j) = G i j.
Proof.
rewrite gf_blZ (@gform_bl R two a) (bigD1 j) //= big1 ?addr0 => [|q qj]; last first.
  by rewrite scale_coef bl_coef (inj_eq set1_inj) (negbTE qj) mulr0 mul0r.
rewrite scale_coef bl_coef eqxx mulr1 (geffE mk sh sy) mulrA mulrCA -/(norm_factor m i) -/(norm_factor m j) divrr ?mulr1 //.
by rewrite unitrM !nf_unit.
Qed.

(* ---- the operators on values ---- *)
Let comm (i j : 'I_n) f : D i (D j f) = D j (D i f). Proof. by case: par. Qed.
Let nD (i : 'I_n) x y : nab i (x + y) = nab i x + nab i y. Proof. exact: (nablaD two (der _)). Qed.
Let nZ (i : 'I_n) c x : nab i (c *: x) = D i c *: x + c *: nab i x. Proof. exact: (nablaZ two (der _)). Qed.
Let n1 (i : 'I_n) : nab i (bl R set0) = 0. Proof. exact: (nabla_one two (der _)). Qed.
Let nE (i : 'I_n) x y : nab i (ext x y) = ext (nab i x) y + ext x (nab i y). Proof. exact: (nabla_ext two (der _)). Qed.
Let nh (i : 'I_n) k x : homog k x -> homog k (nab i x). Proof. exact: (homog_nabla two (der _)). Qed.
Let gn (i : 'I_n) (x y : mval R n) : homog 1 x -> homog 1 y -> D i (gf x y) = gf (nab i x) y + gf x (nab i y).
Proof. exact: (gf_nab two par mk lec sh sy rooted u gs mkd i). Qed.
Let gsy (x y : mval R n) : gf x y = gf y x. Proof. exact: (gf_sym two (m := m)). Qed.
Let dd (i : 'I_n) : derivation (D i) := der i.
Notation ed := (ed (fun i => nab i) rv).
Notation edr := (edr (fun i => nab i) rv).
Lemma edd x : ed (ed x) = 0.
Proof. exact: (ed_ed two dd comm nD nZ n1 nE nh gn hEv hrv dual_rv torsion nondeg). Qed.
Lemma eddr x : edr (edr x) = 0.
Proof. exact: (edr_edr two dd comm nD nZ n1 nE nh gn hEv hrv dual_rv torsion nondeg). Qed.
Lemma gram_mx : \matrix_(i, j) gf (Ev i) (Ev j) = G.
Proof. by apply/matrixP=> i j; rewrite mxE gramE. Qed.
Lemma divE (x : mval R n) : homog 1 x ->
  \sum_(i < n) gf (rv i) (nab i x) = divergence_of D G (fun i => gf (rv i) x).
Proof.
move=> hx; rewrite (div_det two dd nD nZ gn gsy hEv hrv dual_rv torsion nondeg hx) /divergence_of -gram_mx.
by apply: eq_bigr => i _.
Qed.
Lemma invE (i j : 'I_n) : invmx G i j = gf (rv i) (rv j).
Proof. by rewrite -gram_mx (Gm_inv gsy hEv hrv dual_rv nondeg) mxE. Qed.
Lemma ed_funE f : ed (f *: bl R set0) = \sum_(j < n) D j f *: rv j.
Proof. exact: (ed_fun two rv nZ n1). Qed.
Lemma gf_grad f (i : 'I_n) : gf (rv i) (ed (f *: bl R set0)) = gradient_of D G f i.
Proof.
rewrite ed_funE /gradient_of.
by rewrite gf_sumr; apply: eq_bigr => j _; rewrite gfZr invE mulrC.
Qed.
Lemma alongE V (i : 'I_n) : vector a V -> along m V i = gf (rv i) (mvv V).
Proof.
move=> vV; have [_ _ _ hV] := vectorP two vV; rewrite /along -/(xcoef V i) (xcoefE two (a := a) i vV).
rewrite [in RHS](vec_decomp hV) gf_sumr (bigD1 i) //= big1 => [|j ji].
  have := dual_rv i i; rewrite eqxx gf_blZ gsy => E; rewrite addr0 gfZr.
  by congr (_ * _); apply: (mulrI (nf_unit i)); rewrite mulrV ?nf_unit.
rewrite gfZr gsy; have := dual_rv i j; rewrite eq_sym (negbTE ji) gf_blZ => E.
by rewrite (mulrI (nf_unit j) (etrans E (esym (mulr0 _)))) mulr0.
Qed.

(* ---- the calls ---- *)
Definition gradv (d : dmode) (left : bool) (x : mval R n) : mval R n :=
  \sum_(i < n) (if left then opv d (rv i) (nab i x) else opv d (nab i x) (rv i)).
Lemma gradP d left A : field m A -> @yields R two a true (gradient d left A) (gradv d left (mvv A)).
Proof.
move=> fA; have [_ _ _ _ [sg gok]] := con.
have dE (i : 'I_n) := derivP two par mk lec sh sy rooted u gs mkd i fA.
have gen (l : seq 'I_n) X st : clean m dga st -> mv_ok a X -> bladed a X ->
    @yields R two a true (pfold (fun s i => bnd (pDiff me m dga A i) (fun dA =>
       let r := nth (mv_const a 0) (dg_grad dga) i in
       lift (LET q := (if left then mv_op m d r dA else mv_op m d dA r) IN mv_add a s q))) [seq val i | i <- l] X st).2
     (mvv X + \sum_(i <- l) (if left then opv d (rv i) (nab i (mvv A)) else opv d (nab i (mvv A)) (rv i))).
  elim: l X st => [|i l IH] X st cs oX bX; first by rewrite big_nil addr0; exists X.
  have [Y EY [fY vY]] := yields_field (dE i); have [oY bY] := Props_Diff.fieldP fY.
  have [st' pE sm] := pDiff_runs me A i cs.
  have {}pE : pDiff me m dga A i st = (st', Some Y).
    by rewrite pE -EY /Props_Diff.deriv; have [st2 -> _] := pDiff_runs me A i (clean_init m dga).
  have [o b h _] := gok i.
  have [Q EQ [oQ vQ bQ]] : @yields R two a true (if left then mv_op m d (nth (mv_const a 0) (dg_grad dga) i) Y
       else mv_op m d Y (nth (mv_const a 0) (dg_grad dga) i))
     (if left then opv d (rv i) (nab i (mvv A)) else opv d (nab i (mvv A)) (rv i)).
    by case: (left); rewrite -vY; apply: (mv_opP two mk sh).
  have [Z EZ [oZ vZ bZ]] := mv_addP two wf oX oQ.
  rewrite big_cons addrA -vQ -vZ /= /bnd pE /= EQ /= EZ /=; apply: IH => //.
    exact: clean_same cs sm.
  by apply: bZ; rewrite bX.
have [oc vc bc] := @const_ok R two a 0.
have := gen (enum 'I_n) (mv_const a 0) (ds_init dga) (clean_init m dga) oc bc.
by rewrite val_enum_ord vc /scal scale0r add0r big_enum.
Qed.
Lemma gradv_ext x : gradv MWedge true x = ed x. Proof. by []. Qed.
Lemma gradv_extr x : gradv MWedge false x = edr x. Proof. by []. Qed.
Lemma gradv_dot left x : homog 1 x -> gradv MDot left x = divergence_of D G (fun i => gf (rv i) x) *: bl R set0.
Proof.
move=> hx; rewrite -(divE hx) scaler_suml; apply: eq_bigr => i _; have hn := nh i hx.
case: left; first exact: (vec_dot (ga_metric two a) (hrv i) hn).
by rewrite gsy; exact: (vec_dot (ga_metric two a) hn (hrv i)).
Qed.
(* the product by a vector on the right *)
Lemma vec_mulr_rc (x v : mval R n) : homog 1 v ->
  ((x : C) * (v : C) = selprod (fun u v : C => u * v) right_grade x v + ext x v :> C)%R.
Proof.
move=> hv; have hv' : homog 1 (mrev v) by exact: mrev_homog.
have := vec_mul (ga_metric two a) (mrev x) hv' => /(congr1 (@mrev R n)).
by rewrite mrevM mrevD mrev_lc (mrev_ext (ga_metric two a)) !mrevK.
Qed.
Lemma gradv_mul x : gradv MMul true x = gradv MLt true x + gradv MWedge true x.
Proof.
rewrite /gradv -big_split; apply: eq_bigr => i _; exact: (vec_mul (ga_metric two a) _ (hrv i)).
Qed.
Lemma gradv_mulr x : gradv MMul false x = gradv MGt false x + gradv MWedge false x.
Proof.
rewrite /gradv -big_split; apply: eq_bigr => i _; exact: vec_mulr_rc (hrv i).
Qed.
Lemma gradv_fun left f : gradv MMul left (f *: bl R set0) = ed (f *: bl R set0).
Proof.
rewrite ed_funE; apply: eq_bigr => i _; rewrite nZ n1 scaler0 addr0.
case: left; rewrite /Props_Diff.opv.
  by rewrite -scalerAr -[bl R set0]/(1 : C) mulr1.
by rewrite -scalerAl -[bl R set0]/(1 : C) mul1r.
Qed.

Lemma gradv_vec left x : homog 1 x -> gradv MMul left x = gradv MDot left x + gradv MWedge left x.
Proof.
move=> hx; rewrite /gradv -big_split; apply: eq_bigr => i _; have hn := nh i hx.
have e (v w : mval R n) : homog 1 v -> homog 1 w -> opv MMul v w = opv MDot v w + opv MWedge v w.
  by move=> hv hw; rewrite /Props_Diff.opv (vec_mul (ga_metric two a) w hv) (hestenes_left (ga_metric two a) hv hw).
by case: left => /=; apply: e => //; exact: hrv.
Qed.
Lemma curl_grad left f : gradv MWedge left (ed (f *: bl R set0)) = 0.
Proof.
case: left; first by rewrite gradv_ext edd.
have h0 : homog 0 (f *: bl R set0 : mval R n) by apply: homogZ; have := @homog_bl R n set0; rewrite cards0.
have := edr_homog (nab := fun i => nab i) (r := rv) nh hrv h0; rewrite expr0 scale1r => <-.
by rewrite gradv_extr eddr.
Qed.
Lemma const_val f : field m (mv_const a f) /\ mvv (mv_const a f) = f *: bl R set0.
Proof. by have [o v b] := @const_ok R two a f; rewrite /field mv_validE o. Qed.
Lemma ed_vec f : homog 1 (ed (f *: bl R set0)).
Proof. by rewrite ed_funE; apply: homog_big => i _; apply: homogZ; exact: hrv. Qed.
(* grad f and f grad of a function f: a vector with the components g^ij d_j f *)
Theorem C65_gradient left f : exists2 W, gradient MMul left (mv_const a f) = Some W &
  vector a W /\ forall i : 'I_n, along m W i = gradient_of D G f i.
Proof.
have [fc vc] := const_val f; have [W EW [fW vW]] := yields_field (gradP MMul left fc).
have {}vW : mvv W = ed (f *: bl R set0) by rewrite vW vc gradv_fun.
have vec : vector a W by apply: field_vector => //; rewrite vW; exact: ed_vec.
by exists W => //; split=> // i; rewrite (alongE i vec) vW gf_grad.
Qed.
(* grad|V and V|grad of a vector field *)
Theorem C65_divergence left V : vector a V -> exists2 s, gradient MDot left V = Some s &
  run_eq a s (Num (divergence_of D G (along m V))) = Some true.
Proof.
move=> vV; have [oV bV lV hV] := vectorP two vV; have fV : field m V := vector_field vV.
have [s Es [fs vs]] := yields_field (gradP MDot left fV); exists s => //.
apply: (yields_same mk sh (yields_val two fs)); apply: yields_eq (yields_num two m _) _.
rewrite vs (gradv_dot left hV); congr (_ *: _); apply: eq_bigr => i _.
by rewrite !(alongE i vV).
Qed.
(* grad|(grad f) and grad*(grad f), in every order: the Laplacian *)
Theorem C65_laplacian left left' f : exists W L L', [/\ gradient MMul left (mv_const a f) = Some W,
  gradient MDot left' W = Some L, gradient MMul left' W = Some L',
  run_eq a L (Num (laplacian_of D G f)) = Some true &
  run_eq a L' (Num (laplacian_of D G f)) = Some true].
Proof.
have [fc vc] := const_val f; have [W EW [fW vW]] := yields_field (gradP MMul left fc).
have {}vW : mvv W = ed (f *: bl R set0) by rewrite vW vc gradv_fun.
have [L EL [fL vL]] := yields_field (gradP MDot left' fW).
have [L' EL' [fL' vL']] := yields_field (gradP MMul left' fW).
have hW : homog 1 (mvv W) by rewrite vW; exact: ed_vec.
have vL0 := vL; have {}vL : mvv L = laplacian_of D G f *: bl R set0.
  rewrite vL (gradv_dot left' hW); congr (_ *: _); apply: eq_bigr => i _.
  by rewrite vW gf_grad.
have {}vL' : mvv L' = laplacian_of D G f *: bl R set0.
  by rewrite vL' (gradv_vec left' hW) -vL0 vL vW curl_grad addr0.
exists W, L, L'; split=> //; apply: (yields_same mk sh (yields_val two _)) => //; apply: yields_eq (yields_num two m _) _.
  by rewrite vL.
by rewrite vL'.
Qed.
(* grad^(grad^A) and (A^grad)^grad of any field *)
Theorem C65_curl left A : field m A -> exists X Y, [/\ gradient MWedge left A = Some X,
  gradient MWedge left X = Some Y & run_eq a Y (Num 0) = Some true].
Proof.
move=> fA; have [X EX [fX vX]] := yields_field (gradP MWedge left fA).
have [Y EY [fY vY]] := yields_field (gradP MWedge left fX).
exists X, Y; split=> //; apply: (yields_same mk sh (yields_val two fY)); apply: yields_eq (yields_num two m 0) _.
by rewrite scale0r vY vX; case: (left) => //=; [rewrite !gradv_ext edd | rewrite !gradv_extr eddr].
Qed.
(* the derivative is the sum of divergence and curl: for every field A,
   grad*A = grad<A + grad^A and A*grad = A>grad + A^grad *)
Theorem C65_split left A : field m A -> exists Z X Y, [/\ gradient MMul left A = Some Z,
  gradient (if left then MLt else MGt) left A = Some X, gradient MWedge left A = Some Y &
  run_eq a Z (X +. Y) = Some true].
Proof.
move=> fA; have [Z EZ [fZ vZ]] := yields_field (gradP MMul left fA).
have [X EX [fX vX]] := yields_field (gradP (if left then MLt else MGt) left fA).
have [Y EY [fY vY]] := yields_field (gradP MWedge left fA).
exists Z, X, Y; split=> //; apply: (yields_same mk sh (yields_val two fZ)).
apply: yields_eq (Props_Diff.yields_add mk sh (yields_val two fX) (yields_val two fY)) _.
by rewrite vZ vX vY; case: (left); [rewrite gradv_mul | rewrite gradv_mulr].
Qed.
(* ---- the Laplacian of multivector fields in flat coordinates ---- *)
Lemma gradv_r left (j : 'I_n) : gradv MMul left (rv j) = divergence_of D G (fun i => invmx G i j) *: (1 : C).
Proof.
rewrite (gradv_vec left (hrv j)) (gradv_dot left (hrv j)).
have e0 : ed (rv j) = 0 := ed_r two dd nh gn hEv hrv dual_rv torsion nondeg j.
have -> : gradv MWedge left (rv j) = 0.
  case: left; first by rewrite gradv_ext.
  by rewrite gradv_extr (edr_homog (nab := fun i => nab i) (r := rv) nh hrv (hrv j)) e0 scaler0.
by rewrite addr0; congr (_ *: _); apply: eq_bigr => i _; rewrite invE.
Qed.
Lemma nab_mul (i : 'I_n) (x y : C) : nab i (x * y) = (nab i x : C) * y + x * (nab i y : C).
Proof. exact: (Props_Diff.nab_op par mk lec sh sy rooted u gs mkd MMul i x y). Qed.
Lemma nab_sum (i : 'I_n) (F : 'I_n -> mval R n) : nab i (\sum_j F j) = \sum_j nab i (F j).
Proof.
apply: (big_morph (fun x => nab i x) (nD i)).
by have := nZ i 0 0; rewrite !scale0r scaler0 addr0.
Qed.
Section Flat.
Hypothesis flat : commuting me m dga.
Let nabC (i j : 'I_n) x : nab i (nab j x) = nab j (nab i x).
Proof.
have := commN (two := two) par mk lec sh sy rooted u gs mkd flat x (ltn_ord i) (ltn_ord j).
rewrite !(nabNE me dga (ltn_ord i)) !(nabNE me dga (ltn_ord j)).
have e (k : 'I_n) : Ordinal (ltn_ord k) = k by apply: val_inj.
by rewrite !e.
Qed.
Lemma gradv2 left x : gradv MMul left (gradv MMul left x) =
  \sum_(j < n) (divergence_of D G (fun i => invmx G i j) *: nab j x + \sum_(i < n) invmx G i j *: nab i (nab j x)).
Proof.
have half (y z : mval R n) : y + y = z + z -> y = z.
  by move=> h; rewrite -[y]scale1r -[z]scale1r -(mulVr two) -!scalerA !scaler_nat !mulr2n h.
pose y i j : C := nab i (nab j x).
have yC i j : y i j = y j i by exact: nabC.
have rr (i j : 'I_n) : (rv i : C) * (rv j : C) + (rv j : C) * (rv i : C) = (invmx G i j *+ 2) *: (1 : C).
  by rewrite (vec_rel (ga_metric two a) (hrv i) (hrv j)) invE.
have sumE (f : C -> C -> C) : (forall c d z, f (c + d) z = f c z + f d z) -> (forall k z, f (k *: (1 : C)) z = k *: z) ->
    \sum_(i < n) \sum_(j < n) f ((rv i : C) * (rv j : C)) (y i j) = \sum_(j < n) \sum_(i < n) invmx G i j *: y i j.
  move=> fD fZ; apply: half; rewrite [X in _ = X + _]exchange_big [X in _ = _ + X]exchange_big.
  rewrite [X in _ + X = _]exchange_big -!big_split; apply: eq_bigr => i _; rewrite -!big_split; apply: eq_bigr => j _ /=.
  by rewrite (yC j i) -fD rr fZ mulr2n scalerDl.
case: left.
  transitivity (\sum_(j < n) ((gradv MMul true (rv j) : C) * (nab j x : C)) + \sum_(i < n) \sum_(j < n) ((rv i : C) * (rv j : C)) * y i j).
    under eq_bigr do rewrite mulr_suml; rewrite exchange_big -big_split; apply: eq_bigr => i _ /=.
    rewrite nab_sum mulr_sumr -big_split; apply: eq_bigr => j _ /=; rewrite nab_mul mulrDr !mulrA.
    by [].
  rewrite (sumE (fun c z => c * z)) => [|c d z|k z]; first 1 last.
  - exact: mulrDl.
  - by rewrite -scalerAl mul1r.
  by rewrite -big_split; apply: eq_bigr => j _ /=; rewrite gradv_r -scalerAl mul1r.
transitivity (\sum_(j < n) ((nab j x : C) * (gradv MMul false (rv j) : C)) + \sum_(i < n) \sum_(j < n) y i j * ((rv i : C) * (rv j : C))).
  under eq_bigr do rewrite mulr_sumr; rewrite exchange_big.
  rewrite [X in _ = _ + X]exchange_big -big_split; apply: eq_bigr => i _ /=.
  rewrite nab_sum mulr_suml -big_split; apply: eq_bigr => j _ /=; rewrite nab_mul mulrDl -!mulrA addrC.
  by rewrite (yC j i).
rewrite (sumE (fun c z => z * c)) => [|c d z|k z]; first 1 last.
- exact: mulrDr.
- by rewrite -scalerAr mulr1.
by rewrite -big_split; apply: eq_bigr => j _ /=; rewrite gradv_r -scalerAr mulr1.
Qed.
Lemma yields_sumT (T : Type) (w : T -> py R) v (l : seq T) : (forall i, @yields R two a true (run a (w i)) (v i)) ->
  @yields R two a true (run a (py_sum [seq w i | i <- l])) (\sum_(i <- l) v i).
Proof.
move=> wP; have gen p x : @yields R two a true (run a p) x ->
    @yields R two a true (run a (foldl (@Add R) p [seq w i | i <- l])) (x + \sum_(i <- l) v i).
  elim: l p x => [|i l IH] p x y /=; first by rewrite big_nil addr0.
  by rewrite big_cons addrA; apply: IH; exact: (Props_Diff.yields_add mk sh y (wP i)).
by apply: yields_eq (gen _ _ (yields_num two m 0)) _; rewrite scale0r add0r.
Qed.
(* grad*(grad*A) and (A*grad)*grad of any field A, if the derivatives commute on the basis vectors:
   the sum of g^ij d_i d_j A and of (div g^.j) d_j A, the Laplace-Beltrami operator with the scalar
   derivatives replaced by the derivatives of fields *)
Theorem C65_flat_laplacian left A : field m A -> exists Z L (ds : 'I_n -> mv R) (dds : 'I_n -> 'I_n -> mv R),
  [/\ gradient MMul left A = Some Z, gradient MMul left Z = Some L,
      forall j : 'I_n, deriv A j = Some (ds j), forall i j : 'I_n, deriv (ds j) i = Some (dds i j) &
      run_eq a L (py_sum [seq divergence_of D G (fun i => invmx G i j) ##. Val (ds j) +.
        py_sum [seq invmx G i j ##. Val (dds i j) | i <- enum 'I_n] | j <- enum 'I_n]) = Some true].
Proof.
move=> fA; have [Z EZ [fZ vZ]] := yields_field (gradP MMul left fA).
have [L EL [fL vL]] := yields_field (gradP MMul left fZ).
have dP (B : mv R) (i : 'I_n) : field m B -> @yields R two a true (deriv B i) (nab i (mvv B)).
  exact: (derivP two par mk lec sh sy rooted u gs mkd i).
pose ds (j : 'I_n) := odflt (mv_const a 0) (deriv A j); pose dds (i j : 'I_n) := odflt (mv_const a 0) (deriv (ds j) i).
have dsE (j : 'I_n) : [/\ deriv A j = Some (ds j), field m (ds j) & mvv (ds j) = nab j (mvv A)].
  by have [B EB [fB vB]] := yields_field (dP A j fA); rewrite /ds EB.
have ddsE (i j : 'I_n) : [/\ deriv (ds j) i = Some (dds i j), field m (dds i j) & mvv (dds i j) = nab i (nab j (mvv A))].
  have [_ fj vj] := dsE j; have [B EB [fB vB]] := yields_field (dP (ds j) i fj).
  by rewrite /dds EB vB vj.
exists Z, L, ds, dds; split=> //.
- by move=> j; have [] := dsE j.
- by move=> i j; have [] := ddsE i j.
apply: (yields_same mk sh (yields_val two fL)).
rewrite vL vZ gradv2; rewrite -[X in yields true _ X]big_enum; apply: yields_sumT => j.
have [_ fj vj] := dsE j.
apply: (Props_Diff.yields_add mk sh).
  by rewrite -vj; exact: (yields_scale _ (yields_val two fj)).
rewrite -[X in yields true _ X]big_enum; apply: yields_sumT => i.
by have [_ fi <-] := ddsE i j; exact: (yields_scale _ (yields_val two fi)).
Qed.
End Flat.
End Props.
Print Assumptions C65_gradient.
Print Assumptions C65_divergence.
Print Assumptions C65_laplacian.
Print Assumptions C65_curl.
Print Assumptions C65_split.
Print Assumptions C65_flat_laplacian.

Section Case.
Notation F := [comUnitRingType of ratfun].
Notation e0 := (rf_env (fun _ _ => 0)).
(* the metric matrix diag(1, r^2) *)
Notation P := (mx 2 2 (warp_g (rf_x : F))).
Lemma polar_inv : invmx P = diag_mx (\row_i if i == 0 then 1 else rf_x ^- 2).
Proof.
have Gi : P = diag_mx (\row_i if i == 0 then 1 else rf_x ^+ 2).
  by apply/matrixP=> i j; rewrite !mxE; case: i j => [[|[|i]] li] [[|[|j]] lj].
have Gu : P *m diag_mx (\row_i if i == 0 then 1 else rf_x ^- 2) = 1%:M.
  rewrite Gi mulmx_diag; apply/matrixP=> i j; rewrite !mxE.
  by case: i => [[|[|i]] li] //=; rewrite ?mul1r // mulrV // unitrX // rf_x_unit.
have uG : P \in unitmx by case/mulmx1_unit: Gu.
by rewrite -[RHS]mul1mx -(mulVmx uG) -mulmxA Gu mulmx1.
Qed.
Lemma polar_div (v : 'I_2 -> F) : divergence_of rf_diff P v = rf_diff 0 (v 0) + v 0 / rf_x.
Proof.
have Gi : P = diag_mx (\row_i if i == 0 then 1 else rf_x ^+ 2).
  by apply/matrixP=> i j; rewrite !mxE; case: i j => [[|[|i]] li] [[|[|j]] lj].
have dE : \det P = rf_x ^+ 2.
  by rewrite Gi det_diag big_ord_recl big_ord1 !mxE /= mul1r.
have D1 f : rf_diff 1 f = 0 by [].
have two := rf_two.
have q : (rf_x + rf_x) / (2%:R * rf_x ^+ 2) = rf_x^-1 :> F.
  have x2 : (2%:R * rf_x ^+ 2 : F) \is a GRing.unit by rewrite unitrM two unitrX // rf_x_unit.
  by apply: (canLR (mulrK x2)); rewrite mulrCA expr2 mulKr ?rf_x_unit // mulr_natl mulr2n.
rewrite /divergence_of big_ord_recl big_ord1 dE -[nat_of_ord ord0]/0%N -[nat_of_ord (fintype.lift _ _)]/1%N !D1.
by rewrite [rf_diff 0 (rf_x ^+ 2)]D0x2 q mul0r mulr0 !addr0.
Qed.
(* polar coordinates, with and without norm=True, and the metric matrix diag(1, r^2): the
   Laplacian of r^2 is 4, the divergence of the position vector r e_r is 2 *)
Example C65_case norm : exists dga, [/\ make_diff_ga e0 None (polar_m norm) = Some dga, dg_connect dga,
  laplacian_of rf_diff (mx 2 2 (m_graw (polar_m norm))) (rf_x ^+ 2) = 4%:R,
  vector (metric_ga (polar_m norm)) (Mv [:: (rf_x : F, mk_blade [:: 0%N])] true) &
  divergence_of rf_diff (mx 2 2 (m_graw (polar_m norm)))
    (along (polar_m norm) (Mv [:: (rf_x : F, mk_blade [:: 0%N])] true)) = 2%:R].
Proof.
have [dga [E _ _ _ c]] := C37_case norm; exists dga.
have -> : mx 2 2 (m_graw (polar_m norm)) = P by [].
have [der _] := rf_partials.
have D1 f : rf_diff 1 f = 0 by [].
have g0 : gradient_of rf_diff P (rf_x ^+ 2) 0 = rf_x + rf_x.
  rewrite /gradient_of big_ord_recl big_ord1 polar_inv !mxE -[nat_of_ord ord0]/0%N -[nat_of_ord (fintype.lift _ _)]/1%N D1 mulr0 addr0.
  by rewrite eqxx mulr1n mul1r [rf_diff 0 _]D0x2.
split=> //.
- rewrite /laplacian_of polar_div g0 (drvD (der 0%N)) rf_diff_x mulrDl divrr ?rf_x_unit //.
  by rewrite -[1]/(1%:R) -!natrD.
- by rewrite /vector /plain /mv_valid /= /canonical /= rf_x_neq0.
have a0 : along (polar_m norm) (Mv [:: (rf_x : F, mk_blade [:: 0%N])] true) 0 = rf_x.
  rewrite /along; have -> : norm_factor (polar_m norm) 0 = 1 by rewrite /norm_factor; case: (norm).
  by rewrite divr1 /coefficient big_cons big_nil eqxx addr0.
by rewrite polar_div a0 rf_diff_x divrr ?rf_x_unit // -mulr2n.
Qed.
(* the polar coordinates are flat; the coefficients of d_r and d_theta in the Laplacian are 1/r and 0 *)
Example C65_flat_case : exists dga, [/\ make_diff_ga e0 None (warp_m (rf_x : F)) = Some dga, dg_connect dga,
  commuting e0 (warp_m (rf_x : F)) dga, field (warp_m (rf_x : F)) (Mv [:: (rf_x : F, mk_blade [:: 0%N; 1%N])] true) &
  let c (j : 'I_2) := divergence_of rf_diff P (fun i => invmx P i j) in c 0 = rf_x^-1 /\ c 1 = 0].
Proof.
have [der _] := rf_partials.
have [dga [mkd c fl _]] := C35_case; exists dga; split=> //.
  by rewrite /field /mv_valid /= /canonical /= rf_x_neq0.
rewrite /= !polar_div polar_inv !mxE eqxx mulr1n mulr0n (drv1 (der 0%N)) (drv0 (der 0%N)) add0r mul1r.
by rewrite add0r mul0r.
Qed.
End Case.
