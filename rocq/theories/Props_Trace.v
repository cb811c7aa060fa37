(* Props_Trace.v -- property C32: the trace of a linear transformation.

   Lt.tr() applies the transformation to the vector of the coordinates, switches
   the connection off and takes the divergence. *)
From mathcomp Require Import all_ssreflect all_algebra.
From Verif Require Import Props_Metric NatTac AlgTactics Exterior Clifford Blades Spec_Grade Grades PyBase Spec_Index Ga_Model.
From Verif Require Import Ga_Sem Ga_Proof_Tables Ga_Proof_Sort Ga_Proof_Sem Ga_Proof_Reduce Ga_Proof_Rep Ga_Proof_Conv.
From Verif Require Import Ga_Proof_Mul Spec_Clifford Clifford_Unique Spec_Mv Ga_Proof_Den Ga_Proof_Wedge Ga_Proof_Inner Ga_Proof_Grade.
From Verif Require Import GradeLaws Det ExtDeriv Outer Mv_Model Mv_Proof Mv_Expr Mv_Proof_Expr Props_Mv Dual_Model Dual_Proof Props_Dual Metric_Model Spec_Diff Nabla.
From Verif Require Import Diff_Model Diff_Proof Props_Diff Lt_Model Spec_Lt Lt_Proof.
Set Implicit Arguments.
Unset Strict Implicit.
Unset Printing Implicit Defensive.
Import GRing.Theory.
Local Open Scope ring_scope.

Section Trace.
Variables (R : comUnitRingType) (two : (2%:R : R) \is a GRing.unit) (me : metric_env R).
Variables (coords : nat) (garg : garg R) (norm : bool) (m : metric R) (gsym : option R) (dga : diff_ga R).
Notation D := (me_diff me).
Notation n := (m_n m).
Notation a := (metric_ga m).
Notation G := (mx n n (m_graw m)).
Notation C := (cl two a).
Hypothesis par : partials D.
Hypotheses (mk : make_metric me n (Some coords) garg norm = Some m) (lec : (n <= coords)%N).
Hypotheses (sh : shape n n (m_graw m)) (sy : symmetric_mx G).
Hypothesis rooted : norm -> forall i : 'I_n, let x := G i i in me_root me x ^+ 2 = x \/ me_root me x ^+ 2 = - x.
Hypotheses (u : \det (metric_mx a) \is a GRing.unit) (gs : det_declared a gsym).
Hypothesis mkd : make_diff_ga me gsym m = Some dga.
(* the coordinates are xs: partial derivatives 0 and 1 *)
Variable xs : seq R.
Hypotheses (sxs : size xs = n) (dxs : forall i j, (i < n)%N -> (j < n)%N -> D i (nth 0 xs j) = (i == j)%:R).
Variable L : lt R.
Hypothesis tL : transformation a L.

Let der k : derivation (D k). Proof. by case: par. Qed.
Let u' : gmat a \in unitmx. Proof. by rewrite unitmxE. Qed.
Let gs' : gsym_ok a gsym. Proof. by []. Qed.
Let wf : wf_ga a := m_wf mk sh.
Let gok : grad_ok two m (dg_grad dga).
Proof. by have [d] := make_diffP two der mk lec sh sy u' gs' rooted; rewrite mkd => -[<-] []. Qed.
Notation lmx_ := (@lmx R two a L).
Notation yields := (@yields R two a).
Notation mvv := (mvv two a).

Lemma dco_vec i (x : mval R n) (k : 'I_n) : (dcoef (D i) x) [set k] = D i (x [set k]).
Proof. by rewrite ffunE. Qed.
Lemma homog_dco i (x : mval R n) r : homog r x -> homog r (dcoef (D i) x).
Proof. by move=> h; rewrite /homog -(dco_gpart (der i)) h. Qed.
Definition unit_factor (i : nat) : R := if m_enorm m is Some N then nth 0 N i else 1.

Lemma trace_value : lt_trace me m dga xs L =
  Some (\sum_(i < n) (unit_factor i)^-1 * (lmx_ i i + \sum_(j < n) nth 0 xs j * D i (lmx_ i j))).
Proof.
rewrite /lt_trace; have [-> _] := tr_runs me (LET x := call_expr a L (coord_vec m xs) IN Some (mk_mv a x)) (clean_init m dga).
have cvE : coord_vec m xs = [seq (nth 0 xs j, basis_word j) | j <- iota 0 (ga_n a)].
  by rewrite /coord_vec (zip_iota (a := a) 0 sxs) -map_comp.
have [lc vc] := val_comb two a (fun j => nth 0 xs j); rewrite -cvE in lc vc.
have [y Ey [by_ vy]] := call_exprP two tL (comb_blade lc); rewrite Ey -[(LET x := Some y IN _)]/(Some (mk_mv a y)).
have [X [EX] [oX vX /(_ isT) bX]] := yields_blade (two := two) (a := a) by_ vy true; rewrite EX /tr_pure /=.
pose x0 : mval R n := value two a (coord_vec m xs).
have h0 : homog 1 x0 by apply: (@comb_homog _ two a).
have hX : homog 1 (mvv X : mval R n).
  rewrite vX; apply: (om_homog two); last exact: h0; move=> i; refine (@vimg_homog R two a L i tL).
have [_ gr] := gok.
pose v (i : 'I_n) := gform (ga_metric two a) (mvv (nth (mv_const a 0) (dg_grad dga) i)) (dcoef (D i) (mvv X)).
have step s c (i : 'I_n) : yields true (Some s) (scal a c) ->
   yields true (LET q := mv_op m MDot (nth (mv_const a 0) (dg_grad dga) i) (mk_mv a (diff_terms me i (obj X))) IN mv_add a s q)
     (scal a (c + v i)).
  move=> [_ [<-] [os vs bs]]; have [o b h _] := gr i.
  have bd : blade_expr n (diff_terms me i (obj X)) by rewrite (@blade_diff R me m); exact: (bladed_blade oX bX).
  have vd : value two a (diff_terms me i (obj X)) = dcoef (D i) (mvv X) by apply: value_diff => //; exact: (bladed_blade oX bX).
  have [d Ed [od vd' bd']] := yields_blade (two := two) (a := a) bd vd true.
  case: Ed => ->; have [q Eq [oq vq bq]] := mv_singleP two wf Hestenes true o od; rewrite -[mv_op m MDot _ d]/(mv_single Hestenes a _ d) Eq.
  rewrite /=; apply: yields_eq (yieldsW _ (mv_addP two wf os oq)) _; first by move=> _; rewrite bs.
  rewrite vs vq vd' [X in _ + X](vec_dot (ga_metric two a) h (homog_dco i hX)).
  by rewrite /scal scalerDl.
have fold l s c : all (fun i => i < n)%N l -> yields true (Some s) (scal a c) ->
   yields true (ofold (fun s i => LET dA := Some (mk_mv a (diff_terms me i (obj X))) IN
      let r := nth (mv_const a 0) (dg_grad dga) i in LET q := mv_op m MDot r dA IN mv_add a s q) l s)
     (scal a (c + \sum_(i <- l) (if insub i is Some k then v k else 0))).
  elim: l s c => [|i l IH] s c /=; first by rewrite big_nil addr0.
  case/andP=> li al ys; have [t Et yt] := step s c (Ordinal li) ys.
  rewrite /= in Et; rewrite Et /= big_cons (insubT (fun k => k < n)%N li) /= addrA.
  by apply: IH => //; exists t.
have y0 : yields true (Some (mv_const a 0)) (scal a 0) by have [o v0 b] := const_ok two a 0; exists (mv_const a 0).
have al : all (fun i => i < n)%N (iota 0 n) by apply/allP=> i; rewrite mem_iota.
have [Z EZ [oZ vZ /(_ isT) bZ]] := fold _ _ _ al y0.
rewrite /grad_pure EZ /=; congr Some; rewrite (mv_scalarP two oZ bZ) vZ add0r scale_coef bl_coef eqxx mulr1.
rewrite -{1}[n]subn0 -/(index_iota 0 n) big_mkord; apply: eq_bigr => i _; rewrite valK /v.
have [o b h gE] := gr i.
have XE (k : 'I_n) : (mvv X : mval R n) [set k] = \sum_j lmx_ k j * nth 0 xs j.
  rewrite vX; transitivity (\sum_j lmx_ k j * x0 [set j]); [refine (@om_mx R two a L x0 k h0)|]; apply: eq_bigr => j _; congr (_ * _).
  by rewrite /x0 vc sum_coef (bigD1 j) //= big1 ?addr0 => [|q qj]; rewrite scale_coef bl_coef ?eqxx ?mulr1 // (inj_eq set1_inj) eq_sym (negbTE qj) mulr0.
have -> : gform (ga_metric two a) (mvv (nth (mv_const a 0) (dg_grad dga) i)) (dcoef (D i) (mvv X)) =
    (unit_factor i)^-1 * D i ((mvv X : mval R n) [set i]).
  rewrite /gform exchange_big /= (bigD1 i) //= [X in _ + X]big1 ?addr0 => [|k ki].
    rewrite (eq_bigr (fun k : 'I_n => D i ((mvv X : mval R n) [set i]) *
       ((mvv (nth (mv_const a 0) (dg_grad dga) i) : mval R n) [set k] * geff a i k))) => [|k _].
      rewrite -mulr_sumr (gE i) eqxx mul1r mulrC; congr (_ * _).
      by rewrite /nfac /unit_factor; case: (m_enorm m) => //; rewrite invr1.
    by rewrite dco_vec /= (@geff_sym R a k i) mulrCA mulrA.
  rewrite (eq_bigr (fun l : 'I_n => D i ((mvv X : mval R n) [set k]) *
       ((mvv (nth (mv_const a 0) (dg_grad dga) i) : mval R n) [set l] * geff a k l))) => [|l _].
    by rewrite -mulr_sumr (gE k) (negbTE ki) mul0r mulr0.
  by rewrite dco_vec /= (@geff_sym R a l k) mulrCA mulrA.
congr (_ * _); rewrite XE (drv_sum (der i)).
rewrite (eq_bigr (fun j : 'I_n => lmx_ i j * (i == j)%:R + nth 0 xs j * D i (lmx_ i j))) => [|j _].
  rewrite big_split /=; congr (_ + _); rewrite (bigD1 i) //= eqxx mulr1 big1 ?addr0 // => j ji.
  by rewrite eq_sym (negbTE ji) mulr0.
by rewrite (drvM (der i)) dxs // addrC mulrC [X in _ + X]mulrC; congr (_ + _); rewrite mulrC.
Qed.
(* what tr() returns, M being the matrix of L: the terms are divided by the norms of
   the basis vectors, and the derivatives of the entries appear *)
Theorem C32_value M : lt_matrix a L = Some M ->
  lt_trace me m dga xs L = Some (\sum_(i < n) (unit_factor i)^-1 *
    (mat_at M i i + \sum_(j < n) nth 0 xs j * D i (mat_at M i j))).
Proof.
move=> E; rewrite trace_value; have [M' E' [_ e]] := lt_matrixP two tL; move: E'; rewrite E => -[EM].
have eM (i j : 'I_n) : lmx_ i j = mat_at M i j by have /matrixP/(_ i j) := e; rewrite EM => <-; rewrite mxE.
congr Some; apply: eq_bigr => i _; rewrite eM; congr (_ * (_ + _)).
by apply: eq_bigr => j _; rewrite eM.
Qed.
(* the trace of the matrix, for a metric that is not normalised and entries that do
   not depend on the coordinates *)
Theorem C32_trace_partial M : m_enorm m = None -> lt_matrix a L = Some M ->
  (forall i j k, (i < n)%N -> (j < n)%N -> (k < n)%N -> D k (mat_at M i j) = 0) ->
  lt_trace me m dga xs L = Some (\sum_(i < n) mat_at M i i).
Proof.
move=> nn E cst; rewrite (C32_value E); congr Some; apply: eq_bigr => i _.
rewrite /unit_factor nn invr1 mul1r big1 ?addr0 // => j _; by rewrite cst // mulr0.
Qed.
End Trace.

(* ---- one coordinate x: the metric [[h]], not normalised or with h = N*N ---- *)
Section Line.
Variables (R : comUnitRingType) (two : (2%:R : R) \is a GRing.unit) (me : metric_env R) (norm : bool) (x N h c : R).
Hypotheses (par : partials (me_diff me)) (dx : me_diff me 0 x = 1).
Hypotheses (hN : h = N * N) (uN : N \is a GRing.unit) (root : me_root me h = N).
Definition line_m : metric R := Metric 1 (Some 1%N) (if norm then [:: [:: 1]] else [:: [:: h]]) [:: [:: h]] true (if norm then Some [:: N] else None).
Lemma line_mk : make_metric me 1 (Some 1%N) (GMatrix [:: [:: h]]) norm = Some line_m.
Proof.
rewrite /make_metric /= /ortho_test /line_m /=; case: norm => //=.
rewrite /norm_list /= root /norm_g /= uN /= /ment /= hN divrr //.
by rewrite unitrM uN.
Qed.
Lemma line_sh : shape 1 1 (m_graw line_m). Proof. by []. Qed.
Lemma line_sy : symmetric_mx (mx 1 1 (m_graw line_m)).
Proof. by apply/matrixP => i j; rewrite !mxE !ord1. Qed.
Lemma line_root : norm -> forall i : 'I_1, let y := mx 1 1 (m_graw line_m) i i in me_root me y ^+ 2 = y \/ me_root me y ^+ 2 = - y.
Proof. by move=> _ i; rewrite mxE ord1 /ment /= root; left; rewrite expr2 hN. Qed.
Lemma line_det : \det (metric_mx (metric_ga line_m)) \is a GRing.unit.
Proof.
rewrite det_mx11 mxE /geff /gij /=; case: norm; rewrite /= ?unitr1 // hN unitrM uN //.
Qed.
Definition line_L : lt R := [:: (0%N, [:: (c, basis_word 0)])].
Lemma line_tr : transformation (metric_ga line_m) line_L. Proof. by []. Qed.
Lemma line_matrix : lt_of_matrix (metric_ga line_m) [:: [:: c]] = Some line_L. Proof. by []. Qed.
Lemma line_mat : lt_matrix (metric_ga line_m) line_L = Some [:: [:: c]].
Proof.
have rM : rect (metric_ga line_m) [:: [:: c]] by [].
apply: (@lt_matrix_eq _ two (metric_ga line_m)) => //.
by have [L E [_ <-]] := lt_of_matrixP two rM; move: E; rewrite line_matrix => -[<-].
Qed.
Lemma line_trace : exists2 dga, make_diff_ga me None line_m = Some dga &
  lt_trace me line_m dga [:: x] line_L = Some ((if norm then N else 1)^-1 * (c + x * me_diff me 0 c)).
Proof.
have [dga E] := @C37_defined _ two me 1 _ norm line_m None par line_mk (leqnn 1) line_sh line_sy line_root line_det I.
exists dga => //.
rewrite (@C32_value _ two me 1 _ norm line_m None dga par line_mk (leqnn 1) line_sh line_sy line_root line_det I E [:: x] erefl _ line_L line_tr _ line_mat).
  rewrite !big_ord1 /unit_factor /line_m /mat_at /=; by case: norm.
by move=> [|i] [|j].
Qed.
End Line.

Section Refuted.
Notation F := [comUnitRingType of ratfun].
Notation e0 := (rf_env (fun _ _ => 0)).
(* on a line with metric x^2, normalised, the identity has trace 1/x instead of 1 *)
Theorem C32_normalised_refuted : exists (m : metric F) dga L r,
  [/\ make_metric e0 1 (Some 1%N) (GMatrix [:: [:: rf_x ^+ 2]]) true = Some m, make_diff_ga e0 None m = Some dga,
      lt_of_matrix (metric_ga m) [:: [:: 1]] = Some L, lt_trace e0 m dga [:: rf_x] L = Some r & r <> 1].
Proof.
have root : me_root e0 (rf_x ^+ 2) = rf_x by rewrite /= eqxx.
have xx : rf_x ^+ 2 = rf_x * rf_x by rewrite expr2.
have [dga E tE] := @line_trace F rf_two e0 true rf_x rf_x (rf_x ^+ 2) 1 rf_partials rf_diff_x xx rf_x_unit root.
exists (line_m true rf_x (rf_x ^+ 2)), dga, (line_L 1); eexists; split; [|exact: E| |exact: tE|].
- exact: (@line_mk F e0 true rf_x (rf_x ^+ 2) xx rf_x_unit root).
- by [].
have d1 : me_diff e0 0 1 = 0 by case: rf_partials => d _; exact: (drv1 (d 0%N)).
rewrite d1 mulr0 addr0 mulr1 => h.
have x1 : rf_x = 1 by rewrite -[LHS]invrK h invr1.
have := (rf_diff_x : me_diff e0 0 rf_x = 1); rewrite x1 d1 => /esym/eqP; by rewrite oner_eq0.
Qed.
(* on a line with metric 1, the transformation e -> x e has trace 2x instead of x *)
Theorem C32_variable_refuted : exists (m : metric F) dga L r,
  [/\ make_metric e0 1 (Some 1%N) (GMatrix [:: [:: 1]]) false = Some m, make_diff_ga e0 None m = Some dga,
      lt_of_matrix (metric_ga m) [:: [:: rf_x]] = Some L, lt_trace e0 m dga [:: rf_x] L = Some r & r <> rf_x].
Proof.
have root : me_root e0 1 = 1 by rewrite /= eq_sym x2_neq1.
have xx : 1 = 1 * 1 :> F by rewrite mul1r.
have [dga E tE] := @line_trace F rf_two e0 false rf_x 1 1 rf_x rf_partials rf_diff_x xx (unitr1 _) root.
exists (line_m false 1 1), dga, (line_L rf_x); eexists; split; [|exact: E| |exact: tE|].
- exact: (@line_mk F e0 false 1 1 xx (unitr1 _) root).
- by [].
rewrite invr1 mul1r (rf_diff_x : me_diff e0 0 rf_x = 1) mulr1 => /eqP; rewrite -subr_eq0 addrK => /eqP x0.
by have := rf_x_neq0; rewrite x0 eqxx.
Qed.
End Refuted.

(* ---- a plane: polynomials in two variables ---- *)
Section Plane.
Notation P := [comUnitRingType of {poly {poly rat}}].
Definition pdiff (k : nat) (p : P) : P :=
  if k == 0%N then p^`() else if k == 1%N then map_poly (@poly.deriv [ringType of rat]) p else 0.
Lemma pdiff_partials : partials pdiff.
Proof.
have cf (p : P) i : (map_poly (@poly.deriv [ringType of rat]) p)`_i = (p`_i)^`().
  by rewrite (coef_map [linear of @poly.deriv [ringType of rat]]).
split=> [k|j k p].
  rewrite /derivation /pdiff; case: eqP => _; first by split=> [p q|p q]; [rewrite derivD|rewrite derivM].
  case: eqP => _; last by split=> [p q|p q]; rewrite ?addr0 ?mul0r ?mulr0 ?addr0.
  split=> p q; apply/polyP => i; first by rewrite coefD !cf coefD derivD.
  rewrite coefD !coefM cf coefM raddf_sum -big_split; apply: eq_bigr => l _ /=.
  by rewrite derivM !cf.
have m0 : map_poly (@poly.deriv [ringType of rat]) (0 : {poly {poly rat}}) = 0 by rewrite (map_poly0 [linear of @poly.deriv [ringType of rat]]).
have cm (q : P) : (map_poly (@poly.deriv [ringType of rat]) q)^`() = map_poly (@poly.deriv [ringType of rat]) (q^`()).
  by apply/polyP => i; rewrite cf !coef_deriv cf derivMn.
by case: j k => [|[|j]] [|[|k]]; rewrite /pdiff //= ?m0 ?deriv0 ?linear0.
Qed.
Definition pvar : seq P := [:: 'X; ('X : {poly rat})%:P].
Definition penv : metric_env P := MetricEnv pdiff (fun _ => None) (fun _ _ => 0) (fun _ _ => 0)
  (fun _ => 1) (fun _ => false) (fun _ => false).
End Plane.

(* two coordinates x and y, the basis vectors not perpendicular *)
Section Oblique.
Variables (R : comUnitRingType) (two : (2%:R : R) \is a GRing.unit) (three : (3%:R : R) \is a GRing.unit) (me : metric_env R) (x y : R).
Hypothesis par : partials (me_diff me).
Hypotheses (d00 : me_diff me 0 x = 1) (d01 : me_diff me 0 y = 0) (d10 : me_diff me 1 x = 0) (d11 : me_diff me 1 y = 1).
Let g : seq (seq R) := [:: [:: 2%:R; 1]; [:: 1; 2%:R]].
Let M : seq (seq R) := [:: [:: 1; 2%:R]; [:: 3%:R; 4%:R]].
Definition obl_m : metric R := Metric 2 (Some 2%N) g g false None.
Lemma obl_mk : make_metric me 2 (Some 2%N) (GMatrix g) false = Some obl_m.
Proof. by rewrite /make_metric /= /ortho_test /obl_m /= /ment /= oner_eq0. Qed.
Lemma obl_sh : shape 2 2 (m_graw obl_m). Proof. by []. Qed.
Lemma obl_sy : symmetric_mx (mx 2 2 (m_graw obl_m)).
Proof. by apply/matrixP => i j; rewrite !mxE; case: i j => [[|[|i]] li] [[|[|j]] lj]. Qed.
Lemma obl_det : \det (metric_mx (metric_ga obl_m)) \is a GRing.unit.
Proof.
rewrite (expand_det_row _ ord0) !big_ord_recl big_ord0 /cofactor !det_mx11 !mxE /geff /gij /=.
rewrite /= expr0 expr1 !mul1r addr0 mulN1r -natrM -[(2 * 2)%N]/(3 + 1)%N natrD addrK.
exact: three.
Qed.
Lemma obl_trace : exists2 dga, make_diff_ga me None obl_m = Some dga &
  exists2 L, lt_of_matrix (metric_ga obl_m) M = Some L & lt_trace me obl_m dga [:: x; y] L = Some 5%:R.
Proof.
have nn : false -> forall i : 'I_2, let y := mx 2 2 (m_graw obl_m) i i in me_root me y ^+ 2 = y \/ me_root me y ^+ 2 = - y by [].
have [dga E] := @C37_defined _ two me 2 _ false obl_m None par obl_mk (leqnn 2) obl_sh obl_sy nn obl_det I.
exists dga => //.
have rM : rect (metric_ga obl_m) M by [].
have [L LE [tL ML]] := lt_of_matrixP two rM; exists L => //.
have mE : lt_matrix (metric_ga obl_m) L = Some M by apply: (@lt_matrix_eq _ two (metric_ga obl_m)).
rewrite (@C32_trace_partial _ two me 2 _ false obl_m None dga par obl_mk (leqnn 2) obl_sh obl_sy nn obl_det I E [:: x; y] erefl _ L tL M erefl mE).
- by rewrite !big_ord_recl big_ord0 /mat_at /= addr0 -[1]/(1%:R) -natrD.
- by move=> [|[|i]] [|[|j]].
by move=> [|[|i]] [|[|j]] k // _ _ _; rewrite /mat_at /=; case: par => d _; first [exact: (drv1 (d k)) | exact: (drv_nat (d k) _)].
Qed.
End Oblique.
Example C32_case : exists m, make_metric penv 2 (Some 2%N) (GMatrix [:: [:: 2%:R; 1]; [:: 1; 2%:R]]) false = Some m /\
  exists2 dga, make_diff_ga penv None m = Some dga &
  exists2 L, lt_of_matrix (metric_ga m) [:: [:: 1; 2%:R]; [:: 3%:R; 4%:R]] = Some L & lt_trace penv m dga pvar L = Some 5%:R.
Proof.
have unat k : (k.+1%:R : [comUnitRingType of {poly {poly rat}}]) \is a GRing.unit.
  have u : (k.+1%:R : {poly rat}) \is a GRing.unit.
    by rewrite -(rmorph_nat (polyC_rmorphism [ringType of rat])); apply: rmorph_unit; rewrite unitfE Num.Theory.pnatr_eq0.
  by rewrite -(rmorph_nat (polyC_rmorphism [ringType of {poly rat}])); apply: rmorph_unit.
exists (obl_m _); split; first exact: obl_mk.
apply: obl_trace; [exact: (unat 1%N) | exact: (unat 2%N) | exact: pdiff_partials | | | |]; rewrite /= /pdiff /=.
- by rewrite derivX.
- by rewrite derivC.
- by apply/polyP => i; rewrite (coef_map [linear of @poly.deriv [ringType of rat]]) coefX coef0 /= derivMn -polyC1 derivC mul0rn.
- by rewrite (map_polyC [linear of @poly.deriv [ringType of rat]]) /= derivX.
Qed.

Print Assumptions C32_value.
Print Assumptions C32_trace_partial.
Print Assumptions C32_normalised_refuted.
Print Assumptions C32_variable_refuted.
Print Assumptions C32_case.
