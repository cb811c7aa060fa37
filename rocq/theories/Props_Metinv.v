(* Props_Metinv.v -- property C77: the inverse metric of a Metric object. *)
From mathcomp Require Import all_ssreflect all_algebra fraction.
From Verif Require Import PyBase Ga_Model Ga_Sem Ga_Proof_Reduce Spec_Clifford Mv_Model Props_Mv Dual_Model Props_Dual Metric_Model Props_Metric.
From Verif Require Import Lt_Model Spec_Lt Lt_Proof Props_Lt_Cases Diff_Model Props_Diff Metinv_Model.
Set Implicit Arguments.
Unset Strict Implicit.
Unset Printing Implicit Defensive.
Import GRing.Theory.
Local Open Scope ring_scope.

Section C77.
Variables (R : comUnitRingType) (two : (2%:R : R) \is a GRing.unit) (me : metric_env R) (m : metric R).
Notation n := (m_n m).
Notation G := (mx n n (m_g m)).
Hypotheses (sh : shape n n (m_g m)) (u : \det G \is a GRing.unit).
Lemma base_inv (detg : option R) : ~~ m_ortho m -> (forall d, detg = Some d -> d = \det G) ->
  exists2 N, base_g_inv detg m = Some N & shape n n N /\ mx n n N = invmx G.
Proof.
move=> no dd; rewrite /base_g_inv (negbTE no); case: detg dd => [d|_]; last first.
  by have [N E h] := @mat_invP _ (metric_ga m) (m_g m) sh (u : G \in unitmx); exists N.
move=> /(_ d erefl) ->; rewrite u; eexists; first reflexivity; split.
  rewrite /shape size_map size_map size_enum_ord eqxx !all_map; apply/allP => i _ /=.
  by rewrite size_map size_map size_enum_ord.
have so : forall k : 'I_n, (k < size (enum 'I_n))%N by move=> k; rewrite size_enum_ord.
have sm (T : Type) (f : 'I_n -> T) (k : 'I_n) : (k < size [seq f x | x <- enum 'I_n])%N by rewrite size_map.
apply/matrixP => i j; rewrite mxE /ment (nth_map [::]) ?sm // (nth_map i) ?so //.
rewrite (nth_map 0) ?sm // (nth_map j) ?so // !nth_ord_enum.
by rewrite /invmx unitmxE u !mxE mulrC.
Qed.
(* g_inv is the inverse of g, also if the determinant is a symbol that stands for it *)
Theorem C77_inverse_partial (detg : option R) : ~~ m_ortho m -> (forall d, detg = Some d -> d = \det G) ->
  exists2 N, base_g_inv detg m = Some N & [/\ shape n n N, G *m mx n n N = 1%:M & mx n n N *m G = 1%:M].
Proof.
move=> no dd; have [N E [sN eN]] := base_inv no dd; exists N => //; rewrite eN.
by split=> //; [exact: mulmxV | exact: mulVmx].
Qed.
(* it is the g_inv of the algebra with the same metric; so are the Christoffel symbols *)
Theorem C77_algebra_partial (detg : option R) : ~~ m_ortho m -> symmetric_mx G -> wf_ga (metric_ga m) ->
  (forall d, detg = Some d -> d = \det G) ->
  exists N N', [/\ base_g_inv detg m = Some N, g_inv detg (metric_ga m) = Some N', mx n n N = mx n n N' &
    forall mode, base_Christoffel me detg m mode = Christoffel_symbols me detg m mode].
Proof.
move=> no sy wf dd; have [N E [sN eN]] := base_inv no dd.
have gE : metric_mx (metric_ga m) = G.
  apply/matrixP => i j; rewrite !mxE /geff /gij /=; case: (leqP i j) => [//|_].
  by move/matrixP: sy => /(_ i j); rewrite !mxE.
have u' : \det (metric_mx (metric_ga m)) \is a GRing.unit by rewrite gE.
have dd' : det_declared (metric_ga m) detg by case: (detg) dd => [d|] //= /(_ d erefl) ->; rewrite gE.
have [N' [E' h1 h2]] := C25_inverse_metric two wf u' dd'.
have e : mx n n N' = invmx G by rewrite -[LHS]mul1mx -(mulVmx (u : G \in unitmx)) -mulmxA -{2}gE h1 mulmx1.
exists N, N'; split; rewrite ?eN //= => mode; rewrite /base_Christoffel /Christoffel_symbols E E'.
case: connect_flg => [[]|] //=; case: eqP => // _; case: eqP => // _; congr (Some (Some _)).
apply/eq_in_map => i _; apply/eq_in_map => j _; apply/eq_in_map => k; rewrite mem_iota => /= lk.
rewrite /Gamma2; have : all (fun l => l < n)%N (iota 0 n) by apply/allP => l; rewrite mem_iota.
elim: (iota 0 n) => [//|l s IH] /= /andP[ll /IH ->]; congr (_ * _ + _).
by have := congr1 (fun M : 'M_n => M (Ordinal ll) (Ordinal lk)) (etrans eN (esym e)); rewrite !mxE.
Qed.
(* finding: metric.py Metric.g_inv -- for an orthogonal metric g_inv raises TypeError, as the matrix g
   is called like a function (self.g(i, i)); so do the Christoffel symbols of the second kind *)
Theorem C77_orthogonal_refuted (detg : option R) : m_ortho m -> (0 < n)%N ->
  base_g_inv detg m = None /\ (connect_flg me m = Some true -> base_Christoffel me detg m 2 = None).
Proof.
move=> o n0; have E : base_g_inv detg m = None by rewrite /base_g_inv o eqn0Ngt n0.
by split=> // c; rewrite /base_Christoffel c /= E.
Qed.
End C77.

(* the plane with e0.e0 = 1, e0.e1 = 3, e1.e1 = 2, and polar coordinates *)
Definition inv_m : metric rat_comUnitRing := Metric 2 None (ga_g mv_ga) (ga_g mv_ga) false None.
Example C77_case : [/\ ~~ m_ortho inv_m, shape 2 2 (m_g inv_m), symmetric_mx (mx 2 2 (m_g inv_m)), wf_ga (metric_ga inv_m) &
  \det (mx 2 2 (m_g inv_m)) \is a GRing.unit].
Proof.
have sy : symmetric_mx (mx 2 2 (m_g inv_m)) by apply/matrixP => -[[|[|i]] hi] // -[[|[|j]] hj] //; rewrite !mxE.
have -> : mx 2 2 (m_g inv_m) = metric_mx mv_ga by apply/matrixP => -[[|[|i]] hi] // -[[|[|j]] hj] //; rewrite !mxE.
by split=> //; [apply/matrixP => -[[|[|i]] hi] // -[[|[|j]] hj] //; rewrite !mxE | exact: case_det].
Qed.
Example C77_polar : m_ortho (polar_m false) /\ (0 < m_n (polar_m false))%N.
Proof. by []. Qed.
Print Assumptions C77_inverse_partial.
Print Assumptions C77_algebra_partial.
Print Assumptions C77_orthogonal_refuted.
