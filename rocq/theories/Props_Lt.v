(* Props_Lt.v -- properties C27-C31: linear transformations.

   [transformation a L] (Spec_Lt.v) describes the dictionaries that the
   constructors produce; the theorems C27_* show that they do. *)
From mathcomp Require Import all_ssreflect all_algebra.
From Verif Require Import NatTac AlgTactics Exterior Clifford Blades Spec_Grade Grades PyBase Spec_Index Ga_Model.
From Verif Require Import Ga_Sem Ga_Proof_Tables Ga_Proof_Sort Ga_Proof_Sem Ga_Proof_Reduce Ga_Proof_Rep Ga_Proof_Conv.
From Verif Require Import Ga_Proof_Mul Spec_Clifford Clifford_Unique Spec_Mv Ga_Proof_Den Ga_Proof_Wedge Ga_Proof_Inner Ga_Proof_Grade.
From Verif Require Import GradeLaws Det Outer Mv_Model Mv_Proof Mv_Expr Mv_Proof_Expr Props_Mv Dual_Model Dual_Proof Props_Dual.
From Verif Require Import Coef_Model Coef_Proof Props_Coef Props_Versor Metric_Model Spec_Diff Nabla Diff_Model Diff_Proof Lt_Model Spec_Lt Lt_Proof.
Set Implicit Arguments.
Unset Strict Implicit.
Unset Printing Implicit Defensive.
Import GRing.Theory.
Local Open Scope ring_scope.
Open Scope py_scope.

Section Props.
Variables (R : comUnitRingType) (two : (2%:R : R) \is a GRing.unit) (a : ga R).
Hypothesis wf : wf_ga a.
Notation n := (ga_n a).
Notation C := (cl two a).
Notation mvv := (mvv two a).
Notation yields := (@yields R two a).
Notation transformation := (transformation a).
Notation rect := (rect a).
Notation plain := (plain a).
Notation vector := (vector a).
Notation same := (same a).
Notation evec := (evec R).
Notation call := (lt_call a).
Notation on := (on a).
Notation om_ L := (@om R n (@vimgs R two a L)).
Implicit Types (L : lt R) (A B X Y : mv R) (M : mat R) (c d : R) (i j : nat).

Lemma plainP A : plain A -> mv_ok a A /\ bladed a A.
Proof. by case/andP; rewrite mv_validE. Qed.
Lemma vectorP A : vector A -> [/\ mv_ok a A, bladed a A, lin_comb a (obj A) & homog 1 (mvv A : mval R n)].
Proof. by case/andP=> /plainP[oA bA] lA; split=> //; exact: comb_homog. Qed.
Lemma vector_plain A : vector A -> plain A. Proof. by case/andP. Qed.
Lemma plain_yields A : plain A -> yields true (Some A) (mvv A).
Proof. by case/plainP=> oA bA; exists A. Qed.
Lemma yields_plain o v : yields true o v -> exists2 A, o = Some A & plain A /\ mvv A = v.
Proof. by case=> A -> [oA vA /(_ isT) bA]; exists A => //; rewrite /Spec_Lt.plain mv_validE oA. Qed.
Lemma sameP o1 o2 v : yields true o1 v -> yields true o2 v -> same o1 o2 = Some true.
Proof.
move=> [X -> [oX vX _]] [Y -> [oY vY _]]; by rewrite /Spec_Lt.same /= (mv_eqP two wf oX oY) vX vY eqxx.
Qed.
Lemma callP L A : transformation L -> plain A -> yields true (call L A) (om_ L (mvv A)).
Proof. by move=> tL /plainP[oA bA]; exact: lt_callP. Qed.
Lemma onP L p v : transformation L -> yields true (run a p) v -> yields true (on L p) (om_ L v).
Proof.
move=> tL /yields_plain [A E [pA <-]]; rewrite /Spec_Lt.on E /=; exact: callP.
Qed.
Lemma evecP i : (i < n)%N -> vector (evec i).
Proof. by move=> li; have [o b l _] := basis_vecP two li; rewrite /Spec_Lt.vector /Spec_Lt.plain mv_validE o. Qed.
Lemma evec_val (i : 'I_n) : mvv (evec i) = bl R [set i].
Proof. by have [_ _ _] := basis_vecP two (ltn_ord i); rewrite valK. Qed.
Lemma yields_lin c d A B v w : yields true (Some A) v -> yields true (Some B) w ->
  yields true (run a (c ##. A +. d ##. B)) (c *: v + d *: w).
Proof.
move=> [_ [<-] [oA <- /(_ isT) bA]] [_ [<-] [oB <- /(_ isT) bB]].
have [X EX [oX vX bX]] := mv_scaleP two c oA; have [Y EY [oY vY bY]] := mv_scaleP two d oB.
rewrite -[run a _]/(LET x := mv_scale a c A IN LET y := mv_scale a d B IN mv_add a x y) EX EY /=.
rewrite -vX -vY; by apply: yieldsW (mv_addP two wf oX oY) => _; rewrite bX.
Qed.
Lemma vec_evec (F G : {linear mval R n -> mval R n}) u : homog 1 u ->
  (forall i : 'I_n, F (bl R [set i]) = G (bl R [set i])) -> F u = G u.
Proof.
move=> hu h; rewrite (vec_decomp hu) !linear_sum; apply: eq_bigr => i _.
by rewrite !linearZ /= h.
Qed.

Lemma let2 o1 o2 f v w z : yields true o1 v -> yields true o2 w ->
  (forall x y, yields true (Some x) v -> yields true (Some y) w -> yields true (f x y) z) ->
  yields true (LET x := o1 IN LET y := o2 IN f x y) z.
Proof. by move=> [x -> hx] [y -> hy] h; apply: h; [exists x|exists y]. Qed.
Lemma let1 o1 f v z : yields true o1 v -> (forall x, yields true (Some x) v -> yields true (f x) z) ->
  yields true (LET x := o1 IN f x) z.
Proof. by move=> [x -> hx] h; apply: h; exists x. Qed.

(* ---- C27 ---- *)
Theorem C27_total L A : transformation L -> plain A -> exists2 LA, call L A = Some LA & plain LA.
Proof. by move=> tL pA; have [LA E []] := yields_plain (callP tL pA); exists LA. Qed.
Theorem C27_vectors_to_vectors L A : transformation L -> vector A -> exists2 LA, call L A = Some LA & vector LA.
Proof.
move=> tL vA; have [oA bA lA hA] := vectorP vA; have [LA E [pA EL]] := yields_plain (callP tL (vector_plain vA)).
exists LA => //; rewrite /Spec_Lt.vector pA; have [oL bL] := plainP pA.
apply: (@vec_object _ two a) => //; rewrite EL; apply: (om_homog two) => // i; exact: vimg_homog.
Qed.
Theorem C27_linear L A B c d : transformation L -> plain A -> plain B ->
  same (on L (c ##. A +. d ##. B)) (LET LA := call L A IN LET LB := call L B IN run a (c ##. LA +. d ##. LB)) = Some true.
Proof.
move=> tL pA pB; have [LA -> [pLA vA]] := yields_plain (callP tL pA); have [LB -> [pLB vB]] := yields_plain (callP tL pB).
apply: sameP (onP tL (yields_lin c d (plain_yields pA) (plain_yields pB))) _.
rewrite linearD !linearZ /= -vA -vB; exact: yields_lin (plain_yields pLA) (plain_yields pLB).
Qed.
(* equal multivectors have equal images *)
Theorem C27_extensional L A B : transformation L -> plain A -> plain B -> mv_eq a A B = Some true ->
  same (call L A) (call L B) = Some true.
Proof.
move=> tL pA pB; have [oA bA] := plainP pA; have [oB bB] := plainP pB.
rewrite (mv_eqP two wf oA oB) => -[/eqP E]; apply: sameP (callP tL pA) _; rewrite E; exact: callP.
Qed.
(* matrix -> transformation -> matrix *)
Theorem C27_matrix M : rect M ->
  exists L, [/\ lt_of_matrix a M = Some L, transformation L & lt_matrix a L = Some M].
Proof.
move=> rM; have [L E [tL h]] := lt_of_matrixP two rM; exists L; split=> //.
by apply: (@lt_matrix_eq _ two a).
Qed.
Theorem C27_matrix_rejected M : mat_dims M != (n, n) -> lt_of_matrix a M = None.
Proof. exact: lt_of_matrix_dims. Qed.
(* transformation -> matrix -> transformation *)
Theorem C27_round_trip L : transformation L ->
  exists M L', [/\ lt_matrix a L = Some M, rect M, lt_of_matrix a M = Some L', transformation L' &
    forall A, plain A -> same (call L A) (call L' A) = Some true].
Proof.
move=> tL; have [M E [rM e]] := lt_matrixP two tL; have [L' E' [tL' e']] := lt_of_matrixP two rM.
exists M, L'; split=> // A pA; apply: sameP (callP tL pA) _.
by rewrite (@lmx_om _ two a L L') ?e' //; exact: callP.
Qed.
(* column j of the matrix holds the coefficients of L(e_j) *)
Theorem C27_entries L M i j : transformation L -> lt_matrix a L = Some M -> (i < n)%N -> (j < n)%N ->
  exists2 Le, call L (evec j) = Some Le & coefficient (obj Le) (mk_blade [:: i]) = mat_at M i j.
Proof.
move=> tL E li lj; have [M' E' [rM e]] := lt_matrixP two tL; move: E'; rewrite E => -[EM].
have [Le EL [pL vL]] := yields_plain (callP tL (vector_plain (evecP lj))); exists Le => //.
have [oL bL] := plainP pL; have bx := bladed_blade oL bL.
rewrite -[coefficient _ _]/(coef (obj Le) (mk_blade [:: i])) (@coef_value _ two a) ?wf1 // -[value two a _]/(mvv Le) vL.
rewrite (evec_val (Ordinal lj)) (om_bvec two) (set_of1 (Ordinal li)).
by have /matrixP/(_ (Ordinal li) (Ordinal lj)) := e; rewrite !mxE EM => ->.
Qed.
(* the transformation of a list of rows: row j is the image of e_j *)
Theorem C27_lists M : rect M -> transformation (lt_of_lists a M) /\
  exists2 M', lt_matrix a (lt_of_lists a M) = Some M' & forall i j, (i < n)%N -> (j < n)%N -> mat_at M' i j = mat_at M j i.
Proof.
move=> rM; have [tL e] := lt_of_listsP two rM; split=> //; have [M' -> [rM' e']] := lt_matrixP two tL.
exists M' => // i j li lj; have /matrixP/(_ (Ordinal li) (Ordinal lj)) := e'.
by rewrite e !mxE.
Qed.
(* the transformation of a list of vectors *)
Theorem C27_vectors (Xs : seq (mv R)) : size Xs = n -> all vector Xs ->
  exists L, [/\ lt_of_vectors a Xs = Some L, transformation L &
    forall i, (i < n)%N -> same (call L (evec i)) (Some (nth (mv_const a 0) Xs i)) = Some true].
Proof.
move=> sX /(all_nthP (mv_const a 0)) hX; set X0 := mv_const a 0.
pose f X := [seq (coef (obj X) (basis_word j), basis_word j) | j <- iota 0 n].
have symE X : vector X -> sym_expr a X = Some (f X).
  move=> vX; have [oX bX lX hX'] := vectorP vX; rewrite /sym_expr C16_blade_coefs_list ?mv_validE //; last first.
    by rewrite all_map; apply/allP => i; rewrite mem_iota => li; rewrite /= mv_validE; have [] := basis_vecP two li.
  have -> : all (is_basis_blade a) [seq mv_basis_vec R i | i <- iota 0 n].
    rewrite all_map; apply/allP => i; rewrite mem_iota => li; rewrite /= /is_basis_blade /= eqxx andbT.
    by rewrite (mk_blade_in (wf1 li)).
  rewrite /=; congr Some; apply/eq_in_map => j; rewrite mem_iota => lj; congr (_, _).
  by rewrite -map_comp (nth_map 0%N) ?size_iota // nth_iota.
have vf X : vector X -> lin_comb a (f X) /\ value two a (f X) = mvv X.
  move=> vX; have [oX bX lX hX'] := vectorP vX; have [l v] := val_comb two a (fun j => coef (obj X) (basis_word j)).
  split=> //; rewrite v (vec_decomp hX'); apply: eq_bigr => j _; congr (_ *: _).
  exact: (@comb_coef _ two a [::]).
have hN i : (i < n)%N -> vector (nth X0 Xs i) by move=> li; apply: hX; rewrite sX.
exists [seq (i, f (nth X0 Xs i)) | i <- iota 0 n]; split.
- rewrite /lt_of_vectors (zip_iota (a := a) X0 sX) omapM_comp; apply: omapM_some => i; rewrite mem_iota => li /=.
  by rewrite symE //; exact: hN.
- by apply: table_tr => i li; have [] := vf _ (hN i li).
move=> i li; have tL : transformation [seq (i, f (nth X0 Xs i)) | i <- iota 0 n].
  by apply: table_tr => k lk; have [] := vf _ (hN k lk).
apply: sameP (callP tL (vector_plain (evecP li))) _; rewrite (evec_val (Ordinal li)) (om_bvec two).
rewrite /vimgs (@table_vimg _ two a (fun i => f (nth X0 Xs i))) // (vf _ (hN i li)).2.
apply: plain_yields; exact: vector_plain (hN i li).
Qed.


(* combinations of vectors are vectors *)
Lemma vector_comb c d A B : vector A -> vector B ->
  exists2 Z, run a (c ##. A +. d ##. B) = Some Z & vector Z /\ mvv Z = c *: mvv A + d *: mvv B.
Proof.
move=> vA vB; have [Z E [pZ vZ]] := yields_plain (yields_lin c d (plain_yields (vector_plain vA)) (plain_yields (vector_plain vB))).
exists Z => //; split=> //; rewrite /Spec_Lt.vector pZ; have [oZ bZ] := plainP pZ.
apply: (@vec_object _ two a) => //; rewrite vZ; have [_ _ _ hA] := vectorP vA; have [_ _ _ hB] := vectorP vB.
by apply: homogD; apply: homogZ.
Qed.
(* a function on vectors that is linear, returns vectors and respects == *)
Definition linear_function (F : mv R -> option (mv R)) : Prop :=
  [/\ forall A, vector A -> exists2 FA, F A = Some FA & vector FA,
      forall A B, vector A -> vector B -> mv_eq a A B = Some true -> same (F A) (F B) = Some true &
      forall A B c d, vector A -> vector B ->
        same (LET x := run a (c ##. A +. d ##. B) IN F x)
             (LET x := F A IN LET y := F B IN run a (c ##. x +. d ##. y)) = Some true].
Lemma linear_functionP F : linear_function F ->
  exists phi : {linear mval R n -> mval R n}, (forall u, homog 1 u -> homog 1 (phi u)) /\
    forall A, vector A -> yields true (F A) (phi (mvv A)).
Proof.
move=> [tot ext_ lin].
pose w (i : 'I_n) : mval R n := if F (evec i) is Some Y then mvv Y else 0.
have hw (i : 'I_n) : homog 1 (w i).
  by rewrite /w; have [Y -> /vectorP[]] := tot _ (evecP (ltn_ord i)).
exists [linear of om w]; split=> [u hu|A vA] /=; first exact: om_homog.
have yF X : vector X -> exists2 Y, F X = Some Y & vector Y /\ yields true (F X) (mvv Y).
  by move=> vX; have [Y E vY] := tot X vX; exists Y => //; rewrite E; split=> //; apply: plain_yields; exact: vector_plain.
have eqV X Y : vector X -> vector Y -> mv_eq a X Y = Some (mvv X == mvv Y).
  by move=> /vectorP[oX _ _ _] /vectorP[oY _ _ _]; exact: mv_eqP.
have step X Y Z c d FX FY : vector X -> vector Y -> vector Z -> mvv Z = c *: mvv X + d *: mvv Y ->
  yields true (F X) FX -> yields true (F Y) FY -> yields true (F Z) (c *: FX + d *: FY).
  move=> vX vY vZ EZ [X' EX hX] [Y' EY hY]; have [T ET [vT vT']] := vector_comb c d vX vY.
  have [T1 ET1 [vT1 _]] := yF T vT; have [Z1 EZ1 [vZ1 yZ]] := yF Z vZ.
  have := ext_ Z T vZ vT; rewrite eqV // EZ vT' eqxx => /(_ erefl); rewrite ET1 EZ1 /Spec_Lt.same /= eqV // => -[/eqP e1].
  have := lin X Y c d vX vY; rewrite ET /= ET1 EX EY.
  have [W EW hW] := yields_lin c d (ex_intro2 _ _ X' erefl hX) (ex_intro2 _ _ Y' erefl hY).
  rewrite -[(LET x := Some X' IN _)]/(run a (c ##. X' +. d ##. Y')) EW /Spec_Lt.same /=.
  have [oW vW _] := hW; have [o1 _ _ _] := vectorP vT1; rewrite (mv_eqP two wf o1 oW) => -[/eqP e2].
  by rewrite -vW -e2 -e1 -EZ1.
have sup (k : nat) : (k <= n)%N -> forall X, vector X -> (forall i : 'I_n, (k <= i)%N -> (mvv X) [set i] = 0) ->
    yields true (F X) (om w (mvv X)).
  elim: k => [|k IH] lk X vX sX.
    have X0 : mvv X = 0.
      by have [_ _ _ hX] := vectorP vX; rewrite (vec_decomp hX) big1 // => i _; rewrite sX // scale0r.
    have [Y EY [_ yY]] := yF X vX; have := step X X X 0 0 _ _ vX vX vX _ yY yY; rewrite X0 !scaler0 !scale0r addr0 linear0; exact.
  pose i0 := Ordinal lk; pose c := (mvv X) [set i0].
  have [Y EY [vY vY']] := vector_comb 1 (- c) vX (evecP lk); rewrite (evec_val i0) scale1r in vY'.
  have yY : yields true (F Y) (om w (mvv Y)).
    apply: IH => //; first exact: ltnW.
    move=> i; rewrite leq_eqVlt => /predU1P[ki|ki].
      have -> : i = i0 by exact: val_inj.
      by rewrite vY' !ffunE eqxx mulr1 subrr.
    rewrite vY' !ffunE sX // (_ : ([set i] == [set i0]) = false) ?mulr0 ?addr0 //.
    by apply/eqP => /set1_inj ii; move: ki; rewrite ii ltnn.
  have y0 : yields true (F (evec k)) (w i0).
    by rewrite /w /=; have [Z -> [_ yZ]] := yF _ (evecP lk).
  have := step Y (evec k) X 1 c _ _ vY (evecP lk) vX _ yY y0; rewrite vY' (evec_val i0) !scale1r scaleNr subrK.
  by move=> /(_ erefl); rewrite linearB linearZ /= (om_bvec two) subrK.
by apply: (sup n) => // i; rewrite leqNgt ltn_ord.
Qed.
(* the transformation of a linear function, for any vectors A, B of the acceptance test *)
Theorem C27_function F A B : linear_function F -> vector A -> vector B ->
  exists2 L, lt_of_function a A B F = Some L & transformation L /\
    forall X, vector X -> same (call L X) (F X) = Some true.
Proof.
move=> /linear_functionP[phi [hphi hF]] vA vB.
have [oA bA lA _] := vectorP vA; have [oB bB lB _] := vectorP vB.
have [|L E [tL e]] := @lt_of_functionP _ two a wf A B F phi oA oB bA bB lA lB hphi.
  by move=> X oX bX lX; apply: hF; rewrite /Spec_Lt.vector /Spec_Lt.plain mv_validE oX [_ || _]bX.
exists L => //; split=> // X vX; apply: sameP (callP tL (vector_plain vX)) _.
have [_ _ _ hX] := vectorP vX.
rewrite (vec_evec (F := [linear of om_ L]) (G := phi) hX) => [|i]; first exact: hF.
by rewrite /= (om_bvec two) e.
Qed.

(* ---- versors ---- *)
Lemma vec_ext_half (u y : mval R n) : homog 1 u ->
  (ext u y : C) *+ 2 = (u : C) * (y : C) + (ginv y : C) * (u : C).
Proof.
move=> hu; have [c ->] : exists c : 'I_n -> R, u = \sum_i c i *: bl R [set i] by exists (fun i : 'I_n => u [set i]); exact: vec_decomp.
rewrite (ext_suml two) -sumrMnl mulr_suml mulr_sumr -big_split; apply: eq_bigr => i _ /=.
rewrite -scalerAl -scalerAr (extZl two) -scalerDr scalerMnr; congr (_ *: _).
rewrite -(wedge_opE two) -[(bl R [set i] : C)]/(cgen (ga_metric two a) i) cgen_mul cgen_mulr /lmul /rmul ginvK.
by rewrite addrACA subrr addr0 mulr2n.
Qed.
Lemma mulr2_inj (x y : C) : x *+ 2 = y *+ 2 -> x = y.
Proof.
move=> E; rewrite -[x]scale1r -[y]scale1r -(mulVr two) -!scalerA !scaler_nat.
by rewrite E.
Qed.
Definition conj_by (p : bool) (V Vi : C) (x : mval R n) : mval R n := V * (if p then ginv x else x : C) * Vi.
Lemma conj_by_linear p V Vi : linear (conj_by p V Vi).
Proof.
move=> c x y; rewrite /conj_by; case: p; rewrite ?linearP.
  by rewrite mulrDr mulrDl -scalerAr -scalerAl.
by rewrite -[c *: x + y]/((c *: (x : C) + (y : C)) : C) mulrDr mulrDl -scalerAr -scalerAl.
Qed.
Lemma conj_om (p : bool) (V Vi : C) : V * Vi = 1 -> ginv V = (-1) ^+ p *: V ->
  (forall u : mval R n, homog 1 u -> homog 1 ((ginv V : C) * (u : C) * Vi)) ->
  conj_by p V Vi =1 om (fun i : 'I_n => (ginv V : C) * (bl R [set i] : C) * Vi).
Proof.
move=> VVi gV hvec; have ViV := cl_mulC1 VVi.
have gVi : ginv Vi = (-1) ^+ p *: Vi.
  apply: (@cl_inv_uniq _ two a (ginv V)).
    by rewrite -(ginvM V Vi) VVi; exact: minvol1.
  by rewrite gV -scalerAl -scalerAr VVi scalerA -expr2 sqrr_sign scale1r.
pose t x : C := if p then ginv x else x; have tM (x y : C) : t (x * y) = t x * t y by rewrite /t; case: (p); rewrite ?ginvM.
have hM (x y : C) : conj_by p V Vi (x * y) = (conj_by p V Vi x : C) * (conj_by p V Vi y : C) :> C.
  rewrite /conj_by -!/(t _) tM -!mulrA; congr (_ * (_ * _)).
  by rewrite !mulrA ViV mul1r.
have hg (y : mval R n) : ginv (conj_by p V Vi y) = conj_by p V Vi (ginv y).
  rewrite /conj_by !ginvM gV gVi -!scalerAl -!scalerAr scalerA -expr2 sqrr_sign scale1r.
  by case: (p).
have h1 (u : mval R n) : homog 1 u -> conj_by p V Vi u = (ginv V : C) * (u : C) * Vi.
  move=> hu; rewrite /conj_by gV; case: (p); rewrite ?expr0 ?scale1r //.
  rewrite -[ginv u]/(minvol u) (invol_vec hu) expr1 scaleN1r -[(- u : mval R n)]/(- (u : C) : C) mulrN !mulNr; by [].
pose F := Linear (conj_by_linear p V Vi).
have hE u y : homog 1 u -> F (ext u y) = ext (F u) (F y).
  move=> hu; apply: mulr2_inj; rewrite (vec_ext_half (F y)); last by rewrite /F /= h1 //; exact: hvec.
  rewrite -[LHS]/((F (ext u y : C) : C) *+ 2) -[LHS]raddfMn (vec_ext_half y hu) raddfD /=.
  by rewrite !hM hg.
move=> x; rewrite -[LHS]/(F x); apply: (linear_ext (f := F) (h := [linear of om _])) => S /=.
rewrite -(wword_enum R S); elim: (enum S) => [|i w IH] /=.
  rewrite om_one /conj_by -/(t _) (_ : t _ = 1) ?mulr1 //.
  by rewrite /t; case: (p) => //; exact: minvol1.
have hi : homog 1 (bl R [set i] : mval R n) by have := homog_bl R [set i]; rewrite cards1.
rewrite (om_wedge two) -?IH => [|j]; last by apply: hvec; have := homog_bl R [set j]; rewrite cards1.
by rewrite (wedge_opE two) -[LHS]/(F (ext _ _)) hE //= h1.
Qed.
Lemma inv_bladed X Y : mv_ok a X -> bladed a X -> mv_inv a X = Some Y -> bladed a Y.
Proof.
move=> oX bX; rewrite /mv_inv; case: (is_scalar a X) => [[]|] //=.
  by case: sinv => [d|] //= [<-]; have [_ _] := const_ok two a d.
case: (mv_mul a X X) => [Q|] //=; case: (is_scalar a Q) => [[]|] //=.
  by case: sinv => [d|] //= E; have [Z] := mv_scaleP two d oX; rewrite E => -[->] [_ _]; exact.
have [V -> [oV _ /(_ isT) bV]] := mv_revP two wf true oX; rewrite /=.
case: (mv_mul a X V) => [P|] //=; case: (is_scalar a P) => [[]|] //=.
by case: sinv => [d|] //= E; have [Z] := mv_scaleP two d oV; rewrite E => -[->] [_ _]; exact.
Qed.
Lemma yields_mul A B v w : yields true (Some A) v -> yields true (Some B) w ->
  yields true (run a (A *. B)) ((v : C) * (w : C)).
Proof.
move=> [_ [<-] [oA <- /(_ isT) bA]] [_ [<-] [oB <- /(_ isT) bB]].
by apply: yieldsW (mv_mulP two wf oA oB).
Qed.
(* V with V.inv() = Vi such that x -> V.g_invol()*x*V.inv() keeps vectors *)
Theorem C27_sandwich V Vi A B : plain V -> mv_inv a V = Some Vi ->
  (forall X, vector X -> exists2 Y, run a (Invol V *. X *. Vi) = Some Y & vector Y) ->
  vector A -> vector B ->
  exists2 L, lt_of_versor a A B V = Some L & transformation L /\
    [/\ forall X, vector X -> same (call L X) (run a (Invol V *. X *. Vi)) = Some true,
        run_eq a (Even V) V = Some true ->
          forall X, plain X -> same (call L X) (run a (V *. X *. Vi)) = Some true &
        run_eq a (Odd V) V = Some true ->
          forall X, plain X -> same (call L X) (run a (V *. Invol X *. Vi)) = Some true].
Proof.
move=> pV Ei hvec vA vB; have [oV bV] := plainP pV; have [oVi [VVi _]] := mv_inv_sound two wf oV Ei.
have bVi := inv_bladed oV bV Ei.
have yVi : yields true (Some Vi) (mvv Vi) by exists Vi.
have [Vg Eg [oVg vVg bVg]] := mv_involP two wf true oV bV.
have yVg : yields true (Some Vg) (ginv (mvv V)) by exists Vg.
pose F X := LET p := mv_mul a Vg X IN mv_mul a p Vi.
have FE X : run a (Invol V *. X *. Vi) = F X by rewrite /= Eg.
have yF X : plain X -> yields true (F X) ((ginv (mvv V) : C) * mvv X * mvv Vi).
  move=> pX; apply: let1 (yields_mul yVg (plain_yields pX)) _ => x hx; exact: (yields_mul hx yVi).
pose phi := fun x : mval R n => (ginv (mvv V) : C) * (x : C) * mvv Vi : mval R n.
have lphi : linear phi by move=> c x y; rewrite /phi mulrDr mulrDl -scalerAr -scalerAl.
pose Phi := Linear lphi.
have hphi u : homog 1 u -> homog 1 (Phi u).
  move=> hu; rewrite (vec_decomp hu) linear_sum; apply: homog_big => i _; rewrite linearZ; apply: homogZ.
  have [Y E vY] := hvec _ (evecP (ltn_ord i)); have [_ _ _ hY] := vectorP vY.
  have := yF _ (vector_plain (evecP (ltn_ord i))); rewrite -FE E evec_val => -[_ [<-] [_ vY' _]].
  by rewrite -[Phi _]/((ginv (mvv V) : C) * (bl R [set i] : C) * mvv Vi) -vY'.
have [oA bA lA _] := vectorP vA; have [oB bB lB _] := vectorP vB.
have [|L E [tL e]] := @lt_of_functionP _ two a wf A B F Phi oA oB bA bB lA lB hphi.
  by move=> X oX bX lX; apply: yF; rewrite /Spec_Lt.plain mv_validE oX [_ || _]bX.
exists L; first by rewrite /lt_of_versor Eg /= Ei.
have omE (p : bool) : ginv (mvv V) = (-1) ^+ p *: mvv V -> om_ L =1 conj_by p (mvv V) (mvv Vi).
  move=> g x; rewrite (conj_om VVi g) //; apply: eq_om => i; exact: e.
split=> //; split.
- move=> X vX; have [_ _ _ hX] := vectorP vX; apply: sameP (callP tL (vector_plain vX)) _.
  rewrite (vec_evec (F := [linear of om_ L]) (G := Phi) hX) => [|i]; last by rewrite /= (om_bvec two) e.
  by rewrite FE; apply: yF; exact: vector_plain.
- move=> ev X pX; apply: sameP (callP tL pX) _; rewrite (omE false) ?expr0 ?scale1r //; last first.
    have [E0 EE [oE vE bE]] := mv_evenP two true oV bV; move: ev; rewrite /run_eq /= EE /= (mv_eqP two wf oE oV) vE => -[/eqP h].
    have o0 : modd (mvv V) = 0 by apply: (addrI (meven (mvv V))); rewrite -meven_odd addr0 h.
    by rewrite -minvolE minvol_eo o0 subr0 h.
  rewrite /conj_by -[run a _]/(LET p := mv_mul a V X IN mv_mul a p Vi).
  apply: let1 (yields_mul (plain_yields pV) (plain_yields pX)) _ => x hx; exact: (yields_mul hx yVi).
- move=> od X pX; apply: sameP (callP tL pX) _; rewrite (omE true) ?expr1 ?scaleN1r //; last first.
    have [E0 EE [oE vE bE]] := mv_oddP two true oV bV; move: od; rewrite /run_eq /= EE /= (mv_eqP two wf oE oV) vE => -[/eqP h].
    have o0 : meven (mvv V) = 0 by apply: (addIr (modd (mvv V))); rewrite -meven_odd add0r h.
    by rewrite -minvolE minvol_eo o0 sub0r h.
  have [oX bX] := plainP pX; have [Xg EX [oXg vXg bXg]] := mv_involP two wf true oX bX.
  rewrite /= EX /= /conj_by -[ginv (mvv X)]vXg.
  have yXg : yields true (Some Xg) (mvv Xg) by exists Xg.
  apply: let1 (yields_mul (plain_yields pV) yXg) _ => x hx; exact: (yields_mul hx yVi).
Qed.
(* ---- C28: on vectors, the sum, difference and scalar multiple are pointwise ---- *)
Lemma yields_sub A B v w : yields true (Some A) v -> yields true (Some B) w -> yields true (run a (A -. B)) (v - w).
Proof.
move=> [_ [<-] [oA <- /(_ isT) bA]] [_ [<-] [oB <- /(_ isT) bB]].
by apply: yieldsW (mv_subP two wf oA oB) => _; rewrite bA.
Qed.
Lemma yields_add A B v w : yields true (Some A) v -> yields true (Some B) w -> yields true (run a (A +. B)) (v + w).
Proof.
move=> [_ [<-] [oA <- /(_ isT) bA]] [_ [<-] [oB <- /(_ isT) bB]].
by apply: yieldsW (mv_addP two wf oA oB) => _; rewrite bA.
Qed.
Theorem C28_add L1 L2 A : transformation L1 -> transformation L2 -> vector A ->
  transformation (lt_add L1 L2) /\
  same (call (lt_add L1 L2) A) (LET x := call L1 A IN LET y := call L2 A IN run a (x +. y)) = Some true.
Proof.
move=> t1 t2 vA; have [t h] := lt_addP two t1 t2; split=> //; have [oA bA lA hA] := vectorP vA.
have pA := vector_plain vA.
apply: sameP (callP t pA) _; rewrite (@om_lin _ two a L1 L2 1) // ?lmx_add ?scale1r //.
by apply: let2 (callP t1 pA) (callP t2 pA) _ => x y; exact: yields_add.
Qed.
Theorem C28_sub L1 L2 A : transformation L1 -> transformation L2 -> vector A ->
  transformation (lt_minus L1 L2) /\
  same (call (lt_minus L1 L2) A) (LET x := call L1 A IN LET y := call L2 A IN run a (x -. y)) = Some true.
Proof.
move=> t1 t2 vA; have [t h] := lt_minusP two t1 t2; split=> //; have [oA bA lA hA] := vectorP vA.
have pA := vector_plain vA.
apply: sameP (callP t pA) _; rewrite (@om_lin _ two a L1 L2 (-1)) // ?lmx_minus ?scaleN1r //.
by apply: let2 (callP t1 pA) (callP t2 pA) _ => x y; exact: yields_sub.
Qed.
Theorem C28_scale c L A : transformation L -> vector A ->
  transformation (lt_scale c L) /\
  same (call (lt_scale c L) A) (LET x := call L A IN run a (c ##. x)) = Some true.
Proof.
move=> tL vA; have [t h] := lt_scaleP two c tL; split=> //; have [oA bA lA hA] := vectorP vA.
have pA := vector_plain vA; apply: sameP (callP t pA) _.
apply: (let1 (callP tL pA)) => x [_ [<-] [ox vx bx]]; rewrite -[run a _]/(mv_scale a c x).
have -> : om_ (lt_scale c L) (mvv A) = c *: om_ L (mvv A).
  by rewrite !(om_vec two) // scaler_sumr; apply: eq_bigr => i _; rewrite /vimgs h // scalerA mulrC -scalerA.
by rewrite -vx; apply: yieldsW (mv_scaleP two c ox); exact: bx.
Qed.
(* the composition acts as the composed functions, on all multivectors *)
Theorem C28_compose L1 L2 : transformation L1 -> transformation L2 ->
  exists2 L, lt_mul a L1 L2 = Some L & transformation L /\
    forall A, plain A -> same (call L A) (LET x := call L2 A IN call L1 x) = Some true.
Proof.
move=> t1 t2; have [L E [t h]] := lt_mulP two t1 t2; exists L => //; split=> // A pA.
apply: sameP (callP t pA) _; apply: (let1 (callP t2 pA)) => x hx.
have -> : om_ L (mvv A) = om_ L1 (om_ L2 (mvv A)).
  rewrite (om_comp two) => [|i|i]; [|exact: vimg_homog|exact: vimg_homog].
  by apply: eq_om => i; rewrite /vimgs h.
by have [_ [<-] [px <-]] := yields_plain hx; exact: callP.
Qed.
(* the matrices: sums, differences, multiples entry by entry, and the matrix product *)
Theorem C28_matrix L1 L2 M1 M2 : transformation L1 -> transformation L2 ->
  lt_matrix a L1 = Some M1 -> lt_matrix a L2 = Some M2 ->
  exists2 L, lt_mul a L1 L2 = Some L &
  exists2 M, lt_matrix a L = Some M &
    forall i j, (i < n)%N -> (j < n)%N -> mat_at M i j = \sum_(k < n) mat_at M1 i k * mat_at M2 k j.
Proof.
move=> t1 t2 E1 E2; have [L E [t h]] := lt_mulP two t1 t2; exists L => //.
have [M EM [rM e]] := lt_matrixP two t; exists M => // i j li lj.
have [M1' E1' [r1 e1]] := lt_matrixP two t1; have [M2' E2' [r2 e2]] := lt_matrixP two t2.
move: E1' E2' e1 e2; rewrite E1 E2 => -[<-] -[<-] e1 e2.
have := lmx_mul two t1 t2 E; rewrite -e -e1 -e2 => /matrixP/(_ (Ordinal li) (Ordinal lj)); rewrite !mxE => ->.
by apply: eq_bigr => k _; rewrite !mxE.
Qed.
Theorem C28_matrix_linear L1 L2 M1 M2 c : transformation L1 -> transformation L2 ->
  lt_matrix a L1 = Some M1 -> lt_matrix a L2 = Some M2 ->
  exists Ma Ms Mc, [/\ lt_matrix a (lt_add L1 L2) = Some Ma, lt_matrix a (lt_minus L1 L2) = Some Ms,
    lt_matrix a (lt_scale c L1) = Some Mc &
    forall i j, (i < n)%N -> (j < n)%N ->
      [/\ mat_at Ma i j = mat_at M1 i j + mat_at M2 i j, mat_at Ms i j = mat_at M1 i j - mat_at M2 i j &
          mat_at Mc i j = c * mat_at M1 i j]].
Proof.
move=> t1 t2 E1 E2.
have [ta _] := lt_addP two t1 t2; have [ts _] := lt_minusP two t1 t2; have [tc _] := lt_scaleP two c t1.
have [Ma Ea [_ ea]] := lt_matrixP two ta; have [Ms Es [_ es]] := lt_matrixP two ts.
have [Mc Ec [_ ec]] := lt_matrixP two tc; exists Ma, Ms, Mc; split=> // i j li lj.
have [M1' E1' [r1 e1]] := lt_matrixP two t1; have [M2' E2' [r2 e2]] := lt_matrixP two t2.
move: E1' E2' e1 e2; rewrite E1 E2 => -[<-] -[<-] e1 e2.
have at_ (N : mat R) (X : 'M[R]_n) : to_mx n N = X -> mat_at N i j = X (Ordinal li) (Ordinal lj) by move=> <-; rewrite mxE.
rewrite (at_ _ _ ea) (at_ _ _ es) (at_ _ _ ec) lmx_add // lmx_minus // lmx_scale // -e1 -e2 !mxE.
by split.
Qed.

(* ---- C29 ---- *)
Theorem C29_one L c : transformation L -> same (on L (Num c)) (run a (Num c)) = Some true.
Proof.
move=> tL; have [o v b] := const_ok two a c; have y : yields true (run a (Num c)) (scal a c) by exists (mv_const a c).
apply: sameP (onP tL y) _; by rewrite /Mv_Proof.scal linearZ /= om_one.
Qed.
Theorem C29_wedge L A B : transformation L -> plain A -> plain B ->
  same (on L (A ^. B)) (LET x := call L A IN LET y := call L B IN run a (x ^. y)) = Some true.
Proof.
have w X Y v u : yields true (Some X) v -> yields true (Some Y) u -> yields true (run a (X ^. Y)) (ext v u).
  move=> [_ [<-] [oA <- /(_ isT) bA]] [_ [<-] [oB <- /(_ isT) bB]].
  by apply: yieldsW (mv_wedgeP two wf oA oB).
move=> tL pA pB; apply: sameP (onP tL (w _ _ _ _ (plain_yields pA) (plain_yields pB))) _.
rewrite (om_ext two) => [|i]; last exact: vimg_homog.
by apply: let2 (callP tL pA) (callP tL pB) _ => x y; exact: w.
Qed.
Theorem C29_grade L A r : transformation L -> plain A ->
  same (on L (Grade A r)) (LET x := call L A IN run a (Grade x r)) = Some true.
Proof.
have w X v : yields true (Some X) v -> yields true (run a (Grade X r)) (gpart r v).
  by move=> [_ [<-] [oA <- /(_ isT) bA]]; exact: mv_gradeP.
move=> tL pA; apply: sameP (onP tL (w _ _ (plain_yields pA))) _.
rewrite -(om_gpart two) => [|i]; last exact: vimg_homog.
by apply: let1 (callP tL pA) _ => x; exact: w.
Qed.
(* L(E) == det(L)*E; det raises exactly when the metric has no inverse *)
Lemma e_unit : (esq a \is a GRing.unit) = (\det (metric_mx a) \is a GRing.unit).
Proof. by rewrite e_sqv_unit unitmxE. Qed.
Theorem C29_det_defined L : transformation L ->
  (exists d, lt_det a L = Some d) <-> \det (metric_mx a) \is a GRing.unit.
Proof.
move=> tL; rewrite -e_unit; split=> [[d E]|u]; last by rewrite (lt_det_total two wf tL u); eexists.
by apply/negP => /negP nu; move: E; rewrite (lt_det_none two wf tL nu).
Qed.
Theorem C29_pseudoscalar L d : transformation L -> lt_det a L = Some d ->
  same (call L (ga_e a)) (run a (d ##. ga_e a)) = Some true.
Proof.
move=> tL /(lt_det_val two wf tL) ->; have [oe ve be _] := ga_eP two a.
have pe : plain (ga_e a) by rewrite /Spec_Lt.plain mv_validE oe.
apply: sameP (callP tL pe) _; rewrite -[run a _]/(mv_scale a _ (ga_e a)) ve om_det // -[X in _ *: X]ve.
by apply: yieldsW (mv_scaleP two _ oe).
Qed.
Theorem C29_det_matrix L M d : transformation L -> lt_matrix a L = Some M -> lt_det a L = Some d ->
  d = \det (\matrix_(i < n, j < n) mat_at M i j).
Proof.
move=> tL E /(lt_det_val two wf tL) ->; have [M' E' [_ e]] := lt_matrixP two tL.
by move: E'; rewrite E => -[->]; rewrite -e.
Qed.
Theorem C29_det_compose L1 L2 L d1 d2 : transformation L1 -> transformation L2 -> lt_mul a L1 L2 = Some L ->
  lt_det a L1 = Some d1 -> lt_det a L2 = Some d2 -> lt_det a L = Some (d1 * d2).
Proof.
move=> t1 t2 E E1 E2; have [L' E' [t _]] := lt_mulP two t1 t2; move: E' t; rewrite E => -[<-] t.
have u : esq a \is a GRing.unit by rewrite e_unit -(C29_det_defined t1); exists d1.
by rewrite (lt_det_total two wf t u) (lmx_mul two t1 t2 E) det_mulmx (lt_det_val two wf t1 E1) (lt_det_val two wf t2 E2).
Qed.

(* ---- C31 ---- *)
Theorem C31_singular L M : transformation L -> \det (metric_mx a) \is a GRing.unit -> lt_matrix a L = Some M ->
  lt_is_singular a L = Some (\det (\matrix_(i < n, j < n) mat_at M i j) == 0).
Proof.
rewrite -e_unit => tL u E; rewrite (lt_singularP two wf tL u); have [M' E' [_ e]] := lt_matrixP two tL.
by move: E'; rewrite E => -[->]; rewrite -e.
Qed.
Theorem C31_inverse L L' : transformation L -> lt_inv a L = Some L' ->
  [/\ transformation L', lt_is_singular a L = Some false &
   forall A, plain A ->
     same (LET x := call L A IN call L' x) (Some A) = Some true /\
     same (LET x := call L' A IN call L x) (Some A) = Some true].
Proof.
move=> tL; rewrite /lt_inv; case E: (lt_is_singular a L) => [[]|] //=.
have [M -> [rM e]] := lt_matrixP two tL; rewrite /=.
case: (boolP (to_mx n M \in unitmx)) => [u|nu]; last by rewrite (mat_inv_sing rM nu).
have [N -> [rN eN]] := mat_invP rM u; rewrite /=; have [L2 -> [t2 e2]] := lt_of_matrixP two rN => -[<-]; split=> // A pA.
have c1 (K J : lt R) : transformation K -> transformation J -> @lmx R two a K *m @lmx R two a J = 1%:M ->
    same (LET x := call J A IN call K x) (Some A) = Some true.
  move=> tK tJ h; apply: sameP (plain_yields pA); apply: (let1 (callP tJ pA)) => x hx.
  have [_ [<-] [px vx]] := yields_plain hx; have := callP tK px; rewrite vx.
  rewrite (om_comp two) => [|i|i]; [|exact: vimg_homog|exact: vimg_homog].
  rewrite (@eq_om _ _ _ (fun i : 'I_n => bl R [set i])) ?(om_id two) // => i.
  apply: vec_eq => [||k]; first by apply: (om_homog two) => [j|]; exact: vimg_homog.
    by have := homog_bl R [set i]; rewrite cards1.
  rewrite om_mx; last exact: vimg_homog.
  have /matrixP/(_ k i) := h; rewrite !mxE bl_coef => E'.
  rewrite (_ : ([set k] == [set i]) = (k == i)); last by apply/eqP/eqP => [/set1_inj|->].
  by rewrite -E'; apply: eq_bigr => j _; rewrite !mxE.
by split; apply: c1; rewrite // e2 -e eN ?mulVmx ?mulmxV.
Qed.
(* if some transformation undoes L, inv() returns *)
Lemma inverse_mx L L' : transformation L -> transformation L' ->
  (forall A, vector A -> same (LET x := call L' A IN call L x) (Some A) = Some true) ->
  @lmx R two a L *m @lmx R two a L' = 1%:M.
Proof.
move=> tL tL' h; apply/matrixP => i j.
have := h _ (evecP (ltn_ord j)); have pj := vector_plain (evecP (ltn_ord j)).
have [x Ex [px vx]] := yields_plain (callP tL' pj); have [y Ey [py_ vy]] := yields_plain (callP tL px).
have [oy by_] := plainP py_; have [oj bj] := plainP pj.
rewrite Ex /= Ey /Spec_Lt.same /= (mv_eqP two wf oy oj) => -[/eqP]; rewrite vy vx evec_val (om_bvec two).
move=> /ffunP/(_ [set i]); rewrite om_mx; last exact: vimg_homog.
rewrite bl_coef !mxE (_ : ([set i] == [set j]) = (i == j)); last by apply/eqP/eqP => [/set1_inj|->].
by move=> <-; apply: eq_bigr => k _; rewrite !mxE.
Qed.
Theorem C31_complete L L' : transformation L -> \det (metric_mx a) \is a GRing.unit -> transformation L' ->
  (forall A, vector A -> same (LET x := call L' A IN call L x) (Some A) = Some true) ->
  lt_is_singular a L = Some false /\ exists L1, lt_inv a L = Some L1.
Proof.
rewrite -e_unit => tL u tL' /(inverse_mx tL tL') h.
have ud : \det (@lmx R two a L) \is a GRing.unit.
  by apply/unitrPr; exists (\det (@lmx R two a L')); rewrite -det_mulmx h det1.
have sg : lt_is_singular a L = Some false.
  by rewrite (lt_singularP two wf tL u); congr Some; apply/negbTE; apply: contraTneq ud => ->; rewrite unitr0.
split=> //; rewrite /lt_inv sg /=; have [M -> [rM e]] := lt_matrixP two tL; rewrite /=.
have uM : to_mx n M \in unitmx by rewrite unitmxE e.
have [N -> [rN eN]] := mat_invP rM uM; rewrite /=; have [L2 -> _] := lt_of_matrixP two rN; by exists L2.
Qed.

(* ---- C30: for a symmetric invertible metric matrix ---- *)
Definition symmetric_metric := forall i j, (i < n)%N -> (j < n)%N -> mat_at (ga_g a) i j = mat_at (ga_g a) j i.
Notation lmx_ L := (@lmx R two a L).
Lemma graw_gmat : symmetric_metric -> to_mx n (ga_g a) = gmat a.
Proof.
move=> sy; apply/matrixP => i j; rewrite !mxE /geff /gij -/(mat_at _ _ _).
by case: (leqP i j) => [_|/ltnW ji] //; exact: sy.
Qed.
Lemma omapM_sz (S T : Type) (f : S -> option T) l r : omapM f l = Some r -> size r = size l.
Proof.
move=> E; have /(congr1 size) := @omapM_map S T unit f (fun=> tt) (fun=> tt) l r (fun _ _ _ => erefl) E.
by rewrite !size_map.
Qed.
Lemma g_inv_rect gsym gi : g_inv gsym a = Some gi -> rect gi.
Proof.
move=> E; rewrite /Spec_Lt.rect (omapM_sz E) size_iota eqxx /=.
have := @omapM_map _ _ _ _ size (fun=> n) _ _ _ E; rewrite -(all_map size (fun k => k == n)) => ->.
  by rewrite all_map; apply/allP => k _ /=.
by move=> x y /omapM_sz ->; rewrite size_iota.
Qed.
Lemma lt_adjP gsym L : symmetric_metric -> \det (metric_mx a) \is a GRing.unit -> det_declared a gsym -> transformation L ->
  exists2 L', lt_adj a gsym L = Some L' & transformation L' /\ lmx_ L' = invmx (gmat a) *m (lmx_ L)^T *m gmat a.
Proof.
move=> sy u dd tL; have u' : gmat a \in unitmx by rewrite unitmxE.
rewrite /lt_adj; have [gi [E _ hl]] := C25_inverse_metric two wf u dd; rewrite E /=.
have rg := g_inv_rect E; have [M -> [rM eM]] := lt_matrixP two tL; have [rT eT] := mat_TP rM; rewrite /=.
have [P -> [rP eP]] := mat_mulP rg rT; rewrite /=; have [Q -> [rQ eQ]] := mat_mulP rP (wf : rect (ga_g a)); rewrite /=.
have [L' -> [tL' e]] := lt_of_matrixP two rQ; exists L' => //; split=> //.
rewrite e eQ eP eT eM (graw_gmat sy); congr (_ *m _ *m _).
by rewrite -[LHS]mulmx1 -(mulmxV u') mulmxA hl mul1mx.
Qed.
(* coordinates *)
Lemma gform_mx (x y : mval R n) : gform (ga_metric two a) x y =
  ((\row_i x [set i]) *m gmat a *m (\col_i y [set i])) 0 0.
Proof.
rewrite mxE /gform exchange_big; apply: eq_bigr => j _; rewrite !mxE big_distrl /=.
by apply: eq_bigr => i _; rewrite !mxE -!mulrA; congr (_ * _); rewrite mulrC.
Qed.
Lemma om_col L (x : mval R n) : homog 1 x -> \col_i (om_ L x) [set i] = lmx_ L *m \col_i x [set i].
Proof. by move=> hx; apply/matrixP => i j; rewrite !mxE om_mx //; apply: eq_bigr => k _; rewrite !mxE. Qed.
Lemma yields_dot A B v w : homog 1 v -> homog 1 w -> yields true (Some A) v -> yields true (Some B) w ->
  yields true (run a (A ||. B)) (scal a (gform (ga_metric two a) v w)).
Proof.
move=> hv hw [_ [<-] [oA vA _]] [_ [<-] [oB vB _]].
have := mv_singleP two wf Hestenes true oA oB; rewrite vA vB; rewrite [selprod _ _ _ _](vec_dot _ hv hw).
exact.
Qed.
Theorem C30_adjoint gsym L : symmetric_metric -> \det (metric_mx a) \is a GRing.unit -> det_declared a gsym ->
  transformation L ->
  exists2 L', lt_adj a gsym L = Some L' & transformation L' /\
    forall A B, vector A -> vector B ->
      same (LET x := call L B IN run a (A ||. x)) (LET x := call L' A IN run a (B ||. x)) = Some true.
Proof.
move=> sy u dd tL; have u' : gmat a \in unitmx by rewrite unitmxE.
have [L' -> [tL' e]] := lt_adjP sy u dd tL; exists L' => //; split=> // A B vA vB.
have pA := plain_yields (vector_plain vA); have pB := plain_yields (vector_plain vB).
have [_ _ _ hA] := vectorP vA; have [_ _ _ hB] := vectorP vB.
have hL K X : transformation K -> homog 1 (mvv X) -> homog 1 (om_ K (mvv X)).
  by move=> tK hX; apply: (om_homog two) => // i; exact: vimg_homog.
have y1 := let1 (callP tL (vector_plain vB)) (fun x hx => yields_dot hA (hL L B tL hB) pA hx).
have y2 := let1 (callP tL' (vector_plain vA)) (fun x hx => yields_dot hB (hL L' A tL' hA) pB hx).
apply: sameP y1 _; suff -> : gform (ga_metric two a) (mvv A) (om_ L (mvv B)) = gform (ga_metric two a) (mvv B) (om_ L' (mvv A)) by [].
rewrite !gform_mx !om_col // e !mulmxA; rewrite -[_ *m gmat a *m invmx _]mulmxA mulmxV // mulmx1.
set rA := \row_i _; set cB := \col_i _; set cA := \col_i _; set rB := \row_i _.
have -> : cA = rA^T by apply/matrixP => i j; rewrite !mxE.
have -> : rB = cB^T by apply/matrixP => i j; rewrite !mxE.
by rewrite -[in LHS](trmxK (_ *m cB)) mxE !trmx_mul gmat_tr !mulmxA.
Qed.
(* taking the adjoint twice gives the same function on all multivectors *)
Theorem C30_involutive gsym L : symmetric_metric -> \det (metric_mx a) \is a GRing.unit -> det_declared a gsym ->
  transformation L ->
  exists2 L2, (LET L1 := lt_adj a gsym L IN lt_adj a gsym L1) = Some L2 &
    lt_matrix a L2 = lt_matrix a L /\ forall A, plain A -> same (call L2 A) (call L A) = Some true.
Proof.
move=> sy u dd tL; have u' : gmat a \in unitmx by rewrite unitmxE.
have [L1 -> [t1 e1]] := lt_adjP sy u dd tL; have [L2 /= -> [t2 e2]] := lt_adjP sy u dd t1; exists L2 => //.
have E : lmx_ L2 = lmx_ L.
  rewrite e2 e1 !trmx_mul trmxK gmat_tr trmx_inv gmat_tr !mulmxA mulVmx // mul1mx.
  by rewrite -mulmxA mulVmx // mulmx1.
split; last first.
  by move=> A pA; apply: sameP (callP t2 pA) _; rewrite (lmx_om t2 tL E); exact: callP.
have [M EM [rM eM]] := lt_matrixP two tL; rewrite EM; apply: (@lt_matrix_eq _ two a) => //; by rewrite eM E.
Qed.
(* the adjoint reverses compositions *)
Theorem C30_compose gsym L1 L2 : symmetric_metric -> \det (metric_mx a) \is a GRing.unit -> det_declared a gsym ->
  transformation L1 -> transformation L2 ->
  exists K K', [/\ (LET L := lt_mul a L1 L2 IN lt_adj a gsym L) = Some K,
    (LET M1 := lt_adj a gsym L1 IN LET M2 := lt_adj a gsym L2 IN lt_mul a M2 M1) = Some K' &
    lt_matrix a K = lt_matrix a K' /\ lt_matrix a K <> None].
Proof.
move=> sy u dd t1 t2; have u' : gmat a \in unitmx by rewrite unitmxE.
have [L EL [tL _]] := lt_mulP two t1 t2; have eL := lmx_mul two t1 t2 EL.
have [K EK [tK eK]] := lt_adjP sy u dd tL.
have [M1 E1 [tM1 e1]] := lt_adjP sy u dd t1; have [M2 E2 [tM2 e2]] := lt_adjP sy u dd t2.
have [K' EK' [tK' _]] := lt_mulP two tM2 tM1; have eK' := lmx_mul two tM2 tM1 EK'.
exists K, K'; rewrite EL /= EK E1 /= E2 /= EK'; have [M EM [rM eM]] := lt_matrixP two tK; rewrite EM.
split=> //; split=> //; symmetry; apply: (@lt_matrix_eq _ two a) => //.
rewrite eM eK eK' e1 e2 eL trmx_mul !mulmxA; congr (_ *m _ *m _).
by rewrite -[_ *m gmat a *m invmx _]mulmxA mulmxV // mulmx1.
Qed.
End Props.

Theorem C31_field (F : fieldType) (two : (2%:R : F) \is a GRing.unit) (a : ga F) L : wf_ga a -> transformation a L ->
  \det (metric_mx a) != 0 ->
  (lt_is_singular a L = Some true /\ lt_inv a L = None /\
     ~ (exists2 L', transformation a L' &
         forall A, vector a A -> same a (LET x := lt_call a L' A IN lt_call a L x) (Some A) = Some true)) \/
  (lt_is_singular a L = Some false /\ exists L', lt_inv a L = Some L').
Proof.
move=> wf tL; rewrite -unitfE => u; have ue : esq a \is a GRing.unit by rewrite e_unit.
have sg := lt_singularP two wf tL ue; case: eqP sg => [d0|/eqP d0] sg; [left|right]; split=> //.
  split; first by rewrite /lt_inv sg.
  by move=> [L' tL' h]; have [] := C31_complete two wf tL u tL' h; rewrite sg.
rewrite /lt_inv sg /=; have [M -> [rM e]] := lt_matrixP two tL; rewrite /=.
have uM : to_mx (ga_n a) M \in unitmx by rewrite unitmxE e unitfE.
have [N -> [rN eN]] := mat_invP rM uM; rewrite /=; have [L2 -> _] := lt_of_matrixP two rN; by exists L2.
Qed.

(* objects accepted by is_versor() *)
Theorem C27_versor (F : fieldType) (two : (2%:R : F) \is a GRing.unit) (a : ga F) V A B : wf_ga a ->
  plain a V -> answers_versor a V = Some true -> vector a A -> vector a B ->
  exists Vi L, [/\ mv_inv a V = Some Vi, lt_of_versor a A B V = Some L, transformation a L &
    forall X, vector a X -> same a (lt_call a L X) (run a (Invol V *. X *. Vi)) = Some true].
Proof.
move=> wf pV ver vA vB; have [oV bV] := plainP pV.
have hV : mv_valid a V by rewrite mv_validE.
have [[c c0 Ec] hvec] := C23_versor_sound two wf hV bV ver.
have [r Er [or vr /(_ isT) br]] := mv_revP two wf true oV.
have [p Ep [op vp _]] := mv_mulP two wf oV or; have [oc vc _] := const_ok two a c.
have VrV : mvv two a p = scal a c.
  by move: Ec; rewrite /run_eq /= Er /= Ep /= (mv_eqP two wf op oc) vc => -[/eqP].
have uc : c \is a GRing.unit by rewrite unitfE.
have [Vi Ei] : exists Y, mv_inv a V = Some Y.
  by apply: (@mv_inv_complete _ two a wf V c) => //; apply: Or33; rewrite -VrV vp vr.
have [oVi [VVi _]] := mv_inv_sound two wf oV Ei.
have bVi := inv_bladed two wf oV bV Ei.
have vVi : mvv two a Vi = c^-1 *: mvv two a r.
  apply: (@cl_inv_uniq _ two a (mvv two a V)) => //.
  by rewrite -scalerAr -vp VrV /scal scalerA mulVr ?scale1r.
have [|L EL [tL [h _ _]]] := C27_sandwich two wf pV Ei _ vA vB; last by exists Vi, L.
move=> X vX; have [oX bX lX hX] := vectorP two vX.
have hX' : mv_valid a X by rewrite mv_validE.
have [w [Ew hw vw]] := hvec X hX' lX.
have ow : mv_ok a w by rewrite -mv_validE.
have [Vg Eg [oVg vVg bVg]] := mv_involP two wf true oV bV.
have [P EP [oP vP bP]] := mv_mulP two wf oVg oX.
have [Y EY [oY vY bY]] := mv_mulP two wf oP oVi.
rewrite -[run a _]/(LET x := (LET g := mv_invol a V IN mv_mul a g X) IN mv_mul a x Vi) Eg /= EP /= EY.
exists Y => //; rewrite /vector /plain mv_validE oY [_ || _](bY bVi) /=.
apply: (vec_object oY (bY bVi)); rewrite vY vVi -scalerAr; apply: homogZ.
move: Ew; rewrite -[run a _]/(LET x := (LET g := mv_invol a V IN mv_mul a g X) IN LET y := mv_rev a V IN mv_mul a x y) Eg /= EP /= Er /=.
have [Q EQ [oQ vQ bQ]] := mv_mulP two wf oP or; rewrite EQ => -[Qw]; rewrite -vQ Qw.
by apply: comb_homog.
Qed.
Print Assumptions C27_total.
Print Assumptions C27_vectors_to_vectors.
Print Assumptions C27_linear.
Print Assumptions C27_extensional.
Print Assumptions C27_matrix.
Print Assumptions C27_matrix_rejected.
Print Assumptions C27_round_trip.
Print Assumptions C27_entries.
Print Assumptions C27_lists.
Print Assumptions C27_vectors.
Print Assumptions C27_function.
Print Assumptions C27_sandwich.
Print Assumptions C28_add.
Print Assumptions C28_sub.
Print Assumptions C28_scale.
Print Assumptions C28_compose.
Print Assumptions C28_matrix.
Print Assumptions C28_matrix_linear.
Print Assumptions C29_one.
Print Assumptions C29_wedge.
Print Assumptions C29_grade.
Print Assumptions C29_det_defined.
Print Assumptions C29_pseudoscalar.
Print Assumptions C29_det_matrix.
Print Assumptions C29_det_compose.
Print Assumptions C31_singular.
Print Assumptions C31_inverse.
Print Assumptions C31_complete.
Print Assumptions C30_adjoint.
Print Assumptions C30_involutive.
Print Assumptions C30_compose.
Print Assumptions C31_field.
Print Assumptions C27_versor.
