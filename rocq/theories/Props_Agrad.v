(* Props_Agrad.v -- property C60: reciprocal blades and the derivative by a
   multivector *)
From mathcomp Require Import all_ssreflect all_algebra.
From Verif Require Import NatTac AlgTactics Exterior Clifford Blades Spec_Grade Grades GradeLaws ContrLaws Det Outer BladeLaws RecipBlades RecipSum Nabla.
From Verif Require Import Spec_Index PyBase Ga_Model Ga_Proof_Tables Ga_Proof_Sort Ga_Proof_Sem Ga_Proof_Reduce.
From Verif Require Import Ga_Sem Ga_Proof_Rep Ga_Proof_Conv Ga_Proof_Mul Spec_Clifford Clifford_Unique Spec_Mv Ga_Proof_Den Ga_Proof_Wedge Ga_Proof_Inner.
From Verif Require Import Ga_Proof_Grade Mv_Model Mv_Proof Mv_Expr Mv_Proof_Expr Props_Mv Dual_Model Dual_Proof Props_Dual Spec_Diff Coef_Proof Diff_Model Dop_Model.
From Verif Require Import Agrad_Model Agrad_Proof Spec_Agrad.
Set Implicit Arguments.
Unset Strict Implicit.
Unset Printing Implicit Defensive.
Import GRing.Theory.
Local Open Scope ring_scope.
Open Scope py_scope.

Section Props.
Variables (R : comUnitRingType) (two : (2%:R : R) \is a GRing.unit) (a : ga R).
Hypothesis wf : wf_ga a.
Notation n := (ga_n a).
Notation C := (cl two a).
Notation M := (mval R n).
Notation mvv := (mvv two a).
Variable gsym : option R.
Hypothesis ug : \det (metric_mx a) \is a GRing.unit.
Hypothesis gok : det_declared a gsym.
Let ug' : gmat a \in unitmx. Proof. by rewrite unitmxE. Qed.
Implicit Types (X Y : mv R) (I J : seq nat).

Lemma ys_same (p q : py R) v b b' : @yields R two a b (run a p) v -> @yields R two a b' (run a q) v ->
  run_eq a p q = Some true.
Proof.
move=> [X E [oX vX _]] [Y F [oY vY _]]; rewrite /run_eq E F /= (mv_eqP two wf oX oY).
by rewrite vX vY eqxx.
Qed.
Lemma ys_num b c : @yields R two a b (run a (Num c)) (c *: (bl R set0 : M)).
Proof. have [o v bc] := const_ok two a c; by exists (mv_const a c). Qed.
Lemma ys_grade r (p : py R) v : @yields R two a true (run a p) v -> @yields R two a true (run a (Grade p r)) (gpart r (v : M)).
Proof. by move=> [X E [oX <- bX]]; rewrite /= E /=; apply: (mv_gradeP two r true oX); exact: bX. Qed.
Lemma ys_mul (p q : py R) v w : @yields R two a true (run a p) v -> @yields R two a true (run a q) w ->
  @yields R two a true (run a (p *. q)) (v * w).
Proof.
move=> [X E [oX <- bX]] [Y F [oY <- bY]]; rewrite /= E F /=.
by apply: yieldsW (mv_mulP two wf oX oY) => _; exact: bY.
Qed.
Lemma ys_add (p q : py R) v w : @yields R two a true (run a p) v -> @yields R two a true (run a q) w ->
  @yields R two a true (run a (p +. q)) (v + w).
Proof.
move=> [X E [oX <- bX]] [Y F [oY <- bY]]; rewrite /= E F /=.
by apply: yieldsW (mv_addP two wf oX oY) => _; rewrite bX.
Qed.
Lemma ys_val X : mv_valid a X -> blade_form a X -> @yields R two a true (run a (Val X)) (mvv X).
Proof. by rewrite mv_validE => oX bX; exists X. Qed.
Lemma ys_scale c (p : py R) v : @yields R two a true (run a p) v -> @yields R two a true (run a (c ##. p)) (c *: v).
Proof. move=> [X E [oX <- bX]]; rewrite /= E /=; by apply: yieldsW (mv_scaleP two c oX) => _; exact: bX. Qed.
Lemma gpart0E (x : M) : gpart 0 x = x set0 *: bl R set0.
Proof.
apply/ffunP => S; rewrite !ffunE cards_eq0; case: eqP => [->|_]; rewrite ?mulr1 ?mulr0 //.
Qed.
Lemma blade_mvP I : wfI n I -> mv_ok a (blade_mv R I) /\ mvv (blade_mv R I) = bl R (set_of n I).
Proof.
move=> wI; have bI : blade_expr n (obj (blade_mv R I)) by rewrite /blade_expr /words all_seq1 inE mk_blade_in.
split; first by rewrite /mv_ok /= [blade_expr _ _]bI andbT /canonical /= oner_eq0.
by rewrite /Mv_Proof.mvv value_term // scale1r.
Qed.

(* ---- reciprocal blades ---- *)
Lemma recipP I : wfI n I -> exists rs r, [/\ r_ok two a rs, recip_blade gsym a (mk_blade I) = Some r,
  mv_valid a (mk_mv a r) && blade_form a (mk_mv a r) &
  mvv (mk_mv a r) = rbs (r_scale a) (rvec two (a:=a) rs) (set_of n I)].
Proof.
move=> wI; have [rs E ok] := r_basis_unit two wf ug'.
have [r Er [br vr]] := recip_bladeP wf ug' gok E ok (set_of n I).
rewrite set_ofK // in Er; exists rs, r; split=> //; last by rewrite mvv_mk.
by rewrite mv_validE mk_mv_blade //= /blade_form blade_brep.
Qed.
(* the reciprocal of e_I exists, and <e^I e_J> is 1 if I = J and 0 otherwise *)
Theorem C60_reciprocal_blades I : wfI n I -> exists r, [/\ recip_blade gsym a (mk_blade I) = Some r,
  mv_valid a (mk_mv a r), blade_form a (mk_mv a r) &
  forall J, wfI n J -> run_eq a (Grade (mk_mv a r *. blade_mv R J) 0) (Num (I == J)%:R) = Some true].
Proof.
move=> wI; have [rs [r [ok E /andP[vr br] rE]]] := recipP wI; exists r; split=> // J wJ.
have [oJ vJ] := blade_mvP wJ; have yJ : @yields R two a true (run a (blade_mv R J)) (bl R (set_of n J)) by exists (blade_mv R J).
apply: ys_same (ys_grade 0 (ys_mul (ys_val vr br) yJ)) _; last apply: yields_eq (ys_num true _) _.
rewrite gpart0E rE (rbs_bl (rvec_homog ok) (rvec_dual ok) (r_scale_unit ug')); congr (_%:R *: _).
by congr nat_of_bool; apply/eqP/eqP => [->|/set_of_inj->].
Qed.
(* it is a blade of the same grade, and reads off the coefficient of e_I *)
Theorem C60_coefficients I X : wfI n I -> mv_valid a X -> blade_form a X -> exists r, [/\ recip_blade gsym a (mk_blade I) = Some r,
  run_eq a (Grade (mk_mv a r) (size I)) (mk_mv a r) = Some true &
  run_eq a (Grade (mk_mv a r *. X) 0) (Num (coefficient (obj X) (mk_blade I))) = Some true].
Proof.
move=> wI vX bX; have [rs [r [ok E /andP[vr br] rE]]] := recipP wI; exists r; split=> //.
  apply: ys_same (ys_grade _ (ys_val vr br)) _; last apply: yields_eq (ys_val vr br) _.
  by rewrite rE -(card_set_of wI) (rbs_homog (ga_metric two a) _ (rvec_homog ok)).
apply: ys_same (ys_grade 0 (ys_mul (ys_val vr br) (ys_val vX bX))) _; last apply: yields_eq (ys_num true _) _.
rewrite gpart0E rE (rbs_coef (rvec_homog ok) (rvec_dual ok) (r_scale_unit ug')); congr (_ *: _).
have oX : mv_ok a X by rewrite -mv_validE.
by rewrite -[coefficient _ _]/(coef _ _) (coef_value two (bladed_blade oX bX)).
Qed.

(* ---- the derivative by a generic multivector ---- *)
Section Grad.
Variables (sy : symbols R) (connect : bool) (N : nat) (x : nat -> R) (Gs : seq nat) (lab : seq nat -> nat) (A : mv R).
Hypothesis ind : independent sy a N x.
Hypothesis labs : labels a N Gs lab.
Hypothesis vA : mv_valid a A.
Hypothesis bA : blade_form a A.
Hypothesis gen : generic a x Gs lab A.
Notation grad := (agrad sy gsym a A).
Notation app := (agrad_apply sy a connect MMul).
Let der k : derivation (sym_diff sy k). Proof. by case: ind. Qed.
Let Dx k l : (k < N)%N -> (l < N)%N -> sym_diff sy k (x l) = (k == l)%:R. Proof. by case: ind => _ h _ _; exact: h. Qed.
Let sx k : (k < N)%N -> sym_of sy (x k) = Some k. Proof. by case: ind => _ _ h _; exact: h. Qed.
Let Dg k i j : sym_diff sy k (geff a i j) = 0. Proof. by case: ind => _ _ _ h; exact: h. Qed.
Let oA : mv_ok a A. Proof. by rewrite -mv_validE. Qed.
Let lN I : wfI n I -> size I \in Gs -> (lab I < N)%N. Proof. exact: labs.1. Qed.
Let lI I J : wfI n I -> wfI n J -> size I \in Gs -> size J \in Gs -> lab I = lab J -> I = J. Proof. exact: labs.2. Qed.
Let keep := (keep_grades (a:=a) Gs).
Lemma gradP : exists rs ts, [/\ r_ok two a rs, grad = Some ts,
  (forall F, mv_ok a F -> bladed a F -> (connect -> gpart 0 (mvv F) = mvv F) ->
     @yields R two a true (app ts F) (\sum_(S : {set 'I_n} | #|S| \in Gs)
       (rbs (r_scale a) (rvec two (a:=a) rs) S : C) * (dcoef (sym_diff sy (labS (a:=a) lab S)) (mvv F) : C))) &
  forall F c (y : M), mv_ok a F -> bladed a F -> mvv F = c *: (bl R set0 : C) ->
    (forall S : {set 'I_n}, #|S| \in Gs -> sym_diff sy (labS (a:=a) lab S) c = ((bl R S : C) * (y : C) : M) set0) ->
    @yields R two a true (app ts F) (keep y)].
Proof.
have [rs E ok] := r_basis_unit two wf ug'; exists rs, (map (gdop a gsym sy A) (canon (obj A))); split=> //.
- exact: (agradE wf ug' gok E ok der Dx sx lN oA bA gen).
- by move=> F oF bF cF; apply: (applyP wf ug' gok E ok der Dx sx lN oA bA gen).
by move=> F c y oF bF vF h; exact: (grad_scalar wf ug' gok E ok connect der Dx sx lN oA bA gen oF bF vF h).
Qed.
Lemma in_gradesP (p : py R) v : @yields R two a true (run a p) v -> @yields R two a true (run a (in_grades Gs p)) (keep v).
Proof.
move=> yp; rewrite /in_grades.
have h (l : seq nat) : uniq l -> @yields R two a true (run a (foldr (fun r q => Grade p r +. q) (Num 0) l))
    [ffun S : {set 'I_n} => if #|S| \in l then v S else 0].
  elim: l => [_|r l IH /= /andP[rl ul]].
    by apply: yields_eq (ys_num true 0) _; apply/ffunP => S; rewrite scale0r !ffunE.
  apply: yields_eq (ys_add (ys_grade r yp) (IH ul)) _; apply/ffunP => S; rewrite !ffunE inE.
  by case: eqP => [->|_]; rewrite ?(negbTE rl) /= ?addr0 ?add0r.
by apply: yields_eq (h _ (undup_uniq Gs)) _; apply/ffunP => S; rewrite !ffunE mem_undup.
Qed.
(* the derivative by A of <A B>, for B not depending on A, is the part of B in the
   grades of A (in every nondegenerate algebra, with a connection or without) *)
Theorem C60_grad_linear B : mv_valid a B -> blade_form a B -> constant sy B ->
  exists ts F Z, [/\ grad = Some ts, run a (Grade (A *. B) 0) = Some F, app ts F = Some Z &
    run_eq a Z (in_grades Gs B) = Some true].
Proof.
move=> vB bB cB; have [rs [ts [ok Et _ ap]]] := gradP.
have oB : mv_ok a B by rewrite -mv_validE.
have [F EF [oF vF bF]] := ys_grade 0 (ys_mul (ys_val vA bA) (ys_val vB bB)).
have b0 k : dcoef (sym_diff sy k) (mvv B) = 0.
  apply/ffunP => S; rewrite !ffunE; have := cB k (mk_blade (list_of S)).
  by rewrite -[coefficient _ _]/(coef _ _) (coef_value two (bladed_blade oB bB) (list_of_wf S)) list_ofK.
rewrite gpart0E in vF.
have [|Z EZ yZ] := ap F _ (mvv B) oF (bF isT) vF.
  by move=> S sS; exact: (dco_AB two der Dx lN lI oA bA gen Dg sS (b0 _)).
exists ts, F, Z; split=> //; apply: (ys_same (v := keep (mvv B)) (b := true) (b' := true)); first by exists Z.
exact: in_gradesP (ys_val vB bB).
Qed.
(* the derivative by A of <A A> is 2 A *)
Theorem C60_grad_square : exists ts F Z, [/\ grad = Some ts, run a (Grade (A *. A) 0) = Some F, app ts F = Some Z &
    run_eq a Z (2%:R ##. A) = Some true].
Proof.
have [rs [ts [ok Et _ ap]]] := gradP.
have [F EF [oF vF bF]] := ys_grade 0 (ys_mul (ys_val vA bA) (ys_val vA bA)).
rewrite gpart0E in vF.
have [|Z EZ yZ] := ap F _ (2%:R *: mvv A) oF (bF isT) vF.
  by move=> S sS; exact: (dco_AA two der Dx lN lI oA bA gen Dg sS).
exists ts, F, Z; split=> //; apply: (ys_same (v := 2%:R *: mvv A) (b := true) (b' := true)).
  exists Z => //; case: yZ => oZ -> bZ; split=> //; apply/ffunP => S.
  have := congr1 (fun z : M => z S) (keep_A two oA bA gen); rewrite [LHS]ffunE !ffunE.
  by case: (_ \in _) => // <-; rewrite mulr0.
by apply: ys_scale; exact: ys_val.
Qed.
(* fields that are not scalars: without a connection *)
Lemma gradF : connect = false -> exists rs ts, [/\ r_ok two a rs, grad = Some ts &
  forall F, mv_valid a F -> blade_form a F -> @yields R two a true (app ts F) (\sum_(S : {set 'I_n} | #|S| \in Gs)
       (rbs (r_scale a) (rvec two (a:=a) rs) S : C) * (dcoef (sym_diff sy (labS (a:=a) lab S)) (mvv F) : C))].
Proof.
move=> c0; have [rs [ts [ok Et ap _]]] := gradP; exists rs, ts; split=> // F.
by rewrite mv_validE => oF bF; apply: ap => //; rewrite c0.
Qed.
(* the derivative by a vector of the vector itself is the dimension *)
Theorem C60_grad_vector : connect = false -> Gs = [:: 1%N] ->
  exists ts Z, [/\ grad = Some ts, app ts A = Some Z & run_eq a Z (Num n%:R) = Some true].
Proof.
move=> c0 G1; have [rs [ts [ok Et ap]]] := gradF c0; have [Z EZ yZ] := ap A vA bA; exists ts, Z; split=> //.
apply: (ys_same (b := true) (b' := true)); last exact: (ys_num true).
exists Z => //; case: yZ => oZ -> bZ; split=> //.
rewrite -(sum_vec ug' ok) (eq_bigl (fun S : {set 'I_n} => S \in [set [set i] | i in 'I_n])) => [|S]; last first.
  rewrite G1 inE; apply/cards1P/imsetP => [[i ->]|[i _ ->]]; by exists i.
rewrite big_imset; last by move=> i j _ _; exact: set1_inj.
apply: eq_bigr => i _; congr (_ * _); apply: (dco_A two der Dx lN lI oA bA gen).
by rewrite G1 cards1.
Qed.
(* in general its scalar part is the number of the coefficients *)
Theorem C60_grad_dimension : connect = false ->
  exists ts Z, [/\ grad = Some ts, app ts A = Some Z &
    run_eq a (Grade Z 0) (Num #|[set S : {set 'I_n} | #|S| \in Gs]|%:R) = Some true].
Proof.
move=> c0; have [rs [ts [ok Et ap]]] := gradF c0; have [Z EZ yZ] := ap A vA bA; exists ts, Z; split=> //.
have yZ' : @yields R two a true (run a (Val Z)) (mvv Z) by exists Z => //; case: yZ.
apply: ys_same (ys_grade 0 yZ') _; last apply: yields_eq (ys_num true _) _.
rewrite gpart0E; case: yZ => _ -> _; congr (_ *: _).
rewrite sum_ffunE -sum1_card natr_sum; apply: eq_big => [S|S sS]; first by rewrite inE.
rewrite (dco_A two der Dx lN lI oA bA gen) ?(scalar_rbs_bl ug' ok) //.
by move: sS; rewrite inE.
Qed.
(* its other parts vanish (the numbers 1, 2, .., k must be invertible for the grades k of A);
   more generally the derivative of A*B with a constant B is B times the number of the coefficients *)
Theorem C60_grad_product B : connect = false -> mv_valid a B -> blade_form a B -> constant sy B ->
  (forall k, k \in Gs -> (k <= n)%N -> (k`!%:R : R) \is a GRing.unit) ->
  exists ts F Z, [/\ grad = Some ts, run a (A *. B) = Some F, app ts F = Some Z &
    run_eq a Z (#|[set S : {set 'I_n} | #|S| \in Gs]|%:R ##. B) = Some true].
Proof.
move=> c0 vB bB cB uG; have [rs [ts [ok Et ap]]] := gradF c0.
have oB : mv_ok a B by rewrite -mv_validE.
have [F EF [oF vF bF]] := ys_mul (ys_val vA bA) (ys_val vB bB).
have [||Z EZ yZ] := ap F; [by rewrite mv_validE|exact: bF|]; exists ts, F, Z; split=> //.
apply: (ys_same (b := true) (b' := true)); last exact: ys_scale (ys_val vB bB).
exists Z => //; case: yZ => oZ -> bZ; split=> //; rewrite vF.
have b0 k : dcoef (sym_diff sy k) (mvv B) = 0.
  apply/ffunP => S; rewrite !ffunE; have := cB k (mk_blade (list_of S)).
  by rewrite -[coefficient _ _]/(coef _ _) (coef_value two (bladed_blade oB bB) (list_of_wf S)) list_ofK.
have e (S : {set 'I_n}) : #|S| \in Gs -> (rbs (r_scale a) (rvec two (a:=a) rs) S : C) *
    (dcoef (sym_diff sy (labS (a:=a) lab S)) ((mvv A : C) * (mvv B : C)) : C) =
    (rbs (r_scale a) (rvec two (a:=a) rs) S : C) * (bl R S : C) * (mvv B : C).
  move=> sS; rewrite -mulrA; congr (_ * _).
  by rewrite (dco_mul der Dg) b0 mulr0 addr0 (dco_A two der Dx lN lI oA bA gen).
rewrite (eq_bigr _ e) -mulr_suml (rbs_sum (rvec_homog ok) (rvec_dual ok) (r_scale_unit ug') uG).
by rewrite -scalerAl mul1r.
Qed.
Theorem C60_grad_self : connect = false -> (forall k, k \in Gs -> (k <= n)%N -> (k`!%:R : R) \is a GRing.unit) ->
  exists ts Z, [/\ grad = Some ts, app ts A = Some Z & run_eq a Z (Num #|[set S : {set 'I_n} | #|S| \in Gs]|%:R) = Some true].
Proof.
move=> c0 uG; have [rs [ts [ok Et ap]]] := gradF c0; have [Z EZ yZ] := ap A vA bA; exists ts, Z; split=> //.
apply: (ys_same (b := true) (b' := true)); last exact: (ys_num true).
exists Z => //; case: yZ => oZ -> bZ; split=> //.
rewrite -[RHS]/(_ *: (1 : C)) -(rbs_sum (rvec_homog ok) (rvec_dual ok) (r_scale_unit ug') uG).
by apply: eq_bigr => S sS; congr (_ * _); exact: (dco_A two der Dx lN lI oA bA gen).
Qed.
(* the derivative of a field that does not depend on the symbols is zero *)
Theorem C60_grad_constant B : connect = false -> mv_valid a B -> blade_form a B -> constant sy B ->
  exists ts Z, [/\ grad = Some ts, app ts B = Some Z & run_eq a Z (Num 0) = Some true].
Proof.
move=> c0 vB bB cB; have [rs [ts [ok Et ap]]] := gradF c0; have [Z EZ yZ] := ap B vB bB; exists ts, Z; split=> //.
have oB : mv_ok a B by rewrite -mv_validE.
apply: (ys_same (b := true) (b' := true)); last exact: (ys_num true).
exists Z => //; case: yZ => oZ -> bZ; split=> //; rewrite scale0r big1 // => S _.
suff -> : dcoef (sym_diff sy (labS (a:=a) lab S)) (mvv B) = 0 by rewrite mulr0.
apply/ffunP => T; rewrite !ffunE; have := cB (labS (a:=a) lab S) (mk_blade (list_of T)).
by rewrite -[coefficient _ _]/(coef _ _) (coef_value two (bladed_blade oB bB) (list_of_wf T)) list_ofK.
Qed.
(* additivity *)
Theorem C60_grad_additive X Y : connect = false -> mv_valid a X -> blade_form a X -> mv_valid a Y -> blade_form a Y ->
  exists ts S ZX ZY ZS, [/\ grad = Some ts, run a (X +. Y) = Some S,
    app ts X = Some ZX /\ app ts Y = Some ZY, app ts S = Some ZS &
    run_eq a ZS (ZX +. ZY) = Some true].
Proof.
move=> c0 vX bX vY bY; have [rs [ts [ok Et ap]]] := gradF c0.
have [S ES [oS vS bS]] := ys_add (ys_val vX bX) (ys_val vY bY).
have yX := ap X vX bX; have yY := ap Y vY bY.
have [||ZS EZ yZ] := ap S; [by rewrite mv_validE|exact: bS|].
have [ZX EX' yX'] := yX; have [ZY EY' yY'] := yY; exists ts, S, ZX, ZY, ZS; split=> //.
have y1 : @yields R two a true (run a (Val ZX)) (mvv ZX) by exists ZX => //; case: yX'.
have y2 : @yields R two a true (run a (Val ZY)) (mvv ZY) by exists ZY => //; case: yY'.
apply: (ys_same (b := true) (b' := true)); last exact: ys_add y1 y2.
exists ZS => //; case: yZ => oZ -> bZ; split=> //; case: yX' => _ -> _; case: yY' => _ -> _.
rewrite -big_split; apply: eq_bigr => T _ /=; rewrite vS -mulrDr; congr (_ * _).
exact: (dcoD (der _)).
Qed.
(* the operator applied to a field F, on its left or its right, with any product op: the sum over the
   blades e_I of A of e^I op (the derivative of F by the coefficient of e_I) *)
Theorem C60_apply right d F DF (Is : seq (seq nat)) (r : seq nat -> expr R) : connect = false ->
  mv_valid a F -> blade_form a F -> partial_of sy a F DF ->
  uniq Is -> (forall I, (I \in Is) = wfI n I && (size I \in Gs)) ->
  (forall I, I \in Is -> recip_blade gsym a (mk_blade I) = Some (r I)) ->
  exists ts Z, [/\ grad = Some ts,
    (if right then agrad_apply_left sy a connect d F ts else agrad_apply sy a connect d ts F) = Some Z &
    run_eq a Z (foldr (fun I p => placed right d (mk_mv a (r I)) (DF (lab I)) +. p) (Num 0) Is) = Some true].
Proof.
move=> c0 vF bF dF uI IsP rP; have [rs E ok] := r_basis_unit two wf ug'.
have oF : mv_ok a F by rewrite -mv_validE.
have c0' : connect -> gpart 0 (mvv F) = mvv F by rewrite c0.
exists (map (gdop a gsym sy A) (canon (obj A))).
have [Z EZ [oZ vZ bZ]] := @apply_sideP R two a wf ug' gsym gok rs E ok sy connect N x der Dx sx lab Gs A lN oA bA gen right d F oF bF c0'.
exists Z; split=> //; first exact: (agradE wf ug' gok E ok der Dx sx lN oA bA gen).
have yZ : @yields R two a true (run a (Val Z)) (mvv Z) by exists Z.
apply: ys_same yZ _; rewrite vZ.
pose f I : C := act (two := two) right d (rbs (r_scale a) (rvec two (a:=a) rs) (set_of n I) : C) (dcoef (sym_diff sy (lab I)) (mvv F) : C).
have -> : \sum_(S : {set 'I_n} | #|S| \in Gs) act right d (rbs (r_scale a) (rvec two (a:=a) rs) S : C)
    (dcoef (sym_diff sy (labS (a:=a) lab S)) (mvv F) : C) = \sum_(I <- Is) f I.
  have pe : perm_eq Is [seq list_of S | S <- gsets a Gs].
    apply: uniq_perm => //; last move=> I.
      by rewrite map_inj_uniq => [|S T]; [rewrite /gsets filter_uniq // enum_uniq|exact: list_of_inj].
    rewrite IsP; apply/andP/mapP => [[wI sI]|[S]].
      by exists (set_of n I); rewrite ?set_ofK // mem_filter mem_enum card_set_of // sI.
    by rewrite mem_filter => /andP[sS _] ->; rewrite list_of_wf size_list_of.
  rewrite (perm_big _ pe) big_map /gsets big_filter [RHS]big_enum_cond; apply: eq_bigr => S _.
  by rewrite /f list_ofK.
have {IsP} wIs : all (wfI n) Is by apply/allP => I; rewrite IsP => /andP[].
elim: Is rP wIs {uI} => [|I Is IH] rP /=; first by rewrite big_nil => _; apply: yields_eq (ys_num true 0) _; rewrite scale0r.
case/andP=> wI wIs; rewrite big_cons; apply: ys_add; last by apply: IH => // J hJ; apply: rP; rewrite inE hJ orbT.
have [rI EI [bI vI]] := recip_bladeP wf ug' gok E ok (set_of n I).
rewrite set_ofK // (rP I (mem_head _ _)) in EI; case: EI => EI; rewrite {}EI.
have oR : mv_ok a (mk_mv a rI) by exact: mk_mv_blade.
have bR : bladed a (mk_mv a rI) by rewrite /bladed blade_brep.
have [vD bD cD] := dF (lab I); have oD : mv_ok a (DF (lab I)) by rewrite -mv_validE.
have vDF : mvv (DF (lab I)) = dcoef (sym_diff sy (lab I)) (mvv F).
  apply/ffunP => S; rewrite ffunE; have := cD (mk_blade (list_of S)).
  by rewrite -![coefficient _ _]/(coef _ _) (coef_value two (bladed_blade oD bD)) ?(coef_value two (bladed_blade oF bF)) ?list_of_wf // list_ofK.
have := @op_ofP R two a wf d.
rewrite /f -vI -vDF -(mvv_mk two a rI) /act /placed => h.
by case: (right); [have := h _ _ oD oR bD bR|have := h _ _ oR oD bR bD]; case: (d).
Qed.
End Grad.
(* in an algebra with a connection the operator fails on every field that is not a
   scalar: the symbol is looked up among the coordinates *)
Theorem C60_connected_refuted : (0 < n)%N -> exists2 F, mv_valid a F && blade_form a F &
  forall sy d t ts, agrad_apply sy a true d (t :: ts) F = None.
Proof.
move=> n0; have w0 : wfI n [:: 0%N] by rewrite /wfI /= n0.
have [o0 v0] := blade_mvP w0; exists (blade_mv R [:: 0%N]); first by rewrite mv_validE o0.
move=> sy d t ts.
have E : sym_pdiff sy a true t.2 (blade_mv R [:: 0%N]) = None.
  apply: (@sym_pdiff_none R two a wf sy true) => //; rewrite v0 gpart_bl card_set_of //=.
  by move/ffunP/(_ (set_of n [:: 0%N])); rewrite !ffunE eqxx => /esym/eqP; rewrite oner_eq0.
by rewrite /= in E; rewrite /agrad_apply /= E.
Qed.
End Props.
Print Assumptions C60_reciprocal_blades.
Print Assumptions C60_coefficients.
Print Assumptions C60_grad_linear.
Print Assumptions C60_grad_square.
Print Assumptions C60_grad_vector.
Print Assumptions C60_grad_dimension.
Print Assumptions C60_grad_product.
Print Assumptions C60_grad_self.
Print Assumptions C60_grad_constant.
Print Assumptions C60_grad_additive.
Print Assumptions C60_apply.
Print Assumptions C60_connected_refuted.
