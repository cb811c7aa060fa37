(* Props_Mv.v -- properties C07, C08, C10, C13, C14, C15, C19, C22, C53 for the
   operators and methods of multivector objects.

   [mv_valid a X]: X is a well-formed object of the algebra a (Mv_Expr.v).
   [run_eq a p q = Some true]: evaluating the Python expression p == q over
   multivector objects raises no exception and gives True.  The operators are
   written with a dot: X *. Y is X*Y, X ^. Y is X^Y, X ||. Y, X <. Y, X >. Y,
   X >>. Y, X <<. Y likewise, c ##. X is c*X.  [blade_form a X]: X is in blade
   representation (always so in an orthogonal algebra).  *)
From mathcomp Require Import all_ssreflect all_algebra.
From Verif Require Import NatTac AlgTactics Exterior Clifford Blades Spec_Grade Grades GradeLaws.
From Verif Require Import Spec_Index PyBase Ga_Model Ga_Proof_Tables Ga_Proof_Sort Ga_Proof_Sem Ga_Proof_Reduce.
From Verif Require Import Ga_Sem Ga_Proof_Rep Ga_Proof_Conv Ga_Proof_Mul Spec_Clifford Clifford_Unique Spec_Mv Ga_Proof_Den Ga_Proof_Wedge Ga_Proof_Inner.
From Verif Require Import Ga_Proof_Grade Mv_Model Mv_Proof Mv_Expr Mv_Proof_Expr.
Set Implicit Arguments.
Unset Strict Implicit.
Unset Printing Implicit Defensive.
Import GRing.Theory.
Local Open Scope ring_scope.
Open Scope py_scope.

Definition blade_form (R : comUnitRingType) (a : ga R) (X : mv R) : bool := brep X || is_ortho a.
(* all terms are multiples of basis vectors *)
Definition is_vec (R : comUnitRingType) (a : ga R) (X : mv R) : bool :=
  all (fun t => t.2 \in [seq mk_blade [:: i] | i <- iota 0 (ga_n a)]) (obj X).

(* ring identities used below *)
Section Ring.
Variables (R : comUnitRingType) (A : algType R).
Implicit Types (x y z : A) (h c : R).
Lemma jacobi h x y z : h *: (x * (h *: (y * z - z * y)) - (h *: (y * z - z * y)) * x) +
  h *: (y * (h *: (z * x - x * z)) - (h *: (z * x - x * z)) * y) +
  h *: (z * (h *: (x * y - y * x)) - (h *: (x * y - y * x)) * z) = 0.
Proof. lalg R. Qed.
Lemma leibniz h x y z : h *: (x * (y * z) - (y * z) * x) =
  (h *: (x * y - y * x)) * z + y * (h *: (x * z - z * x)).
Proof. lalg R. Qed.
End Ring.

Section Laws.
Variables (R : comUnitRingType) (two : (2%:R : R) \is a GRing.unit) (a : ga R).
Hypothesis wf : wf_ga a.
Notation n := (ga_n a).
Notation C := (cl two a).
Implicit Types (p q : py R) (X Y Z : mv R) (c : R).

(* ---- every expression built from the operators computes what it means ---- *)
Theorem C07_expressions mul p :
  is_clifford_product (fun i j : 'I_n => geff a i j) mul -> legal a p ->
  exists X, [/\ run a p = Some X, mv_valid a X, den mul (obj X) = sem mul p &
                inblade a p -> mv_of n (obj X) = sem mul p].
Proof.
move=> H lp; have [X E [oX vX bX]] := run_yields two wf H lp; exists X; split=> //.
- by rewrite mv_validE.
- by rewrite -vX (den_ok two H).
- by move=> /bX b; rewrite -(value_mv_of two (bladed_blade oX b)).
Qed.
(* and == decides equality of meanings *)
Theorem C07_equality mul p q :
  is_clifford_product (fun i j : 'I_n => geff a i j) mul -> legal a p -> legal a q ->
  run_eq a p q = Some (sem mul p == sem mul q).
Proof. by move=> H; exact: (run_eqP two). Qed.

Let cm : mval R n -> mval R n -> mval R n := cmul (ga_metric two a).
Let Hc : is_clifford_product (fun i j : 'I_n => geff a i j) cm := clifford_product_exists (ga_metric two a).
Let law p q : legal a p -> legal a q -> sem cm p = sem cm q -> run_eq a p q = Some true.
Proof. exact: (run_law two wf Hc). Qed.
Let V X : C := den cm (obj X).

(* ---- C07: the algebra laws ---- *)
Theorem C07_associative X Y Z : mv_valid a X -> mv_valid a Y -> mv_valid a Z ->
  run_eq a ((X *. Y) *. Z) (X *. (Y *. Z)) = Some true.
Proof. by move=> hX hY hZ; apply: law; rewrite /= ?hX ?hY ?hZ //; exact: esym (cl_assoc Hc _ _ _). Qed.
Theorem C07_distributive_left X Y Z : mv_valid a X -> mv_valid a Y -> mv_valid a Z ->
  run_eq a (X *. (Y +. Z)) (X *. Y +. X *. Z) = Some true.
Proof. by move=> hX hY hZ; apply: law; rewrite /= ?hX ?hY ?hZ //; exact: (@mulrDr C). Qed.
Theorem C07_distributive_right X Y Z : mv_valid a X -> mv_valid a Y -> mv_valid a Z ->
  run_eq a ((X +. Y) *. Z) (X *. Z +. Y *. Z) = Some true.
Proof. by move=> hX hY hZ; apply: law; rewrite /= ?hX ?hY ?hZ //; exact: (@mulrDl C). Qed.
Theorem C07_one X : mv_valid a X ->
  run_eq a (Num 1 *. X) X = Some true /\ run_eq a (X *. Num 1) X = Some true.
Proof.
move=> hX; split; apply: law; rewrite /= ?hX //= /num scale1r; [exact: (cl_1l Hc)|exact: (cl_1r Hc)].
Qed.
Theorem C07_scalars_commute c X : mv_valid a X ->
  run_eq a (Num c *. X) (c ##. X) = Some true /\ run_eq a (X *. Num c) (c ##. X) = Some true.
Proof.
move=> hX; split; apply: law; rewrite /= ?hX //=; first exact: (@mul_scal _ two a c (V X)).
exact: (@mul_scalr _ two a c (V X)).
Qed.
Theorem C07_scalars_move c X Y : mv_valid a X -> mv_valid a Y ->
  run_eq a ((c ##. X) *. Y) (c ##. (X *. Y)) = Some true /\
  run_eq a (X *. (c ##. Y)) (c ##. (X *. Y)) = Some true.
Proof.
move=> hX hY; split; apply: law; rewrite /= ?hX ?hY //=.
  exact: (esym (@scalerAl _ C c (V X) (V Y))).
exact: (esym (@scalerAr _ C c (V X) (V Y))).
Qed.
(* the result does not depend on the representation of the operands *)
Theorem C07_representation X Y : mv_valid a X -> mv_valid a Y ->
  run_eq a (BaseRep X *. BaseRep Y) (X *. Y) = Some true /\
  run_eq a (BaseRep X *. BladeRep Y) (X *. Y) = Some true /\
  run_eq a (BladeRep X *. BaseRep Y) (X *. Y) = Some true /\
  run_eq a (BaseRep X +. BladeRep Y) (X +. Y) = Some true.
Proof. by move=> hX hY; do !split; apply: law; rewrite /= ?hX ?hY. Qed.

(* ---- C53: sums, powers, commutators ---- *)
Theorem C53_group X Y Z : mv_valid a X -> mv_valid a Y -> mv_valid a Z ->
  [/\ run_eq a (X +. Y) (Y +. X) = Some true,
      run_eq a ((X +. Y) +. Z) (X +. (Y +. Z)) = Some true,
      run_eq a (X +. Num 0) X = Some true,
      run_eq a (X +. Neg X) (Num 0) = Some true &
      run_eq a (X -. Y) (X +. Neg Y) = Some true].
Proof.
move=> hX hY hZ; split; apply: law; rewrite /= ?hX ?hY ?hZ //.
- exact: addrC.
- by rewrite addrA.
- by rewrite /num scale0r addr0.
- by rewrite /num scale0r subrr.
Qed.
Theorem C53_scalar_operands X c : mv_valid a X ->
  [/\ run_eq a (AddC X c) (X +. Num c) = Some true,
      run_eq a (SubC X c) (X -. Num c) = Some true &
      run_eq a (RSubC c X) (Num c -. X) = Some true].
Proof. by move=> hX; split; apply: law; rewrite /= ?hX. Qed.
Theorem C53_powers X j k : mv_valid a X ->
  [/\ run_eq a (Pow X 0) (Num 1) = Some true,
      run_eq a (Pow X k.+1) (Pow X k *. X) = Some true,
      run_eq a (Pow X 1) X = Some true &
      run_eq a (Pow X (j + k)) (Pow X j *. Pow X k) = Some true].
Proof.
move=> hX; split; apply: law; rewrite /= ?hX //.
  by rewrite /num scale1r; exact: (cl_1l Hc).
rewrite !(@powE _ two a cm Hc); exact: (@exprD C (V X) j k).
Qed.
(* X**(-k) is the inverse of X**k *)
Theorem C53_negative_powers X k Y : mv_valid a X -> mv_powz a X (Negz k) = Some Y ->
  mv_valid a Y /\ run_eq a (Y *. Pow X k.+1) (Num 1) = Some true /\
  run_eq a (Pow X k.+1 *. Y) (Num 1) = Some true.
Proof.
move=> hX; have oX : mv_ok a X by rewrite -mv_validE.
rewrite /=; case: (mv_powP two wf k.+1 oX) => P -> [oP vP _] /= EY.
have [oY [PY YP]] := mv_inv_sound two wf oP EY; have hY : mv_valid a Y by rewrite mv_validE.
split=> //; split; apply: law; rewrite /= ?hX ?hY //; rewrite -/(iter k.+1 (cm^~ (V X)) (num a 1)) (@powE _ two a cm Hc) (den_ok two Hc oY) /V (den_ok two Hc oX) -vP /num scale1r; [exact: YP|exact: PY].
Qed.
Theorem C53_commutator X Y : mv_valid a X -> mv_valid a Y ->
  [/\ run_eq a (2%:R ##. (X >>. Y)) (X *. Y -. Y *. X) = Some true,
      run_eq a (2%:R ##. (X <<. Y)) (X *. Y +. Y *. X) = Some true &
      run_eq a (X *. Y) ((X <<. Y) +. (X >>. Y)) = Some true].
Proof.
move=> hX hY; split; apply: law; rewrite /= ?hX ?hY //.
- by rewrite scalerA divrr // scale1r.
- by rewrite scalerA divrr // scale1r.
- set u := cm _ _; set v := cm _ _; rewrite -scalerDr addrACA subrr addr0.
  by rewrite -mulr2n -scaler_nat scalerA mulVr // scale1r.
Qed.
Theorem C53_jacobi_leibniz X Y Z : mv_valid a X -> mv_valid a Y -> mv_valid a Z ->
  run_eq a ((X >>. (Y >>. Z)) +. (Y >>. (Z >>. X)) +. (Z >>. (X >>. Y))) (Num 0) = Some true /\
  run_eq a (X >>. (Y *. Z)) ((X >>. Y) *. Z +. Y *. (X >>. Z)) = Some true.
Proof.
move=> hX hY hZ; split; apply: law; rewrite /= ?hX ?hY ?hZ //.
  rewrite /num scale0r; exact: (@jacobi _ C _ (V X) (V Y) (V Z)).
exact: (@leibniz _ C _ (V X) (V Y) (V Z)).
Qed.

(* ---- C08: products with vectors ---- *)
Let VE X : mv_valid a X -> V X = mvv two a X.
Proof. by rewrite mv_validE => oX; exact: den_ok. Qed.
Let cmE (x y : mval R n) : cm x y = (x : C) * (y : C). Proof. by []. Qed.
Let sE f (x y : mval R n) : selprod cm f x y = selprod (fun u v : clifford (ga_metric two a) => u * v) f x y.
Proof. by []. Qed.
Lemma vec_blade X : is_vec a X -> blade_expr n (obj X).
Proof.
move=> /allP h; apply/allP => w /mapP[t tx ->]; have /mapP[i ni ->] := h t tx.
by apply: mk_blade_in; rewrite /wfI /= andbT; move: ni; rewrite mem_iota.
Qed.
Lemma vec_homog X : mv_valid a X -> is_vec a X -> homog 1 (V X).
Proof.
move=> hX vX; rewrite VE // /mvv (value_mv_of two (vec_blade vX)); apply/ffunP => S; rewrite !ffunE.
case: (#|S| =P 1%N) => // nS; rewrite /coefficient big1_seq // => t /andP[/eqP E tx].
have /mapP[i _ E'] := allP vX t tx; case: nS; move: E; rewrite E' => /mk_blade_inj/(congr1 size).
by rewrite size_map -cardE.
Qed.
Theorem C08_vector_product X Y : mv_valid a X -> mv_valid a Y -> is_vec a X -> is_vec a Y ->
  run_eq a (X *. Y) ((X ||. Y) +. (X ^. Y)) = Some true /\
  run_eq a (X *. Y +. Y *. X) (2%:R ##. (X ||. Y)) = Some true.
Proof.
move=> hX hY vX vY; have [h1 h2] := (vec_homog hX vX, vec_homog hY vY).
have mulE' (u v : mval R n) : homog 1 u -> homog 1 v ->
    cm u v = gform (ga_metric two a) u v *: bl R set0 + ext u v.
  move=> hu hv; rewrite cmE (vec_mul _ _ hu); congr (_ + _).
  by rewrite -(hestenes_left (ga_metric two a) hu hv) // vec_dot.
split; apply: law; rewrite /= ?hX ?hY //= sE vec_dot // -/(V X) -/(V Y) !mulE' //.
rewrite (ext_swap h2 h1) expr1 scaleN1r addrACA subrr addr0 -scalerDl.
rewrite (_ : gform _ (V Y) (V X) = gform (ga_metric two a) (V X) (V Y)); last first.
  rewrite /gform exchange_big; apply: eq_bigr => i _; apply: eq_bigr => j _.
  by rewrite gram_sym [V Y _ * _]mulrC.
by rewrite scalerA mulr_natl mulr2n.
Qed.
(* a|b is the metric: the sum of a_i b_j g_ij, and so is a*a *)
Definition metric_form (x y : mval R n) : R :=
  \sum_(i < n) \sum_(j < n) x [set i] * y [set j] * geff a i j.
Theorem C08_metric_form X Y : mv_valid a X -> mv_valid a Y -> is_vec a X -> is_vec a Y ->
  run_eq a (X ||. Y) (Num (metric_form (mv_of n (obj X)) (mv_of n (obj Y)))) = Some true.
Proof.
move=> hX hY vX vY; apply: law; rewrite /= ?hX ?hY //= sE (vec_dot _ (vec_homog hX vX) (vec_homog hY vY)).
rewrite /num; congr (_ *: _); rewrite /metric_form /gform -!(value_mv_of two) ?vec_blade //.
by rewrite -!/(mvv two a _) -!VE.
Qed.
Theorem C08_vector_square X : mv_valid a X -> is_vec a X ->
  run_eq a (X *. X) (Num (metric_form (mv_of n (obj X)) (mv_of n (obj X)))) = Some true.
Proof.
move=> hX vX; apply: law; rewrite /= ?hX //= cmE (vec_mul _ _ (vec_homog hX vX)) (ext_vv two (vec_homog hX vX)) addr0.
rewrite -(hestenes_left (ga_metric two a) (vec_homog hX vX) (vec_homog hX vX)) // (vec_dot _ (vec_homog hX vX) (vec_homog hX vX)).
rewrite /num; congr (_ *: _); rewrite /metric_form /gform -!(value_mv_of two) ?vec_blade //.
by rewrite -!/(mvv two a _) -!VE.
Qed.
Theorem C08_vector_times_anything X Y : mv_valid a X -> mv_valid a Y -> is_vec a X ->
  run_eq a (X *. Y) ((X <. Y) +. (X ^. Y)) = Some true.
Proof.
move=> hX hY vX; apply: law; rewrite /= ?hX ?hY //= sE cmE.
exact: (vec_mul _ _ (vec_homog hX vX)).
Qed.

(* ---- C10: laws of the outer product ---- *)
Theorem C10_associative X Y Z : mv_valid a X -> mv_valid a Y -> mv_valid a Z ->
  run_eq a ((X ^. Y) ^. Z) (X ^. (Y ^. Z)) = Some true.
Proof. by move=> hX hY hZ; apply: law; rewrite /= ?hX ?hY ?hZ //= (extA two). Qed.
Theorem C10_bilinear c X Y Z : mv_valid a X -> mv_valid a Y -> mv_valid a Z ->
  run_eq a ((c ##. X +. Y) ^. Z) (c ##. (X ^. Z) +. (Y ^. Z)) = Some true /\
  run_eq a (Z ^. (c ##. X +. Y)) (c ##. (Z ^. X) +. (Z ^. Y)) = Some true.
Proof.
move=> hX hY hZ; split; apply: law; rewrite /= ?hX ?hY ?hZ //=.
  by rewrite (extDl two) (extZl two).
by rewrite (extDr two) (extZr two).
Qed.
Theorem C10_graded_commutative r s X Y : mv_valid a X -> mv_valid a Y ->
  blade_form a X -> blade_form a Y ->
  run_eq a (Grade X r ^. Grade Y s) ((-1) ^+ (r * s) ##. (Grade Y s ^. Grade X r)) = Some true.
Proof.
move=> hX hY bX bY; apply: law; rewrite /= ?hX ?hY ?[_ || _]bX ?[_ || _]bY //=.
by apply: ext_swap; rewrite /homog gpart_gpart eqxx.
Qed.
(* linearly dependent vectors: a vanishing combination with an invertible coefficient *)
Definition wedge_all (Xs : seq (mv R)) : py R := foldr (fun X p => Val X ^. p) (Num 1) Xs.
Definition lincomb (cXs : seq (R * mv R)) : py R := foldr (fun t p => (t.1 ##. Val t.2) +. p) (Num 0) cXs.
Let W (l : seq (mval R n)) := foldr (@ext R n) (bl R set0) l.
Lemma W_cat l1 l2 : W (l1 ++ l2) = ext (W l1) (W l2).
Proof.
elim: l1 => [|x l1 IH] /=; first by rewrite (ext1l two).
by rewrite -/(W (l1 ++ l2)) IH (extA two).
Qed.
Lemma W_homog l : all (fun x => gpart 1 x == x) l -> homog (size l) (W l).
Proof.
elim: l => [|x l IH] /=; first by rewrite /homog gpart_bl cards0.
by move=> /andP[/eqP hx hl]; have := homog_ext two (hx : homog 1 x) (IH hl).
Qed.
Lemma W_sym l1 x l2 y l3 : all (fun z => gpart 1 z == z) (l1 ++ x :: l2 ++ y :: l3) ->
  x = y -> W (l1 ++ x :: l2 ++ y :: l3) = 0.
Proof.
rewrite !all_cat /= !all_cat /= => /and3P[h1 /eqP hx /and3P[h2 /eqP hy h3]] E.
rewrite W_cat /= -/(W (l2 ++ y :: l3)) W_cat /= -/(W l3) (extA two _ (W l2)) -E -(extA two) E.
rewrite (_ : ext y (ext (W l2) (ext y (W l3))) = 0) ?(ext0r two) //.
rewrite (extA two (W l2)) (ext_swap (W_homog h2) (hy : homog 1 y)) (extZl two) (extZr two).
by rewrite -(extA two) (extA two y) (ext_vv two hy) (ext0l two) scaler0.
Qed.
Lemma W_mem l1 x l2 : all (fun z => gpart 1 z == z) (l1 ++ l2) -> x \in l1 ++ l2 -> W (l1 ++ x :: l2) = 0.
Proof.
move=> hl; rewrite mem_cat => /orP[/splitPr E|/splitPr E].
  case: E hl => p q; rewrite -catA /= => hl; rewrite -catA /=; apply: (@W_sym p x q x l2) => //.
  by move: hl; rewrite !all_cat /= !all_cat /= => /and4P[-> -> -> ->]; rewrite andbT.
case: E hl => p q hl; apply: (@W_sym l1 x p x q) => //.
by move: hl; rewrite !all_cat /= !all_cat /= => /and4P[-> -> -> ->]; rewrite andbT.
Qed.
Lemma legal_wedge_all Xs : all (mv_valid a) Xs -> legal a (wedge_all Xs).
Proof. by elim: Xs => //= X Xs IH /andP[-> /IH]. Qed.
Lemma legal_lincomb cXs : all (mv_valid a) (map snd cXs) -> legal a (lincomb cXs).
Proof. by elim: cXs => //= t cXs IH /andP[-> /IH]. Qed.
Lemma sem_wedge_all Xs : sem cm (wedge_all Xs) = W (map V Xs).
Proof. by elim: Xs => [|X Xs IH] /=; rewrite ?IH // /num scale1r. Qed.
Lemma sem_lincomb cXs : sem cm (lincomb cXs) = \sum_(t <- cXs) t.1 *: V t.2.
Proof. by elim: cXs => [|t cXs IH] /=; rewrite ?big_nil ?big_cons ?IH // /num scale0r. Qed.
Lemma has_split (T : Type) (P : pred T) l : has P l -> exists l1 x l2, l = l1 ++ x :: l2 /\ P x.
Proof.
elim: l => //= x l IH /orP[Px|/IH[l1 [y [l2 [-> Py]]]]]; first by exists [::], x, l.
by exists (x :: l1), y, l2.
Qed.
Theorem C10_dependent_vectors (cXs : seq (R * mv R)) :
  all (fun t => mv_valid a t.2 && is_vec a t.2) cXs ->
  run_eq a (lincomb cXs) (Num 0) = Some true -> has (fun t => t.1 \is a GRing.unit) cXs ->
  run_eq a (wedge_all [seq t.2 | t <- cXs]) (Num 0) = Some true.
Proof.
move=> hv h0 hu.
have hval : all (mv_valid a) (map snd cXs) by rewrite all_map; apply: sub_all hv => t /andP[].
have {}h0 : \sum_(t <- cXs) t.1 *: V t.2 = 0.
  move: h0; rewrite (run_eqP two wf Hc (legal_lincomb hval)) // sem_lincomb /= /num scale0r.
  by case=> /eqP.
apply: law; rewrite ?legal_wedge_all // sem_wedge_all /= /num scale0r.
have [l1 [[c X] [l2 [El uc]]]] := has_split hu; move: hv h0; rewrite El {El hu hval} /= in uc * => hv h0.
rewrite map_cat /= map_cat /=; set L1 := map V _; set L2 := map V _.
have hh : all (fun z : mval R n => gpart 1 z == z) (L1 ++ L2).
  rewrite /L1 /L2 -!map_cat !all_map; move: hv; rewrite !all_cat /= => /and3P[h1 _ h2].
  rewrite -all_cat; have : all (fun t : R * mv R => mv_valid a t.2 && is_vec a t.2) (l1 ++ l2) by rewrite all_cat h1.
  by apply: sub_all => t /andP[v1 v2] /=; apply/eqP; exact: vec_homog.
have Wlin (d : R) (x y : mval R n) : W (L1 ++ (d *: x + y) :: L2) = d *: W (L1 ++ x :: L2) + W (L1 ++ y :: L2).
  by rewrite !W_cat /= (extDl two) (extZl two) (extDr two) (extZr two).
have W0 : W (L1 ++ 0 :: L2) = 0 by rewrite W_cat /= (ext0l two) (ext0r two).
have Wsum (r : seq (R * mv R)) : {subset map V (map snd r) <= L1 ++ L2} ->
    W (L1 ++ (\sum_(t <- r) t.1 *: V t.2) :: L2) = 0.
  elim: r => [|t r IH] sub; first by rewrite big_nil W0.
  rewrite big_cons Wlin IH ?addr0 => [|x xr]; last by apply: sub; rewrite inE xr orbT.
  by rewrite W_mem ?scaler0 //; apply: sub; rewrite mem_head.
have E : c *: V X = - \sum_(t <- l1 ++ l2) t.1 *: V t.2.
  apply/eqP; rewrite -addr_eq0; move: h0; rewrite !big_cat big_cons /= => h0.
  by rewrite addrCA h0.
have : c *: W (L1 ++ V X :: L2) = 0.
  have := Wlin c (V X) 0; rewrite addr0 W0 addr0 => <-; rewrite E.
  have := Wlin (-1) (\sum_(t <- l1 ++ l2) t.1 *: V t.2) 0; rewrite addr0 W0 addr0 !scaleN1r => ->.
  by rewrite Wsum ?oppr0 // => x; rewrite /L1 /L2 -!map_cat.
by move/(congr1 (fun v => c^-1 *: v)); rewrite scalerA mulVr // scale1r scaler0.
Qed.

(* ---- C13: reversion ---- *)
Theorem C13_rev_rev X : mv_valid a X -> run_eq a (Rev (Rev X)) X = Some true.
Proof. by move=> hX; apply: law; rewrite /= ?hX // mrevK. Qed.
Theorem C13_rev_product X Y : mv_valid a X -> mv_valid a Y ->
  run_eq a (Rev (X *. Y)) (Rev Y *. Rev X) = Some true.
Proof. by move=> hX hY; apply: law; rewrite /= ?hX ?hY //=; exact: (mrevM (V X) (V Y)). Qed.
Theorem C13_rev_linear c X Y : mv_valid a X -> mv_valid a Y ->
  run_eq a (Rev (c ##. X +. Y)) (c ##. Rev X +. Rev Y) = Some true.
Proof. by move=> hX hY; apply: law; rewrite /= ?hX ?hY //= linearP. Qed.
Theorem C13_rev_grade X k : mv_valid a X -> blade_form a X ->
  run_eq a (Rev (Grade X k)) ((-1) ^+ (k * (k - 1))./2 ##. Grade X k) = Some true.
Proof. by move=> hX bX; apply: law; rewrite /= ?hX ?[_ || _]bX //= mrev_gpart. Qed.
(* a product of vectors is reversed *)
Definition mul_all (Xs : seq (mv R)) : py R := foldr (fun X p => Val X *. p) (Num 1) Xs.
Theorem C13_rev_vectors Xs : all (fun X => mv_valid a X && is_vec a X) Xs ->
  run_eq a (Rev (mul_all Xs)) (mul_all (rev Xs)) = Some true.
Proof.
have lm Ys : all (mv_valid a) Ys -> legal a (mul_all Ys) by elim: Ys => //= Y Ys IH /andP[-> /IH].
move=> hv; have hX : all (mv_valid a) Xs by apply: sub_all hv => X /andP[].
apply: law; rewrite /= ?lm ?all_rev //.
have smE Ys : sem cm (mul_all Ys) = foldr (fun X (p : C) => V X * p) 1 Ys.
  by elim: Ys => [|Y Ys IH] /=; rewrite ?IH // /num scale1r.
rewrite !smE {smE hX lm}; elim: Xs hv => [|X Xs IH] /=; first by rewrite mrev_bl cards0 expr0 scale1r.
move=> /andP[/andP[hX vX] /IH{}IH]; rewrite mrevM IH rev_cons -cats1 foldr_cat /= mulr1.
have -> : mrev (V X) = V X by rewrite -(vec_homog hX vX) mrev_gpart expr0 scale1r.
by elim: (rev Xs) => [|Y Ys {}IH] /=; rewrite ?mul1r // -mulrA IH.
Qed.

(* ---- C14: grade involution, conjugation, parity ---- *)
Theorem C14_invol X Y : mv_valid a X -> mv_valid a Y -> blade_form a X -> blade_form a Y ->
  [/\ run_eq a (Invol (Invol X)) X = Some true,
      run_eq a (Invol (X *. Y)) (Invol X *. Invol Y) = Some true &
      run_eq a (Invol (X +. Y)) (Invol X +. Invol Y) = Some true].
Proof.
move=> hX hY bX bY; split; apply: law; rewrite /= ?hX ?hY ?[brep X || _]bX ?[brep Y || _]bY //=.
- by rewrite !minvolE ginvK.
- exact: (ginvM (V X) (V Y)).
- by rewrite !minvolE raddfD.
Qed.
Theorem C14_ccon X Y : mv_valid a X -> mv_valid a Y -> blade_form a X -> blade_form a Y ->
  [/\ run_eq a (Ccon (Ccon X)) X = Some true,
      run_eq a (Ccon (X *. Y)) (Ccon Y *. Ccon X) = Some true &
      run_eq a (Ccon X) (Rev (Invol X)) = Some true].
Proof.
move=> hX hY bX bY; split; apply: law; rewrite /= ?hX ?hY ?[brep X || _]bX ?[brep Y || _]bY //=.
- apply/ffunP => S; rewrite !ffunE !mulrA -!exprD.
  rewrite (_ : (-1) ^+ _ = 1) ?mul1r //; set k := (_./2)%N; set m := #|S|.
  by rewrite -signr_odd !oddD; case: (odd k); case: (odd m).
- by rewrite !minvolE ginvM mrevM.
Qed.
Theorem C14_even_odd X Y : mv_valid a X -> mv_valid a Y -> blade_form a X -> blade_form a Y ->
  [/\ run_eq a X (Even X +. Odd X) = Some true,
      run_eq a (Invol (Even X)) (Even X) = Some true,
      run_eq a (Invol (Odd X)) (Neg (Odd X)) = Some true,
      run_eq a (Even (Even X *. Even Y)) (Even X *. Even Y) = Some true &
      run_eq a (Even (Odd X *. Odd Y)) (Odd X *. Odd Y) = Some true].
Proof.
move=> hX hY bX bY.
have ie (x : mval R n) : ginv (meven x) = meven x.
  by apply/ffunP => S; rewrite !ffunE -signr_odd; case: odd; rewrite ?mulr0 // mul1r.
have io (x : mval R n) : ginv (modd x) = - modd x.
  by apply/ffunP => S; rewrite !ffunE -signr_odd; case: odd; rewrite ?mulr0 ?oppr0 // expr1 mulN1r.
have ev (x : mval R n) : ginv x = x -> meven x = x.
  move=> E; have Eo : modd x = 0.
    apply/ffunP => S; have /ffunP/(_ S) := E; rewrite !ffunE -signr_odd; case: odd => //.
    rewrite expr1 mulN1r => /esym/eqP; rewrite -subr_eq0 opprK -mulr2n -mulr_natl => /eqP E2.
    by rewrite -[x S]mul1r -(mulVr two) -mulrA E2 mulr0.
  by rewrite {2}[x]meven_odd Eo addr0.
split; apply: law; rewrite /= ?hX ?hY ?[brep X || _]bX ?[brep Y || _]bY //=.
- exact: meven_odd.
- by apply: ev; rewrite (ginvM (meven (V X) : C) (meven (V Y) : C)) !ie.
- by apply: ev; rewrite (ginvM (modd (V X) : C) (modd (V Y) : C)) !io mulrNN.
Qed.

(* ---- C15: grades ---- *)
Definition sum_grades X : py R := foldr (fun r p => Grade X r +. p) (Num 0) (iota 0 n.+1).
Theorem C15_grades_sum X : mv_valid a X -> blade_form a X -> run_eq a (sum_grades X) X = Some true.
Proof.
move=> hX bX; have lg l : legal a (foldr (fun r p => Grade X r +. p) (Num 0) l).
  by elim: l => //= r l ->; rewrite hX [_ || _]bX.
apply: law; [exact: lg|by []|].
have E l : sem cm (foldr (fun r p => Grade X r +. p) (Num 0) l) = \sum_(r <- l) gpart r (V X).
  by elim: l => [|r l IH]; rewrite ?big_nil ?big_cons /= ?IH // /num scale0r.
by rewrite /sum_grades E -[RHS]/(V X) [RHS]gpart_sum -val_enum_ord big_map enumT.
Qed.
Theorem C15_grade_grade X r s : mv_valid a X -> blade_form a X ->
  run_eq a (Grade (Grade X r) s) (if r == s then Grade X r else Num 0) = Some true.
Proof.
move=> hX bX; apply: law; rewrite /= ?hX ?[_ || _]bX //=; first by case: ifP; rewrite //= hX [_ || _]bX.
by rewrite gpart_gpart eq_sym; case: ifP => //= _; rewrite /num scale0r.
Qed.
Theorem C15_grade_out_of_range X r : mv_valid a X -> blade_form a X -> (n < r)%N ->
  run_eq a (Grade X r) (Num 0) = Some true.
Proof. by move=> hX bX nr; apply: law; rewrite /= ?hX ?[_ || _]bX //= gpart_out // /num scale0r. Qed.
(* grade extraction does what it says on the coefficients *)
Theorem C15_grade_coefficients X r : mv_valid a X -> blade_form a X ->
  exists Y, [/\ mv_grade a X r = Some Y, mv_valid a Y & forall S : {set 'I_n},
     mv_of n (obj Y) S = if #|S| == r then mv_of n (obj X) S else 0].
Proof.
rewrite mv_validE => oX bX; have [Y E [oY vY bY]] := mv_gradeP two r true oX bX.
exists Y; split=> // [|S]; first by rewrite mv_validE.
rewrite -(value_mv_of two (bladed_blade oY (bY isT))) -/(mvv two a Y) vY ffunE.
by rewrite -(value_mv_of two (bladed_blade oX bX)).
Qed.
Theorem C15_scalar X : mv_valid a X -> blade_form a X -> mv_scalar X = mv_of n (obj X) set0.
Proof.
rewrite mv_validE => oX bX; rewrite (mv_scalarP two oX bX) -(value_mv_of two) //.
exact: bladed_blade.
Qed.
(* the reported list of grades: increasing, exactly the grades with a nonzero
   part; the zero multivector is reported as a scalar *)
Theorem C15_grades mul X : is_clifford_product (fun i j : 'I_n => geff a i j) mul -> mv_valid a X ->
  exists gs, [/\ ga_grades a (obj X) = Some gs, sorted ltn gs &
    forall r, (r \in gs) = (gpart r (den mul (obj X)) != 0) || (r == 0%N) && (den mul (obj X) == 0)].
Proof.
move=> H; rewrite mv_validE => oX; rewrite (ga_gradesP two wf (ok_ok oX)) (den_ok two H oX) /mvv.
set v := value _ _ _; exists (grade_list v); split=> // [|r]; rewrite /grade_list.
  by case: ifP => // _; apply: sorted_filter; [exact: ltn_trans|exact: iota_ltn_sorted].
case: eqP => [->|/eqP v0]; first by rewrite inE raddf0 eqxx /= andbT.
rewrite andbF orbF mem_filter mem_iota /= add0n ltnS.
case: (leqP r n) => rn; rewrite ?andbT // andbF.
by rewrite gpart_out ?eqxx.
Qed.

(* ---- C19: inverses ---- *)
Theorem C19_inverse X Y : mv_valid a X -> mv_inv a X = Some Y ->
  [/\ mv_valid a Y, run_eq a (X *. Y) (Num 1) = Some true & run_eq a (Y *. X) (Num 1) = Some true].
Proof.
rewrite mv_validE => oX E; have [oY [XY YX]] := mv_inv_sound two wf oX E.
split; first by rewrite mv_validE.
  apply: law; rewrite /= ?mv_validE ?oX ?oY //= !(den_ok two Hc) // /num scale1r; exact: XY.
apply: law; rewrite /= ?mv_validE ?oX ?oY //= !(den_ok two Hc) // /num scale1r; exact: YX.
Qed.
(* it succeeds on invertible scalars, on square roots of invertible scalars
   and on versors *)
Theorem C19_inverse_succeeds X c : mv_valid a X -> c \is a GRing.unit ->
  [\/ run_eq a X (Num c) = Some true, run_eq a (X *. X) (Num c) = Some true |
     run_eq a (X *. Rev X) (Num c) = Some true] ->
  exists Y, mv_inv a X = Some Y.
Proof.
move=> hX uc h; have oX : mv_ok a X by rewrite -mv_validE.
apply: (@mv_inv_complete _ two a wf X c oX uc); case: h; rewrite (run_eqP two wf Hc) /= ?hX //= (den_ok two Hc oX) => -[/eqP E].
- by apply: Or31.
- by apply: Or32.
- by apply: Or33.
Qed.
Theorem C19_inverse_unique X Y Z : mv_valid a X -> mv_valid a Z -> mv_inv a X = Some Y ->
  run_eq a (X *. Z) (Num 1) = Some true -> run_eq a Z Y = Some true.
Proof.
move=> hX hZ E; have oX : mv_ok a X by rewrite -mv_validE.
have [oY [XY YX]] := mv_inv_sound two wf oX E; have oZ : mv_ok a Z by rewrite -mv_validE.
rewrite (run_eqP two wf Hc) /= ?hX ?hZ //= !(den_ok two Hc) // /num scale1r => -[/eqP XZ].
apply: law; rewrite /= ?hZ ?mv_validE //= !(den_ok two Hc) //.
exact: (@cl_inv_uniq _ two a _ _ _ XZ XY).
Qed.
Theorem C19_division X Y Z : mv_valid a X -> mv_valid a Y -> mv_div a X Y = Some Z ->
  mv_valid a Z /\ run_eq a (Z *. Y) X = Some true.
Proof.
rewrite !mv_validE => oX oY E; have [oZ ZY] := mv_divP two wf oX oY E; split=> //.
by apply: law; rewrite /= ?mv_validE ?oX ?oY ?oZ //= !(den_ok two Hc) //; exact: ZY.
Qed.

(* ---- C22: the quadratic form ---- *)
Definition qform_of p : option R := LET x := run a p IN mv_qform a x.
Theorem C22_qform mul X : is_clifford_product (fun i j : 'I_n => geff a i j) mul ->
  mv_valid a X -> blade_form a X ->
  mv_qform a X = Some (mul (mrev (mv_of n (obj X))) (mv_of n (obj X)) set0).
Proof.
rewrite mv_validE => H oX bX; rewrite (mv_qformP two wf oX bX) (mulE two H).
by rewrite -(value_mv_of two (bladed_blade oX bX)).
Qed.
Let qE p : legal a p -> inblade a p -> qform_of p = Some (cm (mrev (sem cm p)) (sem cm p) set0).
Proof.
move=> lp bp; have [X E [oX vX bX]] := run_yields two wf Hc lp.
by rewrite /qform_of E /= (mv_qformP two wf oX (bX bp)) -vX.
Qed.
Theorem C22_invariance X c : mv_valid a X -> blade_form a X ->
  exists q : R, [/\ qform_of X = Some q, qform_of (Neg X) = Some q, qform_of (Rev X) = Some q &
                qform_of (c ##. X) = Some (c ^+ 2 * q)].
Proof.
move=> hX bX; exists (cm (mrev (V X)) (V X) set0); split.
- by rewrite qE.
- rewrite qE //= -/(V X) raddfN /=; congr Some; congr (fun_of_fin _ _).
  exact: (@mulrNN C (mrev (V X)) (V X)).
- by rewrite qE //= -/(V X) mrevK; congr Some; exact: (scalar_swap (V X) (mrev (V X))).
- rewrite qE //= -/(V X) linearZ /= cmE -scalerAl -scalerAr !scale_coef; congr Some.
  by rewrite mulrA expr2.
Qed.
Theorem C22_multiplicative X Y k : mv_valid a X -> mv_valid a Y -> blade_form a X -> blade_form a Y ->
  run_eq a (Rev X *. X) (Num k) = Some true ->
  exists qx qy, [/\ qform_of X = Some qx, qform_of Y = Some qy & qform_of (X *. Y) = Some (qx * qy)].
Proof.
move=> hX hY bX bY; rewrite (run_eqP two wf Hc) //= ?hX // => -[/eqP E].
exists (cm (mrev (V X)) (V X) set0), (cm (mrev (V Y)) (V Y) set0); rewrite !qE //= ?hX //.
split=> //; congr Some; rewrite -/(V X) -/(V Y) E /num scale_coef bl_coef eqxx mulr1.
have -> : mrev (cm (V X) (V Y)) = (mrev (V Y) : C) * (mrev (V X) : C) by exact: mrevM.
have -> : cm ((mrev (V Y) : C) * (mrev (V X) : C)) (cm (V X) (V Y)) = k *: cm (mrev (V Y)) (V Y).
  rewrite !cmE -mulrA [(mrev (V X) : C) * _]mulrA -[(mrev (V X) : C) * V X]/(cm (mrev (V X)) (V X)) E.
  by rewrite [X in _ * X](@mul_scal _ two a) -scalerAr.
by rewrite scale_coef.
Qed.
End Laws.

Print Assumptions C07_expressions.
Print Assumptions C07_equality.
Print Assumptions C07_associative.
Print Assumptions C07_distributive_left.
Print Assumptions C07_distributive_right.
Print Assumptions C07_one.
Print Assumptions C07_scalars_commute.
Print Assumptions C07_scalars_move.
Print Assumptions C07_representation.
Print Assumptions C53_group.
Print Assumptions C53_scalar_operands.
Print Assumptions C53_powers.
Print Assumptions C53_negative_powers.
Print Assumptions C53_commutator.
Print Assumptions C53_jacobi_leibniz.
Print Assumptions C08_vector_product.
Print Assumptions C08_metric_form.
Print Assumptions C08_vector_square.
Print Assumptions C08_vector_times_anything.
Print Assumptions C10_associative.
Print Assumptions C10_bilinear.
Print Assumptions C10_graded_commutative.
Print Assumptions C10_dependent_vectors.
Print Assumptions C13_rev_rev.
Print Assumptions C13_rev_product.
Print Assumptions C13_rev_linear.
Print Assumptions C13_rev_grade.
Print Assumptions C13_rev_vectors.
Print Assumptions C14_invol.
Print Assumptions C14_ccon.
Print Assumptions C14_even_odd.
Print Assumptions C15_grades_sum.
Print Assumptions C15_grade_grade.
Print Assumptions C15_grade_out_of_range.
Print Assumptions C15_grade_coefficients.
Print Assumptions C15_scalar.
Print Assumptions C15_grades.
Print Assumptions C19_inverse.
Print Assumptions C19_inverse_succeeds.
Print Assumptions C19_inverse_unique.
Print Assumptions C19_division.
Print Assumptions C22_qform.
Print Assumptions C22_invariance.
Print Assumptions C22_multiplicative.

(* ---- concrete cases: the oblique plane e0.e0 = 1, e0.e1 = 3, e1.e1 = 2 ---- *)
Definition mv_ga : ga rat_comUnitRing := @Ga rat_comUnitRing 2 [:: [:: 1; 3%:R]; [:: 3%:R; 2%:R]].
(* X = e0 + 3 e0^e1, Y = 2 + e1, B = e0*e1 in base representation *)
Definition mv_X : mv rat_comUnitRing := Mv [:: (1 : rat, mk_blade [:: 0%N]); (3%:R : rat, mk_blade [:: 0; 1]%N)] true.
Definition mv_Y : mv rat_comUnitRing := Mv [:: (2%:R : rat, [::]); (1 : rat, mk_blade [:: 1%N])] true.
Definition mv_V : mv rat_comUnitRing := Mv [:: (1 : rat, mk_blade [:: 0%N]); (-1 : rat, mk_blade [:: 1%N])] true.
Definition mv_B : mv rat_comUnitRing := Mv [:: (1 : rat, mk_base [:: 0; 1]%N)] false.
Example mv_hyps : [/\ wf_ga mv_ga, is_ortho mv_ga = false,
  [&& mv_valid mv_ga mv_X, mv_valid mv_ga mv_Y, mv_valid mv_ga mv_V & mv_valid mv_ga mv_B],
  blade_form mv_ga mv_X && blade_form mv_ga mv_Y & is_vec mv_ga mv_V].
Proof. by split; vm_compute. Qed.
(* X*Y = 2 e0 + 6 e0^e1 + e0*e1 + 3 (e0^e1)*e1 with e0*e1 = 3 + e0^e1 *)
Example C07_ex : omap (fun Z => perm_eq (obj Z) [:: (3%:R : rat, [::]); (8%:R : rat, mk_blade [:: 0%N]);
     (- (9%:R : rat), mk_blade [:: 1%N]); (7%:R : rat, mk_blade [:: 0; 1]%N)]) (run mv_ga (mv_X *. mv_Y)%py) = Some true.
Proof. by vm_compute. Qed.
(* (e0 - e1)^2 = 1 - 6 + 2 *)
Example C08_ex : run_eq mv_ga (mv_V *. mv_V)%py (Num (- (3%:R : rat))) = Some true.
Proof. by vm_compute. Qed.
Example C10_ex_dependent : run_eq mv_ga (wedge_all [:: mv_V; mv_V]) (Num (0 : rat)) = Some true /\
  run_eq mv_ga (lincomb [:: (1 : rat, mv_V); (-1 : rat, mv_V)]) (Num 0) = Some true.
Proof. by split; vm_compute. Qed.
Example C19_ex : omap (fun Z => obj Z == [:: (- (3%:R : rat)^-1, mk_blade [:: 0%N]);
     ((3%:R : rat)^-1, mk_blade [:: 1%N])]) (mv_inv mv_ga mv_V) = Some true.
Proof. by vm_compute. Qed.
Example C22_ex : omap (fun q => q == - (3%:R : rat)) (mv_qform mv_ga mv_V) = Some true /\
  run_eq mv_ga (Rev mv_V *. mv_V)%py (Num (- (3%:R : rat))) = Some true.
Proof. by split; vm_compute. Qed.

(* ---- findings: the grade functions do not convert a base representation ----
   get_grade, even, odd raise (KeyError), and scalar() returns the coefficient
   of 1 of the base representation, which is not the scalar part *)
Theorem C15_base_rep_grade_refuted : exists (a : ga rat_comUnitRing) X,
  [/\ wf_ga a, mv_valid a X, ~~ isSome (mv_grade a X 2), ~~ isSome (mv_even a X) & ~~ isSome (mv_odd a X)].
Proof. by exists mv_ga, mv_B; split; vm_compute. Qed.
Theorem C15_base_rep_scalar_refuted : exists (a : ga rat_comUnitRing) X,
  [/\ wf_ga a, mv_valid a X,
      (if blade_rep a X is Some Y then mv_eq a X Y else None) = Some true
    & (if blade_rep a X is Some Y then mv_scalar X != mv_scalar Y else false)].
Proof. by exists mv_ga, mv_B; split; vm_compute. Qed.
Print Assumptions C15_base_rep_grade_refuted.
Print Assumptions C15_base_rep_scalar_refuted.
