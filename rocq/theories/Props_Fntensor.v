(* Props_Fntensor.v -- property C75: multilinear functions given by a Python function. *)
From mathcomp Require Import all_ssreflect all_algebra.
From Verif Require Import PyBase Spec_Index Ga_Model Ga_Sem Spec_Clifford Spec_Mv Mv_Model Mv_Expr Props_Mv Dual_Model.
From Verif Require Import Props_Dual Coef_Model Props_Coef Lt_Model Spec_Lt Props_Lt Props_Lt_Cases Mlt_Model Spec_Mlt Props_Mlt Fntensor_Model Spec_Fntensor.
Set Implicit Arguments.
Unset Strict Implicit.
Unset Printing Implicit Defensive.
Import GRing.Theory.
Local Open Scope ring_scope.

Section C75.
Variables (R : comUnitRingType) (two : (2%:R : R) \is a GRing.unit) (a : ga R).
Hypotheses (wf : wf_ga a) (u : \det (metric_mx a) \is a GRing.unit).
Notation n := (ga_n a).
Notation rf := (r_factor a).
Notation poly := (Mlt_Model.poly R).
Implicit Types (T : fmlt R) (f : fn R) (X A : mv R) (x : marg R) (k : nat).
Lemma inner_dot A X : vector a A -> vector a X -> exists2 d, mv_dot a A X = Some d & mv_scalar d = inner a A X.
Proof. by move=> vA vX; have [d E _] := scalar_dot two wf vA vX; exists d => //; rewrite /inner E. Qed.
Definition dpoly A x : poly :=
  match x with
  | Vec X => pol_const (inner a A X)
  | Slot i => [seq (inner a A (mv_basis_vec R l), [:: (i, l)]) | l <- iota 0 n]
  end.
Lemma dot_arg_dpoly A x : vector a A -> good_arg a x -> dot_arg a A x = Some (dpoly A x).
Proof.
move=> vA; case: x => [X|i] /= gx; first by have [d -> /= ->] := inner_dot vA gx.
rewrite (@omapM_iota _ _ (fun l => inner a A (mv_basis_vec R l))) => [/=|l ll].
  have -> (g : nat -> R) : zip [seq g l | l <- iota 0 n] (iota 0 n) = [seq (g l, l) | l <- iota 0 n].
    by rewrite -{2}[iota 0 n]map_id zip_map.
  by rewrite -map_comp.
by have [d -> /= ->] := inner_dot vA (basis_vector two ll).
Qed.
Definition term_poly (args : seq (marg R)) (t : R * seq (mv R * nat)) : poly :=
  foldr (fun p q => pol_mul p q) (pol_const t.1) [seq dpoly F.1 (nth (Slot R 0) args F.2) | F <- t.2].
(* the factors of a term of a multilinear function *)
Definition okt k (Fs : seq (mv R * nat)) := all (fun F => (F.2 < k)%N && vector a F.1) Fs.
Lemma multi_ok k f : multilinear a k f -> all (fun t => okt k t.2) f.
Proof.
apply: sub_all => -[c Fs] /= /andP[pe al]; have : all (fun i => i < k)%N [seq F.2 | F <- Fs].
  by apply/allP => i; rewrite (perm_mem pe) mem_iota.
by rewrite all_map /okt all_predI al andbT.
Qed.
Lemma omapM_all (A B : Type) (P : pred A) (F : A -> option B) (h : A -> B) s : (forall y, P y -> F y = Some (h y)) -> all P s ->
  omapM F s = Some (map h s).
Proof. by move=> H; elim: s => [//|x s IH] /= /andP[/H -> /IH ->]. Qed.
Lemma eq_all_big (A : Type) (P : pred A) (g h : A -> R) s : (forall y, P y -> g y = h y) -> all P s ->
  \sum_(y <- s) g y = \sum_(y <- s) h y.
Proof. by move=> H; elim: s => [|x s IH] /=; rewrite ?big_nil // !big_cons => /andP[/H -> /IH ->]. Qed.
Lemma eq_all_prod (A : Type) (P : pred A) (g h : A -> R) s : (forall y, P y -> g y = h y) -> all P s ->
  \prod_(y <- s) g y = \prod_(y <- s) h y.
Proof. by move=> H; elim: s => [|x s IH] /=; rewrite ?big_nil // !big_cons => /andP[/H -> /IH ->]. Qed.
Lemma fn_runP k f args : multilinear a k f -> size args = k -> all (good_arg a) args ->
  fn_run a f args = Some (flatten [seq term_poly args t | t <- f]).
Proof.
move=> mf sz ga; rewrite /fn_run (omapM_all _ (multi_ok mf) (h := term_poly args)) // => t ok.
rewrite /fn_term (omapM_all _ ok (h := fun F => dpoly F.1 (nth (Slot R 0) args F.2))) // => F /andP[lk vA].
rewrite /fn_factor (drop_nth (Slot R 0)) ?sz //=.
by apply: dot_arg_dpoly => //; apply: (all_nthP _ ga); rewrite sz.
Qed.
Lemma term_pev env args t : pev env (term_poly args t) = t.1 * \prod_(F <- t.2) pev env (dpoly F.1 (nth (Slot R 0) args F.2)).
Proof.
case: t => c Fs; rewrite /term_poly /=; elim: Fs => [|F Fs IH] /=; first by rewrite big_nil mulr1 pev_const.
by rewrite pev_mul IH big_cons mulrCA.
Qed.
Lemma dpoly_slot env A j X : vector a A -> vector a X -> (forall l, (l < n)%N -> env (j, l) = xcoef X l) ->
  pev env (dpoly A (Slot R j)) = inner a A X.
Proof.
move=> vA vX H; have [d E dE] := scalar_dot two wf vA vX; rewrite {1}/inner E dE.
rewrite /pev big_map iota_ord (vec_xcoef two vX) (gform_sumr two); apply: eq_bigr => l _.
have [e Ee eE] := scalar_dot two wf vA (basis_vector two (ltn_ord l)).
by rewrite /= big_seq1 H // /inner Ee eE (evec_val two l) mulrC.
Qed.
(* on vectors *)
Lemma fn_vec k f Xs : multilinear a k f -> size Xs = k -> all (vector a) Xs ->
  exists2 p, fn_run a f [seq Vec X | X <- Xs] = Some p & pol_number p = Some (fn_value a f Xs).
Proof.
move=> mf sz vX; rewrite (fn_runP mf) ?size_map // ?all_map //; eexists; first reflexivity.
have na i : (i < k)%N -> nth (Slot R 0) [seq Vec X | X <- Xs] i = Vec (nth (mv_const a 0) Xs i).
  by move=> lk; rewrite (nth_map (mv_const a 0)) ?sz.
rewrite (@numeric_pev _ (fun=> 0)).
  congr Some; rewrite pev_flatten big_map; apply: eq_all_big (multi_ok mf) => t ok; rewrite term_pev; congr (_ * _).
  by apply: eq_all_prod ok => F /andP[lk _]; rewrite na // pev_const.
rewrite /numeric all_flat all_map; apply: sub_all (multi_ok mf) => -[c Fs] /=; rewrite -/(numeric _) /term_poly /=.
by elim: Fs => [//|F Fs IH] /= /andP[/andP[lk _] /IH h]; apply: numeric_mul h; rewrite na.
Qed.
(* on slot vectors *)
Lemma fn_slots k f m : multilinear a k f -> exists2 p, fn_run a f [seq Slot R i | i <- iota m k] = Some p &
  all (fun s => perm_eq [seq v.1 | v <- s.2] (iota m k) && all (fun v => (v.2 < n)%N) s.2) p /\
  forall env Xs, size Xs = k -> all (vector a) Xs -> (forall i l, (i < k)%N -> (l < n)%N -> env ((m + i)%N, l) = xcoef (nth (mv_const a 0) Xs i) l) ->
    pev env p = fn_value a f Xs.
Proof.
move=> mf; rewrite (fn_runP mf) ?size_map ?size_iota //; last by rewrite all_map; apply/allP.
have na i : (i < k)%N -> nth (Slot R 0) [seq Slot R i | i <- iota m k] i = Slot R (m + i).
  by move=> lk; rewrite (nth_map 0%N) ?size_iota // nth_iota.
eexists; first reflexivity; split=> [|env Xs sz vX H].
  rewrite all_flat all_map; have : all (fun t => perm_eq [seq F.2 | F <- t.2] (iota 0 k) && okt k t.2) f.
    by rewrite all_predI (multi_ok mf) andbT; apply: sub_all mf => t /andP[].
  apply: sub_all => -[c Fs] /= /andP[pe ok].
  have : all (fun s => ([seq v.1 | v <- s.2] == [seq (m + F.2)%N | F <- Fs]) && all (fun v => (v.2 < n)%N) s.2) (term_poly [seq Slot R i | i <- iota m k] (c, Fs)).
    rewrite /term_poly /=; elim: Fs ok {pe} => [//|F Fs IH] /= /andP[/andP[lk _] /IH {}IH].
    rewrite /pol_mul all_flat all_map na //= all_map; apply/allP => l; rewrite mem_iota => /andP[_ ll] /=; rewrite all_map.
    by apply: sub_all IH => s /andP[/eqP e al] /=; rewrite e eqxx [(l < n)%N]ll.
  apply: sub_all => s /andP[/eqP -> ->]; rewrite andbT.
  have -> : [seq (m + F.2)%N | F <- Fs] = map (addn m) [seq F.2 | F <- Fs] by rewrite -map_comp.
  by rewrite -[m in iota m _]addn0 iotaDl; apply: perm_map.
rewrite pev_flatten big_map; apply: eq_all_big (multi_ok mf) => t ok; rewrite term_pev; congr (_ * _).
apply: eq_all_prod ok => F /andP[lk vA]; rewrite na //.
by apply: dpoly_slot => // [|l ll]; [apply: (all_nthP _ vX); rewrite sz | exact: H].
Qed.

Notation good := (fm_tensor a).
(* Mlt(f): T(x...) is f(x...), in every frame, and its components are the values of f on the basis
   vectors *)
Theorem C75_function k f slots : multilinear a k f -> exists2 T, (mlt_of_fn a f k slots).2 = Some T &
  [/\ good T, ml_nargs (fm_ml T) = k,
      forall slots' Xs, size Xs = k -> all (vector a) Xs -> fvalue_at a slots' T Xs = Some (fn_value a f Xs) &
      forall I, size I = k -> all (fun i => i < n)%N I -> component (fm_ml T) I = fn_value a f [seq mv_basis_vec R i | i <- I]].
Proof.
move=> mf; have [p E [al pE]] := fn_slots 0 mf; rewrite /= E /=; eexists; first reflexivity.
have tT : tensor a (Mlt k p) by exact: al.
split=> // [slots' Xs sz vX|I sz aI].
- have [q Eq nq] := fn_vec mf sz vX; rewrite /fvalue_at /fmlt_call /= size_map sz eqxx.
  case: Xs sz vX Eq nq => [|X Xs] sz vX Eq nq; last by rewrite Eq.
  by move: E Eq; rewrite -sz /= => ->[->].
- have vb : all (vector a) [seq mv_basis_vec R i | i <- I] by rewrite all_map; apply: sub_all aI => i li /=; exact: (basis_vector two li).
  have [rs [_ _ uf _]] := C25_reciprocal_basis two wf u.
  have := C33_components_scaled two wf u tT sz (leqnn _) aI.
  rewrite (value_pev two wf u) ?size_map //= => -[/(mulrI (unitrX k uf)) <-].
  by apply: pE; rewrite ?size_map.
Qed.

(* the value from the components, without the factor of the frame *)
Definition bval T (Xs : seq (mv R)) : R := pev (fun v => xcoef (nth (mv_const a 0) Xs v.1) v.2) (ml_value (fm_ml T)).
Definition frame T : R := if fm_fn T is Some _ then 1 else rf ^+ ml_nargs (fm_ml T).
Lemma good_value slots T Xs : good T -> size Xs = ml_nargs (fm_ml T) -> (ml_nargs (fm_ml T) <= slots)%N -> all (vector a) Xs ->
  fvalue_at a slots T Xs = Some (frame T * bval T Xs).
Proof.
case: T => T [f|] [tT /= h] sz le vX; last first.
  have -> : fvalue_at a slots (Fmlt T None) Xs = value_at a slots T Xs by case: Xs {sz vX}.
  exact: (value_pev two wf u).
have [mf E] := h; have [p Ep [_ pE]] := fn_slots 0 mf; move: E; rewrite Ep => -[pT].
rewrite /frame mul1r /bval /= -pT (pE _ Xs) //.
have [q Eq nq] := fn_vec mf sz vX; rewrite /fvalue_at /fmlt_call /= size_map sz eqxx.
case: Xs sz vX Eq nq => [|X Xs] sz vX Eq nq; last by rewrite Eq.
by move: Ep Eq; rewrite -sz -pT /= => ->[->].
Qed.
(* T on the slot vectors m, m+1, ... *)
Lemma good_slots slots m T : good T -> (ml_nargs (fm_ml T) <= slots)%N ->
  exists2 p, fmlt_call a slots T [seq Slot R i | i <- iota m (ml_nargs (fm_ml T))] = Some p &
    all (fun s => perm_eq [seq v.1 | v <- s.2] (iota m (ml_nargs (fm_ml T))) && all (fun v => (v.2 < n)%N) s.2) p /\
    forall env Xs, size Xs = ml_nargs (fm_ml T) -> all (vector a) Xs ->
      (forall i l, (i < ml_nargs (fm_ml T))%N -> (l < n)%N -> env ((m + i)%N, l) = xcoef (nth (mv_const a 0) Xs i) l) ->
      pev env p = frame T * bval T Xs.
Proof.
case: T => T [f|] [tT /= h] le; last first.
  have [p E [al pE]] := call_slots two wf u m tT le; exists p.
    by move: E; rewrite /fmlt_call /slot_args; case: [seq _ | i <- _].
  split=> // env Xs sz vX H; rewrite pE; congr (_ * _); rewrite /bval /pev !big_seq; apply: eq_bigr => t /(allP tT) /andP[pe al'].
  congr (_ * _); rewrite !big_seq; apply: eq_bigr => -[i l] vt /=; apply: H; last exact: (allP al' _ vt).
  have : i \in [seq v.1 | v <- t.2] by apply/mapP; exists (i, l).
  by rewrite (perm_mem pe) mem_iota.
have [mf E] := h; have [p0 Ep0 [_ pE0]] := fn_slots 0 mf; move: E; rewrite Ep0 => -[pT].
have [p Ep [al pE]] := fn_slots m mf; exists p.
  rewrite /fmlt_call /= size_map size_iota eqxx.
  case: (ml_nargs T) Ep Ep0 => [|k] //= Ep Ep0; by move: Ep0; rewrite Ep pT.
split=> // env Xs sz vX H; by rewrite (pE env Xs) // /frame mul1r /bval /= -pT (pE0 _ Xs).
Qed.
Lemma good_expr k p : tensor a (Mlt k p) -> good (Fmlt (Mlt k p) None).
Proof. by []. Qed.
(* sums, differences, multiples and products of functions: in oblique frames the factor of the
   reciprocal basis appears once for each argument *)
Theorem C75_sum_scaled k f1 f2 slots1 slots2 T1 T2 : multilinear a k f1 -> multilinear a k f2 ->
  (mlt_of_fn a f1 k slots1).2 = Some T1 -> (mlt_of_fn a f2 k slots2).2 = Some T2 ->
  exists T T', [/\ fmlt_add T1 T2 = Some T, fmlt_sub T1 T2 = Some T', good T /\ good T' & forall slots c Xs, (k <= slots)%N -> size Xs = k -> all (vector a) Xs ->
    [/\ fvalue_at a slots T Xs = Some (rf ^+ k * (fn_value a f1 Xs + fn_value a f2 Xs)),
        fvalue_at a slots T' Xs = Some (rf ^+ k * (fn_value a f1 Xs - fn_value a f2 Xs)) &
        fvalue_at a slots (fmlt_scale c T1) Xs = Some (rf ^+ k * (c * fn_value a f1 Xs))]].
Proof.
move=> m1 m2; have [p Ep [ap pE]] := fn_slots 0 m1; have [q Eq [aq qE]] := fn_slots 0 m2.
rewrite /mlt_of_fn /= Ep Eq /= => -[<-] [<-]; rewrite /fmlt_add /fmlt_sub /mlt_add /mlt_sub /= eqxx.
eexists; eexists; split; [reflexivity|reflexivity| |].
  by split; apply: good_expr; rewrite /tensor /= all_cat; apply/andP; split=> //; rewrite all_map.
move=> slots c Xs le sz vX; rewrite !good_value //=; try by apply: good_expr; rewrite /tensor /= ?all_cat ?all_map //; apply/andP; split.
by rewrite /bval /= !pev_cat !pev_scale !(pE _ Xs) // !(qE _ Xs) // mulN1r.
Qed.
Lemma good_mul T1 T2 slots : good T1 -> good T2 -> let k1 := ml_nargs (fm_ml T1) in let k2 := ml_nargs (fm_ml T2) in
  exists2 T, (fmlt_mul a T1 T2 slots).2 = Some T & [/\ good T, fm_fn T = None, ml_nargs (fm_ml T) = (k1 + k2)%N &
    forall slots' Xs Ys, (k1 + k2 <= slots')%N -> size Xs = k1 -> size Ys = k2 -> all (vector a) Xs -> all (vector a) Ys ->
      fvalue_at a slots' T (Xs ++ Ys) = Some (rf ^+ (k1 + k2) * ((frame T1 * bval T1 Xs) * (frame T2 * bval T2 Ys)))].
Proof.
move=> g1 g2 k1 k2; set sl := increment_slots (k1 + k2)%N slots; have leN : (k1 + k2 <= sl)%N by exact: leq_maxl.
have [p Ep [sp vp]] := good_slots 0 g1 (leq_trans (leq_addr _ _) leN : (ml_nargs (fm_ml T1) <= sl)%N).
have [q Eq [sq vq]] := good_slots k1 g2 (leq_trans (leq_addl _ _) leN : (ml_nargs (fm_ml T2) <= sl)%N).
rewrite /fmlt_mul /= -/k1 -/k2 -/sl Ep Eq /=; eexists; first reflexivity.
have tT : tensor a (Mlt (k1 + k2) (pol_mul p q)).
  rewrite /tensor /= /pol_mul all_flat all_map; apply: sub_all sp => s /andP[ps as_] /=.
  rewrite all_map; apply: sub_all sq => t /andP[pt at_] /=.
  by rewrite map_cat all_cat as_ at_ /= andbT iotaD add0n; apply: perm_cat.
split=> // sl' Xs Ys le sX sY vX vY; rewrite good_value ?size_cat ?sX ?sY ?all_cat ?vX ?vY //=.
rewrite /frame /bval /= pev_mul; congr (Some (_ * (_ * _))).
  by apply: vp => // i l li ll; rewrite add0n nth_cat sX [(i < _)%N]li.
by apply: vq => // i l li ll; rewrite /= nth_cat sX ltnNge leq_addr /= addKn.
Qed.
Lemma fn_good k f slots T : multilinear a k f -> (mlt_of_fn a f k slots).2 = Some T ->
  [/\ good T, ml_nargs (fm_ml T) = k, frame T = 1 & forall Xs, size Xs = k -> all (vector a) Xs -> bval T Xs = fn_value a f Xs].
Proof.
move=> mf; have [p E [ap pE]] := fn_slots 0 mf; rewrite /mlt_of_fn /= E /= => -[<-]; split=> // Xs sz vX.
by rewrite /bval /= (pE _ Xs).
Qed.
Theorem C75_product_scaled k1 k2 f1 f2 slots slots1 slots2 T1 T2 : multilinear a k1 f1 -> multilinear a k2 f2 ->
  (mlt_of_fn a f1 k1 slots1).2 = Some T1 -> (mlt_of_fn a f2 k2 slots2).2 = Some T2 ->
  exists2 T, (fmlt_mul a T1 T2 slots).2 = Some T & good T /\
    forall slots' Xs Ys, (k1 + k2 <= slots')%N -> size Xs = k1 -> size Ys = k2 -> all (vector a) Xs -> all (vector a) Ys ->
      fvalue_at a slots' T (Xs ++ Ys) = Some (rf ^+ (k1 + k2) * (fn_value a f1 Xs * fn_value a f2 Ys)).
Proof.
move=> m1 m2 E1 E2; have [g1 n1 r1 v1] := fn_good m1 E1; have [g2 n2 r2 v2] := fn_good m2 E2.
have [T E [gT _ _ h]] := good_mul slots g1 g2; exists T => //; split=> // sl Xs Ys le sX sY vX vY.
by rewrite h ?n1 ?n2 // r1 r2 !mul1r v1 ?v2.
Qed.

(* ---- orthogonal frames: any mixture of tensors from functions and from components ---- *)
Section Ortho.
Hypothesis ort : is_ortho a.
Lemma frame1 T : frame T = 1.
Proof. by rewrite /frame /r_factor ort expr1n; case: (fm_fn T). Qed.
Theorem C75_add_partial slots T1 T2 : good T1 -> good T2 -> let k := ml_nargs (fm_ml T1) in (k <= slots)%N ->
  ml_nargs (fm_ml T2) = k -> exists T T', [/\ fmlt_add T1 T2 = Some T, fmlt_sub T1 T2 = Some T', good T /\ good T' &
    forall Xs, size Xs = k -> all (vector a) Xs -> exists v w, [/\ fvalue_at a slots T1 Xs = Some v,
      fvalue_at a slots T2 Xs = Some w, fvalue_at a slots T Xs = Some (v + w) & fvalue_at a slots T' Xs = Some (v - w)]].
Proof.
move=> g1 g2 k le e; rewrite /fmlt_add /fmlt_sub /mlt_add /mlt_sub e eqxx /=.
have t2 : tensor a (Mlt k (ml_value (fm_ml T2))) by rewrite -e; have [+ _] := g2; case: (fm_ml T2).
have t1 : tensor a (Mlt k (ml_value (fm_ml T1))) by rewrite /k; have [+ _] := g1; case: (fm_ml T1).
eexists; eexists; split; [reflexivity|reflexivity| |].
  by split; apply: good_expr; rewrite /tensor /= all_cat; apply/andP; split=> //; rewrite all_map.
move=> Xs sz vX; exists (bval T1 Xs), (bval T2 Xs); rewrite !good_value ?e //=; try by apply: good_expr; rewrite /tensor /= all_cat ?all_map; apply/andP; split.
by rewrite !frame1 !mul1r /bval /= !pev_cat pev_scale mulN1r.
Qed.
Theorem C75_scale_partial slots c T Xs : good T -> (ml_nargs (fm_ml T) <= slots)%N -> size Xs = ml_nargs (fm_ml T) -> all (vector a) Xs ->
  good (fmlt_scale c T) /\ exists2 v, fvalue_at a slots T Xs = Some v & fvalue_at a slots (fmlt_scale c T) Xs = Some (c * v).
Proof.
move=> g le sz vX; have gS : good (fmlt_scale c T) by apply: good_expr; apply: tensor_scale; have [+ _] := g; case: (fm_ml T).
split=> //; exists (bval T Xs); rewrite good_value // frame1 mul1r //.
by rewrite /bval /= pev_scale.
Qed.
Theorem C75_mul_partial slots T1 T2 : good T1 -> good T2 -> let k1 := ml_nargs (fm_ml T1) in let k2 := ml_nargs (fm_ml T2) in
  exists2 T, (fmlt_mul a T1 T2 slots).2 = Some T & good T /\
    forall slots' Xs Ys, (k1 + k2 <= slots')%N -> size Xs = k1 -> size Ys = k2 -> all (vector a) Xs -> all (vector a) Ys ->
      exists v w, [/\ fvalue_at a slots' T1 Xs = Some v, fvalue_at a slots' T2 Ys = Some w & fvalue_at a slots' T (Xs ++ Ys) = Some (v * w)].
Proof.
move=> g1 g2 k1 k2; have [T E [gT _ _ h]] := good_mul slots g1 g2; exists T => //; split=> // sl Xs Ys le sX sY vX vY.
have le1 : (k1 <= sl)%N by apply: leq_trans le; exact: leq_addr.
have le2 : (k2 <= sl)%N by apply: leq_trans le; exact: leq_addl.
by exists (bval T1 Xs), (bval T2 Ys); rewrite h // !good_value // !frame1 !mul1r /r_factor ort expr1n mul1r.
Qed.
End Ortho.
End C75.

(* ---- cases ---- *)
(* f(x) = e0 | x in the plane with e0.e0 = 1, e0.e1 = 3, e1.e1 = 2 *)
Definition fn_e0 : fn [comUnitRingType of rat] := [:: (1, [:: (mv_basis_vec _ 0, 0%N)])].
(* finding: lt.py Mlt.__mul__, Mlt.__add__ -- in an oblique frame a multiple of a tensor given by a
   function is not the multiple of its values: with f(x) = e0 | x, T(e0) is 1 and (1*T)(e0) is 7 *)
Theorem C75_oblique_refuted : exists (a : ga [comUnitRingType of rat]) f, [/\ wf_ga a, \det (metric_mx a) \is a GRing.unit, multilinear a 1 f &
  let e0 := [:: mv_basis_vec [comUnitRingType of rat] 0] in
  omap (fun v => v == 1) (LET T := (mlt_of_fn a f 1 0).2 IN fvalue_at a 1 T e0) = Some true /\
  omap (fun v => v == 7%:R) (LET T := (mlt_of_fn a f 1 0).2 IN fvalue_at a 1 (fmlt_scale 1 T) e0) = Some true].
Proof. by exists mv_ga, fn_e0; split; [by vm_compute | exact: case_det | by vm_compute | split; vm_compute]. Qed.
(* f(x, y) = 2 (v|x)(w|y) + (w|x)(v|y) in the plane with e0.e0 = 1, e1.e1 = -1, with v = 2e0 + 3e1
   and w = e0 - e1: f(e0, e1) = 2*2*1 + 1*(-3) = 1 *)
Definition fn_case : fn [comUnitRingType of rat] := [:: (2%:R, [:: (mlt_v, 0); (mlt_w, 1)]%N); (1, [:: (mlt_v, 1); (mlt_w, 0)]%N)].
Example C75_case : [/\ wf_ga mlt_ga && is_ortho mlt_ga, \det (metric_mx mlt_ga) \is a GRing.unit, multilinear mlt_ga 2 fn_case &
  omap (fun v => v == 1) (LET T := (mlt_of_fn mlt_ga fn_case 2 0).2 IN fvalue_at mlt_ga 2 T [:: mv_basis_vec _ 0; mv_basis_vec _ 1]) = Some true].
Proof. by split; [by vm_compute | exact: mlt_det | by vm_compute..]. Qed.
Print Assumptions C75_function.
Print Assumptions C75_sum_scaled.
Print Assumptions C75_product_scaled.
Print Assumptions C75_add_partial.
Print Assumptions C75_scale_partial.
Print Assumptions C75_mul_partial.
Print Assumptions C75_oblique_refuted.
