(* Props_Metric.v -- the metric object: orthogonality flag (C49), submanifold
   metrics (C50), signature (C51), Christoffel symbols (C36) and the documented
   forms of the metric argument (C57). *)
From Coq Require Import String Ascii ZArith.
From mathcomp Require Import all_ssreflect all_algebra fraction.
From Verif Require Import NatTac AlgTactics Exterior Clifford Blades Spec_Grade Grades PyBase PyStr Spec_Index Ga_Model.
From Verif Require Import Ga_Sem Ga_Proof_Tables Ga_Proof_Sort Ga_Proof_Sem Ga_Proof_Reduce Ga_Proof_Rep.
From Verif Require Import Spec_Clifford Spec_Mv Mv_Model Mv_Expr Dual_Model Dual_Proof Props_Mv Props_Dual.
From Verif Require Import Names_Model Names_Proof Spec_Diff Metric_Model Metric_Agree Inertia.
Set Implicit Arguments.
Unset Strict Implicit.
Unset Printing Implicit Defensive.
Import GRing.Theory.
Local Open Scope ring_scope.

(* ---- small specification ---- *)
(* the n x n matrix stored in a list of rows *)
Definition mx (R : comUnitRingType) (n m : nat) (g : seq (seq R)) : 'M[R]_(n, m) :=
  \matrix_(i, j) nth 0 (nth [::] g i) j.
(* n rows of length m *)
Definition shape (R : comUnitRingType) (n m : nat) (g : seq (seq R)) : bool :=
  (size g == n) && all (fun row => size row == m) g.
Definition symmetric_mx (R : comUnitRingType) (n : nat) (A : 'M[R]_n) : Prop := A^T = A.

Section Basics.
Variable R : comUnitRingType.
Lemma shape_nth n m (g : seq (seq R)) i : shape n m g -> (i < n)%N -> size (nth [::] g i) = m.
Proof. by case/andP=> /eqP s /all_nthP h lt; apply/eqP/h; rewrite s. Qed.
Lemma mgetE n m (g : seq (seq R)) i j : shape n m g -> (i < n)%N -> (j < m)%N ->
  mget g i j = Some (ment g i j).
Proof. by move=> sh li lj; rewrite /mget (shape_nth sh) // lj; case/andP: sh => /eqP -> _; rewrite li. Qed.
Lemma ment_rows n m f i j : (i < n)%N -> (j < m)%N -> ment (mk_rows n m f) i j = f i j :> R.
Proof.
move=> li lj; rewrite /ment /mk_rows (nth_map 0%N) ?size_iota // (nth_map 0%N) ?size_iota //.
by rewrite !nth_iota.
Qed.
Lemma shape_rows n m (f : nat -> nat -> R) : shape n m (mk_rows n m f).
Proof.
rewrite /shape /mk_rows size_map size_iota eqxx /=; apply/allP=> row /mapP[i _ ->].
by rewrite size_map size_iota.
Qed.
Lemma ment_mx n m (g : seq (seq R)) (i : 'I_n) (j : 'I_m) : mx n m g i j = ment g i j.
Proof. by rewrite mxE. Qed.
Lemma py_allP (T : eqType) (f : T -> option bool) (h : T -> bool) l :
  {in l, forall x, f x = Some (h x)} -> py_all f l = Some (all h l).
Proof.
elim: l => //= x l IH e; rewrite e ?mem_head //= IH; last by move=> y yl; rewrite e // inE yl orbT.
by case: (h x).
Qed.
Lemma upperP n i j : ((i, j) \in upper_pairs n) = (i < j < n)%N.
Proof.
rewrite mem_filter /=; case lt: (i < j)%N => //=.
apply/allpairsP/idP => [[[u v] /= [ui vi [_ ->]]]|lj].
  by rewrite mem_iota in vi.
by exists (i, j); rewrite !mem_iota /= lj (ltn_trans lt lj).
Qed.
Lemma symE n (g : seq (seq R)) : symmetric_mx (mx n n g) ->
  forall i j, (i < n)%N -> (j < n)%N -> ment g i j = ment g j i.
Proof.
move=> s i j li lj; move/matrixP/(_ (Ordinal lj) (Ordinal li)): s.
by rewrite !mxE.
Qed.
End Basics.

(* ---- C49 ---- *)
Section Ortho.
Variables (R : comUnitRingType) (me : metric_env R).

Lemma make_metricP n coords g norm m : make_metric me n coords g norm = Some m ->
  [/\ m_n m = n, m_coords m = coords, build_g me n coords g = Some (m_graw m),
      ortho_test n (m_graw m) = Some (m_ortho m) &
      if norm then exists N, [/\ m_ortho m, m_enorm m = Some N, norm_list me n (m_graw m) = Some N &
                                 norm_g n N (m_graw m) = Some (m_g m)]
      else m_g m = m_graw m /\ m_enorm m = None].
Proof.
rewrite /make_metric; case e: build_g => [gm|] //=; case o: ortho_test => [[]|] //=; last first.
  by case: norm => // -[<-]; split.
case: norm => [|[<-]]; last by split.
case en: norm_list => [N|] //=; case eg: norm_g => [g'|] //= -[<-]; split=> //=.
by exists N.
Qed.

Lemma norm_gE n N g g' : norm_g n N g = Some g' -> shape n n g ->
  [/\ shape n n g', all (fun x => x \is a GRing.unit) N &
      forall i j, (i < n)%N -> (j < n)%N -> ment g' i j = ment g i j / (nth 0 N i * nth 0 N j) :> R].
Proof.
rewrite /norm_g; case: ifP => // un [<-] sh; case/andP: (sh) => /eqP sg /allP sr.
split=> // [|i j li lj].
  rewrite /shape size_map size_iota sg eqxx /=; apply/allP=> row /mapP[i].
  by rewrite mem_iota /= => li ->; rewrite size_map size_iota (shape_nth sh).
rewrite {1}/ment (nth_map 0%N) ?size_iota ?sg // nth_iota // (shape_nth sh) //.
by rewrite (nth_map 0%N) ?size_iota // nth_iota // add0n li lj.
Qed.
Lemma omapM_size (A B : Type) (f : A -> option B) l r : omapM f l = Some r -> size r = size l.
Proof. by elim: l r => [|x l IH] r /=; [case=> <-|case: (f x) => //= y; case e: omapM => [t|] //= -[<-] /=; rewrite (IH t)]. Qed.
Lemma norm_size n g N : norm_list me n g = Some N -> size N = n.
Proof. by move/omapM_size; rewrite size_iota. Qed.
Lemma nunit (N : seq R) i : all (fun x => x \is a GRing.unit) N -> (i < size N)%N -> nth 0 N i \is a GRing.unit.
Proof. by move=> /all_nthP h lt; apply: h. Qed.

(* the flag that the constructor computes is set exactly when all entries off
   the diagonal vanish, before and after normalisation, and it is the flag the
   product kernel uses *)
Theorem C49_orthogonality_flag n coords g norm m : make_metric me n coords g norm = Some m ->
  shape n n (m_graw m) -> symmetric_mx (mx n n (m_graw m)) ->
  [/\ m_ortho m <-> (forall i j : 'I_n, i != j -> mx n n (m_graw m) i j = 0),
      m_ortho m <-> (forall i j : 'I_n, i != j -> mx n n (m_g m) i j = 0) &
      is_ortho (metric_ga m) = m_ortho m].
Proof.
move=> /make_metricP[en _ _ ot nm] sh sy.
have iso (h : seq (seq R)) : shape n n h -> (forall i j, (i < n)%N -> (j < n)%N -> (ment h i j == 0) = (ment (m_graw m) i j == 0)) ->
   all (fun p => ment h p.1 p.2 == 0) (upper_pairs n) <-> (forall i j : 'I_n, i != j -> mx n n h i j = 0).
  move=> shh z; split=> [/allP al i j ne|al]; last first.
    apply/allP=> -[i j]; rewrite upperP => /andP[lt lj] /=.
    have li := ltn_trans lt lj; have := al (Ordinal li) (Ordinal lj).
    by rewrite mxE -val_eqE /= /ment => ->; rewrite ?ltn_eqF.
  apply/eqP; rewrite ment_mx; case: (ltngtP i j) => [lt|lt|/val_inj e]; last by rewrite e eqxx in ne.
    by apply: (al (val i, val j)); rewrite upperP lt /=.
  rewrite z // (symE sy) // -z //; apply: (al (val j, val i)); by rewrite upperP lt /=.
have eo : m_ortho m = all (fun p => ment (m_graw m) p.1 p.2 == 0) (upper_pairs n).
  move: ot; rewrite /ortho_test (@py_allP _ _ (fun p => ment (m_graw m) p.1 p.2 == 0)) => [[<-] //|[i j]].
  by rewrite upperP => /andP[lt lj] /=; rewrite (mgetE sh) //; exact: ltn_trans lj.
have [shg zg] : shape n n (m_g m) /\
    forall i j, (i < n)%N -> (j < n)%N -> (ment (m_g m) i j == 0) = (ment (m_graw m) i j == 0).
  case: norm nm => [[N [_ _ nl ng]]|[-> _]]; last by split.
  have [s1 un e] := norm_gE ng sh; split=> // i j li lj; rewrite e //.
  have sN := norm_size nl.
  have u : nth 0 N i * nth 0 N j \is a GRing.unit by rewrite unitrM !nunit ?sN.
  apply/eqP/eqP => [e0|->]; last by rewrite mul0r.
  by rewrite -[LHS](divrK u) e0 mul0r.
split.
- by rewrite eo; exact: iso.
- rewrite eo -(iso (m_g m)) //; suff -> : all (fun p => ment (m_graw m) p.1 p.2 == 0) (upper_pairs n) =
    all (fun p => ment (m_g m) p.1 p.2 == 0) (upper_pairs n) by [].
  apply: eq_in_all => -[i j]; rewrite upperP => /andP[lt lj] /=; rewrite zg //; exact: ltn_trans lj.
rewrite eo /is_ortho /metric_ga /= en; apply/allP/allP => [al [i j]|al i].
  rewrite upperP => /andP[lt lj] /=; have li := ltn_trans lt lj.
  have im : i \in iota 0 n by rewrite mem_iota.
  have jm : j \in iota 0 n by rewrite mem_iota.
  by have /allP/(_ j jm) := al i im; rewrite lt /= -zg.
rewrite mem_iota /= => li; apply/allP=> j; rewrite mem_iota /= => lj; apply/implyP=> lt.
by have := al (i, j); rewrite upperP lt lj /= -zg // => /(_ isT).
Qed.

(* nothing a user can compute with the operators depends on the entries below
   the diagonal *)
Theorem C49_upper_triangle (a b : ga R) : wf_ga a -> wf_ga b -> ga_n a = ga_n b ->
  (forall i j, (i <= j < ga_n a)%N -> ment (ga_g a) i j = ment (ga_g b) i j) ->
  [/\ forall p, run a p = run b p, forall p q, run_eq a p q = run_eq b p q &
      forall X, mv_inv a X = mv_inv b X].
Proof.
case: a b => [n g1] [n2 g2] /=; rewrite /wf_ga /= => w1 w2 e; subst n2 => h.
have eg i j : (i <= j)%N -> gij (Ga n g1) i j = gij (Ga n g2) i j.
  move=> le; rewrite /gij /=; case: (ltnP j n) => [lt|ge]; first by apply: h; rewrite le.
  have z (g : seq (seq R)) : (size g == n) && all (fun r => size r == n) g -> nth 0 (nth [::] g i) j = 0.
    case/andP=> /eqP s /allP al; apply: nth_default.
    case: (ltnP i (size g)) => [li|gi]; last by rewrite nth_default.
    by rewrite (eqP (al _ (mem_nth [::] li))).
  by rewrite !z.
by split=> *; [exact: run_agree | exact: run_eq_agree | exact: mv_inv_agree].
Qed.
End Ortho.

(* ---- C50 ---- *)
Section Submanifold.
Variables (R : comUnitRingType).
Lemma foldl_add (T : Type) (F : T -> R) l z : foldl (fun s k => s + F k) z l = z + \sum_(k <- l) F k.
Proof. by elim: l z => [|x l IH] z /=; rewrite ?big_nil ?addr0 // big_cons IH addrA. Qed.
Lemma sum_iota n (F : nat -> R) : \sum_(k <- iota 0 n) F k = \sum_(k < n) F k.
Proof. by rewrite -[n in iota _ n]subn0 -/(index_iota 0 n) big_mkord. Qed.
Lemma foldl_add2 (T : Type) (F : T -> T -> R) l :
  foldl (fun s k => foldl (fun s l => s + F k l) s l) 0 l = \sum_(k <- l) \sum_(j <- l) F k j.
Proof.
rewrite (eq_foldl (g := fun s k => s + \sum_(j <- l) F k j)) => [|s k]; last exact: foldl_add.
by rewrite (foldl_add (fun k => \sum_(j <- l) F k j)) add0r.
Qed.
Lemma sum_iota_foldr n (F : nat -> R) : \sum_(k < n) F k = foldr (fun k s => F k + s) 0 (iota 0 n).
Proof. by rewrite -sum_iota unlock. Qed.
(* Jacobi matrix of the map u *)
Definition jacobian (d : nat -> R -> R) (n k : nat) (u : seq R) : 'M[R]_(n, k) :=
  \matrix_(i, j) d j (nth 0 u i).

Lemma sm_metricE dsub subs (m : metric R) u nsub G : sm_metric dsub subs m u nsub = Some G ->
  [/\ size u = m_n m, m_coords m <> None, shape nsub nsub G &
  forall i j, (i < nsub)%N -> (j < nsub)%N -> ment G i j =
    \sum_(k < m_n m) \sum_(l < m_n m) dsub i (nth 0 u k) * dsub j (nth 0 u l) * subs (ment (m_graw m) k l)].
Proof.
rewrite /sm_metric; case: eqP => //= su; case ec: m_coords => //= -[<-]; split=> // [|i j li lj].
  exact: shape_rows.
rewrite ment_rows // foldl_add2 sum_iota; apply: eq_bigr => k _; rewrite sum_iota; apply: eq_bigr => l _.
have e (p : 'I_(m_n m)) v : (v < nsub)%N ->
    ment [seq [seq dsub j0 x | j0 <- iota 0 nsub] | x <- u] p v = dsub v (nth 0 u p).
  move=> lv; rewrite /ment (nth_map 0) ?su // (nth_map 0%N) ?size_iota // nth_iota //.
by rewrite !e.
Qed.

(* the metric of the submanifold is the pullback of the base metric along the
   coordinate map, and exists exactly when the dimensions fit and the base has
   coordinates *)
Theorem C50_pullback dsub subs (m : metric R) u nsub G : sm_metric dsub subs m u nsub = Some G ->
  let J := jacobian dsub (m_n m) nsub u in
  shape nsub nsub G /\ mx nsub nsub G = J^T *m map_mx subs (mx (m_n m) (m_n m) (m_graw m)) *m J.
Proof.
move=> /sm_metricE[su _ sh e] /=; split=> //; apply/matrixP=> i j.
rewrite ment_mx e // !mxE exchange_big; apply: eq_bigr => l _ /=.
rewrite !mxE mulr_suml; apply: eq_bigr => k _; rewrite !mxE /ment.
by rewrite mulrAC.
Qed.
Theorem C50_symmetric dsub subs (m : metric R) u nsub G : sm_metric dsub subs m u nsub = Some G ->
  symmetric_mx (mx (m_n m) (m_n m) (m_graw m)) -> symmetric_mx (mx nsub nsub G).
Proof.
move=> /C50_pullback[_ ->] sy; rewrite /symmetric_mx !trmx_mul trmxK mulmxA; congr (_ *m _ *m _).
by rewrite map_trmx sy.
Qed.
Theorem C50_defined dsub subs (m : metric R) u nsub : (exists G, sm_metric dsub subs m u nsub = Some G) <->
  size u = m_n m /\ m_coords m <> None.
Proof.
split=> [[G /sm_metricE[]] //|[su ec]]; rewrite /sm_metric su eqxx /=.
by case: m_coords ec => // c _; eexists.
Qed.
(* a submanifold of a submanifold is the submanifold of the composed map: base
   coordinates x, intermediate coordinates y with x = u(y), new coordinates z
   with y = v(z).  [subu], [subv] are the substitutions, [dy], [dz] the partial
   derivatives; the chain rule is what is assumed of them. *)
Theorem C50_composition (dy dz : nat -> R -> R) (subu : R -> R) (subv : {rmorphism R -> R})
    (m m1 : metric R) u v ny nz G1 G2 :
  sm_metric dy subu m u ny = Some G1 -> m_n m1 = ny -> m_graw m1 = G1 ->
  sm_metric dz subv m1 v nz = Some G2 ->
  (forall f j, dz j (subv f) = \sum_(k < ny) subv (dy k f) * dz j (nth 0 v k)) ->
  exists2 G, sm_metric dz (fun f => subv (subu f)) m [seq subv f | f <- u] nz = Some G &
    mx nz nz G = mx nz nz G2.
Proof.
move=> h1 n1 g1 h2 ch; have [su cu sh1 _] := sm_metricE h1.
have [G hG] : exists G, sm_metric dz (fun f => subv (subu f)) m [seq subv f | f <- u] nz = Some G.
  by apply/C50_defined; rewrite size_map.
exists G => //; have [_ ->] := C50_pullback hG; have [_ ->] := C50_pullback h2.
rewrite g1 n1; have [_ ->] := C50_pullback h1.
have -> : jacobian dz (m_n m) nz [seq subv f | f <- u] =
          map_mx subv (jacobian dy (m_n m) ny u) *m jacobian dz ny nz v.
  apply/matrixP=> i j; rewrite !mxE (nth_map 0) ?su // ch; apply: eq_bigr => k _.
  by rewrite !mxE.
rewrite !map_mxM trmx_mul map_trmx !mulmxA; congr (_ *m _ *m _ *m _).
by apply/matrixP=> i j; rewrite !mxE.
Qed.
(* the metric of a vector manifold X(coords) *)
Theorem C50_vector_manifold (me : metric_env R) n c X g : build_g me n (Some c) (GManifold X) = Some g ->
  let J := jacobian (me_diff me) (size X) c X in mx c c g = J^T *m J.
Proof.
case=> <-; apply/matrixP=> i j; rewrite ment_mx mxE /ment.
rewrite (nth_map [::]) ?size_map ?size_iota // (nth_map [::]) ?size_map ?size_iota //.
rewrite !(nth_map 0%N) ?size_iota // !nth_iota // !add0n /dot_orthogonal.
rewrite (foldl_add (fun v : R * R => v.1 * v.2)) add0r.
have -> : zip [seq me_diff me i x | x <- X] [seq me_diff me j x | x <- X] =
          [seq (me_diff me i x, me_diff me j x) | x <- X] by elim: X => //= x X ->.
rewrite big_map (big_nth 0) big_mkord; apply: eq_bigr => k _; by rewrite !mxE.
Qed.
End Submanifold.

(* ---- C51 ---- *)
Section Signature.
Import Order.TTheory Num.Theory.
Variables (R : realFieldType) (me : metric_env R).
Hypothesis pos : forall x, me_pos me x = (0 < x).

Lemma sig_loopE (l : seq R) p q : all (me_number me) l ->
  sig_loop me l p q = (p + count (fun x => (0 < x)%R) l, q + count (fun x => (x <= 0)%R) l)%N.
Proof.
elim: l p q => [|x l IH] p q /=; first by rewrite !addn0.
case/andP=> nx nl; rewrite nx pos real_leNgt ?num_real //.
by case: ifP => _; rewrite IH //= ?add1n ?add0n ?addSn ?addnS.
Qed.
Lemma sig_loop_cut l1 x l2 p q : ~~ me_number me x ->
  (let: (p', q') := sig_loop me (l1 ++ x :: l2) p q in p' + q' <= p + q + size l1)%N.
Proof.
move=> nx; elim: l1 p q => [|y l IH] p q /=; first by rewrite (negbTE nx) addn0.
case: ifP => _; last by rewrite leq_addr.
case: ifP => _; [have := IH p.+1 q | have := IH p q.+1]; case: sig_loop => p' q'.
  by rewrite addSn addSnnS.
by rewrite addnS addSnnS.
Qed.

(* orthogonal numeric metrics: positive and negative squares are counted; if no
   basis vector is null p + q is the rank of the metric, and the same numbers
   are found in every other basis (columns of S) in which the metric is diagonal *)
Theorem C51_orthogonal_partial (m : metric R) hint : let n := m_n m in let G := mx n n (m_g m) in
  m_ortho m -> (forall i j : 'I_n, i != j -> G i j = 0) ->
  (forall i : 'I_n, me_number me (G i i) && (G i i != 0)) ->
  exists p q : nat, [/\ signature me m hint = Some (Posz p, Posz q),
    p = #|[set i | (0 < G i i)%R]|, q = #|[set i | (G i i < 0)%R]|, (p + q)%N = \rank G &
    forall (S : 'M[R]_n) (d : 'rV[R]_n), S \in unitmx -> S^T *m G *m S = diag_mx d ->
      p = #|[set i | (0 < d 0 i)%R]| /\ q = #|[set i | (d 0 i < 0)%R]|].
Proof.
move=> n G o off num.
have Gii (i : 'I_n) : G i i = ment (m_g m) i i by exact: ment_mx.
have GE : G = diag_mx (\row_i G i i).
  apply/matrixP=> i j; rewrite [RHS]mxE [X in X *+ _]mxE; case: eqP => [->|/eqP ne]; rewrite ?mulr1n ?mulr0n //.
  exact: off.
have cnt (h : pred R) : count h [seq ment (m_g m) i i | i <- iota 0 n] = #|[set i : 'I_n | h (G i i)]|.
  rewrite count_map -val_enum_ord count_map cardE size_filter -enumT.
  by apply: eq_count => i /=; rewrite inE Gii.
set P := [set i | (0 < G i i)%R]; set Q := [set i | (G i i < 0)%R].
have QE : [set i | (G i i <= 0)%R] = Q.
  by apply/setP=> i; rewrite !inE le_eqVlt; case/andP: (num i) => _ /negbTE ->.
have PQ : Q = ~: P.
  by rewrite -QE; apply/setP=> i; rewrite !inE real_leNgt ?num_real.
have s : (#|P| + #|Q| = n)%N by rewrite PQ cardsC card_ord.
exists #|P|, #|Q|; split=> //.
- rewrite /signature o sig_loopE ?add0n ?cnt ?QE -/P ?s ?eqxx //.
  apply/allP=> x /mapP[i]; rewrite mem_iota /= => li ->.
  by case/andP: (num (Ordinal li)); rewrite Gii.
- rewrite s mxrank_unit // unitmxE GE det_diag unitfE; apply/prodf_neq0 => i _.
  by rewrite mxE; case/andP: (num i).
move=> S d Su e; have e' : S^T *m diag_mx (\row_i G i i) *m S = diag_mx d by rewrite -GE.
rewrite -(inertia_pos Su e') -(inertia_neg Su e').
by split; apply: eq_card => i; rewrite !inE !(mxE _ _ 0).
Qed.
(* all other cases take the hint given by the user *)
Theorem C51_hint (m : metric R) hint : ~~ m_ortho m \/
   (exists2 i : 'I_(m_n m), ~~ me_number me (mx _ _ (m_g m) i i) & True) ->
  signature me m hint = match hint with
    | SigInt s => if (s <= Posz (m_n m))%R then Some (s, Posz (m_n m) - s) else None
    | SigStr s => if s == "e"%string then Some (Posz (m_n m), Posz 0)
                  else if s == "m+"%string then Some (Posz (m_n m) - 1, Posz 1)
                  else if s == "m-"%string then Some (Posz 1, Posz (m_n m) - 1) else None end.
Proof.
rewrite /signature; case o: (m_ortho m) => //= -[//|[i nn _]].
set l := [seq _ | _ <- _].
have [l1 [x [l2 [le nx]]]] : exists l1 x l2, l = l1 ++ x :: l2 /\ ~~ me_number me x.
  exists (take i l), (nth 0 l i), (drop i.+1 l); have lt : (i < size l)%N by rewrite size_map size_iota.
  rewrite -drop_nth // cat_take_drop; split=> //.
  by rewrite (nth_map 0%N) ?size_iota // nth_iota // add0n -ment_mx.
have cut : (let: (p, q) := sig_loop me l 0 0 in p + q <= size l1)%N.
  by rewrite le; have := sig_loop_cut l1 l2 0 0 nx; rewrite !add0n; case: sig_loop.
have sl : (size l1 < m_n m)%N by rewrite -[m_n m](size_iota 0) -(size_map (fun i => ment (m_g m) i i)) -/l le size_cat /= addnS ltnS leq_addr.
case: sig_loop cut => p q le2; rewrite ltn_eqF //; exact: leq_ltn_trans sl.
Qed.
End Signature.

(* ---- C36 ---- *)
Section Christoffel.
Variables (R : comUnitRingType) (two : (2%:R : R) \is a GRing.unit) (me : metric_env R).
Hypothesis par : partials (me_diff me).
Notation D := (me_diff me).
Let der k : derivation (D k). Proof. by case: par. Qed.

Lemma tab_table n (f : nat -> nat -> nat -> R) i j k : (i < n)%N -> (j < n)%N -> (k < n)%N ->
  tab (mk_table n f) i j k = f i j k.
Proof.
by move=> li lj lk; rewrite /tab /mk_table (nth_map 0%N) ?size_iota // nth_iota // ment_rows.
Qed.
Lemma halfK (x : R) : half R * (x + x) = x.
Proof. by rewrite -mulr2n -mulr_natl mulrA /half mulVr // mul1r. Qed.

(* without coordinates there is no connection *)
Theorem C36_no_coordinates n (g : garg R) norm m gsym mode : make_metric me n None g norm = Some m ->
  Christoffel_symbols me gsym m mode = Some None.
Proof. by case/make_metricP=> _ ec _ _ _; rewrite /Christoffel_symbols /connect_flg ec. Qed.

Section Tables.
Variables (n : nat) (coords : nat) (g : garg R) (norm : bool) (m : metric R).
Hypotheses (mk : make_metric me n (Some coords) g norm = Some m) (lec : (n <= coords)%N).
Hypotheses (sh : shape n n (m_graw m)) (sy : symmetric_mx (mx n n (m_graw m))).
(* the metric the user gave *)
Notation G := (mx n n (m_graw m)).

Lemma dims : dims_ok m.
Proof.
case/make_metricP: mk => en ec _ _ _; rewrite /dims_ok en ec lec andbT.
case/andP: sh => /eqP -> /allP al; rewrite leqnn /=.
by apply/allP=> row /al /eqP ->.
Qed.
(* there is a table exactly when the metric is not constant *)
Theorem C36_defined gsym : (exists T, Christoffel_symbols me gsym m 1 = Some (Some T)) <->
  exists i j k : 'I_n, D k (G i j) != 0.
Proof.
case/make_metricP: mk => en ec _ _ _.
have h : connect_flg me m = Some [exists i : 'I_n, exists j : 'I_n, exists k : 'I_n, D k (G i j) != 0].
  rewrite /connect_flg ec dims /= en; congr Some.
  apply/hasP/existsP => [[i]|[i /existsP[j /existsP[k ne]]]].
    rewrite mem_iota /= => li /hasP[j]; rewrite mem_iota /= => lj /hasP[k]; rewrite mem_iota /= => lk ne.
    exists (Ordinal li); apply/existsP; exists (Ordinal lj); apply/existsP; exists (Ordinal lk).
    by rewrite ment_mx.
  exists (val i); first by rewrite mem_iota /=.
  apply/hasP; exists (val j); first by rewrite mem_iota /=.
  apply/hasP; exists (val k); first by rewrite mem_iota /=.
  by rewrite /dg -ment_mx.
rewrite /Christoffel_symbols h /=; split=> [[T]|[i [j [k ne]]]].
  by case: existsP => //= -[i /existsP[j /existsP[k ne]]] _; exists i, j, k.
have -> : [exists i : 'I_n, exists j : 'I_n, exists k : 'I_n, D k (G i j) != 0].
  by apply/existsP; exists i; apply/existsP; exists j; apply/existsP; exists k.
by eexists.
Qed.
Lemma first_kindE gsym T : Christoffel_symbols me gsym m 1 = Some (Some T) ->
  forall i j k : 'I_n, tab T i j k = half R * (D i (G j k) + D j (G i k) - D k (G i j)).
Proof.
case/make_metricP: mk => en ec _ _ _.
rewrite /Christoffel_symbols; case: connect_flg => //= -[] //= -[<-] i j k; rewrite en tab_table //.
by rewrite /Gamma1 /dg !ment_mx.
Qed.
Let Gs (i j : 'I_n) : G i j = G j i. Proof. by rewrite !ment_mx (symE sy). Qed.
(* symmetric in the first two indices and compatible with the metric *)
Theorem C36_first_kind gsym T : Christoffel_symbols me gsym m 1 = Some (Some T) ->
  forall i j k : 'I_n, tab T i j k = tab T j i k /\ D k (G i j) = tab T k i j + tab T k j i.
Proof.
move=> h i j k; rewrite !(first_kindE h) (Gs j i) (Gs i k) (Gs j k); split.
  by rewrite [D i _ + _]addrC.
rewrite -mulrDr -[LHS]halfK; congr (_ * _).
by rewrite (Gs k i) (Gs k j); zmod.
Qed.
(* and they are the only such symbols *)
Theorem C36_unique gsym T (F : 'I_n -> 'I_n -> 'I_n -> R) : Christoffel_symbols me gsym m 1 = Some (Some T) ->
  (forall i j k, F i j k = F j i k) -> (forall i j k : 'I_n, D k (G i j) = F k i j + F k j i) ->
  forall i j k : 'I_n, tab T i j k = F i j k.
Proof.
move=> h s c i j k; rewrite (first_kindE h) !c -[RHS]halfK; congr (_ * _).
by rewrite (s j i k) (s k i j) (s k j i); zmod.
Qed.
(* the second kind is the first raised by the inverse metric *)
Theorem C36_second_kind gsym : ~~ norm -> \det G \is a GRing.unit -> (gsym = None \/ gsym = Some (\det G)) ->
  (exists i j k : 'I_n, D k (G i j) != 0) ->
  exists T1 T2, [/\ Christoffel_symbols me gsym m 1 = Some (Some T1),
    Christoffel_symbols me gsym m 2 = Some (Some T2),
    forall i j k : 'I_n, tab T2 i j k = \sum_(l < n) tab T1 i j l * invmx G l k &
    forall i j l : 'I_n, \sum_(k < n) tab T2 i j k * G k l = tab T1 i j l].
Proof.
case/make_metricP: mk => en ec _ _; case: norm => // -[eg _] _ u gs ex.
have wf : wf_ga (metric_ga m) by rewrite /wf_ga /metric_ga /= en eg.
have GE : metric_mx (Ga n (m_graw m)) = G.
  apply/matrixP=> i j; rewrite !mxE /geff /gij /minn /maxn /=; case: ltnP => // le.
  by have := Gs i j; rewrite !mxE.
move: wf; rewrite /metric_ga en eg => wf.
have u' : \det (metric_mx (Ga n (m_graw m))) \is a GRing.unit by rewrite GE.
have gs' : det_declared (Ga n (m_graw m)) gsym by rewrite /det_declared GE; case: gs => ->.
have [gi [eqi _ inv]] := @C25_inverse_metric R two _ wf gsym u' gs'.
move/(C36_defined gsym): (ex) => [T1 h1].
have c : connect_flg me m = Some true.
  by move: h1; rewrite /Christoffel_symbols; case: connect_flg => //= -[].
pose T2 := mk_table n (Gamma2 me m gi).
have e2 : Christoffel_symbols me gsym m 2 = Some (Some T2).
  by rewrite /Christoffel_symbols c /= /metric_ga en eg eqi.
have uG : G \in unitmx by rewrite unitmxE.
have giE : mx n n gi = invmx G.
  by move: inv; rewrite GE -/(mx n n gi) => /(congr1 (fun A => A *m invmx G)); rewrite -mulmxA mulmxV // mulmx1 mul1mx.
have t2 i j k : tab T2 (i : 'I_n) (j : 'I_n) (k : 'I_n) = \sum_(l < n) tab T1 i j l * invmx G l k.
  rewrite tab_table // /Gamma2 en -sum_iota_foldr; apply: eq_bigr => l _.
  by rewrite (first_kindE h1) -giE ment_mx /Gamma1 /dg !ment_mx.
exists T1, T2; split=> // i j l.
rewrite (eq_bigr (fun k : 'I_n => \sum_(q < n) tab T1 i j q * invmx G q k * G k l)) => [|k _]; last first.
  by rewrite t2 mulr_suml.
rewrite exchange_big /= (eq_bigr (fun q : 'I_n => tab T1 i j q * (1%:M : 'M[R]_n) q l)) => [|q _]; last first.
  by rewrite -(mulVmx uG) mxE mulr_sumr; apply: eq_bigr => k _; rewrite mulrA.
rewrite (bigD1 l) //= mxE eqxx mulr1 big1 ?addr0 // => q ne.
by rewrite mxE (negbTE ne) mulr0.
Qed.
End Tables.
End Christoffel.

(* ---- C57 ---- *)
(* a token: not empty, no white space, no comma *)
Definition plain (t : string) : Prop :=
  t <> ""%string /\ forall c, has_char c t -> ~~ is_space c /\ c <> ","%char.

Section Strings.
Local Open Scope string_scope.
Lemma space_in k c : has_char c (str_rep k " ") -> c = " "%char.
Proof. by elim: k => //= k IH /orP[/eqP //|/IH]. Qed.
Lemma lstrip_pad k c s : ~~ is_space c -> lstrip (str_rep k " " +++ String c s) = String c s.
Proof. by move=> nc; elim: k => //=; rewrite (negbTE nc). Qed.
Lemma space_app a b : all_space (a +++ b) = all_space a && all_space b.
Proof. by elim: a => //= x a ->; rewrite andbA. Qed.
Lemma space_rep k : all_space (str_rep k " "). Proof. by elim: k. Qed.
Lemma rstrip_space s : all_space s -> rstrip s = "".
Proof. by case: s => //= x s ->. Qed.
Lemma rstrip_pad u c k : ~~ is_space c ->
  rstrip ((u +++ String c "") +++ str_rep k " ") = u +++ String c "".
Proof.
move=> nc; elim: u => [|x u IH] /=; first by rewrite (negbTE nc) /= rstrip_space // space_rep.
by rewrite IH !space_app /= (negbTE nc) !andbF.
Qed.
Lemma str_last t : t <> "" -> exists u c, t = u +++ String c "".
Proof.
elim: t => // x [|y t] IH _; first by exists "", x.
by have [//|u [c ->]] := IH; exists (String x u), c.
Qed.
Lemma plain_last t : plain t -> exists u c, t = u +++ String c "" /\ ~~ is_space c.
Proof.
case=> /str_last[u [c e]] al; exists u, c; split=> //.
by case: (al c) => //; rewrite e has_app /= eqxx orbT.
Qed.
Lemma join_ends ws : ws <> [::] -> (forall t, t \in ws -> plain t) ->
  (exists c s, join " " ws = String c s /\ ~~ is_space c) /\
  (exists u c, join " " ws = u +++ String c "" /\ ~~ is_space c).
Proof.
case: ws => // w ws _ al; split.
  have [] := al w (mem_head _ _); case: w {al} => // c s _ /(_ c) /=; rewrite eqxx => /(_ isT)[nc _].
  by exists c; case: ws => [|v ws]; eexists; split=> //.
elim: ws w al => [|v ws IH] w al; first by apply: plain_last; apply: al; rewrite mem_head.
have [t tv|u [c [e nc]]] := IH v; first by apply: al; rewrite inE tv orbT.
by exists (w +++ " " +++ u), c; rewrite join_cons e !appA.
Qed.
Lemma strip_pad ws a b : ws <> [::] -> (forall t, t \in ws -> plain t) ->
  py_strip (str_rep a " " +++ join " " ws +++ str_rep b " ") = join " " ws.
Proof.
move=> ne al; have [[c [s [e nc]]] [u [d [e' nd]]]] := join_ends ne al.
by rewrite /py_strip {1}e /= lstrip_pad // -/(append (String c s) _) -e e' rstrip_pad.
Qed.
Lemma split_words ws : ws <> [::] -> (forall t, t \in ws -> plain t) -> split " " (join " " ws) = ws.
Proof.
move=> /eqP ne al; rewrite split_join //; apply/allP=> t /al[_ h]; apply/negP=> /h[].
by [].
Qed.
Lemma no_comma ws a b : (forall t, t \in ws -> plain t) ->
  ~~ has_char "," (str_rep a " " +++ join " " ws +++ str_rep b " ").
Proof.
move=> al; apply/negP; rewrite !has_app => /or3P[/space_in //| |/space_in //].
rewrite has_join => /orP[|/andP[_ //]].
by case/hasP=> t /al[_ h] /h[_].
Qed.
Lemma init_rep k w : str_init (str_rep k.+1 (w +++ ",")) = join "," (nseq k.+1 w).
Proof.
have ia u c : str_init (u +++ String c "") = u.
  by elim: u => [//|x u IH] /=; rewrite IH; case: u {IH}.
have ib u c t : str_init (u +++ String c t) = u +++ str_init (String c t).
  by elim: u => [//|x u IH] /=; rewrite IH; case: u {IH}.
elim: k => [|k IH]; first by rewrite /= app_empty ia.
have -> : str_rep k.+2 (w +++ ",") = w +++ String "," (str_rep k.+1 (w +++ ",")) by rewrite /= !appA.
have -> : join "," (nseq k.+2 w) = w +++ "," +++ join "," (nseq k.+1 w) by [].
rewrite ib -IH; set r := str_rep _ _; have : r <> "" by rewrite /r /=; case: w {IH r}.
by case: r {IH}.
Qed.
Lemma init_rep_sp k w : str_init (str_rep k.+1 (w +++ " ")) = join " " (nseq k.+1 w).
Proof.
have ia u c : str_init (u +++ String c "") = u.
  by elim: u => [//|x u IH] /=; rewrite IH; case: u {IH}.
have ib u c t : str_init (u +++ String c t) = u +++ str_init (String c t).
  by elim: u => [//|x u IH] /=; rewrite IH; case: u {IH}.
elim: k => [|k IH]; first by rewrite /= app_empty ia.
have -> : str_rep k.+2 (w +++ " ") = w +++ String " " (str_rep k.+1 (w +++ " ")) by rewrite /= !appA.
have -> : join " " (nseq k.+2 w) = w +++ " " +++ join " " (nseq k.+1 w) by [].
rewrite ib -IH; set r := str_rep _ _; have : r <> "" by rewrite /r /=; case: w {IH r}.
by case: r {IH}.
Qed.
End Strings.

Section Forms.
Variables (R : comUnitRingType) (me : metric_env R).
(* the value that a token at row i, column j stands for: '#' is the symbol of
   the inner product of the two basis vectors, anything else a rational *)
Definition token_value (t : string) (i j : nat) : option R :=
  if t == "#"%string then Some (me_dot me (minn i j) (maxn i j)) else me_rational me t.
Lemma build_elementE t i j : build_element me t i j = token_value t i j.
Proof.
rewrite /build_element /token_value; case: eqP => // _.
by case: leqP => [le|/ltnW le]; rewrite ?(minn_idPl le) ?(maxn_idPr le) ?(minn_idPr le) ?(maxn_idPl le).
Qed.
Lemma omapM_some (A B : eqType) (f : A -> option B) (d : A) (e : B) l r : size r = size l ->
  (forall i, (i < size l)%N -> f (nth d l i) = Some (nth e r i)) -> omapM f l = Some r.
Proof.
elim: l r => [|x l IH] [|y r] //= [s] h; rewrite (h 0%N isT) /= (IH r s) // => i lt.
exact: (h i.+1 lt).
Qed.
Lemma enumM_some (A B : eqType) (f : nat -> A -> option B) (d : A) (e : B) l r : size r = size l ->
  (forall i, (i < size l)%N -> f i (nth d l i) = Some (nth e r i)) -> enumM f l = Some r.
Proof.
move=> s h; apply: (@omapM_some _ _ _ (0%N, d) e); rewrite ?size_zip ?size_iota ?minnn // => i lt.
by rewrite nth_zip ?size_iota //= nth_iota // h.
Qed.
Lemma ortho_defined n (g : seq (seq R)) : shape n n g -> exists b, ortho_test n g = Some b.
Proof.
move=> sh; eexists; apply: (@py_allP _ _ (fun p => ment g p.1 p.2 == 0 :> R)) => -[i j].
by rewrite upperP => /andP[l1 l2]; rewrite (mgetE sh) // (ltn_trans l1 l2).
Qed.
(* the metric object that the constructor builds from g has the matrix f *)
Definition builds n coords (g : garg R) (f : 'I_n -> 'I_n -> R) : Prop :=
  exists m, [/\ make_metric me n coords g false = Some m, shape n n (m_g m) & forall i j : 'I_n, mx n n (m_g m) i j = f i j].
Lemma buildsP n coords g gm (f : 'I_n -> 'I_n -> R) : build_g me n coords g = Some gm -> shape n n gm ->
  (forall i j : 'I_n, mx n n gm i j = f i j) -> builds coords g f.
Proof.
by move=> e sh h; have [b eb] := ortho_defined sh; exists (Metric n coords gm gm b None); rewrite /make_metric e /= eb.
Qed.

(* one row of tokens: the diagonal *)
Theorem C57_diagonal_string coords (ts : seq string) (d : 'I_(size ts) -> R) :
  me_rational me "g" = None -> ts <> [::] -> (forall t, t \in ts -> plain t) ->
  (forall i : 'I_(size ts), token_value (nth ""%string ts i) i i = Some (d i)) ->
  builds coords (garg_of_string R (join " " ts)) (fun i j => if i == j then d i else 0).
Proof.
move=> rg ne pl h; rewrite /garg_of_string; case: eqP => [eg|_].
  have : split " " (join " " ts) = ts by exact: split_words.
  rewrite eg /= => et; case: ts et ne pl d h eg => [|t [|? ?]] // [<-] _ _ d /(_ ord0).
  by rewrite /token_value /= rg.
set n := size ts; pose r := [seq (if insub i is Some i' then d i' else 0) | i <- iota 0 n].
have sr : size r = n by rewrite size_map size_iota.
have rE i (lt : (i < n)%N) : nth 0 r i = d (Ordinal lt).
  by rewrite (nth_map 0%N) ?size_iota // nth_iota // insubT.
have nc : ~~ has_char "," (join " " ts) by have := no_comma 0 0 pl; rewrite /= app_empty.
apply: (@buildsP _ _ _ (mk_rows n n (fun i j => if i == j then nth 0 r i else 0))).
- rewrite /build_g /metric_symbols_list split_none //= split_words //.
  rewrite (@enumM_some _ _ _ ""%string 0 _ r) //= ?sr ?eqxx // => i lt.
  by rewrite build_elementE (h (Ordinal lt)) (rE _ lt).
- exact: shape_rows.
move=> i j; rewrite ment_mx ment_rows // val_eqE; case: eqP => // _.
by rewrite (rE _ (ltn_ord i)); congr d; apply: val_inj.
Qed.

(* several rows of tokens, with blanks around the rows *)
Theorem C57_matrix_string n coords (ts : seq (seq string)) (a b : nat -> nat) (f : 'I_n -> 'I_n -> R) :
  size ts = n -> (1 < n)%N -> (forall row, row \in ts -> size row = n) ->
  (forall row t, row \in ts -> t \in row -> plain t) ->
  (forall i j : 'I_n, token_value (nth ""%string (nth [::] ts i) j) i j = Some (f i j)) ->
  builds coords (garg_of_string R (join "," [seq str_rep (a i) " " +++ join " " (nth [::] ts i) +++ str_rep (b i) " " | i <- iota 0 n])) f.
Proof.
move=> sn; move: (sn) f => <- {sn n} f.
move=> lt sz pl h; set n := size ts; set rows := [seq _ | i <- _].
have sr : size rows = n by rewrite size_map size_iota.
have inn i : (i < n)%N -> nth [::] ts i \in ts by exact: mem_nth.
have nonil i : (i < n)%N -> nth [::] ts i <> [::].
  by move=> li; have := sz _ (inn _ li); case: nth => // e; rewrite -e in lt.
have sp : split "," (join "," rows) = rows.
  apply: split_join; first by rewrite -size_eq0 sr -lt0n ltnW.
  apply/allP=> w /mapP[i]; rewrite mem_iota /= => li ->; apply: no_comma => t; exact: pl (inn _ li).
rewrite /garg_of_string; case: eqP => [eg|_].
  by move: sr; rewrite -sp eg => -[e1]; rewrite -/n -e1 in lt.
pose F i j := if insub i is Some i' then if insub j is Some j' then f i' j' else 0 else 0.
have FE i j (li : (i < n)%N) (lj : (j < n)%N) : F i j = f (Ordinal li) (Ordinal lj) by rewrite /F !insubT.
apply: (@buildsP _ _ _ (mk_rows n n F)).
- rewrite /build_g /metric_symbols_list sp sr gtn_eqF //.
  rewrite (@omapM_some _ _ _ ""%string [::] rows ts) ?sr //=; last first.
    move=> i li; rewrite (nth_map 0%N) ?size_iota // nth_iota // add0n strip_pad ?split_words; try by [exact: nonil|move=> t; exact: pl (inn _ li)].
    by rewrite sz ?inn ?eqxx.
  rewrite eqxx /=; apply: (@enumM_some _ _ _ [::] [::]); rewrite ?size_map ?size_iota // => i li.
  apply: (@enumM_some _ _ _ ""%string 0); first by rewrite (nth_map 0%N) ?size_iota // size_map size_iota sz ?inn.
  rewrite sz ?inn // => j lj; rewrite build_elementE (h (Ordinal li) (Ordinal lj)) -FE.
  by rewrite -/(ment (mk_rows n n F) i j) ment_rows.
- exact: shape_rows.
move=> i j; rewrite ment_mx ment_rows // (FE _ _ (ltn_ord i) (ltn_ord j)); congr f; exact: val_inj.
Qed.

(* no metric given: the symmetric matrix of symbolic inner products *)
Theorem C57_default n coords : (0 < n)%N -> builds coords (GNone R) (fun i j : 'I_n => me_dot me (minn i j) (maxn i j)).
Proof.
case: n => // n _.
have plh t : t \in nseq n.+1 "#"%string -> plain t.
  by rewrite mem_nseq => /eqP ->; split=> // c /=; rewrite orbF => /eqP <-.
have E : default_metric_string n.+1 = join "," (nseq n.+1 (join " " (nseq n.+1 "#"%string))).
  by rewrite /default_metric_string -[("# ")%string]/("#" +++ " ")%string init_rep_sp init_rep.
have B : build_g me n.+1 coords (GNone R) = metric_symbols_list me n.+1 (Some (default_metric_string n.+1)) by [].
case: n plh E B => [|n] plh E B.
  pose gm := [:: [:: me_dot me 0 0]].
  by apply: (@buildsP _ _ _ gm) => // i j; rewrite !mxE (ord1 i) (ord1 j).
set ts := nseq n.+2 (nseq n.+2 "#"%string).
have nE (i : 'I_n.+2) : nth [::] ts i = nseq n.+2 "#"%string by rewrite nth_nseq ltn_ord.
have [|//|row|row t|i j|m [em sh mE]] := @C57_matrix_string n.+2 coords ts (fun=> 0%N) (fun=> 0%N)
   (fun i j => me_dot me (minn i j) (maxn i j)).
- by rewrite size_nseq.
- by rewrite mem_nseq => /eqP ->; rewrite size_nseq.
- by rewrite mem_nseq => /eqP ->; apply: plh.
- by rewrite nE nth_nseq ltn_ord.
have le : [seq str_rep 0 " " +++ join " " (nth [::] ts i) +++ str_rep 0 " " | i <- iota 0 n.+2] =
     nseq n.+2 (join " " (nseq n.+2 "#"%string)).
  apply: (@eq_from_nth _ ""%string); rewrite size_map size_iota ?size_nseq // => i li.
  by rewrite (nth_map 0%N) ?size_iota // nth_iota // nth_nseq li add0n (nE (Ordinal li)) [LHS]app_empty.
rewrite le -E in em; exists m; split=> //; rewrite -em /make_metric B.
Qed.

(* a manifold given by the position vector X: the products of its derivatives *)
Theorem C57_manifold n (X : seq R) :
  builds (Some n) (GManifold X) (fun i j : 'I_n => \sum_(x <- X) me_diff me i x * me_diff me j x).
Proof.
pose dx k := [seq me_diff me k x | x <- X].
apply: (@buildsP _ _ _ [seq [seq dot_orthogonal dx1 dx2 | dx2 <- [seq dx k | k <- iota 0 n]] | dx1 <- [seq dx k | k <- iota 0 n]]) => //.
  rewrite /shape !size_map size_iota eqxx /=; apply/allP=> row /mapP[d1 _ ->].
  by rewrite !size_map size_iota.
move=> i j; rewrite mxE (nth_map [::]) ?size_map ?size_iota // (nth_map [::]) ?size_map ?size_iota //.
rewrite !(nth_map 0%N) ?size_iota // !nth_iota // !add0n /dot_orthogonal foldl_add add0r.
by rewrite /dx zip_map big_map.
Qed.
(* a list of scalars is the diagonal, a matrix is kept as it is *)
Theorem C57_diagonal_list coords (l : seq R) :
  builds coords (GDiagonal l) (fun i j : 'I_(size l) => if i == j then nth 0 l i else 0).
Proof.
apply: (@buildsP _ _ _ (diagonal l)) => //; first exact: shape_rows.
by move=> i j; rewrite ment_mx ment_rows.
Qed.
Theorem C57_matrix n coords (g : seq (seq R)) : shape n n g -> builds coords (GMatrix g) (mx n n g).
Proof.
move=> sh; apply: (@buildsP _ _ _ g) => //; rewrite /build_g.
case/andP: sh => _; case: g => [|row g] //= /andP[/eqP -> ->]; by rewrite eqxx.
Qed.
(* and malformed arguments are rejected *)
Theorem C57_rejected n coords norm (l : seq (seq R)) (ts : seq string) (tss : seq (seq string)) :
  [/\ (exists r1 r2, [/\ r1 \in l, r2 \in l & size r1 != size r2]) -> make_metric me n coords (GMatrix l) norm = None,
      (forall t, t \in ts -> plain t) -> ts <> [::] -> size ts <> n ->
         make_metric me n coords (GString R (join " " ts)) norm = None &
      (1 < size tss)%N -> (forall row, row \in tss -> row <> [::] /\ forall t, t \in row -> plain t) ->
      (size tss <> n \/ exists2 row, row \in tss & size row <> size tss) ->
         make_metric me n coords (GString R (join "," [seq join " " row | row <- tss])) norm = None].
Proof.
split.
- move=> [r1 [r2 [i1 i2 ne]]]; rewrite /make_metric /build_g; case: ifP => // /allP al.
  by rewrite (eqP (al _ i1)) (eqP (al _ i2)) eqxx in ne.
- move=> pl ne sn; rewrite /make_metric /build_g /metric_symbols_list.
  have nc : ~~ has_char "," (join " " ts) by have := no_comma 0 0 pl; rewrite /= app_empty.
  rewrite split_none //= split_words //; case e: enumM => [m|] //=.
  move/omapM_size: e; rewrite size_zip size_iota minnn => ->.
  by move/eqP/negbTE: sn => ->.
move=> lt pl bad; rewrite /make_metric /build_g /metric_symbols_list.
have sp : split "," (join "," [seq join " " row | row <- tss]) = [seq join " " row | row <- tss].
  apply: split_join; first by rewrite -size_eq0 size_map -lt0n ltnW.
  apply/allP=> w /mapP[row ri ->]; have [_ p] := pl _ ri.
  by have := no_comma 0 0 p; rewrite /= app_empty.
rewrite sp size_map gtn_eqF //.
have st row : row \in tss -> split " " (py_strip (join " " row)) = row.
  move=> ri; have [ne p] := pl _ ri; have := strip_pad 0 0 ne p; rewrite /= app_empty => ->.
  exact: split_words.
case e: omapM => [m|] //=.
have em : m = tss /\ all (fun row => size row == size tss) tss.
  move: e {lt bad}; move: (size tss) => k.
  elim: (tss) m st {pl sp} => [|row t IH] m st /=; first by case=> <-.
  rewrite st ?mem_head //; case: eqP => //= ek; case e: omapM => [m'|] //= -[<-].
  by case: (IH _ _ e) => [r ri|-> ->]; [apply: st; rewrite inE ri orbT|rewrite ek eqxx].
case: em => -> /allP al; case: bad => [/eqP/negbTE -> //|[row /al /eqP -> //]].
Qed.
(* normalisation: only for orthogonal metrics; every basis vector is divided by
   the square root that the code chooses *)
Theorem C57_normalise n coords (g : seq (seq R)) : shape n n g -> symmetric_mx (mx n n g) ->
  ((exists i j : 'I_n, i != j /\ mx n n g i j != 0) -> make_metric me n coords (GMatrix g) true = None) /\
  forall m (s : 'I_n -> R), make_metric me n coords (GMatrix g) true = Some m ->
    (forall i : 'I_n, me_root me (mx n n g i i) ^+ 2 = s i * mx n n g i i) ->
    forall i j : 'I_n, s i * mx n n (m_g m) i j = if i == j then 1 else 0.
Proof.
move=> sh sy; split=> [[i [j [ne nz]]]|m s mk rt i j].
  case e: make_metric => [m|] //.
  case/make_metricP: (e) => en _ bg ot [N [o _ _ _]].
  have gm : m_graw m = g.
    by move: bg; rewrite /build_g; case: ifP => // _ [].
  have [|| [/(_ o) h _] _ _] := C49_orthogonality_flag e; rewrite ?gm //.
  by rewrite -gm h ?eqxx // in nz.
case/make_metricP: (mk) => en _ bg ot [N [o _ eN eg]].
have gm : m_graw m = g by move: bg; rewrite /build_g; case: ifP => // _ [].
have [|| [/(_ o) h _] _ _] := C49_orthogonality_flag mk; rewrite ?gm //.
rewrite gm in eN eg h; have [_ un gE] := norm_gE eg sh; have sN := norm_size eN.
have NE k : (k < n)%N -> nth 0 N k = me_root me (ment g k k).
  move=> lk; move: eN; rewrite /norm_list => eN.
  have -> : N = [seq me_root me (ment g k k) | k <- iota 0 n].
    apply: Some_inj; rewrite -eN; apply: (@omapM_some _ _ _ 0%N 0); rewrite ?size_map // size_iota => q lq.
    by rewrite (nth_map 0%N) ?size_iota // nth_iota // (mgetE sh).
  by rewrite (nth_map 0%N) ?size_iota // nth_iota.
rewrite ment_mx gE //; case: eqP => [<-|/eqP ne]; last by rewrite -ment_mx h // mul0r mulr0.
rewrite -expr2 mulrA -ment_mx -rt NE // -ment_mx mulrV // unitrX // ment_mx -NE //.
by apply: nunit; rewrite ?sN.
Qed.
End Forms.

(* ---- counterexamples and cases ---- *)
Section Counterexamples.
Import Order.TTheory Num.Theory.
(* rational numbers, coordinates that occur nowhere *)
Definition rat_env : metric_env rat := MetricEnv (fun _ _ => 0)
  (fun s => if s == "1"%string then Some 1 else if s == "-1"%string then Some (-1) else if s == "0"%string then Some 0 else None)
  (fun i j => (i + 2 * j)%:R) (fun _ _ => 0) (fun _ => 1) (fun _ => true) (fun x => 0 < x).
Definition rat_metric (g : seq (seq rat)) : option (metric [comUnitRingType of rat]) := make_metric rat_env (size g) None (GMatrix g) false.

(* a null basis vector is counted as negative *)
Theorem C51_degenerate_refuted : exists m : metric [comUnitRingType of rat], exists d : seq rat,
  [/\ make_metric rat_env 2 None (GDiagonal d) false = Some m, m_ortho m,
      signature rat_env m (SigStr "e") = Some (1%Z, 1%Z) &
      \rank (mx 2 2 (m_g m)) = 1%N /\ forall i : 'I_2, ~~ (mx 2 2 (m_g m) i i < 0)].
Proof.
pose g : seq (seq rat) := [:: [:: 1; 0]; [:: 0; 0]]; pose m := Metric 2 None g g true None.
have mk : make_metric rat_env 2 None (GDiagonal [:: 1; 0]) false = Some m.
  by rewrite /make_metric /= /ortho_test /=.
have sg : signature rat_env m (SigStr "e") = Some (1%Z, 1%Z) by rewrite /signature /= /ment /=.
exists m, [:: 1; 0]; split=> //; split; last by move=> i; rewrite mxE; case: i => [[|[|i]] li] //=.
have -> : mx 2 2 (m_g m) = (\col_i (i == 0)%:R : 'cV[rat]_2) *m (\row_i (i == 0)%:R : 'rV[rat]_2).
  apply/matrixP=> i j; rewrite !mxE big_ord_recl big_ord0 !mxE addr0.
  by case: i j => [[|[|i]] li] [[|[|j]] lj].
apply/eqP; rewrite eqn_leq (leq_trans (mxrankM_maxl _ _)) ?rank_leq_col //=.
rewrite lt0n mxrank_eq0; apply/eqP=> /matrixP/(_ 0 0); rewrite !mxE big_ord_recl big_ord0 !mxE /=.
by rewrite mulr1 addr0 => /eqP; rewrite oner_eq0.
Qed.
(* for oblique metrics the hint is returned, by default (n, 0), although one of
   the two squares of every orthogonal basis is negative *)
Theorem C51_oblique_refuted : exists m : metric [comUnitRingType of rat],
  [/\ rat_metric [:: [:: 0; 1]; [:: 1; 0]] = Some m, signature rat_env m (SigStr "e") = Some (2%Z, 0%Z) &
      forall (S : 'M[rat]_2) d, S \in unitmx -> S^T *m mx 2 2 (m_g m) *m S = diag_mx d ->
         #|[set i | 0 < d 0 i]| = 1%N /\ #|[set i | d 0 i < 0]| = 1%N].
Proof.
pose g : seq (seq rat) := [:: [:: 0; 1]; [:: 1; 0]]; pose m := Metric 2 None g g false None.
have mk : rat_metric [:: [:: 0; 1]; [:: 1; 0]] = Some m.
  by rewrite /rat_metric /make_metric /= /ortho_test /=.
exists m; split=> //.
set G := mx _ _ _ => S d Su e.
pose P : 'M[rat]_2 := \matrix_(i, j) (if (i == 0) || (j == 0) then 1 else -1).
pose d0 : 'rV[rat]_2 := \row_i (if i == 0 then 2%:R else - 2%:R).
have eP : P^T *m G *m P = diag_mx d0.
  apply/matrixP=> i j; rewrite !mxE !big_ord_recl !big_ord0 !mxE !big_ord_recl !big_ord0 !mxE.
  by case: i j => [[|[|i]] li] [[|[|j]] lj] //; apply/eqP; vm_compute.
have Pu : P \in unitmx.
  rewrite unitmxE (expand_det_row _ 0) !big_ord_recl big_ord0 /cofactor !det_mx11 !mxE /=.
  by rewrite unitfE; vm_compute.
have e' : (invmx P *m S)^T *m diag_mx d0 *m (invmx P *m S) = diag_mx d.
  rewrite -eP trmx_mul -e !mulmxA -[in X in X *m P *m _](mulmxA _ _ P^T) -trmx_mul mulmxV // trmx1 mulmx1.
  by rewrite -[in LHS](mulmxA _ P) mulmxV // mulmx1.
have u' : invmx P *m S \in unitmx by rewrite unitmx_mul unitmx_inv Pu Su.
rewrite -(inertia_pos u' e') -(inertia_neg u' e'); split.
  have -> : [set i | 0 < d0 0 i] = [set 0] by apply/setP=> i; rewrite !inE mxE; case: i => [[|[|i]] li].
  exact: cards1.
have -> : [set i | d0 0 i < 0] = [set 1] by apply/setP=> i; rewrite !inE mxE; case: i => [[|[|i]] li].
exact: cards1.
Qed.

End Counterexamples.
(* plane polar coordinates (r, theta): the metric is diag(1, r^2) *)
Definition polar_g : seq (seq ratfun) := [:: [:: 1; 0]; [:: 0; rf_x ^+ 2]].
Definition rf_env (gf : nat -> nat -> ratfun) : metric_env ratfun := MetricEnv rf_diff (fun _ => None) (fun _ _ => 0)
  gf (fun x => if x == rf_x ^+ 2 then rf_x else 1) (fun _ => false) (fun _ => false).
Section Polar.
Notation e0 := (rf_env (fun _ _ => 0)).
Definition polar_n : seq (seq ratfun) := [:: [:: 1; 0]; [:: 0; 1]].
Lemma x2_neq1 : (rf_x ^+ 2 == 1) = false.
Proof.
apply/negbTE/eqP=> h; have := congr1 (rf_diff 0) h.
case: rf_partials => d _; rewrite expr2 (drvM (d 0%N)) rf_diff_x (drv1 (d 0%N)) mul1r mulr1 -mulr2n -mulr_natl.
move/eqP; rewrite mulf_eq0 (negbTE rf_x_neq0) orbF -tofrac1 -(rmorphMn (tofrac_rmorphism _)) /= tofrac_eq0.
by rewrite -polyCMn polyC_eq0.
Qed.
Lemma rf_two : (2%:R : ratfun) \is a GRing.unit.
Proof.
rewrite unitfE -tofrac1 -(rmorphMn (tofrac_rmorphism _)) /= tofrac_eq0.
by rewrite -polyCMn polyC_eq0.
Qed.
Lemma polar_metric norm : make_metric e0 2 (Some 2%N) (GMatrix polar_g) norm =
  Some (Metric 2 (Some 2%N) (if norm then polar_n else polar_g) polar_g true (if norm then Some [:: 1; rf_x] else None)).
Proof.
rewrite /make_metric /=; case: norm; last by rewrite /ortho_test /= eqxx.
rewrite /ortho_test /= eqxx /norm_list /= [1 == _]eq_sym x2_neq1 (eqxx 0) /norm_g /= unitr1 rf_x_unit /=.
congr (Some (Metric _ _ _ _ _ _)); rewrite /polar_n /ment /= !mul0r !mul1r invr1 expr2 mulrV //.
by rewrite unitrM rf_x_unit.
Qed.
Lemma D0x2 : rf_diff 0 (rf_x ^+ 2) = rf_x + rf_x.
Proof. by case: rf_partials => d _; rewrite expr2 (drvM (d 0%N)) rf_diff_x mulr1 mul1r. Qed.
Lemma polar_cases (norm : bool) m : make_metric e0 2 (Some 2%N) (GMatrix polar_g) norm = Some m ->
  [/\ shape 2 2 (m_graw m), symmetric_mx (mx 2 2 (m_graw m)) & exists i j k : 'I_2, rf_diff k (mx 2 2 (m_graw m) i j) != 0].
Proof.
rewrite polar_metric => -[<-] /=; split=> //.
  by apply/matrixP=> i j; rewrite !mxE; case: i j => [[|[|i]] li] [[|[|j]] lj].
exists 1, 1, 0; rewrite mxE /= D0x2 -mulr2n -mulr_natl.
by apply: mulf_neq0; rewrite ?rf_x_neq0 // -unitfE rf_two.
Qed.
(* with norm=True the symbols of the second kind are not those of the given
   metric: the first kind is raised by the inverse of the normalised metric *)
Theorem C36_normalised_refuted : exists m T1 T2,
  [/\ make_metric e0 2 (Some 2%N) (GMatrix polar_g) true = Some m,
      Christoffel_symbols e0 None m 1 = Some (Some T1), Christoffel_symbols e0 None m 2 = Some (Some T2) &
      tab T2 0 1 1 != \sum_(l < 2) tab T1 0 1 l * invmx (mx 2 2 (m_graw m)) l 1].
Proof.
pose m : metric [comUnitRingType of ratfun] := Metric 2 (Some 2%N) polar_n polar_g true (Some [:: 1; rf_x]).
have mk : make_metric e0 2 (Some 2%N) (GMatrix polar_g) true = Some m by exact: polar_metric.
have [sh sy ex] := polar_cases mk.
have [T1 h1] : exists T, Christoffel_symbols e0 None m 1 = Some (Some T).
  by apply/(C36_defined mk (leqnn 2) sh).
have c : connect_flg e0 m = Some true.
  by move: h1; rewrite /Christoffel_symbols; case: connect_flg => //= -[].
have GE : metric_mx (Ga 2 polar_n) = 1%:M.
  by apply/matrixP=> i j; rewrite !mxE /geff /gij; case: i j => [[|[|i]] li] [[|[|j]] lj].
have u' : \det (metric_mx (Ga 2 polar_n)) \is a GRing.unit by rewrite GE det1 unitr1.
have wf : wf_ga (Ga 2 polar_n) by [].
have [gi [eqi _ inv]] := @C25_inverse_metric _ rf_two _ wf None u' I.
rewrite GE mulmx1 in inv.
have h2 : Christoffel_symbols e0 None m 2 = Some (Some (mk_table 2 (Gamma2 e0 m gi))).
  by rewrite /Christoffel_symbols c /= /metric_ga /m_n /m_g eqi.
exists m, T1, (mk_table 2 (Gamma2 e0 m gi)); split=> //.
have t1 : tab T1 0 1 1 = rf_x.
  have := first_kindE mk h1 0 1 1; rewrite !mxE => ->.
  rewrite /= D0x2 addrK halfK //; exact: rf_two.
have i1 : ment gi 1 1 = 1 by move/matrixP/(_ 1 1): inv; rewrite !mxE.
have i0 : ment gi 0 1 = 0 by move/matrixP/(_ 0 1): inv; rewrite !mxE.
have Gi : mx 2 2 (m_graw m) = diag_mx (\row_i if i == 0 then 1 else rf_x ^+ 2).
  by apply/matrixP=> i j; rewrite !mxE; case: i j => [[|[|i]] li] [[|[|j]] lj].
have Gu : mx 2 2 (m_graw m) *m diag_mx (\row_i if i == 0 then 1 else rf_x ^- 2) = 1%:M.
  rewrite Gi mulmx_diag; apply/matrixP=> i j; rewrite !mxE.
  by case: i => [[|[|i]] li] //=; rewrite ?mul1r // mulrV // unitrX // rf_x_unit.
have uG : mx 2 2 (m_graw m) \in unitmx by case/mulmx1_unit: Gu.
have iE : invmx (mx 2 2 (m_graw m)) = diag_mx (\row_i if i == 0 then 1 else rf_x ^- 2).
  by rewrite -[RHS]mul1mx -(mulVmx uG) -mulmxA Gu mulmx1.
rewrite tab_table // iE !big_ord_recl big_ord0 !mxE /= mulr0n mulr1n mulr0 add0r addr0.
rewrite t1 expr2 invrM ?rf_x_unit // mulrA mulrV ?rf_x_unit // mul1r.
rewrite /Gamma2 /= i0 i1 mulr0 mulr1 add0r addr0 /Gamma1 /dg /ment /= [rf_diff 0 _]D0x2 addr0 subr0 halfK; last exact: rf_two.
apply/eqP=> h; have := x2_neq1; rewrite expr2 {2}h mulrV ?rf_x_unit //.
by rewrite eqxx.
Qed.
(* with g='g' the entries above and below the diagonal are different functions,
   and the symbols are neither symmetric nor compatible *)
Theorem C36_general_metric_refuted : exists gf m T,
  [/\ make_metric (rf_env gf) 2 (Some 2%N) (garg_of_string _ "g") false = Some m,
      Christoffel_symbols (rf_env gf) None m 1 = Some (Some T) & tab T 0 1 0 != tab T 1 0 0].
Proof.
pose gf (i j : nat) := if i == 0%N then if j == 1%N then rf_x else 0 else 0.
pose g : seq (seq ratfun) := [:: [:: 0; rf_x]; [:: 0; 0]].
pose m : metric [comUnitRingType of ratfun] := Metric 2 (Some 2%N) g g false None.
have mk : make_metric (rf_env gf) 2 (Some 2%N) (garg_of_string _ "g") false = Some m.
  by rewrite /make_metric /= /ortho_test /= (negbTE rf_x_neq0).
have h1 : exists T, Christoffel_symbols (rf_env gf) None m 1 = Some (Some T).
  apply/(C36_defined mk (leqnn 2)) => //; exists 0, 1, 0.
  by rewrite mxE /= rf_diff_x oner_eq0.
case: h1 => T h1; exists gf, m, T; split=> //.
have := first_kindE mk h1 0 1 0; have := first_kindE mk h1 1 0 0; rewrite !mxE /= => -> ->.
have d0 k : rf_diff k 0 = 0 by case: rf_partials => d _; exact: drv0.
rewrite !d0 rf_diff_x !addr0 !add0r oppr0 mulr0 mulrN1 oppr_eq0.
by rewrite /half invr_eq0 -unitfE rf_two.
Qed.
(* the hypotheses of C36_first_kind, C36_unique and C36_second_kind hold *)
Example C36_case : exists m, [/\ make_metric e0 2 (Some 2%N) (GMatrix polar_g) false = Some m,
  shape 2 2 (m_graw m), symmetric_mx (mx 2 2 (m_graw m)), \det (mx 2 2 (m_graw m)) \is a GRing.unit &
  exists i j k : 'I_2, rf_diff k (mx 2 2 (m_graw m) i j) != 0].
Proof.
have mk := polar_metric false; eexists; split; first exact: mk; try by case: (polar_cases mk).
rewrite (expand_det_row _ 0) !big_ord_recl big_ord0 /cofactor !det_mx11 !mxE /= !mul0r !addr0 expr0 mul1r mul1r.
by rewrite unitrX // rf_x_unit.
Qed.
End Polar.

Example C49_case : exists m : metric [comUnitRingType of rat], [/\ rat_metric [:: [:: 1; 0]; [:: 0; -1]] = Some m,
  shape 2 2 (m_graw m) & symmetric_mx (mx 2 2 (m_graw m))].
Proof.
exists (Metric 2 None [:: [:: 1; 0]; [:: 0; -1]] [:: [:: 1; 0]; [:: 0; -1]] true None); split=> //.
by apply/matrixP=> i j; rewrite !mxE; case: i j => [[|[|i]] li] [[|[|j]] lj].
Qed.
Example C49_triangle_case : let a := Ga 2 ([:: [:: 1; 3]; [:: 0; 2]] : seq (seq rat)) in
  let b := Ga 2 ([:: [:: 1; 3]; [:: 5; 2]] : seq (seq rat)) in
  [/\ wf_ga a, wf_ga b, ga_n a = ga_n b & forall i j, (i <= j < ga_n a)%N -> ment (ga_g a) i j = ment (ga_g b) i j].
Proof. by split=> // -[|[|i]] [|[|j]]. Qed.
(* the curve (y, y^3) in the plane, reparametrised by y = z^2 *)
Definition poly_diff (k : nat) (f : {poly rat}) : {poly rat} := if k == 0%N then f^`() else 0.
Example C50_case : let m : metric [comUnitRingType of {poly rat}] := Metric 2 (Some 2%N) [:: [:: 1; 0]; [:: 0; 1]] [:: [:: 1; 0]; [:: 0; 1]] true None in
  let m1 G : metric [comUnitRingType of {poly rat}] := Metric 1 (Some 1%N) G G true None in
  exists G1 G2, [/\ sm_metric poly_diff id m [:: 'X; 'X^3] 1 = Some G1,
    sm_metric poly_diff (comp_poly 'X^2) (m1 G1) [:: 'X^2] 1 = Some G2 &
    forall f j, poly_diff j (comp_poly 'X^2 f) = \sum_(k < 1) comp_poly 'X^2 (poly_diff k f) * poly_diff j (nth 0 [:: 'X^2] k)].
Proof.
move=> m m1.
have [G1 h1] : exists G, sm_metric poly_diff id m [:: 'X; 'X^3] 1 = Some G by apply/C50_defined.
have [G2 h2] : exists G, sm_metric poly_diff (comp_poly 'X^2) (m1 G1) [:: 'X^2] 1 = Some G by apply/C50_defined.
exists G1, G2; split=> // f j; rewrite big_ord_recl big_ord0 addr0 /poly_diff /=.
by case: eqP => _; rewrite ?mulr0 // deriv_comp.
Qed.
Example C51_case : let m : metric [comUnitRingType of rat] := Metric 2 None [:: [:: 1; 0]; [:: 0; -1]] [:: [:: 1; 0]; [:: 0; -1]] true None in
  [/\ m_ortho m, forall i j : 'I_2, i != j -> mx 2 2 (m_g m) i j = 0 &
      forall i : 'I_2, me_number rat_env (mx 2 2 (m_g m) i i) && (mx 2 2 (m_g m) i i != 0)].
Proof.
split=> //; first by move=> i j; rewrite mxE; case: i j => [[|[|i]] li] [[|[|j]] lj].
by move=> i; rewrite mxE; case: i => [[|[|i]] li].
Qed.
Example C57_case : builds rat_env None (garg_of_string _ "1 #, # -1 ")
  (fun i j : 'I_2 => if i == j then (if i == 0 then 1 else -1) else (2%:R : rat)).
Proof.
have := @C57_matrix_string _ rat_env 2 None [:: [:: "1"; "#"]; [:: "#"; "-1"]]%string (fun i => i) (fun i => i)
  (fun i j : 'I_2 => if i == j then (if i == 0 then 1 else -1) else (2%:R : rat)) erefl isT.
apply.
- by move=> row; rewrite !inE => /orP[/eqP|/eqP] ->.
- move=> row t; rewrite !inE => /orP[/eqP|/eqP] ->; rewrite !inE => /orP[/eqP|/eqP] ->;
  by split=> // c /=; rewrite ?orbF; try case/orP; move/eqP=> <-.
by move=> i j; case: i j => [[|[|i]] li] [[|[|j]] lj].
Qed.
Definition metric_theorems := (C49_orthogonality_flag, C49_upper_triangle, C50_pullback, C50_symmetric, C50_defined,
  C50_composition, C50_vector_manifold, C51_orthogonal_partial, C51_hint, C51_degenerate_refuted, C51_oblique_refuted,
  C36_defined, C36_first_kind, C36_unique, C36_second_kind, C36_normalised_refuted, C36_general_metric_refuted,
  (C57_diagonal_string, C57_matrix_string, C57_default, C57_manifold, C57_diagonal_list, C57_matrix, C57_rejected,
   C57_normalise)).
Print Assumptions metric_theorems.
Print Assumptions C36_no_coordinates.
