(* Props_Cderiv.v -- C64: the covariant derivative of a tensor field. *)
From mathcomp Require Import all_ssreflect all_algebra.
From Verif Require Import NatTac AlgTactics Exterior Clifford Blades Spec_Grade Grades PyBase Spec_Index Ga_Model.
From Verif Require Import Ga_Sem Ga_Proof_Tables Ga_Proof_Sort Ga_Proof_Sem Ga_Proof_Reduce Ga_Proof_Rep Ga_Proof_Conv.
From Verif Require Import Ga_Proof_Mul Spec_Clifford Clifford_Unique Spec_Mv Ga_Proof_Den Ga_Proof_Wedge Ga_Proof_Inner Ga_Proof_Grade.
From Verif Require Import GradeLaws Det Outer Mv_Model Mv_Proof Mv_Expr Mv_Proof_Expr Props_Mv Dual_Model Dual_Proof Props_Dual.
From Verif Require Import Coef_Model Coef_Proof Props_Coef Props_Versor Metric_Model Props_Metric Spec_Diff Nabla Diff_Model Diff_Proof.
From Verif Require Import Props_Diff Props_Dop Lt_Model Spec_Lt Lt_Proof Props_Lt Props_Trace Props_Lt_Cases Mlt_Model Spec_Mlt Props_Mlt.
From Verif Require Import Cderiv_Model Spec_Cderiv.
Set Implicit Arguments.
Unset Strict Implicit.
Unset Printing Implicit Defensive.
Import GRing.Theory.
Local Open Scope ring_scope.
Open Scope py_scope.

Lemma sum_iota (V : zmodType) (N : nat) (F : nat -> V) : \sum_(j <- iota 0 N) F j = \sum_(j < N) F j.
Proof. by rewrite -(big_mkord xpredT F) /index_iota subn0. Qed.
(* ---- products with one factor for each slot ---- *)
Section Terms.
Variables (R : comUnitRingType).
Implicit Types (s : seq slotsym) (env h : slotsym -> R).
Definition in_slot env (i : nat) h : slotsym -> R := fun v => if v.1 == i then h v else env v.
Lemma prod_other s env i h : i \notin [seq v.1 | v <- s] -> \prod_(v <- s) in_slot env i h v = \prod_(v <- s) env v.
Proof.
move=> ni; rewrite !big_seq; apply: eq_bigr => v vs; rewrite /in_slot ifN //.
by apply: contra ni => /eqP<-; apply: map_f.
Qed.
Lemma one_slot s env i : uniq [seq v.1 | v <- s] -> i \in [seq v.1 | v <- s] ->
  exists w K, [/\ w \in s, w.1 = i & forall h, \prod_(v <- s) in_slot env i h v = h w * K].
Proof.
elim: s => [//|v s IH] /= /andP[nv us]; rewrite inE; case: (eqVneq i v.1) => [->|ne] /= il.
  exists v, (\prod_(v <- s) env v); rewrite inE eqxx; split=> // h.
  by rewrite big_cons prod_other // /in_slot eqxx.
have [w [K [ws wi E]]] := IH us il; exists w, (env v * K); rewrite inE ws orbT; split=> // h.
by rewrite big_cons E {1}/in_slot eq_sym (negbTE ne) mulrCA.
Qed.
Lemma in_slotD s env i h h' : uniq [seq v.1 | v <- s] -> i \in [seq v.1 | v <- s] ->
  \prod_(v <- s) in_slot env i (fun v => h v + h' v) v = \prod_(v <- s) in_slot env i h v + \prod_(v <- s) in_slot env i h' v.
Proof. by move=> us il; have [w [K [_ _ E]]] := one_slot env us il; rewrite !E mulrDl. Qed.
Lemma leibniz (d : R -> R) s env : derivation d -> uniq [seq v.1 | v <- s] ->
  d (\prod_(v <- s) env v) = \sum_(i <- [seq v.1 | v <- s]) \prod_(v <- s) in_slot env i (fun v => d (env v)) v.
Proof.
move=> der; elim: s => [|v s IH] /=; first by rewrite !big_nil (drv1 der).
case/andP=> nv us; rewrite !big_cons (drvM der) IH //; congr (_ + _).
  by rewrite prod_other // {1}/in_slot eqxx.
rewrite mulr_sumr !big_seq; apply: eq_bigr => i il; rewrite big_cons; congr (_ * _).
by rewrite /in_slot ifN //; apply: contraNneq nv => ->.
Qed.
(* the covariant derivative of one term *)
Lemma term_rule (d : R -> R) (k : nat) (c : R) s env (gam : slotsym -> R) : derivation d ->
  perm_eq [seq v.1 | v <- s] (iota 0 k) ->
  d c * \prod_(v <- s) env v - \sum_(i <- iota 0 k) c * \prod_(v <- s) in_slot env i gam v =
  d (c * \prod_(v <- s) env v) - \sum_(i <- iota 0 k) c * \prod_(v <- s) in_slot env i (fun v => d (env v) + gam v) v.
Proof.
move=> der pe; have us : uniq [seq v.1 | v <- s] by rewrite (perm_uniq pe) iota_uniq.
rewrite (drvM der) (leibniz env der us) (perm_big _ pe) /= mulr_sumr -addrA; congr (_ + _).
rewrite -!sumrN -big_split /= !big_seq; apply: eq_bigr => i il.
have {}il : i \in [seq v.1 | v <- s] by rewrite (perm_mem pe).
by rewrite in_slotD // mulrDr opprD addrA subrr add0r.
Qed.
End Terms.

(* ---- __call__ with arguments whose coefficients contain slot symbols ---- *)
Section Call.
Variables (R : comUnitRingType) (two : (2%:R : R) \is a GRing.unit) (a : ga R).
Hypotheses (wf : wf_ga a) (u : \det (metric_mx a) \is a GRing.unit).
Notation n := (ga_n a).
Notation f := (r_factor a).
Notation mvv := (mvv two a).
Implicit Types (T : mlt R) (x : sterms R) (args : seq (sterms R)) (env : slotsym -> R).
Definition vterms x : bool := all (fun t => vector a t.1) x.
Definition plain_poly x k : poly R := [seq (xcoef t.1 k, t.2) | t <- x].
Definition coef_poly x k : poly R := [seq (f * xcoef t.1 k, t.2) | t <- x].
Lemma coef_pev env x k : pev env (coef_poly x k) = f * pev env (plain_poly x k).
Proof. by rewrite /pev !big_map mulr_sumr; apply: eq_bigr => t _; rewrite mulrA. Qed.
Lemma dot_termsP : exists2 rs, r_basis_mv a = Some rs & size rs = n /\
  forall k x, (k < n)%N -> vterms x -> dot_terms a (nth (mv_const a 0) rs k) x = Some (coef_poly x k).
Proof.
have [rs E [sz h]] := recip_dot two wf u; exists rs => //; split=> // k x lk.
rewrite /dot_terms; elim: x => [//|t x IH] /= /andP[vt vx].
by have [d -> /= ->] := h k _ lk vt; rewrite IH.
Qed.
Definition terms_dict args : seq (slotsym * poly R) :=
  flatten [seq [seq ((i, k), coef_poly (nth [::] args i) k) | k <- iota 0 n] | i <- iota 0 (size args)].
Lemma call_termsP slots T args : (size args <= slots)%N -> (0 < size args)%N -> all vterms args ->
  call_terms a slots T args = Some (pol_subs (terms_dict args) (ml_value T)).
Proof.
move=> le pos va; have [rs E [sz h]] := dot_termsP.
have gi i : (i < size args)%N -> vterms (nth [::] args i) by move=> li; apply: (all_nthP _ va).
have -> : call_terms a slots T args = (LET rs := r_basis_mv a IN
  LET ds := omapM (fun xi : sterms R * nat =>
      omapM (fun rv : mv R * slotsym => LET p := dot_terms a rv.1 xi.1 IN Some (rv.2, p)) (zip rs (slot_coefs a xi.2)))
    (zip args (iota 0 slots)) IN
  Some (pol_subs (flatten ds) (ml_value T))) by case: (args) pos.
rewrite E /= -[iota 0 slots]map_id (zip_nth [::]) // omapM_comp.
rewrite (@omapM_iota _ _ (fun i => [seq ((i, k), coef_poly (nth [::] args i) k) | k <- iota 0 n])) //= => i li.
rewrite /slot_coefs (zip_nth (mv_const a 0)) ?sz // omapM_comp.
by apply: omapM_iota => k lk /=; rewrite h //; exact: gi.
Qed.
Lemma terms_dictE args i k : dget (terms_dict args) (i, k) =
  if (i < size args)%N && (k < n)%N then Some (coef_poly (nth [::] args i) k) else None.
Proof. by rewrite dget_grid !mem_iota. Qed.
(* the value of such a multivector for given values of the symbols *)
Definition symval env x : mval R n := \sum_(t <- x) (\prod_(v <- t.2) env v) *: mvv t.1.
Lemma plain_polyE env x (k : 'I_n) : vterms x -> pev env (plain_poly x k) = symval env x [set k].
Proof.
rewrite /pev /symval /plain_poly big_map sum_coef; elim: x => [|t x IH] /=; first by rewrite !big_nil.
by case/andP=> vt /IH {}IH; rewrite !big_cons IH scale_coef mulrC (xcoefE two k vt).
Qed.
(* values and symbols of the result *)
Lemma call_pev args T env : tensor a T -> size args = ml_nargs T -> all vterms args ->
  pev env (pol_subs (terms_dict args) (ml_value T)) =
  \sum_(t <- ml_value T) t.1 * \prod_(v <- t.2) pev env (coef_poly (nth [::] args v.1) v.2).
Proof.
move=> /allP tT sz va; rewrite pev_subs /pev !big_seq; apply: eq_bigr => t /tT /andP[pe /allP al]; congr (_ * _).
rewrite !big_seq; apply: eq_bigr => -[i k] vt; rewrite /env_subs terms_dictE (al _ vt) /= andbT sz.
have : i \in [seq v.1 | v <- t.2] by apply/mapP; exists (i, k).
by rewrite (perm_mem pe) mem_iota => /andP[_ ->].
Qed.
(* the symbols of the slots S i come from slot i *)
Definition from_slots (S : seq nat) x : bool :=
  all (fun s => ([seq v.1 | v <- s] == S) && all (fun v : slotsym => v.2 < n)%N s) [seq t.2 | t <- x].
Lemma subs_slots args (S : nat -> seq nat) (t : R * seq slotsym) :
  (forall v, v \in t.2 -> (v.1 < size args)%N && (v.2 < n)%N) ->
  (forall i, (i < size args)%N -> from_slots (S i) (nth [::] args i)) ->
  all (fun q => ([seq v.1 | v <- q.2] == flatten [seq S v.1 | v <- t.2]) && all (fun v : slotsym => v.2 < n)%N q.2)
    (term_subs (terms_dict args) t).
Proof.
case: t => c s /= lv fs; rewrite /term_subs /=; elim: s lv => [|v s IH] lv; first by rewrite /= .
have {IH}IH := IH (fun w ws => lv w (mem_behead (s := v :: s) ws)).
rewrite [foldr _ _ _]/=; case: v lv => i k lv; rewrite terms_dictE.
have /andP[/= li lk] := lv (i, k) (mem_head _ _); rewrite li lk /=.
rewrite /pol_mul all_flat all_map; apply/allP => q qi /=; rewrite all_map; apply/allP => r ri /=.
have {}qi : q.2 \in [seq t.2 | t <- nth [::] args i].
  have -> : [seq t.2 | t <- nth [::] args i] = [seq t.2 | t <- coef_poly (nth [::] args i) k].
    by rewrite /coef_poly -map_comp.
  exact: map_f.
have /andP[/eqP q1 q2] := allP (fs i li) _ qi; have /andP[/eqP r1 r2] := allP IH _ ri.
by rewrite map_cat q1 r1 eqxx all_cat q2 r2.
Qed.
End Call.

Section Props.
Variables (R : comUnitRingType) (two : (2%:R : R) \is a GRing.unit) (me : metric_env R).
Notation D := (me_diff me).
Variables (coords : nat) (garg : garg R) (norm : bool) (m : metric R) (gsym : option R) (dga : diff_ga R).
Notation n := (m_n m).
Notation a := (metric_ga m).
Notation G := (mx n n (m_graw m)).
Notation mvv := (mvv two a).
(* as for C37: differentiation of scalars; a symmetric metric with as many coordinates as basis
   vectors; with norm=True the factors are roots up to sign; the metric of the algebra is
   non-degenerate; gsym declares nothing or the determinant *)
Hypothesis par : partials D.
Hypotheses (mk : make_metric me n (Some coords) garg norm = Some m) (lec : (n <= coords)%N).
Hypotheses (sh : shape n n (m_graw m)) (sy : symmetric_mx G).
Hypothesis rooted : norm -> forall i : 'I_n, let x := G i i in me_root me x ^+ 2 = x \/ me_root me x ^+ 2 = - x.
Hypotheses (u : \det (metric_mx a) \is a GRing.unit) (gs : det_declared a gsym).
Hypothesis mkd : make_diff_ga me gsym m = Some dga.
(* an orthogonal metric *)
Hypothesis ort : is_ortho a.

Let der k : derivation (D k). Proof. by case: par. Qed.
Let u' : gmat a \in unitmx. Proof. by rewrite unitmxE. Qed.
Let wf : wf_ga a := m_wf mk sh.
Let con : [/\ dg_connect dga = [exists i : 'I_n, exists j : 'I_n, exists k : 'I_n, D k (G i j) != 0],
      dg_connect dga -> de_shape two m dga,
      forall ib j l : 'I_n, D ib (geff a j l) =
        \sum_k coef_of two dga ib j k * geff a k l + \sum_k coef_of two dga ib l k * geff a j k,
      dg_connect dga -> forall i j l : 'I_n, \sum_k cof two dga i j k * geff a l k = low me i j l &
      grad_ok two m (dg_grad dga)].
Proof. by have [d] := make_diffP two der mk lec sh sy u' gs rooted; rewrite mkd => -[<-]. Qed.
Let dok : dg_connect dga -> de_shape two m dga. Proof. by case: con. Qed.
Notation nab := (nab two me dga).
Notation sv := (symval two a).
Implicit Types (ts : sterms R) (env : slotsym -> R).

Definition fterms ts : bool := all (fun t => field m t.1) ts.
Definition dX (l : nat) (X : mv R) : mv R := if pDiff_pure me m dga X l is Some Y then Y else mv_const a 0.
Lemma dXP (l : 'I_n) X : field m X ->
  [/\ pDiff_pure me m dga X l = Some (dX l X), field m (dX l X) & mvv (dX l X) = nab l (mvv X)].
Proof.
move=> fX; have [oX bX] := Props_Diff.fieldP fX.
have [Y E [oY vY bY]] := pDiff_pureP wf dok der l oX bX; rewrite /dX E; split=> //.
by rewrite /field mv_validE oY; exact: bY.
Qed.
Lemma diff_eachP st (l : 'I_n) ts : clean m dga st -> fterms ts ->
  runs m dga st (diff_each me m dga l ts) (Some [seq (dX l t.1, t.2) | t <- ts]).
Proof.
elim: ts st => [|t ts IH] st cs /=; first by move=> _; apply: runs_ret; case: cs.
case/andP=> ft fts; have [E _ _] := dXP l ft.
apply: (runs_eq (o := obnd (Some (dX l t.1)) (fun X => obnd (Some [seq (dX l t.1, t.2) | t <- ts]) (fun r => Some ((X, t.2) :: r))))) => //.
apply: runs_bnd => [|X st1 s1]; first by rewrite -E; exact: pDiff_runs.
have cs1 := clean_same cs s1.
apply: runs_bnd => [|r st2 s2]; first exact: IH.
by apply: runs_ret; case: (clean_same cs1 s2).
Qed.
Lemma agrad_coefP k (l : 'I_n) : agrad_coef m dga k l = Some [seq ((j == l :> nat)%:R * nfac m l, [:: (k, j)]) | j <- iota 0 n].
Proof.
apply: omapM_iota => j lj; have [_ _ _ _ [sg gok]] := con; have [o b h g] := gok l.
have [oj bj _ vj] := basis_vecP (a := a) two lj.
have hb : homog 1 (bl R [set Ordinal lj]) by have := @homog_bl R n [set Ordinal lj]; rewrite cards1.
have yj : @yields R two a true (Some (mv_basis_vec R j)) (bl R [set Ordinal lj]).
  by exists (mv_basis_vec R j) => //; split=> //; exact: (evec_val (a := a) two (Ordinal lj)).
have yg : @yields R two a true (Some (nth (mv_const a 0) (dg_grad dga) l)) (mvv (nth (mv_const a 0) (dg_grad dga) l)).
  by eexists.
have [d /= -> [od vd bd]] := yields_dot wf hb h yj yg => /=.
rewrite (mv_scalarP two od (bd isT)) vd /scal ffunE /= ffunE eqxx mulr1 (@gform_bl R two a) g.
by rewrite -val_eqE.
Qed.
Definition agr (k : nat) ts : sterms R :=
  flatten [seq flatten [seq [seq (mk_mv a (escale ((j == l)%:R * nfac m l) (obj (dX l t.1))), (k, j) :: t.2) | t <- ts]
                       | j <- iota 0 n] | l <- iota 0 n].
Lemma agrad_mulP st k ts : clean m dga st -> fterms ts ->
  runs m dga st (agrad_mul me m dga k ts) (Some (agr k ts)).
Proof.
move=> cs fts.
pose F l := flatten [seq [seq (mk_mv a (escale ((j == l)%:R * nfac m l) (obj (dX l t.1))), (k, j) :: t.2) | t <- ts] | j <- iota 0 n].
have gen (ls : seq nat) s st' : clean m dga st' -> all (fun l => l < n)%N ls ->
   runs m dga st' (pfold (fun s l =>
    bnd (@lift R _ (agrad_coef m dga k l)) (fun c =>
    bnd (diff_each me m dga l ts) (fun ds =>
    @ret R _ (s ++ flatten [seq [seq (mk_mv a (escale q.1 (obj d.1)), q.2 ++ d.2) | d <- ds] | q <- c]))))
    ls s) (Some (s ++ flatten [seq F l | l <- ls])).
  elim: ls s st' => [|l ls IH] s st1 cs1 /=; first by rewrite cats0 => _; apply: runs_ret; case: cs1.
  case/andP=> ll al; rewrite catA.
  apply: (runs_eq (o := obnd (Some (s ++ F l)) (fun y => Some (y ++ flatten [seq F l | l <- ls])))) => //.
  apply: runs_bnd => [|y st2 s2]; last by apply: IH => //; exact: clean_same s2.
  apply: (runs_eq (o := obnd (agrad_coef m dga k l) (fun c => obnd (Some [seq (dX l t.1, t.2) | t <- ts])
      (fun ds => Some (s ++ flatten [seq [seq (mk_mv a (escale q.1 (obj d.1)), q.2 ++ d.2) | d <- ds] | q <- c]))))).
    apply: runs_bnd => [|c st2 s2]; first by apply: runs_lift; case: cs1.
    have cs2 := clean_same cs1 s2.
    apply: runs_bnd => [|ds st3 s3]; first exact: (diff_eachP (Ordinal ll)).
    by apply: runs_ret; case: (clean_same cs2 s3).
  rewrite (agrad_coefP k (Ordinal ll)) /= -!map_comp; congr (Some (_ ++ flatten _)).
  by apply: eq_map => j /=; rewrite -map_comp.
rewrite /agrad_mul -[agr k ts]cat0s; apply: gen => //.
by apply/allP=> l; rewrite mem_iota.
Qed.

Lemma scale_obj c X : field m X -> field m (mk_mv a (escale c (obj X))) /\ mvv (mk_mv a (escale c (obj X))) = c *: mvv X.
Proof.
case/Props_Diff.fieldP=> oX bX; have [_ [<-] [o v b]] := mv_scaleP two c oX.
by rewrite /field mv_validE o v; split=> //; exact: b.
Qed.
Lemma agr_symval env k ts : fterms ts -> sv env (agr k ts) =
  \sum_(l < n) (env (k, val l) * nfac m l) *: \sum_(t <- ts) (\prod_(v <- t.2) env v) *: nab l (mvv t.1).
Proof.
move=> fts; rewrite /symval /agr big_flatten big_map.
rewrite -{1}[n]subn0 -/(index_iota 0 n) big_mkord; apply: eq_bigr => l _.
rewrite big_flatten big_map.
have inner (j : nat) : \sum_(t <- [seq (mk_mv a (escale ((j == l :> nat)%:R * nfac m l) (obj (dX l t.1))), (k, j) :: t.2) | t <- ts])
    (\prod_(v <- t.2) env v) *: mvv t.1 =
  (env (k, j) * ((j == l :> nat)%:R * nfac m l)) *: \sum_(t <- ts) (\prod_(v <- t.2) env v) *: nab l (mvv t.1).
  rewrite big_map; elim: ts fts => [|t ts IH] /=; first by rewrite !big_nil scaler0.
  case/andP=> ft /IH {}IH; rewrite !big_cons IH scalerDr; congr (_ + _).
  have [_ fd vd] := dXP l ft; have [_ ->] := scale_obj ((j == l :> nat)%:R * nfac m l) fd.
  by rewrite vd !scalerA; congr (_ *: _); rewrite mulrAC.
rewrite (eq_bigr _ (fun j _ => inner j)) (bigD1_seq (val l)) ?iota_uniq ?mem_iota ?ltn_ord //= eqxx mul1r.
by rewrite [X in _ + X]big1 ?addr0 // => j /negbTE ->; rewrite mul0r mulr0 scale0r.
Qed.
Lemma agr_fterms k ts : fterms ts -> fterms (agr k ts).
Proof.
move=> fts; rewrite /fterms /agr all_flat all_map; apply/allP => l; rewrite mem_iota /= => ll.
rewrite all_flat all_map; apply/allP => j _ /=; rewrite all_map.
elim: ts fts => //= t ts IH /andP[ft /IH ->]; rewrite andbT.
have [_ fd _] := dXP (Ordinal ll) ft; by have [->] := scale_obj ((j == l)%:R * nfac m l) fd.
Qed.
Lemma field_vector X : field m X -> homog 1 (mvv X : mval R n) -> vector a X.
Proof. by move=> fX hX; rewrite /vector [plain _ _]fX; case/Props_Diff.fieldP: fX => oX bX; exact: (vec_object oX bX hX). Qed.
Lemma vector_field X : vector a X -> field m X. Proof. by case/andP. Qed.
Lemma agr_vterms k ts : vterms a ts -> vterms a (agr k ts).
Proof.
move=> vts; rewrite /vterms /agr all_flat all_map; apply/allP => l; rewrite mem_iota /= => ll.
rewrite all_flat all_map; apply/allP => j _ /=; rewrite all_map.
elim: ts vts => //= t ts IH /andP[vt /IH ->]; rewrite andbT.
have [_ fd vd] := dXP (Ordinal ll) (vector_field vt); have [fs vs] := scale_obj ((j == l)%:R * nfac m l) fd.
apply: field_vector => //; rewrite vs; apply: homogZ; rewrite vd.
by apply: (homog_nabla two (der _)); have [_ _ _] := vectorP two vt.
Qed.
Lemma vterms_fterms ts : vterms a ts -> fterms ts.
Proof. by apply: sub_all => t; exact: vector_field. Qed.
Lemma slot_vterms i : vterms a (slot_terms a i).
Proof.
rewrite /vterms /slot_terms all_map; apply/allP => k; rewrite mem_iota /= => lk; exact: basis_vector.
Qed.
Lemma agr_slots k S ts : from_slots a S ts -> from_slots a (k :: S) (agr k ts).
Proof.
rewrite /from_slots => fts; rewrite /agr !map_flatten -map_comp all_flat all_map; apply/allP => l ll /=.
rewrite map_flatten -map_comp all_flat all_map; apply/allP => j; rewrite mem_iota /= => lj; rewrite -map_comp.
by elim: ts fts => //= t ts IH /andP[/andP[/eqP-> ->] /IH ->]; rewrite eqxx lj.
Qed.
Lemma slot_slots i : from_slots a [:: i] (slot_terms a i).
Proof.
rewrite /from_slots /slot_terms -map_comp all_map; apply/allP => k; rewrite mem_iota /= => ->.
by rewrite eqxx.
Qed.
Lemma slot_symval env i : sv env (slot_terms a i) = \sum_(j < n) env (i, val j) *: bl R [set j].
Proof.
rewrite /symval /slot_terms big_map sum_iota; apply: eq_bigr => j _.
by rewrite /= big_seq1 (evec_val (a := a) two j).
Qed.

(* ---- the result as a list of terms ---- *)
Notation consts T := [seq (mv_const a t.1, t.2) | t <- ml_value T].
Definition cd0 (T : mlt R) : poly R := [seq (mv_scalar x.1, x.2) | x <- agr (ml_nargs T) (consts T)].
Definition args_at (k i : nat) : seq (sterms R) :=
  set_nth [::] [seq slot_terms a j | j <- iota 0 k] i (agr k (slot_terms a i)).
Definition cd_value (T : mlt R) : poly R :=
  cd0 T ++ flatten [seq pol_scale (-1) (pol_subs (terms_dict a (args_at (ml_nargs T) i)) (ml_value T)) | i <- iota 0 (ml_nargs T)].
Lemma const_field c : field m (mv_const a c).
Proof. by have [o _ b] := @const_ok R two a c; rewrite /field mv_validE o. Qed.
Lemma consts_fterms T : fterms (consts T).
Proof. by rewrite /fterms all_map; apply/allP => t _; exact: const_field. Qed.
Lemma size_args k i : (i < k)%N -> size (args_at k i) = k.
Proof. by move=> li; rewrite size_set_nth size_map size_iota; apply/maxn_idPr. Qed.
Lemma nth_args k i j : (j < k)%N -> nth [::] (args_at k i) j = if j == i then agr k (slot_terms a i) else slot_terms a j.
Proof. by move=> lj; rewrite nth_set_nth /=; case: eqP => // _; rewrite (nth_map 0%N) ?size_iota // nth_iota. Qed.
Lemma args_vterms k i : (i < k)%N -> all (vterms a) (args_at k i).
Proof.
move=> li; apply/(all_nthP [::]) => j; rewrite size_args // => lj; rewrite nth_args //.
by case: ifP => _; [apply: agr_vterms|]; exact: slot_vterms.
Qed.
Lemma bnd_some U V st (p : prog R U) (g : U -> prog R V) x o : runs m dga st p (Some x) ->
  (forall st', Diff_Proof.same m dga st st' -> runs m dga st' (g x) o) -> runs m dga st (bnd p g) o.
Proof.
move=> [st1 E s1] h; have [st2 F s2] := h _ s1; exists st2; first by rewrite /bnd E.
exact: same_trans s1 s2.
Qed.
Lemma cderiv_runs st slots T : clean m dga st ->
  runs m dga st (mlt_cderiv me m dga T slots).2 (Some (Mlt (ml_nargs T).+1 (cd_value T))).
Proof.
move=> cs; rewrite /mlt_cderiv [X in runs _ _ _ X _]/=; set k := ml_nargs T; set sl := increment_slots _ _.
have lsl : (k <= sl)%N by rewrite (leq_trans _ (leq_maxl _ _)).
apply: bnd_some (agrad_mulP k cs (consts_fterms T)) _ => st1 s1; have {cs s1}cs := clean_same cs s1.
suff gen (ls : seq nat) CD st' : clean m dga st' -> all (fun i => i < k)%N ls ->
   runs m dga st' (pfold (fun CD i =>
          bnd (agrad_mul me m dga k (slot_terms a i)) (fun tmp =>
          let args := set_nth [::] [seq slot_terms a j | j <- iota 0 k] i tmp in
          @lift R _ (LET p := call_terms a sl T args IN Some (CD ++ pol_scale (-1) p)))) ls CD)
     (Some (CD ++ flatten [seq pol_scale (-1) (pol_subs (terms_dict a (args_at k i)) (ml_value T)) | i <- ls])).
  apply: bnd_some => [|st2 s2]; first by apply: gen => //; apply/allP=> i; rewrite mem_iota.
  by apply: runs_ret; case: (clean_same cs s2).
elim: ls CD st' => [|i ls IH] CD st2 cs2 /=; first by rewrite cats0 => _; apply: runs_ret; case: cs2.
case/andP=> li al; rewrite catA.
apply: (@bnd_some _ _ _ _ _ (CD ++ pol_scale (-1) (pol_subs (terms_dict a (args_at k i)) (ml_value T)))) => [|st3 s3]; last first.
  by apply: IH => //; exact: clean_same s3.
apply: bnd_some (agrad_mulP k cs2 (vterms_fterms (slot_vterms i))) _ => st3 s3.
apply: runs_eq (runs_lift _ _) _; first by case: (clean_same cs2 s3).
by rewrite -/(args_at k i) (call_termsP two wf u) ?size_args ?args_vterms // (leq_ltn_trans _ li).
Qed.
(* ---- its value ---- *)
Definition om env (k : nat) (f : R) : R := \sum_(l < n) env (k, val l) * nfac m l * D l f.
Lemma om_der env k : derivation (om env k).
Proof.
split=> x y; rewrite /om.
  by rewrite -big_split; apply: eq_bigr => l _; have [-> _] := der l; rewrite mulrDr.
rewrite mulr_suml mulr_sumr -big_split; apply: eq_bigr => l _; have [_ ->] := der l.
by rewrite mulrDr mulrA; congr (_ + _); rewrite mulrCA.
Qed.
Lemma pev_scalar env ts : fterms ts -> pev env [seq (mv_scalar x.1, x.2) | x <- ts] = sv env ts set0.
Proof.
rewrite /pev /symval big_map sum_coef; elim: ts => [|t ts IH] /=; first by rewrite !big_nil.
case/andP=> /Props_Diff.fieldP[oX bX] /IH {}IH; rewrite !big_cons IH scale_coef mulrC.
by rewrite (mv_scalarP two oX bX).
Qed.
Lemma cd0_pev env T : pev env (cd0 T) = \sum_(t <- ml_value T) om env (ml_nargs T) t.1 * \prod_(v <- t.2) env v.
Proof.
rewrite /cd0 pev_scalar; last by apply: agr_fterms; exact: consts_fterms.
rewrite agr_symval; last exact: consts_fterms.
rewrite sum_coef /om; under [RHS]eq_bigr => t _ do rewrite mulr_suml.
rewrite exchange_big /=; apply: eq_bigr => l _; rewrite scale_coef big_map sum_coef mulr_sumr.
apply: eq_bigr => t _; rewrite scale_coef /=; have [_ -> _] := @const_ok R two a t.1.
rewrite /scal /Diff_Proof.nab (nablaZ two (der _)) (nabla_one two (der _)) scaler0 addr0 scale_coef bl_coef eqxx mulr1.
by rewrite -!mulrA; congr (_ * (_ * _)); rewrite mulrC.
Qed.
Definition gam env (k : nat) (v : slotsym) : R := pev env (plain_poly (agr k (slot_terms a v.1)) v.2).
Lemma gamE env k i (j : 'I_n) : gam env k (i, val j) =
  \sum_(l < n) env (k, val l) * nfac m l * \sum_(q < n) env (i, val q) * (nab l (bl R [set q])) [set j].
Proof.
rewrite /gam (plain_polyE (a := a) two env j) /=; last by apply: agr_vterms; exact: slot_vterms.
rewrite agr_symval ?vterms_fterms ?slot_vterms // sum_coef; apply: eq_bigr => l _; rewrite scale_coef; congr (_ * _).
rewrite /slot_terms big_map sum_iota sum_coef; apply: eq_bigr => q _.
by rewrite scale_coef /= big_seq1 (evec_val (a := a) two q).
Qed.
Lemma slot_pev env i j : (j < n)%N -> pev env (plain_poly (slot_terms a i) j) = env (i, j).
Proof.
move=> lj; rewrite (plain_polyE (a := a) two env (Ordinal lj)) ?slot_vterms // slot_symval sum_coef (bigD1 (Ordinal lj)) //=.
rewrite scale_coef bl_coef eqxx mulr1 big1 ?addr0 // => q qj.
by rewrite scale_coef bl_coef (inj_eq set1_inj) eq_sym (negbTE qj) mulr0.
Qed.
Lemma prod_scale (c : R) (s : seq slotsym) g : \prod_(v <- s) (c * g v) = c ^+ size s * \prod_(v <- s) g v.
Proof. by elim: s => [|v s IH]; rewrite ?big_nil ?mulr1 // !big_cons IH exprS mulrACA. Qed.
Lemma args_pev env T i : tensor a T -> (i < ml_nargs T)%N ->
  pev env (pol_subs (terms_dict a (args_at (ml_nargs T) i)) (ml_value T)) =
  r_factor a ^+ ml_nargs T * \sum_(t <- ml_value T) t.1 * \prod_(v <- t.2) in_slot env i (gam env (ml_nargs T)) v.
Proof.
move=> tT li; rewrite (call_pev _ tT) ?size_args ?args_vterms // mulr_sumr !big_seq; apply: eq_bigr => t.
move/(allP tT) => /andP[pe /allP al]; rewrite mulrCA; congr (_ * _).
have -> : ml_nargs T = size t.2 by rewrite -(size_iota 0 (ml_nargs T)) -(perm_size pe) size_map.
rewrite -prod_scale !big_seq; apply: eq_bigr => -[q j] vt.
have : q \in [seq v.1 | v <- t.2] by apply/mapP; exists (q, j).
have k0 : size t.2 = ml_nargs T by rewrite -(size_iota 0 (ml_nargs T)) -(perm_size pe) size_map.
rewrite (perm_mem pe) mem_iota /= k0 => lq; rewrite nth_args // coef_pev /in_slot /gam /=; case: eqP => [->//|_].
by rewrite slot_pev //; exact: (al _ vt).
Qed.
Lemma cd_pev_gen env T : tensor a T -> pev env (cd_value T) =
  \sum_(t <- ml_value T) om env (ml_nargs T) t.1 * \prod_(v <- t.2) env v -
  r_factor a ^+ ml_nargs T * \sum_(i <- iota 0 (ml_nargs T)) \sum_(t <- ml_value T) t.1 * \prod_(v <- t.2) in_slot env i (gam env (ml_nargs T)) v.
Proof.
move=> tT; rewrite /cd_value pev_cat cd0_pev pev_flatten big_map; congr (_ + _).
rewrite mulr_sumr -sumrN !big_seq; apply: eq_bigr => i; rewrite mem_iota /= => li.
by rewrite pev_scale args_pev // mulN1r.
Qed.
(* the derivative of the coefficients, by the product rule *)
Lemma om_rule env T : tensor a T -> \sum_(t <- ml_value T) om env (ml_nargs T) t.1 * \prod_(v <- t.2) env v =
  om env (ml_nargs T) (\sum_(t <- ml_value T) t.1 * \prod_(v <- t.2) env v) -
  \sum_(i <- iota 0 (ml_nargs T)) \sum_(t <- ml_value T)
     t.1 * \prod_(v <- t.2) in_slot env i (fun v => om env (ml_nargs T) (env v)) v.
Proof.
move=> tT; set k := ml_nargs T; rewrite (drv_sum (om_der env k)) [X in _ = _ - X]exchange_big /= -sumrN -big_split /= !big_seq.
apply: eq_bigr => t tt; have /andP[pe /allP al] := allP tT _ tt.
have z0 : \sum_(i <- iota 0 k) t.1 * \prod_(v <- t.2) in_slot env i (fun=> 0) v = 0.
  rewrite big_seq; apply: big1 => i il; have : i \in [seq v.1 | v <- t.2] by rewrite (perm_mem pe).
  by case/mapP=> v vt iv; rewrite (big_rem v) //= /in_slot iv eqxx mul0r mulr0.
have := term_rule t.1 env (fun=> 0) (om_der env k) pe; rewrite z0 subr0 => ->; congr (_ - _).
apply: eq_bigr => i _; congr (_ * _); apply: eq_bigr => v _; rewrite /in_slot addr0 //.
Qed.
Lemma slot_sub env T i h h' : tensor a T -> (i < ml_nargs T)%N ->
  \sum_(t <- ml_value T) t.1 * \prod_(v <- t.2) in_slot env i h' v =
  \sum_(t <- ml_value T) t.1 * \prod_(v <- t.2) in_slot env i (fun v => h v + h' v) v -
  \sum_(t <- ml_value T) t.1 * \prod_(v <- t.2) in_slot env i h v.
Proof.
move=> tT li; rewrite -sumrB !big_seq; apply: eq_bigr => t /(allP tT) /andP[pe _].
have us : uniq [seq v.1 | v <- t.2] by rewrite (perm_uniq pe) iota_uniq.
have il : i \in [seq v.1 | v <- t.2] by rewrite (perm_mem pe) mem_iota.
by rewrite (in_slotD _ _ _ us il) mulrDr addrC addKr.
Qed.
(* ---- its symbols ---- *)
Lemma agr_all (P : pred (seq slotsym)) k ts :
  (forall j s, (j < n)%N -> s \in [seq t.2 | t <- ts] -> P ((k, j) :: s)) -> all P [seq t.2 | t <- agr k ts].
Proof.
move=> h; rewrite /agr !map_flatten -map_comp all_flat all_map; apply/allP => l ll /=.
rewrite map_flatten -map_comp all_flat all_map; apply/allP => j; rewrite mem_iota /= => lj; rewrite -map_comp.
have -> : [seq ((fun p : mv R * seq slotsym => p.2) \o
    (fun t : mv R * seq slotsym => (mk_mv a (escale ((j == l)%:R * nfac m l) (obj (dX l t.1))), (k, j) :: t.2))) t | t <- ts] =
  [seq (k, j) :: s | s <- [seq t.2 | t <- ts]] by rewrite -map_comp.
by rewrite all_map; apply/allP => s sin; exact: h.
Qed.
Lemma perm_insert (i k : nat) (s : seq nat) : uniq s -> i \in s ->
  perm_eq (flatten [seq (if q == i then [:: k; i] else [:: q]) | q <- s]) (k :: s).
Proof.
elim: s => [//|q s IH] /= /andP[nq us]; rewrite inE; case: (eqVneq q i) => [qi|ne] /= il; [rewrite qi in nq *|].
  have -> : flatten [seq (if q0 == i then [:: k; i] else [:: q0]) | q0 <- s] = s; last by [].
  have : all (fun q0 => q0 != i) s by apply/allP => q0 q0s; apply/eqP => E; move: nq; rewrite -E q0s.
  by elim: (s) => //= q0 s0 IH0 /andP[/negbTE-> /IH0->].
have {IH}pe := IH us il.
by rewrite -[k :: q :: s]/([:: k] ++ [:: q] ++ s) perm_sym perm_catCA /= perm_cons perm_sym.
Qed.
Lemma iota_last k : perm_eq (k :: iota 0 k) (iota 0 k.+1).
Proof. by rewrite -addn1 iotaD /= perm_sym perm_catC. Qed.
Lemma cd_tensor T : tensor a T -> tensor a (Mlt (ml_nargs T).+1 (cd_value T)).
Proof.
move=> tT; rewrite /tensor [ml_nargs (Mlt _ _)]/= [ml_value (Mlt _ _)]/=; set k := ml_nargs T.
pose Q (s : seq slotsym) := perm_eq [seq v.1 | v <- s] (iota 0 k.+1) && all (fun v : slotsym => v.2 < n)%N s.
rewrite -[all _ _]/(all (fun t : R * seq slotsym => Q t.2) (cd_value T)) /cd_value all_cat; apply/andP; split.
  suff : all Q [seq t.2 | t <- agr k (consts T)] by rewrite /cd0 !all_map.
  apply: agr_all => j s lj; rewrite -map_comp => /mapP[t tt /= ->]; have /andP[pe al] := allP tT _ tt.
  by rewrite /Q [map _ _]/= [all _ _]/= lj al andbT -(permPr (iota_last k)) perm_cons pe.
rewrite all_flat all_map; apply/allP => i; rewrite mem_iota /= => li; rewrite /pol_scale all_map.
rewrite /pol_subs all_flat all_map; apply/allP => t tt /=.
have /andP[pe /allP al] := allP tT _ tt.
pose S q := if q == i then [:: k; i] else [:: q].
have lt v : v \in t.2 -> (v.1 < size (args_at k i))%N && (v.2 < n)%N.
  move=> vt; rewrite size_args // (al _ vt) andbT; have : v.1 \in [seq v.1 | v <- t.2] by apply: map_f.
  by rewrite (perm_mem pe) mem_iota.
have fs q : (q < size (args_at k i))%N -> from_slots a (S q) (nth [::] (args_at k i) q).
  rewrite size_args // => lq; rewrite nth_args // /S; case: eqP => _; last exact: slot_slots.
  by apply: agr_slots; exact: slot_slots.
move: (@subs_slots R a (args_at k i) S t lt fs); apply: sub_all => q /andP[/eqP qE qn]; rewrite /Q /= qE qn andbT.
have -> : [seq S v.1 | v <- t.2] = [seq S q | q <- [seq v.1 | v <- t.2]] by rewrite -map_comp.
rewrite (permPl (perm_flatten (perm_map S pe))) -(permPr (iota_last k)).
by apply: perm_insert; rewrite ?iota_uniq // mem_iota.
Qed.
(* ---- the derivative in the direction of a vector field ---- *)
Lemma dir_fieldP A B : field m B -> exists2 d, dir_field me m dga A B = Some d &
  field m d /\ mvv d = \sum_(l < n) along m A l *: nab l (mvv B).
Proof.
move=> fB; rewrite /dir_field (@omapM_iota _ _ (fun l => dX l B)) => [|l ll]; last first.
  have [E _ _] := dXP (Ordinal ll) fB; rewrite /deriv -[l]/(val (Ordinal ll)).
  by have [st' -> _] := pDiff_runs me B (Ordinal ll) (clean_init m dga); rewrite E.
rewrite /= -[X in zip _ X]map_id zip_map -map_comp; apply: yields_field.
pose F l : mval R n := along m A l *: mvv (dX l B).
have -> : \sum_(l < n) along m A l *: nab l (mvv B) = 0%R *: (bl R set0 : mval R n) + \sum_(l <- iota 0 n) F l.
  rewrite scale0r add0r sum_iota; apply: eq_bigr => l _; rewrite /F.
  by have [_ _ ->] := dXP l fB.
apply: (yields_sum mk sh _ (yields_num two m 0)) => l; rewrite mem_iota /= => ll.
have [_ fd _] := dXP (Ordinal ll) fB; exact: (yields_scale (along m A l) (yields_val two fd)).
Qed.
Lemma dir_vector A B d : vector a B -> dir_field me m dga A B = Some d -> vector a d.
Proof.
move=> vB E; have [d' + [fd vd]] := dir_fieldP A (vector_field vB); rewrite E => -[dE]; subst d'.
apply: field_vector => //; rewrite vd; apply: (big_ind (@homog R n 1)) => [|x y|l _]; [exact: homog0|exact: homogD|apply: homogZ].
by apply: (homog_nabla two (der _)); have [_ _ _] := vectorP two vB.
Qed.
Lemma dir_coef A B d (j : 'I_n) : vector a B -> dir_field me m dga A B = Some d ->
  xcoef d j = \sum_(l < n) along m A l * D l (xcoef B j) +
              \sum_(l < n) along m A l * \sum_(q < n) xcoef B q * (nab l (bl R [set q])) [set j].
Proof.
move=> vB E; rewrite (xcoefE two (a := a) j (dir_vector vB E)).
have [d' + [fd vd]] := dir_fieldP A (vector_field vB); rewrite E => -[dE]; subst d'.
rewrite vd sum_coef -big_split /=; apply: eq_bigr => l _; rewrite scale_coef -mulrDr; congr (_ * _).
have [_ _ _ hB] := vectorP two vB; rewrite (vec_decomp hB).
rewrite /Diff_Proof.nab (nabla_sum two (der _)) sum_coef.
rewrite (eq_bigr (fun q : 'I_n => D l (xcoef B q) * (bl R [set q]) [set j] + xcoef B q * (nab l (bl R [set q])) [set j])) => [|q _].
  rewrite big_split /=; congr (_ + _); rewrite (bigD1 j) //= bl_coef eqxx mulr1 big1 ?addr0 // => q qj.
  by rewrite bl_coef (inj_eq set1_inj) eq_sym (negbTE qj) mulr0.
by rewrite (nablaZ two (der _)) (xcoefE two (a := a) q vB) ffunE !scale_coef.
Qed.
(* a scalar field, for every non-degenerate metric, oblique ones included: T.cderiv() is linear in
   the direction and is the directional derivative times the factor of the reciprocal basis *)
Theorem C64_scalar h slots (T : mlt R) : quiet me m dga h (ds_init dga) -> tensor a T -> ml_nargs T = 0%N ->
  exists T', [/\ ((mlt_cderiv me m dga T slots).2 (history me m dga h (ds_init dga))).2 = Some T',
    tensor a T', ml_nargs T' = 1%N &
    forall slots' A, (0 < slots')%N -> vector a A -> exists2 v, value_at a slots' T [::] = Some v &
      value_at a slots' T' [:: A] = Some (r_factor a * dir_fun me m A v)].
Proof.
move=> q tT k0; have cs := history_clean (clean_init m dga) q.
have cE : cd_value T = cd0 T by rewrite /cd_value k0 /= cats0.
have [st' E _] : runs m dga (history me m dga h (ds_init dga)) (mlt_cderiv me m dga T slots).2 (Some (Mlt 1 (cd_value T))).
  rewrite /mlt_cderiv [X in runs _ _ _ X _]/= cE k0.
  apply: bnd_some (agrad_mulP 0 cs (consts_fterms T)) _ => st1 s1; have {s1}cs1 := clean_same cs s1.
  apply: (@bnd_some _ _ _ _ _ (cd0 T)) => [|st2 s2]; first by apply: runs_eq (runs_ret _ _) _; [case: cs1|rewrite /cd0 k0].
  by apply: runs_ret; case: (clean_same cs1 s2).
have tC := cd_tensor tT; rewrite k0 in tC.
exists (Mlt 1 (cd_value T)); rewrite E; split=> // sl A ls vA.
exists (\sum_(t <- ml_value T) t.1).
  rewrite (value_atP two wf u) // ?k0 // expr0 mul1r; congr Some; rewrite !big_seq; apply: eq_bigr => t /(allP tT).
  by rewrite k0; case: (t.2) => [|v s] /andP[pe _]; [rewrite big_nil mulr1|have := perm_size pe].
rewrite (value_atP two wf u tC) //= ?vA // expr1; congr (Some (_ * _)).
pose e (v : slotsym) := xcoef (nth (mv_const a 0) [:: A] v.1) v.2.
rewrite -[LHS]/(pev e (cd_value T)) cE cd0_pev k0.
rewrite [RHS](_ : _ = om e 0 (\sum_(t <- ml_value T) t.1)); last first.
  apply: eq_bigr => l _; congr (_ * _ * _); rewrite /nfac /norm_factor.
  by case: m_enorm => //; rewrite invr1.
rewrite (drv_sum (om_der e 0)) !big_seq; apply: eq_bigr => t /(allP tT).
by rewrite k0; case: (t.2) => [|v s] /andP[pe _]; [rewrite big_nil mulr1|have := perm_size pe].
Qed.
(* ---- values in components ---- *)
Notation f := (r_factor a).
Notation X0 := (mv_const a 0).
Definition evs (Xs : seq (mv R)) (v : slotsym) : R := xcoef (nth X0 Xs v.1) v.2.
Lemma f_unit : f \is a GRing.unit. Proof. by have [rs [_ _ uf _]] := C25_reciprocal_basis two wf u. Qed.
Lemma evsP slots T Xs : tensor a T -> all (vector a) Xs -> size Xs = ml_nargs T -> (ml_nargs T <= slots)%N ->
  value_at a slots T Xs = Some (f ^+ ml_nargs T * pev (evs Xs) (ml_value T)).
Proof. by move=> tT vX sX le; rewrite (value_atP two wf u). Qed.
Lemma evs_om Bs A g : om (evs (rcons Bs A)) (size Bs) g = dir_fun me m A g.
Proof.
apply: eq_bigr => l _; rewrite /evs nth_rcons ltnn eqxx; congr (_ * _ * _); rewrite /nfac /norm_factor.
by case: m_enorm => //; rewrite invr1.
Qed.
Lemma evs_rcons T Bs A : tensor a T -> size Bs = ml_nargs T -> pev (evs (rcons Bs A)) (ml_value T) = pev (evs Bs) (ml_value T).
Proof.
move=> tT sB; rewrite /pev !big_seq; apply: eq_bigr => t /(allP tT) /andP[pe al]; congr (_ * _); rewrite !big_seq.
apply: eq_bigr => -[i j] vt; have : i \in [seq v.1 | v <- t.2] by apply/mapP; exists (i, j).
by rewrite (perm_mem pe) mem_iota /= => li; rewrite /evs nth_rcons /= sB li.
Qed.
Lemma evs_slot T Bs A X i g : tensor a T -> size Bs = ml_nargs T -> (i < ml_nargs T)%N ->
  (forall j, (j < n)%N -> xcoef X j = g (i, j)) ->
  pev (evs (set_nth X0 Bs i X)) (ml_value T) =
  \sum_(t <- ml_value T) t.1 * \prod_(v <- t.2) in_slot (evs (rcons Bs A)) i g v.
Proof.
move=> tT sB li gP; rewrite /pev !big_seq; apply: eq_bigr => t /(allP tT) /andP[pe /allP al]; congr (_ * _); rewrite !big_seq.
apply: eq_bigr => -[i' j] vt; have : i' \in [seq v.1 | v <- t.2] by apply/mapP; exists (i', j).
rewrite (perm_mem pe) mem_iota /= => li'; have /= lj := al _ vt.
rewrite /in_slot /evs nth_set_nth /=; case: (eqVneq i' i) => [->|ne]; first exact: gP.
by rewrite nth_rcons /= sB li'.
Qed.
Lemma set_vectors (Bs : seq (mv R)) i X : all (vector a) Bs -> vector a X -> (i < size Bs)%N ->
  all (vector a) (set_nth X0 Bs i X) /\ size (set_nth X0 Bs i X) = size Bs.
Proof.
move=> vB vX li; have sz : size (set_nth X0 Bs i X) = size Bs by rewrite size_set_nth; apply/maxn_idPr.
split=> //; apply/(all_nthP X0) => j; rewrite sz => lj; rewrite nth_set_nth /=.
by case: eqP => // _; apply: (all_nthP _ vB).
Qed.
Lemma dir_gam Bs A i d (j : 'I_n) : all (vector a) Bs -> (i < size Bs)%N -> dir_field me m dga A (nth X0 Bs i) = Some d ->
  let e := evs (rcons Bs A) in xcoef d j = om e (size Bs) (e (i, val j)) + gam e (size Bs) (i, val j).
Proof.
move=> vB li Ed e; have vi : vector a (nth X0 Bs i) by apply: (all_nthP _ vB).
have eB q : e (i, q) = xcoef (nth X0 Bs i) q by rewrite /e /evs nth_rcons /= li.
rewrite (dir_coef j vi Ed) evs_om eB; congr (_ + _).
rewrite (gamE e _ i j); apply: eq_bigr => l _; rewrite /e /evs nth_rcons ltnn eqxx; congr (_ * _ * _).
  by rewrite /nfac /norm_factor; case: m_enorm => //; rewrite invr1.
by apply: eq_bigr => q0 _; rewrite -eB.
Qed.
Lemma dir_fields A (Bs : seq (mv R)) : all (vector a) Bs -> exists2 dBs, omapM (dir_field me m dga A) Bs = Some dBs &
  forall i, (i < size Bs)%N -> dir_field me m dga A (nth X0 Bs i) = Some (nth X0 dBs i).
Proof.
elim: Bs => [_|B Bs0 IH /= /andP[vB /IH[ds -> dP]]]; first by exists [::].
by have [d Ed _] := dir_fieldP A (vector_field vB); rewrite Ed; exists (d :: ds) => // -[|i] //=; exact: dP.
Qed.
Lemma dir_components_ex A B : exists dB, dir_components me m A B dB.
Proof.
pose c j := dir_fun me m A (coefficient (obj B) (mk_blade [:: j])).
pose F j : mval R n := c j *: mvv (mv_basis_vec R j).
have [dB _ [fd vd]] : exists2 X, run a (py_sum [seq c j ##. Val (mv_basis_vec R j) | j <- iota 0 n]) = Some X &
    field m X /\ mvv X = 0%R *: (bl R set0 : mval R n) + \sum_(j <- iota 0 n) F j.
  apply: yields_field; apply: (yields_sum mk sh _ (yields_num two m 0)) => j; rewrite mem_iota /= => lj.
  have fb : field m (mv_basis_vec R j) by apply: vector_field; exact: basis_vector.
  exact: (yields_scale (c j) (yields_val two fb)).
rewrite scale0r add0r sum_iota in vd.
have {}vd : mvv dB = \sum_(j < n) c j *: bl R [set j].
  by rewrite vd; apply: eq_bigr => j _; rewrite /F (evec_val (a := a) two j).
have vB : vector a dB.
  apply: field_vector => //; rewrite vd; apply: (big_ind (@homog R n 1)) => [|x y|l _]; [exact: homog0|exact: homogD|apply: homogZ].
  by have := @homog_bl R n [set l]; rewrite cards1.
exists dB; split=> // j lj; rewrite -[LHS]/(xcoef dB j) (xcoefE two (a := a) (Ordinal lj) vB) vd sum_coef (bigD1 (Ordinal lj)) //=.
rewrite scale_coef bl_coef eqxx mulr1 big1 ?addr0 // => q qj.
by rewrite scale_coef bl_coef (inj_eq set1_inj) eq_sym (negbTE qj) mulr0.
Qed.
(* T.cderiv() after a history of calls, for every non-degenerate metric; slots is the number of slot
   vectors made before.  f is the factor of the reciprocal basis, cBs are the arguments
   differentiated by components, dBs the arguments differentiated as vector fields *)
Theorem C64_value h slots (T : mlt R) : quiet me m dga h (ds_init dga) -> tensor a T ->
  let slots' := (mlt_cderiv me m dga T slots).1 in let k := ml_nargs T in
  exists T', [/\ ((mlt_cderiv me m dga T slots).2 (history me m dga h (ds_init dga))).2 = Some T',
    tensor a T', ml_nargs T' = k.+1, (k < slots')%N &
    forall A Bs, vector a A -> all (vector a) Bs -> size Bs = k ->
    exists v dBs ws, [/\ value_at a slots' T Bs = Some v,
      omapM (dir_field me m dga A) Bs = Some dBs,
      omapM (fun i => value_at a slots' T (set_nth X0 Bs i (nth X0 dBs i))) (iota 0 k) = Some ws &
      (forall B, exists cB, dir_components me m A B cB) /\
      forall cBs, (forall i, (i < k)%N -> dir_components me m A (nth X0 Bs i) (nth X0 cBs i)) ->
      exists2 zs, omapM (fun i => value_at a slots' T (set_nth X0 Bs i (nth X0 cBs i))) (iota 0 k) = Some zs &
      value_at a slots' T' (rcons Bs A) = Some (f ^+ k.+1 * dir_fun me m A (v / f ^+ k) - f * (\sum_(z <- zs) z)
        - f ^+ k.+1 * ((\sum_(w <- ws) w) - \sum_(z <- zs) z))]].
Proof.
move=> q tT slots' k; have cs := history_clean (clean_init m dga) q.
have [st' E _] := cderiv_runs slots T cs; have tC := cd_tensor tT; rewrite -/k in E tC.
have lk : (k < slots')%N by rewrite /slots' /= leq_maxl.
exists (Mlt k.+1 (cd_value T)); rewrite E; split=> // A Bs vA vB sB.
have [dBs Ed dP] := dir_fields A vB; rewrite sB in dP.
have dV i : (i < k)%N -> vector a (nth X0 dBs i).
  by move=> li; apply: (@dir_vector A (nth X0 Bs i)); [apply: (all_nthP _ vB); rewrite sB|exact: dP].
exists (f ^+ k * pev (evs Bs) (ml_value T)), dBs, [seq f ^+ k * pev (evs (set_nth X0 Bs i (nth X0 dBs i))) (ml_value T) | i <- iota 0 k].
have vAB : all (vector a) (rcons Bs A) by rewrite all_rcons vA.
split=> //; first by rewrite evsP // ltnW.
  apply: omapM_iota => i li; have li' : (i < size Bs)%N by rewrite sB.
  by have [v1 s1] := set_vectors vB (dV i li) li'; rewrite evsP // ?s1 // ltnW.
split=> [B|cBs cP]; first exact: dir_components_ex.
exists [seq f ^+ k * pev (evs (set_nth X0 Bs i (nth X0 cBs i))) (ml_value T) | i <- iota 0 k].
  apply: omapM_iota => i li; have li' : (i < size Bs)%N by rewrite sB.
  by have [vc _] := cP i li; have [v1 s1] := set_vectors vB vc li'; rewrite evsP // ?s1 // ltnW.
rewrite (evsP tC) //= ?size_rcons ?sB //; congr Some.
pose e := evs (rcons Bs A); have uk : f ^+ k \is a GRing.unit by rewrite unitrX // f_unit.
rewrite -/e cd_pev_gen // om_rule // -/k [f ^+ k * pev _ _ / _]mulrAC divrr // mul1r !big_map.
rewrite -(evs_rcons A tT sB) -/e -[dir_fun _ _ _ _](evs_om Bs A) sB -/e mulrBr mulrBr exprSr; congr (_ - _ - _).
  rewrite -mulrA [f ^+ k * _]mulrCA mulr_sumr; congr (_ * _); rewrite !big_seq; apply: eq_bigr => i; rewrite mem_iota /= => li.
  congr (_ * _); apply/esym/evs_slot => // j lj; have [_ cj] := cP i li; rewrite /xcoef cj // -(evs_om Bs A) sB -/e.
  by rewrite /e /evs nth_rcons /= sB li.
congr (_ * _); rewrite -sumrB mulr_sumr !big_seq; apply: eq_bigr => i; rewrite mem_iota /= => li; rewrite -mulrBr; congr (_ * _).
rewrite (slot_sub e (fun v => om e k (e v)) _ tT li); congr (_ - _); apply/esym/evs_slot => // j lj.
  have li' : (i < size Bs)%N by rewrite sB.
  by have := dir_gam (Ordinal lj) vB li' (dP i li); rewrite sB.
have [_ cj] := cP i li; rewrite /xcoef cj // -(evs_om Bs A) sB -/e.
by rewrite /e /evs nth_rcons /= sB li.
Qed.
Theorem C64_product_rule_partial h slots (T : mlt R) : quiet me m dga h (ds_init dga) -> tensor a T ->
  let slots' := (mlt_cderiv me m dga T slots).1 in
  exists T', [/\ ((mlt_cderiv me m dga T slots).2 (history me m dga h (ds_init dga))).2 = Some T',
    tensor a T', ml_nargs T' = (ml_nargs T).+1, (ml_nargs T < slots')%N &
    forall A Bs, vector a A -> all (vector a) Bs -> size Bs = ml_nargs T ->
    exists v dBs ws, [/\ value_at a slots' T Bs = Some v,
      omapM (dir_field me m dga A) Bs = Some dBs,
      omapM (fun i => value_at a slots' T (set_nth (mv_const a 0) Bs i (nth (mv_const a 0) dBs i))) (iota 0 (ml_nargs T)) = Some ws &
      value_at a slots' T' (rcons Bs A) = Some (dir_fun me m A v - \sum_(w <- ws) w)]].
Proof.
move=> q tT slots'; have [T' [E tC nT ls h']] := C64_value slots q tT; exists T'; split=> // A Bs vA vB sB.
have [v [dBs [ws [Ev Ed Ew [ex vP]]]]] := h' A Bs vA vB sB; exists v, dBs, ws; split=> //.
have f1 : f = 1 by rewrite /r_factor ort.
have [cBs cP] : exists cBs, forall i, (i < ml_nargs T)%N -> dir_components me m A (nth X0 Bs i) (nth X0 cBs i).
  rewrite -sB; elim: (Bs) => [|B Bs0 [cs IH]]; first by exists [::].
  by have [c cB] := ex B; exists (c :: cs) => -[|i] //=; exact: IH.
have [zs _ ->] := vP cBs cP; congr Some.
by rewrite f1 !expr1n divr1 !mul1r opprB addrA subrK.
Qed.
(* ---- C73: the directional derivative T.dd() ---- *)
Definition dd_value (T : mlt R) : poly R :=
  flatten [seq flatten [seq [seq ((j == l)%:R * nfac m l * D l t.1, (ml_nargs T, j) :: t.2) | t <- ml_value T] | j <- iota 0 n]
          | l <- iota 0 n].
Lemma ddE T slots : (mlt_dd me m dga T slots).2 = Some (Mlt (ml_nargs T).+1 (dd_value T)).
Proof.
rewrite /mlt_dd [snd _]/=; set k := ml_nargs T.
pose F l := [seq ((j == l)%:R * nfac m l, [:: (k, j)]) | j <- iota 0 n].
rewrite (@omapM_iota _ _ F) => [|l ll]; last exact: (agrad_coefP k (Ordinal ll)).
rewrite [obnd _ _]/= -[X in zip _ X]map_id zip_map -map_comp; congr (Some (Mlt _ (flatten _))).
by apply: eq_map => l /=; rewrite -map_comp; congr flatten; apply: eq_map => j /=.
Qed.
Lemma dd_pev env T : pev env (dd_value T) = \sum_(t <- ml_value T) om env (ml_nargs T) t.1 * \prod_(v <- t.2) env v.
Proof.
rewrite /dd_value pev_flatten big_map sum_iota; under [RHS]eq_bigr => t _ do rewrite /om mulr_suml.
rewrite exchange_big /=; apply: eq_bigr => l _; rewrite pev_flatten big_map.
rewrite (bigD1_seq (val l)) ?iota_uniq ?mem_iota ?ltn_ord //= [X in _ + X]big1 => [|j /negbTE jl].
  rewrite addr0 /pev big_map; apply: eq_bigr => t _; rewrite /= eqxx mul1r big_cons.
  by rewrite mulrA; congr (_ * _); rewrite mulrC mulrA.
by rewrite /pev big_map big1 // => t _; rewrite /= jl !mul0r.
Qed.
Lemma dd_tensor T : tensor a T -> tensor a (Mlt (ml_nargs T).+1 (dd_value T)).
Proof.
move=> tT; rewrite /tensor /= all_flat all_map; apply/allP => l _ /=; rewrite all_flat all_map.
apply/allP => j; rewrite mem_iota /= => lj; rewrite all_map; apply/allP => t tt /=.
have /andP[pe ->] := allP tT _ tt; rewrite lj !andbT.
by rewrite -[_ :: iota 1 _]/(iota 0 (ml_nargs T).+1) -(permPr (iota_last _)) perm_cons.
Qed.
(* T.dd() of a scalar field, for every non-degenerate metric *)
Theorem C73_scalar slots (T : mlt R) : tensor a T -> ml_nargs T = 0%N ->
  exists T', [/\ (mlt_dd me m dga T slots).2 = Some T', tensor a T', ml_nargs T' = 1%N &
    forall slots' A, (0 < slots')%N -> vector a A -> exists2 v, value_at a slots' T [::] = Some v &
      value_at a slots' T' [:: A] = Some (r_factor a * dir_fun me m A v)].
Proof.
move=> tT k0; have tC := dd_tensor tT; rewrite k0 in tC.
exists (Mlt 1 (dd_value T)); rewrite ddE k0; split=> // sl A ls vA.
exists (\sum_(t <- ml_value T) t.1).
  rewrite (value_atP two wf u) // ?k0 // expr0 mul1r; congr Some; rewrite !big_seq; apply: eq_bigr => t /(allP tT).
  by rewrite k0; case: (t.2) => [|v s] /andP[pe _]; [rewrite big_nil mulr1|have := perm_size pe].
rewrite (value_atP two wf u tC) //= ?vA // expr1; congr (Some (_ * _)).
pose e (v : slotsym) := xcoef (nth (mv_const a 0) [:: A] v.1) v.2.
rewrite -[LHS]/(pev e (dd_value T)) dd_pev k0.
rewrite [RHS](_ : _ = om e 0 (\sum_(t <- ml_value T) t.1)); last first.
  apply: eq_bigr => l _; congr (_ * _ * _); rewrite /nfac /norm_factor.
  by case: m_enorm => //; rewrite invr1.
rewrite (drv_sum (om_der e 0)) !big_seq; apply: eq_bigr => t /(allP tT).
by rewrite k0; case: (t.2) => [|v s] /andP[pe _]; [rewrite big_nil mulr1|have := perm_size pe].
Qed.
(* the exact value of T.dd() for every non-degenerate metric: the arguments are differentiated by
   components, f is the factor of the reciprocal basis *)
Theorem C73_value slots (T : mlt R) : tensor a T -> let slots' := (mlt_dd me m dga T slots).1 in let k := ml_nargs T in
  exists T', [/\ (mlt_dd me m dga T slots).2 = Some T', tensor a T', ml_nargs T' = k.+1, (k < slots')%N &
    forall A Bs, vector a A -> all (vector a) Bs -> size Bs = k ->
    exists2 v, value_at a slots' T Bs = Some v &
    (forall B, exists cB, dir_components me m A B cB) /\
    forall cBs, (forall i, (i < k)%N -> dir_components me m A (nth X0 Bs i) (nth X0 cBs i)) ->
    exists2 zs, omapM (fun i => value_at a slots' T (set_nth X0 Bs i (nth X0 cBs i))) (iota 0 k) = Some zs &
    value_at a slots' T' (rcons Bs A) = Some (f ^+ k.+1 * dir_fun me m A (v / f ^+ k) - f * \sum_(z <- zs) z)].
Proof.
move=> tT slots' k; have tC := dd_tensor tT; rewrite -/k in tC.
have lk : (k < slots')%N by rewrite /slots' /= leq_maxl.
exists (Mlt k.+1 (dd_value T)); rewrite ddE; split=> // A Bs vA vB sB.
exists (f ^+ k * pev (evs Bs) (ml_value T)); first by rewrite evsP // ltnW.
split=> [B|cBs cP]; first exact: dir_components_ex.
have vAB : all (vector a) (rcons Bs A) by rewrite all_rcons vA.
exists [seq f ^+ k * pev (evs (set_nth X0 Bs i (nth X0 cBs i))) (ml_value T) | i <- iota 0 k].
  apply: omapM_iota => i li; have li' : (i < size Bs)%N by rewrite sB.
  by have [vc _] := cP i li; have [v1 s1] := set_vectors vB vc li'; rewrite evsP // ?s1 // ltnW.
rewrite (evsP tC) //= ?size_rcons ?sB //; congr Some.
pose e := evs (rcons Bs A); have uk : f ^+ k \is a GRing.unit by rewrite unitrX // f_unit.
rewrite -/e dd_pev om_rule // -/k [f ^+ k * pev _ _ / _]mulrAC divrr // mul1r !big_map.
rewrite -(evs_rcons A tT sB) -/e -[dir_fun _ _ _ _](evs_om Bs A) sB -/e mulrBr exprSr; congr (_ - _).
rewrite -mulrA [f ^+ k * _]mulrCA mulr_sumr; congr (_ * _); rewrite !big_seq; apply: eq_bigr => i; rewrite mem_iota /= => li.
congr (_ * _); apply/esym/evs_slot => // j lj; have [_ cj] := cP i li; rewrite /xcoef cj // -(evs_om Bs A) sB -/e.
by rewrite /e /evs nth_rcons /= sB li.
Qed.
(* the product rule of T.dd() *)
Theorem C73_product_rule_partial slots (T : mlt R) : tensor a T -> let slots' := (mlt_dd me m dga T slots).1 in
  exists T', [/\ (mlt_dd me m dga T slots).2 = Some T', tensor a T', ml_nargs T' = (ml_nargs T).+1, (ml_nargs T < slots')%N &
    forall A Bs, vector a A -> all (vector a) Bs -> size Bs = ml_nargs T -> exists2 v, value_at a slots' T Bs = Some v &
    (forall B, exists cB, dir_components me m A B cB) /\
    forall cBs, (forall i, (i < ml_nargs T)%N -> dir_components me m A (nth X0 Bs i) (nth X0 cBs i)) ->
    exists2 zs, omapM (fun i => value_at a slots' T (set_nth X0 Bs i (nth X0 cBs i))) (iota 0 (ml_nargs T)) = Some zs &
    value_at a slots' T' (rcons Bs A) = Some (dir_fun me m A v - \sum_(z <- zs) z)].
Proof.
move=> tT slots'; have [T' [E tC nT ls h']] := C73_value slots tT; exists T'; split=> // A Bs vA vB sB.
have [v Ev [ex vP]] := h' A Bs vA vB sB; exists v => //; split=> // cBs cP.
have f1 : f = 1 by rewrite /r_factor ort.
by have [zs Ez ->] := vP cBs cP; exists zs => //; rewrite f1 !expr1n divr1 !mul1r.
Qed.
(* if the components of the arguments are constant, T.dd() is the derivative of the value *)
Theorem C73_constant_partial slots (T : mlt R) : tensor a T -> exists2 T', (mlt_dd me m dga T slots).2 = Some T' &
  forall slots' A Bs, (ml_nargs T < slots')%N -> vector a A -> all (vector a) Bs -> size Bs = ml_nargs T ->
  (forall i, (i < ml_nargs T)%N -> constant_components me m (nth (mv_const a 0) Bs i)) ->
  exists2 v, value_at a slots' T Bs = Some v & value_at a slots' T' (rcons Bs A) = Some (dir_fun me m A v).
Proof.
move=> tT; exists (Mlt (ml_nargs T).+1 (dd_value T)); first exact: ddE.
have f1 : r_factor a = 1 by rewrite /r_factor ort.
set k := ml_nargs T => sl A Bs lk vA vB sB cB; have tC := dd_tensor tT; rewrite -/k in tC.
pose e (v : slotsym) := xcoef (nth (mv_const a 0) (rcons Bs A) v.1) v.2.
have eA j : e (k, j) = xcoef A j by rewrite /e nth_rcons sB ltnn eqxx.
have omE f : om e k f = dir_fun me m A f.
  apply: eq_bigr => l _; rewrite eA; congr (_ * _ * _); rewrite /nfac /norm_factor.
  by case: m_enorm => //; rewrite invr1.
have -> : value_at a sl T Bs = Some (\sum_(t <- ml_value T) t.1 * \prod_(v <- t.2) e v).
  rewrite (value_atP two wf u) // ?f1 ?expr1n ?mul1r; last exact: ltnW.
  congr Some; rewrite !big_seq; apply: eq_bigr => t /(allP tT) /andP[pe al]; congr (_ * _); rewrite !big_seq.
  apply: eq_bigr => -[i j] vt; have : i \in [seq v.1 | v <- t.2] by apply/mapP; exists (i, j).
  by rewrite (perm_mem pe) mem_iota /= => li; rewrite /e nth_rcons /= sB li.
eexists; first reflexivity.
rewrite (value_atP two wf u tC) //= ?size_rcons ?sB ?all_rcons ?vA //.
rewrite f1 expr1n mul1r -[\sum_(t <- _) _]/(pev e (dd_value T)) dd_pev -/k; congr Some.
rewrite -omE (drv_sum (om_der e k)) !big_seq; apply: eq_bigr => t /(allP tT) /andP[pe /allP al].
rewrite (drvM (om_der e k)) [X in _ + _ * X](_ : _ = 0) ?mulr0 ?addr0 //.
have : all (fun v : slotsym => om e k (e v) == 0) t.2.
  apply/allP => -[i j] vt; have : i \in [seq v.1 | v <- t.2] by apply/mapP; exists (i, j).
  rewrite (perm_mem pe) mem_iota /= => li; have /= lj := al _ vt.
  have -> : e (i, j) = xcoef (nth (mv_const a 0) Bs i) j by rewrite /e nth_rcons /= sB li.
  by rewrite /om big1 // => l _; rewrite [D l _](cB i li j l lj (ltn_ord l)) mulr0.
elim: (t.2) => [_|v s IH /= /andP[/eqP h0 /IH h]]; first by rewrite big_nil (drv1 (om_der e k)).
by rewrite big_cons (drvM (om_der e k)) h0 h mul0r mulr0 addr0.
Qed.
(* in a frame with constant metric T.dd() and T.cderiv() have the same values *)
Theorem C73_cderiv h slots (T : mlt R) : quiet me m dga h (ds_init dga) -> tensor a T ->
  (forall i j k : 'I_n, D k (G i j) = 0) ->
  exists T1 T2, [/\ (mlt_dd me m dga T slots).2 = Some T1,
    ((mlt_cderiv me m dga T slots).2 (history me m dga h (ds_init dga))).2 = Some T2 &
    forall slots' Xs, (ml_nargs T < slots')%N -> all (vector a) Xs -> size Xs = (ml_nargs T).+1 ->
    exists2 v, value_at a slots' T1 Xs = Some v & value_at a slots' T2 Xs = Some v].
Proof.
move=> q tT flat; have cs := history_clean (clean_init m dga) q.
have [st' E _] := cderiv_runs slots T cs; have tC := cd_tensor tT; have tD := dd_tensor tT.
exists (Mlt (ml_nargs T).+1 (dd_value T)), (Mlt (ml_nargs T).+1 (cd_value T)); rewrite ddE E; split=> // sl Xs ls vX sX.
rewrite (value_atP two wf u tD) //; eexists; first reflexivity.
rewrite (value_atP two wf u tC) //=; congr (Some (_ * _)).
pose e (v : slotsym) := xcoef (nth (mv_const a 0) Xs v.1) v.2.
rewrite -[LHS]/(pev e (cd_value T)) -[RHS]/(pev e (dd_value T)) dd_pev /cd_value pev_cat cd0_pev pev_flatten big_map.
rewrite [X in _ + X](_ : _ = 0) ?addr0 // big_seq; apply: big1 => i; rewrite mem_iota /= => li; rewrite pev_scale args_pev //.
have nc : dg_connect dga = false.
  have [-> _ _ _ _] := con; apply/negbTE; apply/existsPn => i0; apply/existsPn => j0; apply/existsPn => k0.
  by rewrite negbK flat.
rewrite big_seq big1 ?mulr0 // => t /(allP tT) /andP[pe /allP al].
have : i \in [seq v.1 | v <- t.2] by rewrite (perm_mem pe) mem_iota.
case/mapP=> -[i' j] vt /= iv; have /= lj := al _ vt; rewrite (big_rem (i', j)) //= /in_slot iv eqxx.
rewrite (gamE e _ _ (Ordinal lj)) big1 ?mul0r ?mulr0 // => l _; rewrite big1 ?mulr0 // => q0 _.
rewrite /Diff_Proof.nab nc (nabla_e two (der _)) sum_coef big1 ?mulr0 // => z _.
by rewrite scale_coef mul0r.
Qed.
(* ---- two tensors ---- *)
Notation gf := (gform (ga_metric two a)).
Lemma gf_sym (x y : mval R n) : gf x y = gf y x.
Proof.
rewrite /gform exchange_big; apply: eq_bigr => i _; apply: eq_bigr => j _.
by rewrite [x _ * _]mulrC -[ga_metric two a j i]/(geff a j i) geffC.
Qed.
Lemma gf_nab (l : 'I_n) (x y : mval R n) : homog 1 x -> homog 1 y -> D l (gf x y) = gf (nab l x) y + gf x (nab l y).
Proof.
move=> hx hy; pose dt (v w : mval R n) : mval R n := opv (two := two) (m := m) MDot v w.
have E : nab l (dt x y) = dt (nab l x) y + dt x (nab l y) := nab_op par mk lec sh sy rooted u gs mkd MDot l x y.
have dtE v w : homog 1 v -> homog 1 w -> dt v w = gf v w *: bl R set0 := fun hv hw => vec_dot (ga_metric two a) hv hw.
have hn z : homog 1 z -> homog 1 (nab l z) by apply: (homog_nabla two (der _)).
move: E; rewrite (dtE _ _ hx hy) (dtE _ _ (hn _ hx) hy) (dtE _ _ hx (hn _ hy)).
rewrite /Diff_Proof.nab (nablaZ two (der _)) (nabla_one two (der _)) scaler0 addr0 -scalerDl => /ffunP/(_ set0).
by rewrite !scale_coef bl_coef eqxx !mulr1.
Qed.
Lemma gf_dir A X Y dX_ dY : vector a X -> vector a Y -> dir_field me m dga A X = Some dX_ -> dir_field me m dga A Y = Some dY ->
  dir_fun me m A (gf (mvv X) (mvv Y)) = gf (mvv dX_) (mvv Y) + gf (mvv X) (mvv dY).
Proof.
move=> vX vY; have [d -> [_ vd]] := dir_fieldP A (vector_field vX); have [d' -> [_ vd']] := dir_fieldP A (vector_field vY).
move=> [<-] [<-]; rewrite vd vd' [X in _ = X + _]gf_sym !(@gform_sumr R two a) -big_split /=; apply: eq_bigr => l _.
have [_ _ _ hX] := vectorP two vX; have [_ _ _ hY] := vectorP two vY.
by rewrite gf_nab // mulrDr [gf (mvv Y) _]gf_sym.
Qed.
(* the tensor of a vector field V, X |-> V.X: its covariant derivative is (A.grad) V . X *)
Theorem C64_vector_partial h slots V : quiet me m dga h (ds_init dga) -> vector a V -> is_vector a V = Some true ->
  exists T T', [/\ (mlt_of_vector a V slots).2 = Some T,
    ((mlt_cderiv me m dga T (mlt_of_vector a V slots).1).2 (history me m dga h (ds_init dga))).2 = Some T' &
    forall slots' A X, (1 < slots')%N -> vector a A -> vector a X -> exists dV d,
      [/\ dir_field me m dga A V = Some dV, run a (dV ||. X) = Some d & value_at a slots' T' [:: X; A] = Some (mv_scalar d)]].
Proof.
move=> q vV iV; have [T ET [tT nT vT]] := C33_vector_partial two wf u ort slots vV iV.
have [T' [E' tT' nT' sT' pr]] := C64_product_rule_partial (mlt_of_vector a V slots).1 q tT.
exists T, T'; split=> // sl A X ls vA vX; rewrite nT in nT' sT' pr.
have [dV EdV [fdV _]] := dir_fieldP A (vector_field vV); have vdV := dir_vector vV EdV.
have [d Ed dE] := scalar_dot two wf vdV vX; exists dV, d; split=> //.
have vXA : all (vector a) [:: X; A] by rewrite /= vX vA.
have -> : value_at a sl T' [:: X; A] = value_at a (mlt_cderiv me m dga T (mlt_of_vector a V slots).1).1 T' [:: X; A].
  by rewrite !(value_atP two wf u tT') ?nT'.
have vX1 : all (vector a) [:: X] by rewrite /= vX.
have [v [dBs [ws [Ev EdB Ew ->]]]] := pr A [:: X] vA vX1 erefl; congr Some.
have [dX_ EdX _] := dir_fieldP A (vector_field vX); have vdX := dir_vector vX EdX.
move: EdB Ew; rewrite /= EdX /= => -[<-] /=.
set sc := (mlt_cderiv _ _ _ _ _).1 in Ev sT' * .
have ls' : (0 < sc)%N by apply: leq_trans sT'.
have [e1 E1 V1] := vT sc X ls' vX; have [e2 E2 V2] := vT sc dX_ ls' vdX.
rewrite V2 /= => -[<-]; rewrite big_seq1; move: Ev; rewrite V1 => -[<-].
have [e1' E1' s1] := scalar_dot two wf vV vX; have [e2' E2' s2] := scalar_dot two wf vV vdX.
move: E1 E2; rewrite /= E1' E2' => -[<-] [<-].
by rewrite s1 s2 (gf_dir vV vX EdV EdX) addrK dE.
Qed.
(* the metric tensor, as a component expression: its covariant derivative is zero *)
Definition metric_tensor : mlt R := Mlt 2 [seq (ment (m_g m) i i, [:: (0, i); (1, i)]%N) | i <- iota 0 n].
Lemma metric_tensor_value slots X Y : (1 < slots)%N -> vector a X -> vector a Y ->
  tensor a metric_tensor /\ value_at a slots metric_tensor [:: X; Y] = Some (gf (mvv X) (mvv Y)).
Proof.
move=> ls vX vY; have tT : tensor a metric_tensor.
  by rewrite /tensor /= all_map; apply/allP => i; rewrite mem_iota /= => ->.
split=> //; rewrite (value_atP two wf u) //= ?vX ?vY // /r_factor ort expr1n mul1r; congr Some.
rewrite big_map sum_iota /gform; apply: eq_bigr => i _; rewrite /= big_cons big_seq1 /=.
rewrite (bigD1 i) //= [X in _ + X]big1 => [|j ji].
  rewrite addr0 (xcoefE two (a := a) i vX) (xcoefE two (a := a) i vY) mulrC; congr (_ * _).
  by rewrite -[RHS]/(geff a i i) geffxx.
by have := @ortho_geff R a wf ort i j; rewrite eq_sym val_eqE ji => /(_ isT) E; rewrite -[X in _ * X]/(geff a i j) E mulr0.
Qed.
Theorem C64_metric_partial h slots : quiet me m dga h (ds_init dga) ->
  exists2 T', ((mlt_cderiv me m dga metric_tensor slots).2 (history me m dga h (ds_init dga))).2 = Some T' &
    forall slots' X Y A, (2 < slots')%N -> vector a X -> vector a Y -> vector a A -> value_at a slots' T' [:: X; Y; A] = Some 0.
Proof.
move=> q; have tT : tensor a metric_tensor by rewrite /tensor /= all_map; apply/allP => i; rewrite mem_iota /= => ->.
have [T' [E' tT' nT' sT' pr]] := C64_product_rule_partial slots q tT; exists T' => // sl X Y A ls vX vY vA.
rewrite [ml_nargs _]/= in nT' sT' pr.
set sc := (mlt_cderiv _ _ _ _ _).1 in sT' pr * .
have -> : value_at a sl T' [:: X; Y; A] = value_at a sc T' [:: X; Y; A].
  by rewrite !(value_atP two wf u tT') ?nT' //= ?vX ?vY ?vA.
have vXY : all (vector a) [:: X; Y] by rewrite /= vX vY.
have [v [dBs [ws [Ev EdB Ew ->]]]] := pr A [:: X; Y] vA vXY erefl; congr Some.
have [dX_ EdX _] := dir_fieldP A (vector_field vX); have vdX := dir_vector vX EdX.
have [dY EdY _] := dir_fieldP A (vector_field vY); have vdY := dir_vector vY EdY.
have ls' : (1 < sc)%N by apply: ltnW.
move: EdB Ew; rewrite /= EdX EdY /= => -[<-] /=.
have [_ ->] := metric_tensor_value ls' vdX vY; have [_ ->] := metric_tensor_value ls' vX vdY => /= -[<-].
move: Ev; have [_ ->] := metric_tensor_value ls' vX vY => -[<-].
by rewrite (gf_dir vX vY EdX EdY) big_cons big_seq1 subrr.
Qed.
End Props.
Print Assumptions C64_scalar.
Print Assumptions C64_value.
Print Assumptions C73_value.
Print Assumptions C73_scalar.
Print Assumptions C73_product_rule_partial.
Print Assumptions C73_constant_partial.
Print Assumptions C73_cderiv.
Print Assumptions C64_product_rule_partial.
Print Assumptions C64_vector_partial.
Print Assumptions C64_metric_partial.

(* plane polar coordinates, with the orthogonal or the normalised basis, meet the hypotheses;
   the basis is not constant, and r e_theta is a vector field *)
Section Case.
Notation F := [comUnitRingType of ratfun].
Notation e0 := (rf_env (fun _ _ => 0)).
Example C64_case norm : exists dga, [/\ make_diff_ga e0 None (polar_m norm) = Some dga, dg_connect dga,
  is_ortho (metric_ga (polar_m norm)), tensor (metric_ga (polar_m norm)) (metric_tensor (polar_m norm)) &
  exists V, [/\ run (metric_ga (polar_m norm)) (rf_x ##. Val (basis_mv F 1)) = Some V, vector (metric_ga (polar_m norm)) V &
    is_vector (metric_ga (polar_m norm)) V = Some true]].
Proof.
have [dga [E _ _ _ c]] := C37_case norm; exists dga.
have o : is_ortho (metric_ga (polar_m norm)) by case: norm {E c}; rewrite /is_ortho /= /gij /= eqxx.
split=> //.
exists (Mv [:: (rf_x, mk_blade [:: 1%N])] true); split.
- by rewrite /= /mv_scale /mk_mv /= /canon /= mulr1 (negbTE rf_x_neq0).
- by rewrite /vector /plain /mv_valid /= /canonical /= rf_x_neq0.
rewrite /is_vector /ga_grades /base_to_blade_rep o.
have cE : canon [:: (rf_x : F, mk_blade [:: 1%N])] = [:: (rf_x, mk_blade [:: 1%N])] by rewrite /canon /= (negbTE rf_x_neq0).
by rewrite -[obj _]/([:: (rf_x : F, mk_blade [:: 1%N])]); cbv beta iota zeta delta [obnd]; rewrite cE.
Qed.
(* the plane with e0.e0 = 1, e0.e1 = 1, e1.e1 = 2 and constant metric *)
Definition obl_g : seq (seq F) := [:: [:: 1; 1]; [:: 1; 2%:R]].
Definition obl_m : metric F := Metric 2 (Some 2%N) obl_g obl_g false None.
Lemma obl_mk : make_metric e0 2 (Some 2%N) (GMatrix obl_g) false = Some obl_m.
Proof. by rewrite /make_metric /= /ortho_test /= oner_eq0. Qed.
Lemma obl_det : \det (metric_mx (metric_ga obl_m)) = 1.
Proof.
rewrite (expand_det_row _ 0) !big_ord_recl big_ord0 /cofactor !det_mx11 !mxE /geff /gij /=.
by rewrite /ment /= !mul1r expr1 addr0 mulr1 addrK.
Qed.
(* finding: lt.py Mlt.cderiv -- in an oblique frame the covariant derivative of a scalar field is not
   its directional derivative: for the field x in the plane with e0.e0 = 1, e0.e1 = 1, e1.e1 = 2 the
   value of cderiv() on e0 is -1, where (e0 . grad) x = 1 *)
Theorem C64_oblique_refuted : exists dga T T' A, [/\ make_diff_ga e0 None obl_m = Some dga,
  tensor (metric_ga obl_m) T && vector (metric_ga obl_m) A, value_at (metric_ga obl_m) 1 T [::] = Some rf_x,
  ((mlt_cderiv e0 obl_m dga T 0).2 (ds_init dga)).2 = Some T' &
  [/\ dir_fun e0 obl_m A rf_x = 1, value_at (metric_ga obl_m) 1 T' [:: A] = Some (-1) & (-1 : F) != 1]].
Proof.
have par : partials (me_diff e0) := rf_partials.
have der k : derivation (me_diff e0 k) by case: par.
have u : \det (metric_mx (metric_ga obl_m)) \is a GRing.unit by rewrite obl_det unitr1.
have u' : gmat (metric_ga obl_m) \in unitmx by rewrite unitmxE.
have sh : shape 2 2 (m_graw obl_m) by [].
have sy : symmetric_mx (mx 2 2 (m_graw obl_m)).
  by apply/matrixP=> i j; rewrite !mxE; case: i j => [[|[|i]] li] [[|[|j]] lj].
have rt : false -> forall i : 'I_2, let x := mx 2 2 (m_graw obl_m) i i in me_root e0 x ^+ 2 = x \/ me_root e0 x ^+ 2 = - x by [].
have [dga E _] := @make_diffP _ rf_two e0 2 _ false obl_m None der obl_mk (leqnn 2) sh sy u' I rt.
pose T : mlt F := Mlt 0 [:: (rf_x, [::])].
have [T' [ET _ _ vT]] := @C64_scalar _ rf_two e0 2 _ false obl_m None dga par obl_mk (leqnn 2) sh sy rt u I E [::] 0%N T I isT erefl.
have vA : vector (metric_ga obl_m) (Mv [:: (1, mk_blade [:: 0%N])] true).
  by rewrite /vector /plain /mv_valid /= /canonical /= oner_eq0.
exists dga, T, T', (Mv [:: (1, mk_blade [:: 0%N])] true).
have [v Ev EV] := vT 1%N _ isT vA.
have vx : v = rf_x.
  have wf : wf_ga (metric_ga obl_m) := @m_wf _ e0 2 _ false obl_m obl_mk sh.
  by move: Ev; rewrite (value_atP rf_two wf u) // expr0 mul1r big_seq1 big_nil mulr1 => -[<-].
have dE : dir_fun e0 obl_m (Mv [:: (1, mk_blade [:: 0%N])] true) rf_x = 1.
  have D1 : rf_diff (bump 0 0) rf_x = 0 by [].
  have c0 : coefficient [:: (1 : F, [:: (false, [:: 0%N])])] [:: (false, [:: 0%N])] = 1 by rewrite /coefficient big_mkcond big_seq1.
  by rewrite /dir_fun big_ord_recl big_ord1 /along /= /norm_factor /= invr1 !mulr1 D1 mulr0 addr0 c0 mul1r; exact: rf_diff_x.
split=> //; first by rewrite Ev vx.
split=> //; last by rewrite eq_sym -subr_eq0 opprK -[_ + _]/(2%:R : F) -unitfE rf_two.
rewrite EV vx dE mulr1 /r_factor /e_squared obl_det.
have -> : is_ortho (metric_ga obl_m) = false by rewrite /is_ortho /= /gij /ment /= oner_eq0.
by rewrite /= expr1 mulr1.
Qed.
(* the Euclidean plane with the tensor x a_1__0, whose coefficient depends on x, meets the hypotheses of
   C73; so does the polar frame of C64_case with metric_tensor, except those of C73_cderiv *)
Definition euc_g : seq (seq F) := [:: [:: 1; 0]; [:: 0; 1]].
Definition euc_m : metric F := Metric 2 (Some 2%N) euc_g euc_g true None.
Definition case_field : mlt F := Mlt 1 [:: (rf_x, [:: (0, 0)%N])].
Example C73_case : exists dga, [/\ make_metric e0 2 (Some 2%N) (GMatrix euc_g) false = Some euc_m,
  \det (metric_mx (metric_ga euc_m)) = 1, make_diff_ga e0 None euc_m = Some dga,
  is_ortho (metric_ga euc_m) && tensor (metric_ga euc_m) case_field &
  [/\ forall i j k : 'I_2, me_diff e0 k (mx 2 2 (m_graw euc_m) i j) = 0,
      vector (metric_ga euc_m) (Mv [:: (1, mk_blade [:: 0%N])] true),
      constant_components e0 euc_m (Mv [:: (1, mk_blade [:: 0%N])] true) & me_diff e0 0 rf_x = 1]].
Proof.
have der k : derivation (me_diff e0 k) by case: (rf_partials).
have d0 k : me_diff e0 k 0 = 0 by exact: drv0.
have d1 k : me_diff e0 k 1 = 0 by exact: drv1.
have mk : make_metric e0 2 (Some 2%N) (GMatrix euc_g) false = Some euc_m by rewrite /make_metric /= /ortho_test /= eqxx.
have gE : metric_mx (metric_ga euc_m) = 1%:M.
  by apply/matrixP=> -[[|[|i]] li] -[[|[|j]] lj]; rewrite !mxE.
have sh : shape 2 2 (m_graw euc_m) by [].
have sy : symmetric_mx (mx 2 2 (m_graw euc_m)).
  by apply/matrixP=> i j; rewrite !mxE; case: i j => [[|[|i]] li] [[|[|j]] lj].
have u' : gmat (metric_ga euc_m) \in unitmx by rewrite unitmxE -[gmat _]/(metric_mx (metric_ga euc_m)) gE det1 unitr1.
have rt : false -> forall i : 'I_2, let x := mx 2 2 (m_graw euc_m) i i in me_root e0 x ^+ 2 = x \/ me_root e0 x ^+ 2 = - x by [].
have [dga E _] := @make_diffP _ rf_two e0 2 _ false euc_m None der mk (leqnn 2) sh sy u' I rt.
exists dga; split=> //; first by rewrite gE det1.
  by rewrite /is_ortho /= /gij /ment /= eqxx.
split.
- by case=> [[|[|i]] li] [[|[|j]] lj] k //; rewrite mxE; (exact: d0 || exact: d1).
- by rewrite /vector /plain /mv_valid /= /canonical /= oner_eq0.
- by move=> j l _ _; rewrite /coefficient big_mkcond big_seq1; case: ifP => _; (exact: d0 || exact: d1).
exact: rf_diff_x.
Qed.
End Case.
Print Assumptions C64_oblique_refuted.
