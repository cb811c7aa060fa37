(* Props_Dual.v -- properties C17, C18, C25, C26, C54: pseudoscalar, duality,
   reciprocal vectors, cross product.

   Notation of Props_Mv.v.  The metric enters as geff a i j = e_i . e_j. *)
From mathcomp Require Import all_ssreflect all_algebra.
From Coq Require Import String Ascii.
From Verif Require Import NatTac AlgTactics Exterior Clifford Blades Spec_Grade Grades GradeLaws.
From Verif Require Import Spec_Index PyBase Ga_Model Ga_Proof_Tables Ga_Proof_Sort Ga_Proof_Sem Ga_Proof_Reduce.
From Verif Require Import Ga_Sem Ga_Proof_Rep Ga_Proof_Conv Ga_Proof_Mul Spec_Clifford Clifford_Unique Spec_Mv Ga_Proof_Den Ga_Proof_Wedge Ga_Proof_Inner.
From Verif Require Import Ga_Proof_Grade Det Mv_Model Mv_Proof Mv_Expr Mv_Proof_Expr Props_Mv Dual_Model Dual_Proof.
Set Implicit Arguments.
Unset Strict Implicit.
Unset Printing Implicit Defensive.
Import GRing.Theory.
Local Open Scope ring_scope.
Open Scope py_scope.

(* ---- specification ---- *)
Section Spec.
Variables (R : comUnitRingType) (a : ga R).
Notation n := (ga_n a).
(* the matrix of the metric and (-1)^(n(n-1)/2) times its determinant *)
Definition metric_mx : 'M[R]_n := \matrix_(i, j) geff a i j.
Definition e_squared : R := (-1) ^+ (n * (n - 1))./2 * \det metric_mx.
(* the basis vector e_i as an object *)
Definition basis_mv (i : nat) : mv R := Mv [:: (1, mk_blade [:: i])] true.
(* the symbolic determinant option declares nothing or the determinant *)
Definition det_declared (gsym : option R) : Prop := if gsym is Some d then d = \det metric_mx else True.
(* the documented table of dual modes (ga.py:583-594) *)
Definition documented_dual (mode : string) (I Iinv : mv R) (X : py R) : option (py R) :=
  (if String.eqb mode "+I" then Some (I *. X) else
   if String.eqb mode "-I" then Some (Neg (I *. X)) else
   if String.eqb mode "I+" then Some (X *. I) else
   if String.eqb mode "I-" then Some (Neg (X *. I)) else
   if String.eqb mode "+Iinv" then Some (Iinv *. X) else
   if String.eqb mode "-Iinv" then Some (Neg (Iinv *. X)) else
   if String.eqb mode "Iinv+" then Some (X *. Iinv) else
   if String.eqb mode "Iinv-" then Some (Neg (X *. Iinv)) else None).
End Spec.

Lemma bivector_square (R : comUnitRingType) (A : algType R) (x y : A) (d qx qy : R) :
  y * x = (d *+ 2) *: 1 - x * y -> x * x = qx *: 1 -> y * y = qy *: 1 ->
  (x * y - d *: 1) * (x * y - d *: 1) = (d ^+ 2 - qx * qy) *: 1.
Proof.
move=> yx xx yy; have E : x * y * (x * y) = (d *+ 2) *: (x * y) - (qx * qy) *: 1.
  rewrite mulrA -(mulrA x y x) yx mulrBr mulrBl -scalerAr mulr1 -scalerAl; congr (_ - _).
  by rewrite mulrA xx -scalerAl mul1r -scalerAl yy scalerA.
rewrite mulrBr !mulrBl E -!scalerAl -!scalerAr !mul1r !mulr1 scalerA mulr2n -expr2.
by lmod R.
Qed.

Section Props.
Variables (R : comUnitRingType) (two : (2%:R : R) \is a GRing.unit) (a : ga R).
Hypothesis wf : wf_ga a.
Notation n := (ga_n a).
Notation C := (cl two a).
Notation g := (ga_metric two a).
Notation mvv := (mvv two a).
Implicit Types (p q : py R) (X Y Z : mv R) (c s : R) (sy : scalar_env R).
Let cm : mval R n -> mval R n -> mval R n := cmul g.
Let Hc : is_clifford_product (fun i j : 'I_n => geff a i j) cm := clifford_product_exists g.
Let law p q : legal a p -> legal a q -> sem cm p = sem cm q -> run_eq a p q = Some true.
Proof. exact: (run_law two wf Hc). Qed.
Let VE X : mv_ok a X -> den cm (obj X) = mvv X. Proof. exact: den_ok. Qed.
Let cmE (x y : mval R n) : cm x y = (x : C) * (y : C). Proof. by []. Qed.

Lemma basis_ok (i : 'I_n) : [/\ mv_ok a (basis_mv R i), mvv (basis_mv R i) = bl R [set i], bladed a (basis_mv R i) & is_vec a (basis_mv R i)].
Proof.
have wI : wfI n [:: val i] by rewrite /wfI /= ltn_ord.
have bI : blade_expr n (obj (basis_mv R i)) by rewrite /blade_expr /words all_seq1 inE mk_blade_in.
split.
- by rewrite /mv_ok /= [blade_expr _ _]bI andbT /canonical /= oner_eq0.
- rewrite /Mv_Proof.mvv value_term // scale1r; congr bl; apply/setP => j.
  by rewrite !inE (inj_eq val_inj).
- by [].
- by rewrite /is_vec /= andbT; apply/mapP; exists (val i); rewrite ?mem_iota /= ?add0n ?ltn_ord.
Qed.

(* ---- C17 ---- *)
(* the pseudoscalar is the outer product of the basis vectors *)
Theorem C17_pseudoscalar : mv_valid a (ga_e a) /\
  run_eq a (ga_e a) (wedge_all [seq basis_mv R i | i <- iota 0 n]) = Some true.
Proof.
have [oe ve be _] := ga_eP two a; split; first by rewrite mv_validE.
have lb : all (mv_valid a) [seq basis_mv R i | i <- iota 0 n].
  rewrite all_map; apply/allP => i; rewrite mem_iota /= add0n => lt.
  by rewrite mv_validE; case: (basis_ok (Ordinal lt)).
apply: law; [by rewrite /= mv_validE|exact: legal_wedge_all|].
have -> : sem cm (wedge_all [seq basis_mv R i | i <- iota 0 n]) = wedges [seq bl R [set i] | i <- enum 'I_n].
  rewrite -val_enum_ord; elim: (enum 'I_n) => [|i l IH] /=; first by rewrite /num scale1r.
  by have [o v _ _] := basis_ok i; rewrite IH /wedges /= -v -(VE o).
rewrite -[LHS]/(den cm (obj (ga_e a))) (VE oe) ve; have := wedges_det two (1%:M : 'M[R]_n); rewrite det1 scale1r => <-.
congr wedges; apply: eq_map => i; rewrite (bigD1 i) //= big1 ?addr0 => [|j ji]; first by rewrite mxE eqxx scale1r.
by rewrite mxE eq_sym (negbTE ji) scale0r.
Qed.
(* e*e is (-1)^(n(n-1)/2) det g *)
Theorem C17_square : run_eq a (ga_e a *. ga_e a) (Num (e_squared a)) = Some true /\
  ga_e_sq None a = Some (e_squared a).
Proof.
have [oe ve be _] := ga_eP two a; split; last exact: (ga_e_sqP two wf).
apply: law => //; first by rewrite /legal mv_validE oe.
by rewrite -[LHS]/(cm (den cm (obj (ga_e a))) (den cm (obj (ga_e a)))) (VE oe) ve /= /num [LHS]ps_sqC.
Qed.
Theorem C17_square_symbolic d : ga_e_sq (Some d) a = Some ((-1) ^+ (n * (n - 1))./2 * d).
Proof. by []. Qed.

(* the sign of e*e as the code decides it *)
Definition i_positive sy (isq : bool) : bool :=
  if sy_number sy (e_squared a) then sy_pos sy (e_squared a) else isq.
Definition i_square sy isq : R := if i_positive sy isq then 1 else -1.
(* the square root is a square root where it is used *)
Definition sqrt_correct sy isq : Prop :=
  sy_sqrt sy (i_square sy isq * e_squared a) ^+ 2 = i_square sy isq * e_squared a.
Let iP gsym sy isq I J : det_declared a gsym -> sqrt_correct sy isq -> ga_i sy gsym isq a = Some (I, J) ->
  exists c, [/\ mvv I = c *: bl R setT, mvv J = (i_square sy isq * c) *: bl R setT,
    c ^+ 2 * e_squared a = i_square sy isq,
    mv_ok a I /\ mv_ok a J & bladed a I /\ bladed a J].
Proof.
move=> dd sq E; have es : ga_e_sq gsym a = Some (esq a) by apply: (ga_e_sqE two wf).
have [c [c1 vI vJ oIJ bIJ]] := ga_iP two es E; exists c; split=> //.
rewrite -[esq a]/(e_squared a) -[sgn_of R _]/(i_square sy isq) in c1.
have := congr1 (fun x => c ^+ 2 * x) sq; rewrite -exprMn c1 expr1n => E1.
have s1 : i_square sy isq * i_square sy isq = 1 by rewrite /i_square; case: ifP; rewrite ?mulr1 ?mulrNN ?mulr1.
by rewrite -[LHS]mul1r -s1 -mulrA [X in _ * X]mulrCA -E1 mulr1.
Qed.
Let sq_i sy isq : i_square sy isq * i_square sy isq = 1.
Proof. by rewrite /i_square; case: ifP; rewrite ?mulr1 ?mulrNN ?mulr1. Qed.

Theorem C17_unit_pseudoscalar sy gsym isq I J :
  det_declared a gsym -> sqrt_correct sy isq -> ga_i sy gsym isq a = Some (I, J) ->
  [/\ mv_valid a I, mv_valid a J,
      run_eq a (I *. I) (Num (if i_positive sy isq then 1 else -1)) = Some true,
      run_eq a (I *. J) (Num 1) = Some true & run_eq a (J *. I) (Num 1) = Some true].
Proof.
move=> dd sq E; have [c [vI vJ ce [oI oJ] _]] := iP dd sq E.
have mm (u v : R) : cm (u *: bl R setT) (v *: bl R setT) = (u * v * e_squared a) *: bl R set0.
  by rewrite cmE -scalerAl -scalerAr scalerA [(_ : C) * _]ps_sqC scalerA.
have c2 : c * c * e_squared a = i_square sy isq by rewrite -expr2.
split; rewrite ?mv_validE //; apply: law; rewrite /= ?mv_validE ?oI ?oJ //= !VE // ?vI ?vJ mm /num.
- by rewrite c2.
- by rewrite [c * (_ * _)]mulrCA -!mulrA [c * (c * _)]mulrA c2 sq_i.
- by rewrite -!mulrA [c * (c * _)]mulrA c2 sq_i.
Qed.
Theorem C17_defined sy gsym isq : det_declared a gsym ->
  sy_sqrt sy (i_square sy isq * e_squared a) \is a GRing.unit ->
  exists I J, ga_i sy gsym isq a = Some (I, J).
Proof.
move=> dd u; have es : ga_e_sq gsym a = Some (esq a) by apply: (ga_e_sqE two wf).
exact: (ga_i_total es u).
Qed.
(* a degenerate metric has no unit pseudoscalar *)
Theorem C17_degenerate sy isq : e_squared a = 0 -> sy_sqrt sy 0 = 0 -> ga_i sy None isq a = None.
Proof.
move=> e0 s0; rewrite /ga_i (ga_e_sqP two wf) -[esq a]/(e_squared a) e0 /= oppr0 s0.
by rewrite /mv_divc /sinv unitr0; case: ifP; case: ifP.
Qed.

(* ---- C18 ---- *)
Theorem C18_documented mode I J X p : mv_valid a I -> mv_valid a J -> mv_valid a X ->
  documented_dual mode I J X = Some p ->
  set_dual_mode mode = Some mode /\ run_eq a (dual_prog mode (I, J) X) p = Some true.
Proof.
move=> vI vJ vX; rewrite /documented_dual.
have st m : has (String.eqb m) dual_mode_lst -> set_dual_mode m = Some m by rewrite /set_dual_mode => ->.
do ![case: String.eqb_spec => [->|_]; first by
  (move=> [<-]; split; first exact: st);
  apply: law; rewrite /= ?vI ?vJ ?vX ?scale1r ?scaleN1r //; rewrite ?cmE ?mulNr].
by [].
Qed.
Theorem C18_rejected mode I J X : documented_dual mode I J X = None -> set_dual_mode mode = None.
Proof.
rewrite /documented_dual /set_dual_mode /dual_mode_lst /=.
by do ![case: String.eqb_spec => [->|_]; first by []].
Qed.
Let dualE mode I J c e X : mvv I = c *: bl R setT -> mvv J = (e * c) *: bl R setT -> e * e = 1 ->
  mv_ok a I -> mv_ok a J -> set_dual_mode mode = Some mode ->
  exists2 k, k * k = c * c & forall p, sem cm (dual_prog mode (I, J) p) =
    if str_hd mode "+" || str_hd mode "-" then k *: ((bl R setT : C) * (sem cm p : C))
    else k *: ((sem cm p : C) * (bl R setT : C)).
Proof.
move=> vI vJ e2 oI oJ _.
exists ((if str_in "-" mode then -1 else 1) * (if str_in "Iinv" mode then e * c else c)).
  have cc : e * c * (e * c) = c * c by rewrite mulrACA e2 mul1r.
  by case: str_in; case: str_in; rewrite ?mulN1r ?mul1r ?mulrNN.
move=> p; rewrite /dual_prog; set sg : R := if _ then -1 else 1.
set K := if str_in "Iinv" mode then _ else _; set k := if str_in "Iinv" mode then _ else _.
have vK : den cm (obj K) = k *: bl R setT by rewrite /K /k; case: str_in; rewrite /= VE.
case: ifP => _ /=; rewrite vK cmE.
  by rewrite scalerA -scalerAl.
by rewrite -scalerAl -scalerAr scalerA.
Qed.
Let legal_dual mode I J p : mv_valid a I -> mv_valid a J -> legal a p -> legal a (dual_prog mode (I, J) p).
Proof. by move=> vI vJ lp; rewrite /dual_prog; case: ifP => _ /=; case: str_in; rewrite /= ?vI ?vJ ?lp. Qed.
Let inblade_dual mode I J p : bladed a I -> bladed a J -> inblade a p -> inblade a (dual_prog mode (I, J) p).
Proof. by move=> bI bJ lp; rewrite /dual_prog; case: ifP => _ //=; case: str_in. Qed.

Let psE : (bl R setT : C) * (bl R setT : C) = e_squared a *: (1 : C).
Proof. exact: ps_sqC. Qed.
Theorem C18_undual_dual sy gsym isq I J mode X :
  det_declared a gsym -> sqrt_correct sy isq -> ga_i sy gsym isq a = Some (I, J) ->
  set_dual_mode mode = Some mode -> mv_valid a X ->
  run_eq a (undual_prog mode (I, J) (dual_prog mode (I, J) X)) X = Some true /\
  run_eq a (dual_prog mode (I, J) (undual_prog mode (I, J) X)) X = Some true.
Proof.
move=> dd sq E sm vX; have [c [vI vJ ce [oI oJ] _]] := iP dd sq E.
have [mI mJ] : mv_valid a I /\ mv_valid a J by rewrite !mv_validE.
have [k k2 dE] := dualE X vI vJ (sq_i _ _) oI oJ sm.
have iE (y : mval R n) : cm (cm (cm (num a 1) (den cm (obj I))) (den cm (obj I))) y = i_square sy isq *: (y : C).
  rewrite /num scale1r !VE // vI !cmE mul1r -scalerAl -scalerAr scalerA psE scalerA.
  by rewrite -expr2 ce -scalerAl mul1r.
have kk (y : C) : k *: ((bl R setT : C) * (k *: ((bl R setT : C) * y))) = i_square sy isq *: y.
  by rewrite -scalerAr scalerA mulrA psE k2 -scalerAl mul1r scalerA -expr2 ce.
have kk' (y : C) : k *: ((k *: (y * (bl R setT : C))) * (bl R setT : C)) = i_square sy isq *: y.
  by rewrite -scalerAl scalerA -mulrA psE k2 -scalerAr mulr1 scalerA -expr2 ce.
have ss (y : C) : i_square sy isq *: (i_square sy isq *: y) = y by rewrite scalerA sq_i scale1r.
split; apply: law; rewrite ?legal_dual /= ?mI ?legal_dual //= ?iE ?dE /= ?iE.
  by case: (_ || _); [rewrite (kk (den cm (obj X)))|rewrite (kk' (den cm (obj X)))]; exact: ss.
rewrite dE; case: (_ || _).
  by rewrite -scalerAr scalerA mulrC -scalerA (kk (den cm (obj X))); exact: ss.
by rewrite -scalerAl scalerA mulrC -scalerA (kk' (den cm (obj X))); exact: ss.
Qed.
(* dual maps grade r to grade n - r *)
Theorem C18_grade sy gsym isq I J mode X r :
  det_declared a gsym -> sqrt_correct sy isq -> ga_i sy gsym isq a = Some (I, J) ->
  set_dual_mode mode = Some mode -> mv_valid a X -> blade_form a X ->
  run_eq a (Grade (dual_prog mode (I, J) (Grade X r)) (n - r)) (dual_prog mode (I, J) (Grade X r)) = Some true.
Proof.
move=> dd sq E sm vX bX; have [c [vI vJ ce [oI oJ] [bI bJ]]] := iP dd sq E.
have [mI mJ] : mv_valid a I /\ mv_valid a J by rewrite !mv_validE.
have [k k2 dE] := dualE X vI vJ (sq_i _ _) oI oJ sm.
have lX : legal a (Grade X r) by rewrite /= vX [_ || _]bX.
apply: law; rewrite /= ?legal_dual ?inblade_dual // dE.
have h : homog r (sem cm (Grade X r)) by rewrite /homog /= gpart_gpart eqxx.
by case: (_ || _); apply: homogZ; [exact: homog_psx|exact: homog_xps].
Qed.
Theorem C18_linear mode I J c X Y : mv_valid a I -> mv_valid a J -> mv_valid a X -> mv_valid a Y ->
  run_eq a (dual_prog mode (I, J) (c ##. X +. Y)) (c ##. dual_prog mode (I, J) X +. dual_prog mode (I, J) Y) = Some true.
Proof.
move=> vI vJ vX vY; apply: law; rewrite /= ?legal_dual //= ?vX ?vY //.
rewrite /dual_prog; case: (str_hd mode "+" || str_hd mode "-"); rewrite /= !cmE.
  by rewrite mulrDr -scalerAr.
by rewrite scalerDr mulrDl scalerA mulrC -scalerA -scalerAl.
Qed.

(* ---- C25 ---- *)
Lemma homog_vec X : blade_expr n (obj X) -> mv_ok a X -> homog 1 (mvv X) -> is_vec a X.
Proof.
move=> bX oX hX; apply/allP => t tX; have [K wK E] := blade_mem bX tX.
have u := (andP (proj1 (andP oX))).1.
have cE : (mvv X : mval R n) (set_of n K) = t.1.
  by rewrite -(coef_value two bX wK) -E; exact: coef_uniq.
have : #|set_of n K| = 1%N.
  apply/eqP; apply: contraT => n1; move: cE; rewrite -hX ffunE (negbTE n1) => /esym/eqP.
  by have /allP/(_ _ tX)/negbTE -> := (andP (proj1 (andP oX))).2.
rewrite card_set_of // => /eqP; case: K wK E {cE} => [|k [|? ?]] // wK E _.
rewrite E; apply/mapP; exists k => //; rewrite mem_iota /= add0n.
by move: wK => /andP[_] /= /andP[].
Qed.
(* the reciprocal basis exists, consists of vectors, and e_j . e^i is delta_ij;
   in a non-orthogonal algebra the list is scaled by e_squared, as documented *)
Definition r_factor : R := if is_ortho a then 1 else e_squared a.
Theorem C25_reciprocal_basis : \det (metric_mx a) \is a GRing.unit ->
  exists rs, [/\ r_basis_mv a = Some rs, size rs = n, r_factor \is a GRing.unit &
    forall i j, (i < n)%N -> (j < n)%N ->
      let ri := nth (mv_const a 0) rs i in
      [/\ mv_valid a ri, is_vec a ri &
       run_eq a (basis_mv R j ||. ri) (Num (if i == j then r_factor else 0)) = Some true]].
Proof.
move=> u; have u' : gmat a \in unitmx by rewrite unitmxE.
have [rs E [sz h]] := r_basis_unit two wf u'; exists [seq mk_mv a r | r <- rs].
split; rewrite ?size_map //; first by rewrite /r_basis_mv E.
  exact: r_scale_unit.
move=> i j lt lj ri; rewrite /ri (nth_map [::]) ?sz //.
have [/= br hr dr] := h (Ordinal lt); set r := nth _ _ _ in br hr dr * .
have okr : mv_ok a (mk_mv a r) := mk_mv_blade br.
have vr : mvv (mk_mv a r) = value two a r by rewrite mvv_mk.
have [ob vb _ isb] := basis_ok (Ordinal lj); rewrite /= in ob vb isb.
split; first by rewrite mv_validE.
  by apply: homog_vec => //; [exact: blade_canon|rewrite vr].
have hb : homog 1 (bl R [set Ordinal lj]) by have := @homog_bl R n [set Ordinal lj]; rewrite cards1.
apply: law; rewrite /legal ?mv_validE ?ob ?okr //.
rewrite -[LHS]/(selprod cm hestenes_grade (den cm (obj (basis_mv R j))) (den cm (obj (mk_mv a r)))).
rewrite !VE // vb vr (vec_dot g hb hr) dr /= /num; congr (_ *: _).
rewrite eq_sym -[_ == _]/(i == j); case: eqP => _; rewrite ?mul1r ?mul0r //.
Qed.
(* g_inv is the inverse matrix of the metric *)
Theorem C25_inverse_metric gsym : \det (metric_mx a) \is a GRing.unit -> det_declared a gsym ->
  exists m, [/\ g_inv gsym a = Some m,
     metric_mx a *m (\matrix_(i < n, j < n) nth 0 (nth [::] m i) j) = 1%:M &
     (\matrix_(i < n, j < n) nth 0 (nth [::] m i) j) *m metric_mx a = 1%:M].
Proof.
move=> u dd; have u' : gmat a \in unitmx by rewrite unitmxE.
pose f i j := if insub i is Some i' then if insub j is Some j' then invmx (gmat a) i' j' else 0 else 0.
pose m := [seq [seq f i j | j <- iota 0 n] | i <- iota 0 n].
have Em : (\matrix_(i < n, j < n) nth 0 (nth [::] m i) j) = invmx (gmat a).
  apply/matrixP => i j; rewrite mxE (nth_map 0%N) ?size_iota // (nth_map 0%N) ?size_iota //.
  by rewrite !nth_iota // !add0n /f !valK.
exists m; rewrite Em; split; last exact: mulVmx; last exact: mulmxV.
apply: omapM_some => i; rewrite mem_iota /= add0n => lt.
apply: omapM_some => j; rewrite mem_iota /= add0n => lj.
rewrite /f (insubT (fun k => k < n)%N lt) (insubT (fun k => k < n)%N lj) /=.
exact: (@g_inv_entryP _ two a wf gsym (Ordinal lt) (Ordinal lj)).
Qed.

(* ---- C26 ---- *)
(* Gram matrix of a list of vectors, (a|b) being the metric form of C08 *)
Definition gram_mx (bs : seq (mv R)) : 'M[R]_(size bs) :=
  \matrix_(i, j) @metric_form R a (mv_of n (obj (nth (mv_const a 0) bs i))) (mv_of n (obj (nth (mv_const a 0) bs j))).
Definition frame_square (bs : seq (mv R)) : R :=
  (-1) ^+ (size bs * (size bs - 1))./2 * \det (gram_mx bs).
Definition frame (bs : seq (mv R)) := all (fun X => [&& mv_valid a X, blade_form a X & is_vec a X]) bs.

Section Frame.
Variable bs : seq (mv R).
Hypothesis fr : frame bs.
Notation v0 := (mv_const a 0).
Let vi (i : 'I_(size bs)) : mval R n := den cm (obj (nth v0 bs i)).
Let fok : all (fun X => mv_ok a X && bladed a X) bs.
Proof. by apply: sub_all fr => X /and3P[]; rewrite mv_validE => -> bX _. Qed.
Let fi (i : 'I_(size bs)) : [/\ mv_valid a (nth v0 bs i), blade_form a (nth v0 bs i) & is_vec a (nth v0 bs i)].
Proof. by have /all_nthP/(_ i (ltn_ord i))/and3P := fr; apply. Qed.
Let fh i : homog 1 (vi i).
Proof. by have [v b s] := fi i; exact: (@vec_homog _ two a _ v s). Qed.
Let viE i : vi i = mv_of n (obj (nth v0 bs i)).
Proof.
have [v b s] := fi i; rewrite /vi VE -?mv_validE // /Mv_Proof.mvv (value_mv_of two) //.
by apply: bladed_blade => //; rewrite -mv_validE.
Qed.
Let gdE : @gram_det R two a bs = frame_square bs.
Proof.
rewrite /gram_det /frame_square; congr (_ * \det _); apply/matrixP => i j; rewrite !mxE.
by rewrite -!viE.
Qed.

Theorem C26_square : run_eq a (frame_wedge bs *. frame_wedge bs) (Num (frame_square bs)) = Some true.
Proof.
apply: law => //=; first by rewrite legal_frame //; apply: sub_all fr => X /and3P[].
have := frame_sq fh; rewrite gdE; exact.
Qed.
Let recs : exists2 rs, omapM (fun i => run a (frame_rec bs i)) (iota 0 (size bs)) = Some rs &
  size rs = size bs /\ forall i : 'I_(size bs), [/\ mv_ok a (nth v0 rs i), bladed a (nth v0 rs i),
    homog 1 (mvv (nth v0 rs i)) & forall j, gform g (vi j) (mvv (nth v0 rs i)) = (j == i)%:R * frame_square bs].
Proof.
pose f i := if run a (frame_rec bs i) is Some Z then Z else v0.
exists (map f (iota 0 (size bs))).
  apply: omapM_some => i; rewrite mem_iota /= add0n => lt; rewrite /f.
  by have [Z /= EZ _] := frame_recP wf fok fh (Ordinal lt); rewrite EZ.
rewrite size_map size_iota; split=> // i; rewrite (nth_map 0%N) ?size_iota // nth_iota // add0n /f.
by have [Z -> [oZ bZ hZ dZ]] := frame_recP wf fok fh i; split=> // j; rewrite -gdE; exact: dZ.
Qed.
Let E_sq : frame_E_sq a bs = Some (frame_square bs).
Proof. by rewrite (frame_E_sqP wf fok fh) gdE. Qed.
Let dotE i (j : 'I_(size bs)) Z c : mv_ok a Z -> homog 1 (mvv Z) -> gform g (vi j) (mvv Z) = (j == i)%:R * c ->
  run_eq a (nth v0 bs j ||. Z) (Num (if i == j then c else 0)) = Some true.
Proof.
move=> oZ hZ E; have [v b s] := fi j.
apply: law; rewrite /= ?v ?mv_validE ?oZ //= (VE oZ) (vec_dot g (fh j) hZ) E /num; congr (_ *: _).
by rewrite eq_sym; case: eqP => _; rewrite ?mul1r ?mul0r.
Qed.
(* non-normalised mode: v_j | v^i = E**2 delta_ij, and E**2 is returned *)
Theorem C26_append mode : ~~ String.eqb mode "norm" ->
  exists rs, [/\ ReciprocalFrame a bs mode = Some (rs, Some (frame_square bs)), size rs = size bs &
    forall i j, (i < size bs)%N -> (j < size bs)%N -> let ri := nth v0 rs i in
      [/\ mv_valid a ri, is_vec a ri &
       run_eq a (nth v0 bs j ||. ri) (Num (if i == j then frame_square bs else 0)) = Some true]].
Proof.
move=> nm; have [rs E [sz h]] := recs; exists rs; split=> // [|i j lt lj ri].
  by rewrite /ReciprocalFrame E_sq E /= (negbTE nm).
have [o b hh d] := h (Ordinal lt); rewrite /ri; split; first by rewrite mv_validE.
  by apply: homog_vec => //; exact: bladed_blade.
by have := dotE o hh (d (Ordinal lj)); apply.
Qed.
(* normalised mode: v_j | v^i = delta_ij *)
Theorem C26_norm : frame_square bs \is a GRing.unit ->
  exists rs, [/\ ReciprocalFrame a bs "norm" = Some (rs, None), size rs = size bs &
    forall i j, (i < size bs)%N -> (j < size bs)%N -> let ri := nth v0 rs i in
      [/\ mv_valid a ri, is_vec a ri &
       run_eq a (nth v0 bs j ||. ri) (Num (if i == j then 1 else 0)) = Some true]].
Proof.
move=> u; have [rs E [sz h]] := recs.
pose f r := if mv_divc a r (frame_square bs) is Some Z then Z else v0.
exists (map f rs); split; rewrite ?size_map //; last move=> i j lt lj ri.
  rewrite /ReciprocalFrame E_sq E /= (_ : omapM _ _ = Some (map f rs)) //.
  elim: rs {E sz h} => //= r rs ->; by rewrite /f /mv_divc /sinv u /=.
have [o b hh d] := h (Ordinal lt); rewrite /ri (nth_map v0) ?sz //.
have [Z /= EZ [oZ /= vZ bZ]] := mv_scaleP two (frame_square bs)^-1 o.
have -> : f (nth v0 rs i) = Z by rewrite /f /mv_divc /sinv u; move: EZ => [<-].
have hZ : homog 1 (mvv Z) by rewrite vZ; exact: homogZ.
split; first by rewrite mv_validE.
  by apply: homog_vec => //; apply: bladed_blade (bZ b).
have := @dotE (Ordinal lt) (Ordinal lj) Z 1 oZ hZ; apply; rewrite vZ mulr1.
have -> : gform g (vi (Ordinal lj)) ((frame_square bs)^-1 *: mvv (nth v0 rs i)) =
  (frame_square bs)^-1 * gform g (vi (Ordinal lj)) (mvv (nth v0 rs i)).
  rewrite gform_sym gform_expand [in RHS]gform_sym [in RHS]gform_expand mulr_sumr.
  by apply: eq_bigr => k _; rewrite scale_coef mulrA.
by rewrite d mulrCA mulVr ?mulr1.
Qed.
(* a degenerate frame has no normalised reciprocal frame *)
Theorem C26_degenerate : frame_square bs \isn't a GRing.unit -> (0 < size bs)%N ->
  ReciprocalFrame a bs "norm" = None.
Proof.
move=> u; have [rs E [sz _]] := recs; rewrite -sz /ReciprocalFrame E_sq E /= => s0.
by case: rs s0 {E sz} => //= r rs _; rewrite /mv_divc /sinv (negbTE u).
Qed.
End Frame.

(* ---- C54 ---- *)
Section Cross.
Variables (sy : scalar_env R) (gsym : option R) (isq : bool) (I J : mv R).
Hypothesis dd : det_declared a gsym.
Hypothesis sq : sqrt_correct sy isq.
Hypothesis hI : ga_i sy gsym isq a = Some (I, J).
Variables X Y : mv R.
Hypothesis vX : mv_valid a X.
Hypothesis vY : mv_valid a Y.
Hypothesis sX : is_vec a X.
Hypothesis sY : is_vec a Y.
Let oX : mv_ok a X. Proof. by rewrite -mv_validE. Qed.
Let oY : mv_ok a Y. Proof. by rewrite -mv_validE. Qed.
Let obj0 Z : mv_ok a Z -> is_vec a Z -> (obj Z == [::]) = (mvv Z == 0).
Proof.
move=> oZ sZ; rewrite /Mv_Proof.mvv -value_blade0 ?vec_blade //; case/andP: oZ => /andP[u nz] _.
apply/eqP/eqP => [->//|E]; case: (obj Z) E u nz => //= t l E u /andP[t0 _].
suff : t \in canon (t :: l) by rewrite E.
by rewrite mem_canon t0 /= coef_uniq ?mem_head.
Qed.
Let isv Z : mv_ok a Z -> is_vec a Z -> is_vector a Z = Some (obj Z != [::]).
Proof.
move=> oZ sZ; rewrite (is_vectorP two wf oZ) obj0 //; congr Some.
have := @vec_homog _ two a Z; rewrite mv_validE -/cm => /(_ oZ sZ); rewrite VE // => h.
by rewrite h eqxx andbT.
Qed.
(* it raises outside dimension 3 and, a limitation of is_vector(), for the zero vector *)
Theorem C54_raises : [|| n != 3%N, obj X == [::] | obj Y == [::]] -> mv_cross a (I, J) X Y = None.
Proof.
move=> h; rewrite /mv_cross !isv //=; case: ifP => // /and3P[h1 h2 /eqP h3].
by move: h; rewrite h3 (negbTE h1) (negbTE h2).
Qed.
Theorem C54_cross : n = 3%N -> obj X != [::] -> obj Y != [::] ->
  exists Z, [/\ mv_cross a (I, J) X Y = Some Z /\ mv_valid a Z,
    run_eq a Z (Neg (I *. (X ^. Y))) = Some true,
    run_eq a (X ||. Z) (Num 0) = Some true /\ run_eq a (Y ||. Z) (Num 0) = Some true,
    exists2 Z', mv_cross a (I, J) Y X = Some Z' & run_eq a Z' (Neg Z) = Some true &
    run_eq a (Z *. Z) (- i_square sy isq ##. ((X ||. X) *. (Y ||. Y) -. (X ||. Y) *. (X ||. Y))) = Some true].
Proof.
move=> n3 X0 Y0; have [c [vI vJ ce [oI oJ] [bI bJ]]] := iP dd sq hI.
have mI : mv_valid a I by rewrite mv_validE.
have cE U W : mv_ok a U -> mv_ok a W -> is_vec a U -> is_vec a W -> obj U != [::] -> obj W != [::] ->
    mv_cross a (I, J) U W = run a (Neg I *. (U ^. W)).
  by move=> oU oW sU sW U0 W0; rewrite /mv_cross !isv //= U0 W0 n3.
have lg U W : mv_ok a U -> mv_ok a W -> legal a (Neg I *. (U ^. W)) by move=> oU oW; rewrite /= mI !mv_validE oU oW.
have [Z EZ [oZ vZ _]] := run_yields two wf Hc (lg _ _ oX oY).
have [Z' EZ' [oZ' vZ' _]] := run_yields two wf Hc (lg _ _ oY oX).
pose x : mval R n := mvv X; pose y : mval R n := mvv Y.
have hx : homog 1 x by have := @vec_homog _ two a X vX sX; rewrite -/cm VE.
have hy : homog 1 y by have := @vec_homog _ two a Y vY sY; rewrite -/cm VE.
have {}vZ : mvv Z = - c *: ((bl R setT : C) * (ext x y : C)) by rewrite vZ /= !VE // vI cmE -scaleNr -scalerAl.
have {}vZ' : mvv Z' = - c *: ((bl R setT : C) * (ext y x : C)) by rewrite vZ' /= !VE // vI cmE -scaleNr -scalerAl.
have cen (u : mval R n) : homog 1 u -> (u : C) * (bl R setT : C) = (bl R setT : C) * (u : C).
  move=> hu; rewrite (vec_decomp hu) mulr_suml mulr_sumr; apply: eq_bigr => i _.
  rewrite -scalerAl -scalerAr; congr (_ *: _).
  by have := ps_gen g i; rewrite /ps /cgen -signr_odd (_ : odd n.+1 = false) ?expr0 ?scale1r => [-> //|]; rewrite n3.
have hxy : homog 2 (ext x y) := homog_ext two hx hy.
have anti (u : mval R n) : homog 1 u -> ext u (ext x y) = 0 -> gform g u (mvv Z) = 0.
  move=> hu u0; have hZ : homog 1 (mvv Z).
    by rewrite vZ; apply: homogZ; have := homog_psx two hxy; rewrite (_ : n - 2 = 1)%N // n3.
  have := vec_rel g hu hZ; rewrite vZ.
  have -> : (u : C) * (- c *: ((bl R setT : C) * (ext x y : C))) + (- c *: ((bl R setT : C) * (ext x y : C))) * (u : C) =
    - c *: ((bl R setT : C) * ((u : C) * (ext x y : C) + (ext x y : C) * (u : C))).
    by rewrite -scalerAr -scalerAl -scalerDr mulrA (cen u hu) mulrDr !mulrA.
  have := vec_anti g hu hxy; rewrite -signr_odd expr0 scale1r u0 mul0rn => ->.
  rewrite mulr0 scaler0 => /esym; rewrite -[0 in X in X -> _](scale0r (1 : C)) => /(one_inj n).
  by rewrite -mulr_natl -[RHS](mulr0 2%:R) => /(mulrI two).
have hZ : homog 1 (mvv Z) by rewrite vZ; apply: homogZ; have := homog_psx two hxy; rewrite (_ : n - 2 = 1)%N // n3.
exists Z; split.
- by rewrite cE // EZ mv_validE.
- by apply: law; rewrite /= ?mv_validE ?oZ ?oI ?oX ?oY //= !VE // vZ vI cmE -scalerAl -scaleNr.
- split; apply: law; rewrite /= ?mv_validE ?oZ ?oX ?oY //= !VE //.
    by rewrite (vec_dot g hx hZ) anti // (extA two) (ext_vv two hx) (ext0l two).
  rewrite (vec_dot g hy hZ) anti // (ext_swap hx hy) expr1 scaleN1r -scaleN1r (extZr two).
  by rewrite (extA two) (ext_vv two hy) (ext0l two) scaler0.
- exists Z'; first by rewrite cE.
  apply: law; rewrite /= ?mv_validE ?oZ ?oZ' //= !VE // vZ vZ' (ext_swap hx hy) expr1 scaleN1r.
  by rewrite mulrN scalerN opprK.
have hd : (ext x y : C) = (x : C) * (y : C) - gform g x y *: (1 : C).
  rewrite (vec_mul g y hx) -(hestenes_left g hx hy) // vec_dot // addrAC subrr add0r //.
have sqv (u : mval R n) : homog 1 u -> (u : C) * (u : C) = gform g u u *: (1 : C).
  move=> hu; rewrite (vec_mul g u hu) (ext_vv two hu) addr0 -(hestenes_left g hu hu) // vec_dot //.
have yx : (y : C) * (x : C) = (gform g x y *+ 2) *: (1 : C) - (x : C) * (y : C).
  by have := vec_rel g hx hy; move=> <-; rewrite addrAC subrr add0r.
have bs : (bl R setT : C) * (ext x y : C) = (ext x y : C) * (bl R setT : C).
  by rewrite hd mulrBr mulrBl -scalerAr -scalerAl mulr1 mul1r mulrA -(cen x hx) -mulrA -(cen y hy) mulrA.
apply: law; rewrite /= ?mv_validE ?oZ ?oX ?oY //= !VE // vZ.
rewrite !(vec_dot g) // !cmE.
set d := gform g x y; set qx := gform g x x; set qy := gform g y y.
have B2 : (ext x y : C) * (ext x y : C) = (d ^+ 2 - qx * qy) *: (1 : C).
  by rewrite hd; apply: bivector_square; [exact: yx|exact: sqv|exact: sqv].
rewrite -scalerAl -scalerAr scalerA mulrNN mulrA -[_ * _ * (bl _ _ : C)]mulrA -bs mulrA psE.
rewrite -scalerAl mul1r -scalerAl B2 !scalerA.
rewrite -!scalerAl -!scalerAr !mul1r !scalerA -scalerBl scalerA; congr (_ *: _).
by rewrite -expr2 ce mulNr -[in RHS]mulrN [in RHS]opprB expr2.
Qed.
End Cross.
End Props.

(* ---- C17, C18 over the real numbers: the square root is always correct ---- *)
Section Real.
Import Order.TTheory Num.Theory.
Variables (R : rcfType) (a : ga R).
Hypothesis wf : wf_ga a.
Definition real_env : scalar_env R := ScalarEnv (@Num.sqrt R) (fun=> true) (fun x => 0 < x).
Lemma real_two : (2%:R : R) \is a GRing.unit.
Proof. by rewrite unitfE pnatr_eq0. Qed.
Lemma real_sqrt isq : sqrt_correct a real_env isq.
Proof.
rewrite /sqrt_correct sqr_sqrtr // /i_square /i_positive /=; case: ifP => [/ltW h|/negbT].
  by rewrite mul1r.
by rewrite -leNgt mulN1r oppr_ge0.
Qed.
Theorem C17_real isq : \det (metric_mx a) != 0 ->
  exists I J, [/\ ga_i real_env None isq a = Some (I, J), mv_valid a I, mv_valid a J,
      run_eq a (I *. I) (Num (if 0 < e_squared a then 1 else -1)) = Some true &
      run_eq a (I *. J) (Num 1) = Some true /\ run_eq a (J *. I) (Num 1) = Some true].
Proof.
move=> d0; have [|I [J E]] := @C17_defined _ real_two a wf real_env None isq I.
  rewrite unitfE -sqrf_eq0 real_sqrt mulf_neq0 //; last by rewrite /e_squared mulf_neq0 // expf_neq0 // oppr_eq0 oner_eq0.
  by rewrite /i_square; case: ifP; rewrite ?oppr_eq0 oner_eq0.
have [h1 h2 h3 h4 h5] := C17_unit_pseudoscalar real_two wf (gsym := None) Logic.I (real_sqrt isq) E.
by exists I, J.
Qed.
Theorem C18_real isq mode X : \det (metric_mx a) != 0 -> set_dual_mode mode = Some mode -> mv_valid a X ->
  exists I J, [/\ ga_i real_env None isq a = Some (I, J),
    run_eq a (undual_prog mode (I, J) (dual_prog mode (I, J) X)) X = Some true &
    run_eq a (dual_prog mode (I, J) (undual_prog mode (I, J) X)) X = Some true].
Proof.
move=> d0 sm vX; have [I [J [E _ _ _ _]]] := C17_real isq d0; exists I, J.
by have [h1 h2] := C18_undual_dual real_two wf (gsym := None) Logic.I (real_sqrt isq) E sm vX.
Qed.
End Real.

(* ---- concrete cases ---- *)
(* diag(4, 1): e = e0^e1, e*e = -4; the table below is a square root on what is asked of it *)
Definition du_env : scalar_env rat_comUnitRing :=
  ScalarEnv (fun x : rat => if x == 4%:R then 2%:R else if x == 1 then 1 else 0) (fun=> true) (fun x : rat => 0 < x)%R.
Definition du_ga2 : ga rat_comUnitRing := @Ga rat_comUnitRing 2 [:: [:: 4%:R; 0]; [:: 0; 1]].
Definition du_ga3 : ga rat_comUnitRing := @Ga rat_comUnitRing 3 [:: [:: 1; 0; 0]; [:: 0; 1; 0]; [:: 0; 0; 1]].
Definition du_deg : ga rat_comUnitRing := @Ga rat_comUnitRing 2 [:: [:: 1; 0]; [:: 0; 0]].
Example C17_ex : [/\ wf_ga du_ga2,
  omap (fun s => s == - (4%:R : rat)) (ga_e_sq None du_ga2) = Some true,
  omap (fun p => (obj p.1 == [:: ((2%:R : rat)^-1, mk_blade [:: 0; 1]%N)]) &&
                 (obj p.2 == [:: (- (2%:R : rat)^-1, mk_blade [:: 0; 1]%N)])) (ga_i du_env None true du_ga2) = Some true,
  sy_sqrt du_env (- (-4%:R : rat)) ^+ 2 == (4%:R : rat) & ~~ isSome (ga_i du_env None true du_deg)].
Proof. by split; vm_compute. Qed.
(* the oblique plane: e*e = -(1*2 - 9) = 7 *)
Example C17_ex_oblique : omap (fun s => s == (7%:R : rat)) (ga_e_sq None mv_ga) = Some true.
Proof. by vm_compute. Qed.
Definition du_X : mv rat_comUnitRing := Mv [:: (5%:R : rat, [::]); (3%:R : rat, mk_blade [:: 1%N])] true.
(* 'I+' : (5 + 3 e1) * e0^e1/2 = 5/2 e0^e1 - 3/2 e0 *)
Example C18_ex : [/\ set_dual_mode "I+" = Some "I+"%string, set_dual_mode "Iinv-" = Some "Iinv-"%string, set_dual_mode "I*" = None,
  mv_valid du_ga2 du_X & (if ga_i du_env None true du_ga2 is Some ii then
    omap (fun Z => perm_eq (obj Z) [:: (5%:R / 2%:R : rat, mk_blade [:: 0; 1]%N); (- (3%:R / 2%:R) : rat, mk_blade [:: 0%N])])
      (run du_ga2 (dual_prog "I+" ii du_X)) else None) = Some true].
Proof. by split; vm_compute. Qed.
(* g = [[1,3],[3,2]] has inverse -1/7 [[2,-3],[-3,1]] *)
Example C25_ex : omap (fun m => m == [:: [:: - (2%:R / 7%:R : rat); 3%:R / 7%:R]; [:: 3%:R / 7%:R; - (1 / 7%:R)]]) (g_inv None mv_ga) = Some true /\
  omap (fun r => [seq perm_eq (obj xy.1) xy.2 | xy <- zip r [:: [:: (- (2%:R : rat), mk_blade [:: 0%N]); (3%:R, mk_blade [:: 1%N])];
      [:: (3%:R : rat, mk_blade [:: 0%N]); (-1, mk_blade [:: 1%N])]]]) (r_basis_mv mv_ga) = Some [:: true; true].
Proof. by split; vm_compute. Qed.
(* the frame (e0 - e1, e0) of the oblique plane and its reciprocal *)
Definition du_fr := [:: mv_V; basis_mv rat_comUnitRing 0].
Example C26_ex : frame mv_ga du_fr /\
  (if ReciprocalFrame mv_ga du_fr "norm" is Some ([:: r0; r1], None) then
     [seq run_eq mv_ga (p.1.1 ||. p.1.2)%py (Num p.2) == Some true | p <-
        [:: (Val r0, Val mv_V, 1 : rat); (Val r0, Val (basis_mv _ 0), 0); (Val r1, Val mv_V, 0); (Val r1, Val (basis_mv _ 0), 1)]]
   else [::]) = [:: true; true; true; true].
Proof. by split; vm_compute. Qed.
(* e0 x e1 = e2 in Euclidean 3-space *)
Example C54_ex : omap (fun Z => obj Z == [:: (1 : rat, mk_blade [:: 2%N])])
  (if ga_i du_env None true du_ga3 is Some ii then mv_cross du_ga3 ii (basis_mv _ 0) (basis_mv _ 1) else None) = Some true.
Proof. by vm_compute. Qed.

Definition props_dual_all := (C17_pseudoscalar, C17_square, C17_square_symbolic, C17_unit_pseudoscalar, C17_defined,
  C17_degenerate, C17_real, C18_documented, C18_rejected, C18_undual_dual, C18_grade, C18_linear, C18_real,
  C25_reciprocal_basis, C25_inverse_metric, C26_square, C26_append, C26_norm, C26_degenerate, C54_raises, C54_cross).
Print Assumptions props_dual_all.
