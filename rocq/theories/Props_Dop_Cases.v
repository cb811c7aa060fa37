(* Props_Dop_Cases.v -- cases and counterexamples for properties C34 and C35, over the
   rational functions. *)
From mathcomp Require Import all_ssreflect all_algebra.
From Verif Require Import Props_Metric NatTac AlgTactics Exterior Clifford Blades Spec_Grade Grades PyBase Spec_Index Ga_Model.
From Verif Require Import Ga_Sem Ga_Proof_Tables Ga_Proof_Sort Ga_Proof_Sem Ga_Proof_Reduce Ga_Proof_Rep Ga_Proof_Conv.
From Verif Require Import Ga_Proof_Mul Spec_Clifford Clifford_Unique Spec_Mv Ga_Proof_Den Ga_Proof_Wedge Ga_Proof_Inner Ga_Proof_Grade.
From Verif Require Import GradeLaws Det ExtDeriv Mv_Model Mv_Proof Mv_Expr Mv_Proof_Expr Props_Mv Dual_Model Dual_Proof Props_Dual Metric_Model Spec_Diff Nabla.
From Verif Require Import Diff_Model Diff_Proof.
From Verif Require Import ContrLaws Props_Diff Dop_Model Dop_Proof Props_Dop.
Set Implicit Arguments.
Unset Strict Implicit.
Unset Printing Implicit Defensive.
Import GRing.Theory.
Local Open Scope ring_scope.


(* ---- the plane with the metric diag(1, h^2), h a function of the first coordinate ---- *)
Section Warp.
Variables (F : comUnitRingType) (two : (2%:R : F) \is a GRing.unit) (e0 : metric_env F).
Hypothesis par : partials (me_diff e0).
Variable h : F.
Notation D0 := (me_diff e0 0).
Notation D1 := (me_diff e0 1).
Hypotheses (hu : h \is a GRing.unit) (h1 : D1 h = 0) (h' : D0 (h ^+ 2) != 0).
Definition warp_g : seq (seq F) := [:: [:: 1; 0]; [:: 0; h ^+ 2]].
Definition warp_m : metric F := Metric 2 (Some 2%N) warp_g warp_g true None.
Lemma warp_mk : make_metric e0 (m_n warp_m) (Some 2%N) (GMatrix warp_g) false = Some warp_m.
Proof. by rewrite /make_metric /= /ortho_test /= eqxx. Qed.
Notation m := warp_m.
Notation a := (metric_ga m).
Lemma warp_sh : shape (m_n m) (m_n m) (m_graw m). Proof. by []. Qed.
Lemma warp_sy : symmetric_mx (mx (m_n m) (m_n m) (m_graw m)).
Proof. by apply/matrixP=> i j; rewrite !mxE; case: i j => [[|[|i]] li] [[|[|j]] lj]. Qed.
Lemma warp_root : false -> forall i : 'I_2, let x := mx 2 2 warp_g i i in
  me_root e0 x ^+ 2 = x \/ me_root e0 x ^+ 2 = - x.
Proof. by []. Qed.
Lemma warp_det : \det (metric_mx a) \is a GRing.unit.
Proof.
have -> : metric_mx a = diag_mx (\row_(i < 2) if i == 0 then 1 else h ^+ 2).
  by apply/matrixP=> -[[|[|i]] li] -[[|[|j]] lj]; rewrite !mxE.
by rewrite det_diag big_ord_recl big_ord1 !mxE /= mul1r unitrX.
Qed.
Variable dga : diff_ga F.
Hypothesis mkd : make_diff_ga e0 None m = Some dga.
Let der k : derivation (me_diff e0 k). Proof. by case: par. Qed.
Notation nab := (@nab F two e0 m dga).
Let wf : wf_ga a := m_wf warp_mk warp_sh.
Definition o0 : 'I_(m_n m) := Ordinal (isT : (0 < 2)%N).
Definition o1 : 'I_(m_n m) := Ordinal (isT : (1 < 2)%N).
Notation E k := (bl F [set k] : mval F (m_n m)).
Lemma sum2 (V : zmodType) (f : 'I_(m_n m) -> V) : \sum_k f k = f o0 + f o1.
Proof. by rewrite !big_ord_recl big_ord0 addr0; congr (f _ + f _); apply/val_inj. Qed.
Lemma warp_nab : [/\ nab o0 (E o0) = 0, nab o0 (E o1) = (D0 h / h) *: E o1, nab o1 (E o0) = (D0 h / h) *: E o1 &
  nab o1 (E o1) = - (h * D0 h) *: E o0].
Proof.
have u' : gmat a \in unitmx by rewrite unitmxE warp_det.
have [d E_ [cE dok cp lo gr]] := @make_diffP _ two e0 2 _ false m None der warp_mk (leqnn 2) warp_sh warp_sy u' I warp_root.
move: E_; rewrite mkd => -[E_]; rewrite -{}E_ in cE dok cp lo gr.
have Dh2 : D0 (h ^+ 2) = h * D0 h + h * D0 h by rewrite expr2 (drvM (der 0)) mulrC.
have D1h2 : D1 (h ^+ 2) = 0 by rewrite expr2 (drvM (der 1)) h1 mul0r mulr0 addr0.
have con : dg_connect dga.
  rewrite cE; apply/existsP; exists o1; apply/existsP; exists o1; apply/existsP; exists o0.
  by rewrite mxE /ment.
have Dc k : me_diff e0 k 0 = 0 by exact: drv0.
have Dc1 k : me_diff e0 k 1 = 0 by exact: drv1.
have cf0 i j : cof two dga i j o0 = Gamma1 e0 m i j 0.
  have := lo con i j o0; rewrite sum2 /Diff_Proof.low /=.
  by rewrite [geff _ _ _]/(1 : F) [geff _ _ _]/(0 : F) mulr1 mulr0 addr0.
have cf1 i j : cof two dga i j o1 * h ^+ 2 = Gamma1 e0 m i j 1.
  have := lo con i j o1; rewrite sum2 /Diff_Proof.low /=.
  by rewrite [geff _ o1 o0]/(0 : F) [geff _ _ _]/(h ^+ 2) mulr0 add0r.
have hv x y : x * h ^+ 2 = y -> x = y / h ^+ 2 by move=> <-; rewrite mulrK // unitrX.
have hh : half F * (h * D0 h + h * D0 h) = h * D0 h by rewrite halfK //.
have q : h * D0 h / h ^+ 2 = D0 h / h by rewrite expr2 invrM // mulrA mulrC [h * _]mulrC mulrK // mulrC.
have ne i j : nab i (E j) = cof two dga i j o0 *: E o0 + cof two dga i j o1 *: E o1.
  by rewrite /Diff_Proof.nab (nabla_e two (der _)) /dbasis sum2 con.
rewrite !ne !cf0 !(hv _ _ (cf1 _ _)) /Gamma1 /dg /ment /= Dh2 D1h2 !Dc !Dc1 !(addr0, sub0r, add0r, subr0, oppr0, mulr0, mul0r, mulrN, scale0r) !hh q.
by split.
Qed.

Notation val := (mvv two a).
Let dP := derivP two par warp_mk (leqnn 2) warp_sh warp_sy warp_root warp_det (I : det_declared a None) mkd.
Let applyP := applyP two par warp_mk (leqnn 2) warp_sh warp_sy warp_root warp_det (I : det_declared a None) mkd.
Notation D0' := (D0 (D0 h)).
Let q := D0 h / h.
Let Dq : D0 q + q * q = D0' / h.
Proof.
apply: (mulIr hu); rewrite divrK // mulrDl.
have e : q * h = D0 h by rewrite divrK.
by have := congr1 (fun z => D0 z) e; rewrite /= (drvM (der 0)) => <-; rewrite -mulrA e.
Qed.
Let D1h' : D1 (D0 h) = 0.
Proof. by case: par => _ c; rewrite c h1; exact: drv0. Qed.
Let D1q : D1 q = 0.
Proof.
apply: (mulIr hu); rewrite mul0r; have := congr1 (fun z => D1 z) (divrK hu (D0 h)).
by rewrite /= (drvM (der 1)) h1 mulr0 addr0 D1h'.
Qed.
Let nZ i c x : nab i (c *: x) = me_diff e0 i c *: x + c *: nab i x.
Proof. exact: (nablaZ two (der i)). Qed.
Let n0 i : nab i 0 = 0. Proof. exact: (nabla0 two (der i)). Qed.
(* the derivatives of the basis vectors do not commute if h'' <> 0 *)
Lemma warp_comm : [/\ nab o0 (nab o1 (E o0)) = (D0' / h) *: E o1, nab o1 (nab o0 (E o0)) = 0,
  nab o0 (nab o1 (E o1)) = - (D0 h * D0 h + h * D0') *: E o0 & nab o1 (nab o0 (E o1)) = - (D0 h * D0 h) *: E o0].
Proof.
have [n00 n01 n10 n11] := warp_nab; split.
- by rewrite n10 nZ n01 -/q scalerA -scalerDl Dq.
- by rewrite n00 n0.
- by rewrite n11 nZ n00 scaler0 addr0 (drvN (der 0)) (drvM (der 0)).
by rewrite n01 -/q nZ D1q scale0r add0r n11 scalerA mulrN mulrA divrK // mulrC.
Qed.
Lemma warp_flat : D0' = 0 -> commuting e0 m dga.
Proof.
move=> z; have [c1 c2 c3 c4] := warp_comm; rewrite {}z mul0r mulr0 addr0 scale0r in c1 c3.
have cc (i j k : 'I_(m_n m)) : nab j (nab i (E k)) = nab i (nab j (E k)).
  have dic (l : 'I_(m_n m)) : l = o0 \/ l = o1 by case: l => [[|[|l]] ll]; [left|right|]; rewrite //; apply/val_inj.
  by case: (dic i) (dic j) (dic k) => -> [] -> [] ->; rewrite ?c1 ?c2 ?c3 ?c4.
move=> i j k P Q P' Q' li lj lk E1 E2 E3 E4.
have [ok_ vk bk _] := @basis_ok F two a (Ordinal lk); have fk : field m (basis_mv F k) by rewrite /field mv_validE ok_.
have dE (l : nat) A B (ll : (l < m_n m)%N) : field m A -> deriv e0 m dga A l = Some B -> field m B /\ val B = nab (Ordinal ll) (val A).
  by move=> fA; have [X -> x] := yields_field (dP (Ordinal ll) fA) => -[<-].
have [fP vP] := dE _ _ _ li fk E1; have [fP' vP'] := dE _ _ _ lj fP E2.
have [fQ vQ] := dE _ _ _ lj fk E3; have [fQ' vQ'] := dE _ _ _ li fQ E4.
rewrite /run_eq /= (mv_eqP two wf); first by rewrite vP' vP vQ' vQ vk cc eqxx.
  by case: (Props_Diff.fieldP fP').
by case: (Props_Diff.fieldP fQ').
Qed.

Notation U := (mv_const a 1).
Let oneP : field m U /\ val U = 1.
Proof. by have [o v b] := const_ok two a 1; rewrite /field mv_validE o v; split=> //; exact: scale1r. Qed.
Notation B k := (basis_mv F k).
Let basP (k : 'I_(m_n m)) : field m (B k) /\ val (B k) = E k.
Proof. by have [o v b _] := @basis_ok F two a k; rewrite /field mv_validE o. Qed.
Definition d01 : dopr F := Dop [:: (U, [:: (0%N, 1%N); (1%N, 1%N)])] false.
Definition d10 : dopr F := Dop [:: (U, [:: (1%N, 1%N); (0%N, 1%N)])] false.
Lemma warp_op : operator m d01 && operator m d10.
Proof. by rewrite /operator /= (proj1 oneP). Qed.
Lemma warp_eq : dop_eq e0 m dga d01 d10 = Some true.
Proof.
have [fU vU] := oneP; have [oU bU] := Props_Diff.fieldP fU.
rewrite /dop_eq /dop_sub /dop_neg; have [q1 /= E1 [f1 v1]] := yields_field (yieldsW (fun _ => bU) (mv_negP two oU)).
case: E1 => E1; rewrite /= E1 /dop_add /= /merge_terms /=.
have [q2 E2 [f2 v2]] := yields_field (yieldsW (fun _ => bU) (mv_addcP two 0 oU)).
case: E2 => /= E2; rewrite ?E2.
have [o1' _] := Props_Diff.fieldP f1; have [o2 b2] := Props_Diff.fieldP f2.
have bb : true -> bladed a q2 || bladed a q1 by rewrite b2.
have [q3 /= -> [f3 v3]] := yields_field (yieldsW bb (mv_addP two wf o2 o1')).
have [o3 _] := Props_Diff.fieldP f3.
rewrite /= (mv_eqcP two wf 0 o3) v3 v1 v2.
by rewrite (_ : (scal a 0 : cl two a) = 0) ?addr0 ?subrr ?eqxx //; exact: (scale0r (V := [lmodType F of mval F (m_n m)]) (bl F set0)).
Qed.
Lemma warp_differ : h * D0' != 0 -> exists G1 G2, [/\ apply_dop e0 m dga MMul d01 (B 1) = Some G1,
  apply_dop e0 m dga MMul d10 (B 1) = Some G2 & run_eq a G1 G2 = Some false].
Proof.
move=> ne; have [w1 w2] := andP warp_op; have [fB vB] := basP o1.
have [G1 E1 [f1 v1]] := applyP MMul w1 fB; have [G2 E2 [f2 v2]] := applyP MMul w2 fB.
exists G1, G2; split=> //; rewrite /run_eq /= (mv_eqP two wf).
- congr Some; apply: negbTE; apply: contra ne => /eqP.
  rewrite v1 v2 !sem_cons !sem_nil !addr0 /= (proj2 oneP) !mul1r [val _]vB.
  have [_ _ c3 c4] := warp_comm; rewrite !(nabNE e0 dga (isT : (0 < m_n m)%N)) !(nabNE e0 dga (isT : (1 < m_n m)%N)).
  rewrite [X in X = _ -> _]c4 [X in _ = X -> _]c3 => /ffunP /(_ [set o0]); rewrite !ffunE eqxx !mulr1.
  by move/oppr_inj/eqP; rewrite eq_sym -subr_eq0 addrC addrA addNr add0r.
- by case: (Props_Diff.fieldP f1).
by case: (Props_Diff.fieldP f2).
Qed.
End Warp.

(* grad is an operator *)
Lemma grad_op (R : comUnitRingType) (two : (2%:R : R) \is a GRing.unit) (e0 : metric_env R) (m : metric R) (dga : diff_ga R) :
  grad_ok two m (dg_grad dga) -> operator m (dop_grad m dga false).
Proof.
case=> sz h; rewrite /operator /=.
apply/(all_nthP (mv_const (metric_ga m) 0, [::])) => i; rewrite size_zip size_map size_iota sz minnn => li.
rewrite nth_zip ?size_map ?size_iota //= (nth_map 0%N) ?size_iota // nth_iota // add0n /= li.
by have [o b _ _] := h (Ordinal li); rewrite /field mv_validE o /= andbT.
Qed.

(* ---- C34 on the rational functions ---- *)
Notation F := [comUnitRingType of ratfun].
Notation e0 := (rf_env (fun _ _ => 0)).
Lemma heisenberg (R : comUnitRingType) (D : nat -> R -> R) (x : R) : D 0%N x = 1 -> x != 0 ->
  exists dx xd s : sdop R, [/\ sdop_mul D (sdop_sym R 0) (sdop_of x) = Some dx,
    sdop_mul D (sdop_of x) (sdop_sym R 0) = Some xd, sdop_sub D dx xd = Some s & sdop_eq D s (sdop_of 1) = Some true].
Proof.
move=> dx /negbTE xn; have on := oner_eq0 R.
exists [:: (1, [::]); (x, [:: (0%N, 1%N)])], [:: (x, [:: (0%N, 1%N)])], [:: (1, [::])]; split.
- rewrite /sdop_mul /= /pd_on_terms /= /eval_derivative /= dx on /= /consolidate /= on xn /= /sdop_add /merge_terms /=.
  by rewrite !add0r !mul1r on xn.
- by rewrite /sdop_mul /= /pd_on_terms /= /sdop_add /merge_terms /= !add0r mulr1 xn eqxx.
- by rewrite /sdop_sub /sdop_add /merge_terms /= !add0r subrr eqxx on.
by rewrite /sdop_eq /sdop_sub /sdop_add /merge_terms /= add0r subrr eqxx.
Qed.
(* D x - x D = 1 *)
Example C34_case : partials (R := F) rf_diff /\
  exists dx xd s : sdop F, [/\ sdop_mul rf_diff (sdop_sym F 0) (sdop_of (rf_x : F)) = Some dx,
  sdop_mul rf_diff (sdop_of (rf_x : F)) (sdop_sym F 0) = Some xd, sdop_sub rf_diff dx xd = Some s &
  sdop_eq rf_diff s (sdop_of 1) = Some true].
Proof. split; [exact: rf_partials | exact: (@heisenberg F _ _ rf_diff_x rf_x_neq0)]. Qed.

(* ---- C35: a connected algebra with commuting derivatives (polar coordinates) ---- *)
Lemma rf_x2_unit : (rf_x ^+ 2 : F) \is a GRing.unit. Proof. by rewrite unitrX // rf_x_unit. Qed.
Lemma x2n : rf_diff 0 ((rf_x : F) ^+ 2) != 0.
Proof. by rewrite D0x2 -mulr2n -mulr_natl; apply: mulf_neq0; rewrite ?rf_x_neq0 // -unitfE rf_two. Qed.
Example C35_case : exists dga : diff_ga F, [/\ make_diff_ga e0 None (warp_m (rf_x : F)) = Some dga, dg_connect dga,
  commuting e0 (warp_m (rf_x : F)) dga & operator (warp_m (rf_x : F)) (dop_grad (warp_m (rf_x : F)) dga false)].
Proof.
have der k : derivation (me_diff e0 k) by case: rf_partials.
have u' : gmat (metric_ga (warp_m (rf_x : F))) \in unitmx by rewrite unitmxE (warp_det rf_x_unit).
have [d mkd [cE dok cp lo gr]] := @make_diffP _ rf_two e0 2 _ false _ None der (warp_mk e0 (rf_x : F)) (leqnn 2)
  (@warp_sh _ rf_x) (@warp_sy _ rf_x) u' I (@warp_root _ e0 rf_x).
exists d; split=> //.
- rewrite cE; apply/existsP; exists (o1 (rf_x : F)); apply/existsP; exists (o1 (rf_x : F)); apply/existsP; exists (o0 (rf_x : F)).
  by rewrite mxE /ment; exact: x2n.
- apply: (@warp_flat F rf_two e0 rf_partials rf_x rf_x_unit _ x2n d mkd) => //.
  have -> : me_diff e0 0 rf_x = 1 by exact: rf_diff_x.
  exact: (drv1 (der 0%N)).
exact: (@grad_op F rf_two e0 _ _ gr).
Qed.

(* in a curved algebra (metric diag(1, x^4)) d/dx d/dy and d/dy d/dx are equal
   operators, but act differently *)
Theorem C35_curved_refuted : exists (m : metric F) (dga : diff_ga F) (d1 d2 : dopr F) (A G1 G2 : mv F),
  [/\ make_metric e0 2 (Some 2%N) (GMatrix (warp_g (rf_x ^+ 2 : F))) false = Some m, make_diff_ga e0 None m = Some dga,
      [/\ operator m d1, operator m d2 & dop_eq e0 m dga d1 d2 = Some true],
      apply_dop e0 m dga MMul d1 A = Some G1 /\ apply_dop e0 m dga MMul d2 A = Some G2 &
      run_eq (metric_ga m) G1 G2 = Some false].
Proof.
pose h : F := rf_x ^+ 2; have hu : h \is a GRing.unit := rf_x2_unit.
have der k : derivation (me_diff e0 k) by case: rf_partials.
have Dh : me_diff e0 0 h = rf_x + rf_x by exact: D0x2.
have D1h : me_diff e0 1 h = 0 by [].
have nz : (2%:R : F) != 0 by rewrite -unitfE rf_two.
have xx : (rf_x + rf_x : F) != 0 by rewrite -mulr2n -mulr_natl; apply: mulf_neq0; rewrite ?rf_x_neq0.
have D2 : me_diff e0 0 (me_diff e0 0 h) = 2%:R.
  by rewrite Dh (drvD (der 0%N)) (rf_diff_x : me_diff e0 0 rf_x = 1).
have hn : h != 0 by rewrite -unitfE.
have h4 : me_diff e0 0 (h ^+ 2) != 0.
  rewrite expr2 (drvM (der 0%N)) Dh mulrC -mulr2n -mulr_natl.
  by do 2?[apply: mulf_neq0 => //].
have u' : gmat (metric_ga (warp_m h)) \in unitmx by rewrite unitmxE (warp_det hu).
have [d mkd _] := @make_diffP _ rf_two e0 2 _ false _ None der (warp_mk e0 h) (leqnn 2)
  (@warp_sh _ h) (@warp_sy _ h) u' I (@warp_root _ e0 h).
have /andP[op1 op2] := @warp_op F rf_two e0 h.
have [|G1 [G2 [A1 A2 ne]]] := @warp_differ F rf_two e0 rf_partials h hu D1h h4 d mkd.
  by rewrite D2; exact: mulf_neq0.
exists (warp_m h), d, (d01 h), (d10 h), (basis_mv F 1), G1, G2; split=> //; first exact: (warp_mk e0 h).
by split=> //; exact: (@warp_eq F rf_two e0 h d).
Qed.

(* (D1 | D2) | A == D1 | (D2 | A) does not hold: | is not associative *)
Definition flat_env : metric_env [comUnitRingType of rat] := MetricEnv (fun _ _ => 0) (fun _ => None) (fun _ _ => 0)
  (fun _ _ => 0) id (fun _ => false) (fun _ => false).
Definition flat_g : seq (seq rat) := [:: [:: 1; 0]; [:: 0; 1]].
Notation Q := [comUnitRingType of rat].
Notation q0 := (basis_mv Q 0).
Notation q1 := (basis_mv Q 1).
Definition inner_test (m : metric Q) (dga : diff_ga Q) : bool :=
  let r := LET A := run (metric_ga m) (q0 ^. q1) IN
     LET d := compose_dop flat_env m dga MDot (dop_of q1 false) (dop_of q0 false) IN
     LET x := apply_dop flat_env m dga MDot d A IN
     LET y := apply_dop flat_env m dga MDot (dop_of q0 false) A IN
     LET z := apply_dop flat_env m dga MDot (dop_of q1 false) y IN run_eq (metric_ga m) x z in
  (r == Some false) && (if dop_Mul flat_env m dga MMul (OMv q0) (ODop (dop_of q1 true)) is Some (OMv _) then
    if dop_Mul flat_env m dga MMul (OMv q0) (ODop (dop_TSimplify (dop_of q1 true))) is Some (ODop _) then
      operator m (dop_of q0 false) && operator m (dop_of q1 false) else false else false).
Lemma inner_ok : if make_metric flat_env 2 (Some 2%N) (GMatrix flat_g) false is Some m then
   if make_diff_ga flat_env None m is Some dga then inner_test m dga else false else false.
Proof. by vm_compute. Qed.
Lemma letE (T U : Type) (o : option T) (f : T -> option U) y : (LET x := o IN f x) = Some y -> exists2 x, o = Some x & f x = Some y.
Proof. by case: o => [x|//]; exists x. Qed.
Theorem C35_inner_refuted : exists (m : metric Q) dga d1 d2 d A x y z,
  [/\ make_metric flat_env 2 (Some 2%N) (GMatrix flat_g) false = Some m /\ make_diff_ga flat_env None m = Some dga,
      operator m d1 /\ operator m d2, compose_dop flat_env m dga MDot d1 d2 = Some d,
      [/\ apply_dop flat_env m dga MDot d A = Some x, apply_dop flat_env m dga MDot d2 A = Some y &
          apply_dop flat_env m dga MDot d1 y = Some z] & run_eq (metric_ga m) x z = Some false].
Proof.
have := inner_ok; case Em: (make_metric _ _ _ _ _) => [m|//]; case Ed: (make_diff_ga _ _ _) => [dga|//].
rewrite /inner_test; lazy zeta; move=> /andP[/eqP e1].
have [A _ {}e1] := letE e1; have [d E1 {}e1] := letE e1; have [x E2 {}e1] := letE e1.
have [y E3 {}e1] := letE e1; have [z E4 {}e1] := letE e1.
case: (dop_Mul flat_env m dga MMul (OMv q0) (ODop (dop_of q1 true))) => [[?|?]|] //.
case: (dop_Mul flat_env m dga MMul (OMv q0) (ODop (dop_TSimplify (dop_of q1 true)))) => [[?|?]|] // /andP[o1 o2].
by exists m, dga, (dop_of q1 false), (dop_of q0 false), d, A, x, y, z.
Qed.
(* A * D is a multivector for an operator D acting to the left, but an operator
   for D.TSimplify() *)
Theorem C35_TSimplify_refuted : exists (m : metric Q) dga d A,
  [/\ make_metric flat_env 2 (Some 2%N) (GMatrix flat_g) false = Some m, make_diff_ga flat_env None m = Some dga,
      exists B, dop_Mul flat_env m dga MMul (OMv A) (ODop d) = Some (OMv B) &
      exists d', dop_Mul flat_env m dga MMul (OMv A) (ODop (dop_TSimplify d)) = Some (ODop d')].
Proof.
have := inner_ok; case Em: (make_metric _ _ _ _ _) => [m|//]; case Ed: (make_diff_ga _ _ _) => [dga|//].
rewrite /inner_test => /andP[_]; case E1: (dop_Mul flat_env m dga MMul (OMv q0) (ODop (dop_of q1 true))) => [[B|]|] //.
case E2: (dop_Mul flat_env m dga MMul (OMv q0) (ODop (dop_TSimplify (dop_of q1 true)))) => [[|d']|] // _.
exists m, dga, (dop_of q1 true), q0; split=> //; first by exists B.
by exists d'.
Qed.
Print Assumptions C34_case.
Print Assumptions C35_case.
Print Assumptions C35_curved_refuted.
Print Assumptions C35_inner_refuted.
Print Assumptions C35_TSimplify_refuted.
