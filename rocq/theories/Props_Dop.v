(* Props_Dop.v -- properties C34 and C35: differential operators act and compose
   like functions.

   A scalar operator is a list of terms (coefficient, Pdop), a Pdop a dictionary
   coordinate -> order; D k is the partial derivative of scalars by coordinate k. *)
From mathcomp Require Import all_ssreflect all_algebra.
From Verif Require Import Props_Metric NatTac AlgTactics Exterior Clifford Blades Spec_Grade Grades PyBase Spec_Index Ga_Model.
From Verif Require Import Ga_Sem Ga_Proof_Tables Ga_Proof_Sort Ga_Proof_Sem Ga_Proof_Reduce Ga_Proof_Rep Ga_Proof_Conv.
From Verif Require Import Ga_Proof_Mul Spec_Clifford Clifford_Unique Spec_Mv Ga_Proof_Den Ga_Proof_Wedge Ga_Proof_Inner Ga_Proof_Grade.
From Verif Require Import GradeLaws Det ExtDeriv Mv_Model Mv_Proof Mv_Expr Mv_Proof_Expr Props_Mv Dual_Model Dual_Proof Props_Dual Metric_Model Spec_Diff Nabla.
From Verif Require Import Diff_Model Diff_Proof.
From Verif Require Import ContrLaws Props_Diff Dop_Model Dop_Proof.
Set Implicit Arguments.
Unset Strict Implicit.
Unset Printing Implicit Defensive.
Import GRing.Theory.
Local Open Scope ring_scope.

(* a Python dictionary has no repeated key *)
Definition sdop_valid (R : comUnitRingType) (d : sdop R) : bool := all (fun t => pd_uniq t.2) d.

Section C34.
Variables (R : comUnitRingType) (D : nat -> R -> R).
Hypothesis par : partials D.
Implicit Types (d : sdop R) (f g c : R) (p q : pdop).
Notation call := (sdop_call D).
Notation K := (scalar_coefs D).
Let der k : derivation (D k). Proof. by case: par. Qed.
Let comm i j x : predT i -> predT j -> D i (D j x) = D j (D i x). Proof. by case: par. Qed.
Notation semd := (sem (@GRing.mul R) (@id R) D).
Notation okd := (ts_ok (fun _ => True) predT).
Lemma foldl_sum (T : Type) (F : T -> R) (l : seq T) s : foldl (fun s t => s + F t) s l = s + \sum_(t <- l) F t.
Proof. by elim: l s => [|t l IH] s /=; rewrite ?big_nil ?addr0 // IH big_cons addrA. Qed.
Lemma callE d f : call d f = semd d f.
Proof. by rewrite /sdop_call (foldl_sum (fun t : R * pdop => t.1 * pd_call D t.2 f)) add0r. Qed.
Lemma validE d : sdop_valid d <-> okd d.
Proof.
elim: d => [//|t d IH] /=; rewrite /pd_ok /pd_dom all_predT andbT.
by split=> [/andP[-> /IH]|[_ -> /IH]].
Qed.
Let aD (x y w : R) : (x + y) * w = x * w + y * w. Proof. exact: mulrDl. Qed.
Let lb i (v w : R) : predT i -> D i (v * w) = D i v * w + v * D i w. Proof. by move=> _; exact: drvM. Qed.
Let uD i x y : D i (x + y) = D i x + D i y. Proof. exact: drvD. Qed.
Let ad x y : True -> True -> exists2 z, c_add K x y = Some z & True /\ id z = id x + id y.
Proof. by move=> _ _; eexists. Qed.
Let ra x : True -> exists2 z, c_radd0 K x = Some z & True /\ id z = id x.
Proof. by move=> _; eexists => //; rewrite add0r. Qed.
Let iz x : True -> c_isz K x = Some (id x == 0). Proof. by []. Qed.
Let df i x : True -> predT i -> exists2 z, c_diff K i x = Some z & True /\ id z = D i (id x).
Proof. by move=> _ _; eexists. Qed.

(* a partial derivative is the iterated derivative by its coordinates, in the
   order of the dictionary; equal dictionaries give equal functions *)
Theorem C34_pdop p q f : [/\ pd_call D [::] f = f, pd_call D (pdop_sym 0) f = D 0%N f,
  pd_call D (p ++ q) f = pd_call D q (pd_call D p f) &
  pd_uniq p -> pd_eq p q -> pd_call D p f = pd_call D q f].
Proof.
split=> //; first exact: papp_cat.
move=> u e; apply: (papp_eq comm f e u); exact: all_predT.
Qed.
(* addition of operators *)
Theorem C34_add d1 d2 : sdop_valid d1 -> sdop_valid d2 ->
  exists d, [/\ sdop_add D d1 d2 = Some d, sdop_valid d & forall f, call d f = call d1 f + call d2 f].
Proof.
move=> /validE v1 /validE v2; have [d E [ok_ s]] := mergeP aD comm ad ra iz v1 v2.
by exists d; split=> [//||f]; [exact/validE|rewrite !callE].
Qed.
(* negation and multiplication by a function from the left *)
Theorem C34_neg d f : call (sdop_neg d) f = - call d f.
Proof. by rewrite !callE /sem /sdop_neg big_map /= -sumrN; apply: eq_bigr => t _; rewrite mulNr. Qed.
Theorem C34_scale c d f : call (sdop_rmul c d) f = c * call d f.
Proof. by rewrite !callE /sem /sdop_rmul big_map /= mulr_sumr; apply: eq_bigr => t _; rewrite mulrA. Qed.
Lemma valid_neg d : sdop_valid d -> sdop_valid (sdop_neg d). Proof. by rewrite /sdop_valid all_map. Qed.
Lemma valid_rmul c d : sdop_valid d -> sdop_valid (sdop_rmul c d). Proof. by rewrite /sdop_valid all_map. Qed.
(* subtraction *)
Theorem C34_sub d1 d2 : sdop_valid d1 -> sdop_valid d2 ->
  exists d, [/\ sdop_sub D d1 d2 = Some d, sdop_valid d & forall f, call d f = call d1 f - call d2 f].
Proof.
move=> v1 v2; have [d [E v h]] := C34_add v1 (valid_neg v2); exists d; split=> // f.
by rewrite h C34_neg.
Qed.
(* a function g used as an operator is multiplication by g: g + D, D + g, g - D *)
Theorem C34_function d g : sdop_valid d ->
  [/\ exists d', [/\ sdop_add D d (sdop_of g) = Some d', sdop_valid d' & forall f, call d' f = call d f + g * f],
      exists d', [/\ sdop_add D (sdop_of g) d = Some d', sdop_valid d' & forall f, call d' f = g * f + call d f] &
      exists d', [/\ sdop_rsub D g d = Some d', sdop_valid d' & forall f, call d' f = g * f - call d f]].
Proof.
move=> v; have vg : sdop_valid (sdop_of g) by [].
have cg f : call (sdop_of g) f = g * f by rewrite /sdop_call /= add0r.
split; first by have [d' [E v' h]] := C34_add v vg; exists d'; split=> // f; rewrite h cg.
  by have [d' [E v' h]] := C34_add vg v; exists d'; split=> // f; rewrite h cg.
have [d' [E v' h]] := C34_add (valid_neg v) vg; exists d'; split=> // f.
by rewrite h cg C34_neg addrC.
Qed.
(* the operator c*Pdop and the operator of a symbol *)
Theorem C34_terms c p x f : call (pdop_rmul c p) f = c * pd_call D p f /\ call (sdop_sym R x) f = D x f.
Proof. by rewrite /sdop_call /= !add0r mul1r. Qed.
(* differentiation of an operator by a coordinate *)
Theorem C34_derivative d x k : sdop_valid d ->
  exists d', [/\ sdop_diff D d x k = Some d', sdop_valid d' & forall f, call d' f = iter k (D x) (call d f)].
Proof.
move=> /validE v; have [d' E [v' h]] := eval_derivativeP aD uD lb comm ad iz df k v (erefl : predT x).
by exists d'; split=> [//||f]; [exact/validE|rewrite !callE].
Qed.
(* removal of zero coefficients and repeated derivatives *)
Theorem C34_consolidate d : sdop_valid d ->
  exists d', [/\ sdop_consolidate D d = Some d', sdop_valid d' & forall f, call d' f = call d f].
Proof.
move=> /validE v; have [d' E [v' h]] := consolidateP aD comm ad iz v.
by exists d'; split=> [//||f]; [exact/validE|rewrite !callE].
Qed.
(* composition *)
Theorem C34_compose d1 d2 : sdop_valid d1 -> sdop_valid d2 ->
  exists d, [/\ sdop_mul D d1 d2 = Some d, sdop_valid d & forall f, call d f = call d1 (call d2 f)].
Proof.
move=> v1 v2; rewrite /sdop_mul.
have [->|_] := altP nilP; first by exists [::].
have v0 : sdop_valid (sdop_of (0 : R)) by [].
suff h s : sdop_valid s -> exists d, [/\ ofoldl (fun s (t : R * pdop) =>
    LET q := pd_on_terms K t.2 d2 IN sdop_add D s (sdop_rmul t.1 q)) d1 s = Some d, sdop_valid d &
    forall f, call d f = call s f + call d1 (call d2 f)].
  have [d [-> v h']] := h _ v0; exists d; split=> // f.
  by rewrite h' {1}/sdop_call /= mul0r addr0 add0r.
elim: d1 v1 s => [|[c p] d1 IH] /= v1 s vs; first by exists s; split=> // f; rewrite [call [::] _]/sdop_call /= addr0.
case/andP: v1 => up v1.
have [q -> [vq hq]] := pd_on_termsP aD uD lb comm ad iz df (proj1 (validE d2) v2) (all_predT p).
have {}vq : sdop_valid q by exact/validE.
have [s1 [/= -> vs1 h1]] := C34_add vs (valid_rmul c vq).
have [d [/= E vd hd]] := IH v1 s1 vs1; rewrite /= E; exists d; split=> // f.
rewrite hd h1 C34_scale !callE hq /sem big_cons /= addrA -/(semd d1 _); congr (_ + _ * _ + _).
Qed.
(* equal operators are equal functions *)
Theorem C34_equal d1 d2 : sdop_valid d1 -> sdop_valid d2 -> sdop_eq D d1 d2 = Some true ->
  forall f, call d1 f = call d2 f.
Proof.
move=> v1 v2; rewrite /sdop_eq; have [d [-> vd h]] := C34_sub v1 v2 => -[/nilP d0] f.
by apply/eqP; rewrite -subr_eq0 -h d0.
Qed.
(* operators are additive functions *)
Theorem C34_additive d f g : call d (f + g) = call d f + call d g.
Proof.
rewrite !callE /sem -big_split; apply: eq_bigr => t _; rewrite /= -mulrDr; congr (_ * _).
elim: t.2 f g => [//|[k j] p IH] f g /=.
suff -> : iter j (D k) (f + g) = iter j (D k) f + iter j (D k) g by exact: IH.
by elim: j => [//|j IHj]; rewrite !iterS IHj uD.
Qed.
(* comparison is not complete: a zero order of differentiation is remembered *)
Theorem C34_zero_order_refuted : exists d1 d2, [/\ sdop_valid d1, sdop_valid d2,
  forall f, call d1 f = call d2 f & sdop_eq D d1 d2 = Some false].
Proof.
exists [:: (1, [:: (0%N, 0%N)])], [:: (1, [::])]; split=> //.
by rewrite /sdop_eq /sdop_sub /sdop_add /merge_terms /= !add0r oppr_eq0 oner_eq0.
Qed.
End C34.

(* ==== C35: operators with multivector coefficients ==== *)
Section SpecDop.
Variables (R : comUnitRingType) (me : metric_env R) (m : metric R) (dga : diff_ga R).
Notation a := (metric_ga m).
Notation n := (m_n m).
(* an operator: coefficients are multivector fields, derivatives are by the
   coordinates of the algebra *)
Definition operator (d : dopr R) : bool :=
  all (fun t => [&& field m t.1, pd_uniq t.2 & all (fun kv => kv.1 < n)%N t.2]) (dp_terms d).
(* D op F, or F op D if D acts on its left argument *)
Definition apply_dop (o : dmode) (d : dopr R) (F : mv R) : option (mv R) :=
  let r := if dp_cmp d then dop_Mul me m dga o (OMv F) (ODop d) else dop_Mul me m dga o (ODop d) (OMv F) in
  if r is Some (OMv G) then Some G else None.
(* D1 op D2 *)
Definition compose_dop (o : dmode) (d1 d2 : dopr R) : option (dopr R) :=
  if dop_Mul me m dga o (ODop d1) (ODop d2) is Some (ODop d) then Some d else None.
(* A op D (D acts to the right), D op A (D acts to the left): an operator *)
Definition scale_dop (o : dmode) (A : mv R) (d : dopr R) : option (dopr R) :=
  let r := if dp_cmp d then dop_Mul me m dga o (ODop d) (OMv A) else dop_Mul me m dga o (OMv A) (ODop d) in
  if r is Some (ODop d') then Some d' else None.
(* the derivatives commute on the basis vectors: flat coordinates *)
Definition commuting : Prop := forall i j k P Q P' Q', (i < n)%N -> (j < n)%N -> (k < n)%N ->
  deriv me m dga (basis_mv R k) i = Some P -> deriv me m dga P j = Some P' ->
  deriv me m dga (basis_mv R k) j = Some Q -> deriv me m dga Q i = Some Q' -> run_eq a P' Q' = Some true.
(* (X o1 Y) o2 Z == X o3 (Y o4 Z) for all multivectors *)
Definition reassociates (o1 o2 o3 o4 : dmode) : Prop := forall X Y Z, field m X -> field m Y -> field m Z ->
  run_eq a (dop o2 (dop o1 X Y) Z) (dop o3 X (dop o4 Y Z)) = Some true.
End SpecDop.

Section C35.
Variables (R : comUnitRingType) (two : (2%:R : R) \is a GRing.unit) (me : metric_env R).
Notation D := (me_diff me).
Variables (coords : nat) (garg : garg R) (norm : bool) (m : metric R) (gsym : option R) (dga : diff_ga R).
Notation n := (m_n m).
Notation a := (metric_ga m).
Notation G := (mx n n (m_graw m)).
Notation C := (cl two a).
(* as for C37 *)
Hypothesis par : partials D.
Hypotheses (mk : make_metric me n (Some coords) garg norm = Some m) (lec : (n <= coords)%N).
Hypotheses (sh : shape n n (m_graw m)) (sy : symmetric_mx G).
Hypothesis rooted : norm -> forall i : 'I_n, let x := G i i in me_root me x ^+ 2 = x \/ me_root me x ^+ 2 = - x.
Hypotheses (u : \det (metric_mx a) \is a GRing.unit) (gs : det_declared a gsym).
Hypothesis mkd : make_diff_ga me gsym m = Some dga.
Let der k : derivation (D k). Proof. by case: par. Qed.
Let wf : wf_ga a := m_wf mk sh.
Notation val := (mvv two a).
Notation nab := (nab two me dga).
Notation deriv := (deriv me m dga).
Notation opv := (@opv R two m).
Let derivP := derivP two par mk lec sh sy rooted u gs mkd.
Let nab_op := nab_op (two := two) par mk lec sh sy rooted u gs mkd.
Let mv_opP d X Y (fX : field m X) (fY : field m Y) : @yields R two a true (mv_op m d X Y) (opv d (val X) (val Y)).
Proof. by case: (Props_Diff.fieldP fX) => ? _; case: (Props_Diff.fieldP fY) => ? ?; exact: (mv_opP two mk sh). Qed.

(* values *)
Definition nabN (i : nat) (x : C) : C := if insub i is Some i' then nab i' x else 0.
Lemma nabNE (i : nat) (li : (i < n)%N) x : nabN i x = nab (Ordinal li) x.
Proof. by rewrite /nabN insubT. Qed.
Lemma nabND i (x y : C) : nabN i (x + y) = nabN i x + nabN i y.
Proof.
rewrite /nabN; case: insub => [i'|]; last by rewrite addr0.
exact: (nablaD two (der i')).
Qed.
Definition actv (o : dmode) (cmp : bool) (v w : C) : C := if cmp then opv o w v else opv o v w.
Lemma opvDl o x y z : opv o (x + y) z = opv o x z + opv o y z.
Proof.
case: o => /=; first exact: mulrDl; first exact: (extDl two).
all: exact: selD.
Qed.
Lemma opvDr o x y z : opv o z (x + y) = opv o z x + opv o z y.
Proof.
case: o => /=; first exact: mulrDr; first exact: (extDr two).
all: exact: selDr.
Qed.
Lemma actDl o cmp x y w : actv o cmp (x + y) w = actv o cmp x w + actv o cmp y w.
Proof. by case: cmp; [exact: opvDr|exact: opvDl]. Qed.
Lemma actDr o cmp x y w : actv o cmp w (x + y) = actv o cmp w x + actv o cmp w y.
Proof. by case: cmp; [exact: opvDl|exact: opvDr]. Qed.
Notation ltn_ := (fun i : nat => (i < n)%N).
Lemma leibN o cmp i v w : ltn_ i -> nabN i (actv o cmp v w) = actv o cmp (nabN i v) w + actv o cmp v (nabN i w).
Proof.
move=> li; rewrite !(nabNE li); case: cmp => /=; rewrite nab_op //.
exact: addrC.
Qed.
Notation K := (mv_coefs me m dga).
Notation okf := (fun A => is_true (field m A)).
Let ad x y : okf x -> okf y -> exists2 z, c_add K x y = Some z & okf z /\ val z = val x + val y.
Proof.
move=> fx fy; have [ox bx] := Props_Diff.fieldP fx; have [oy _] := Props_Diff.fieldP fy; apply: yields_field.
by apply: yieldsW (mv_addP two wf ox oy) => _; rewrite bx.
Qed.
Lemma scal0 : (scal a 0 : C) = 0.
Proof. exact: (scale0r (V := [lmodType R of mval R n]) (bl R set0)). Qed.
Let ra x : okf x -> exists2 z, c_radd0 K x = Some z & okf z /\ val z = val x.
Proof.
move=> fx; have [ox bx] := Props_Diff.fieldP fx; have [z E [fz vz]] := yields_field (yieldsW (fun _ => bx) (mv_addcP two 0 ox)).
by exists z => //; rewrite vz; split=> //; rewrite scal0 addr0.
Qed.
Let iz x : okf x -> c_isz K x = Some (val x == 0).
Proof. by case/Props_Diff.fieldP=> ox _; rewrite /= (mv_eqcP two wf 0 ox) scal0. Qed.
Let df i x : okf x -> ltn_ i -> exists2 z, c_diff K i x = Some z & okf z /\ val z = nabN i (val x).
Proof. by move=> fx li; have := yields_field (derivP (Ordinal li) fx); rewrite (nabNE li). Qed.

Notation sem o cmp := (sem (actv o cmp) val nabN).
Notation ok_ := (ts_ok okf ltn_).
Lemma operatorE d : operator m d <-> ok_ (dp_terms d).
Proof.
rewrite /operator; elim: (dp_terms d) => [//|t ts IH] /=; rewrite /pd_ok /pd_dom.
split=> [/andP[/and3P[-> -> ->] /IH]|[-> /andP[-> ->] /IH]] //.
Qed.
Lemma timesP i k A : field m A -> (i < n)%N ->
  exists2 B, mv_diff_times me m dga i k A = Some B & field m B /\ val B = iter k (nabN i) (val A).
Proof.
move=> fA li; elim: k A fA => [|k IH] A fA /=; first by exists A.
have [B /= -> [fB vB]] := df fA li; have [X /= -> [fX vX]] := IH B fB; exists X => //; split=> //.
by rewrite vX vB -iterS iterSr.
Qed.
Lemma pd_on_mvP p A : field m A -> pd_dom ltn_ p ->
  exists2 B, pd_on_mv me m dga p A = Some B & field m B /\ val B = papp nabN p (val A).
Proof.
rewrite /pd_on_mv; elim: p A => [|[i k] p IH] A fA /=; first by exists A.
case/andP=> li dp; have [B -> [fB vB]] := timesP k fA li.
by have [X /= -> [fX vX]] := IH B fB dp; exists X => //; split=> //; rewrite vX vB.
Qed.
Lemma fold_applyP o cmp ts s F : ok_ ts -> field m s -> field m F ->
  exists2 G, ofoldl (fun s (t : mv R * pdop) => LET dF := pd_on_mv me m dga t.2 F IN
     LET q := (if cmp then mv_op m o dF t.1 else mv_op m o t.1 dF) IN mv_add a s q) ts s = Some G &
    field m G /\ val G = val s + sem o cmp ts (val F).
Proof.
elim: ts s => [|[c p] ts IH] s /=; first by move=> _ fs _; exists s => //; rewrite sem_nil addr0.
move=> [fc /andP[_ dp] ots] fs fF; have [dF -> [fdF vdF]] := pd_on_mvP fF dp.
have [q /= -> [fq vq]] : exists2 q, (if cmp then mv_op m o dF c else mv_op m o c dF) = Some q &
    field m q /\ val q = actv o cmp (val c) (val dF).
  by case: (cmp); apply: yields_field; exact: mv_opP.
have [s1 /= -> [fs1 vs1]] := ad fs fq; have [X /= -> [fX vX]] := IH s1 ots fs1 fF.
by exists X => //; split=> //; rewrite vX vs1 vq vdF sem_cons addrA.
Qed.
Lemma field0 : field m (mv_const a 0) /\ val (mv_const a 0) = 0.
Proof. by have [o v b] := const_ok two a 0; rewrite /field mv_validE o; split=> //; rewrite v scal0. Qed.
Lemma applyP o d F : operator m d -> field m F ->
  exists2 G, apply_dop me m dga o d F = Some G & field m G /\ val G = sem o (dp_cmp d) (dp_terms d) (val F).
Proof.
move=> /operatorE od fF; have [f0 v0] := field0.
have [X E [fX vX]] := fold_applyP o (dp_cmp d) od f0 fF; rewrite v0 add0r in vX.
by exists X => //; move: E; rewrite /apply_dop /=; case: (dp_cmp d) => E; rewrite /= /dop_apply_left /dop_apply E.
Qed.
Lemma scaleP o A ts cmp : field m A -> ok_ ts ->
  exists2 ts', omapM (fun t : mv R * pdop => LET c := (if cmp then mv_op m o t.1 A else mv_op m o A t.1) IN Some (c, t.2)) ts = Some ts' &
    ok_ ts' /\ [seq (val t.1, t.2) | t <- ts'] = [seq ((if cmp then opv o (val t.1) (val A) else opv o (val A) (val t.1)), t.2) | t <- ts].
Proof.
move=> fA; elim: ts => [|[c p] ts IH] /=; first by exists [::].
move=> [fc op /IH[ts' -> [ot' e]]].
have [q -> [fq vq]] : exists2 q, (if cmp then mv_op m o c A else mv_op m o A c) = Some q &
    field m q /\ val q = (if cmp then opv o (val c) (val A) else opv o (val A) (val c)).
  by case: (cmp); apply: yields_field; exact: mv_opP.
by exists ((q, p) :: ts') => //=; split=> //=; rewrite e vq.
Qed.
Lemma semE o cmp ts w : sem o cmp ts w = \sum_(t <- [seq (val t.1, t.2) | t <- ts]) actv o cmp t.1 (papp nabN t.2 w).
Proof. by rewrite /Dop_Proof.sem big_map. Qed.

Lemma eqr X Y : field m X -> field m Y -> val X = val Y -> run_eq a X Y = Some true.
Proof.
move=> fX fY e; rewrite /run_eq /= (mv_eqP two wf) ?e ?eqxx //; first by case: (Props_Diff.fieldP fX).
by case: (Props_Diff.fieldP fY).
Qed.
Lemma eqr_add X Y Z : field m X -> field m Y -> field m Z -> val X = val Y + val Z -> run_eq a X (Y +. Z) = Some true.
Proof.
move=> fX fY fZ e; have [S E [fS vS]] := ad fY fZ; have := eqr fX fS; rewrite vS e => /(_ erefl).
by rewrite /run_eq /=; move: E => /= ->.
Qed.
Lemma eqr_opp X Y : field m X -> field m Y -> val X = - val Y -> run_eq a X (Neg Y) = Some true.
Proof.
move=> fX fY e; have [oY bY] := Props_Diff.fieldP fY.
have [S E [fS vS]] := yields_field (yieldsW (fun _ => bY) (mv_negP two oY)).
by have := eqr fX fS; rewrite vS e => /(_ erefl); rewrite /run_eq /=; case: E => <-.
Qed.
Lemma eqr_op o X Y Z : field m X -> field m Y -> field m Z -> val X = opv o (val Y) (val Z) -> run_eq a X (dop o Y Z) = Some true.
Proof.
move=> fX fY fZ e; have [S E [fS vS]] := yields_field (mv_opP o fY fZ); have := eqr fX fS; rewrite vS e => /(_ erefl).
by rewrite /run_eq; move: E; case: (o) => /= ->.
Qed.
Lemma reassocP o1 o2 o3 o4 X Y Z : reassociates m o1 o2 o3 o4 -> field m X -> field m Y -> field m Z ->
  opv o2 (opv o1 (val X) (val Y)) (val Z) = opv o3 (val X) (opv o4 (val Y) (val Z)).
Proof.
move=> h fX fY fZ; have := h X Y Z fX fY fZ.
have [P E1 [fP vP]] := yields_field (mv_opP o1 fX fY); have [Q E2 [fQ vQ]] := yields_field (mv_opP o4 fY fZ).
have [P' E3 [fP' vP']] := yields_field (mv_opP o2 fP fZ); have [Q' E4 [fQ' vQ']] := yields_field (mv_opP o3 fX fQ).
have r1 : run a (dop o2 (dop o1 X Y) Z) = Some P' by move: E1 E3; case: (o1) => /= E1; case: (o2) => /= E3; rewrite E1 /= E3.
have r2 : run a (dop o3 X (dop o4 Y Z)) = Some Q' by move: E2 E4; case: (o4) => /= E2; case: (o3) => /= E4; rewrite E2 /= E4.
rewrite /run_eq r1 r2 /= (mv_eqP two wf); first by rewrite vP' vP vQ' vQ => -[/eqP].
  by case: (Props_Diff.fieldP fP').
by case: (Props_Diff.fieldP fQ').
Qed.
(* the products of multivectors for which the law holds *)
Theorem C35_products : [/\ reassociates m MMul MMul MMul MMul, reassociates m MWedge MWedge MWedge MWedge,
  reassociates m MWedge MLt MLt MLt, reassociates m MGt MGt MGt MWedge & reassociates m MLt MGt MLt MGt].
Proof.
have red o1 o2 o3 o4 : (forall x y z, opv o2 (opv o1 x y) z = opv o3 x (opv o4 y z)) -> reassociates m o1 o2 o3 o4.
  move=> h X Y Z fX fY fZ.
  have [P E1 [fP vP]] := yields_field (mv_opP o1 fX fY); have [Q E2 [fQ vQ]] := yields_field (mv_opP o4 fY fZ).
  have [P' E3 [fP' vP']] := yields_field (mv_opP o2 fP fZ); have [Q' E4 [fQ' vQ']] := yields_field (mv_opP o3 fX fQ).
  have r1 : run a (dop o2 (dop o1 X Y) Z) = Some P' by move: E1 E3; case: (o1) => /= E1; case: (o2) => /= E3; rewrite E1 /= E3.
  have r2 : run a (dop o3 X (dop o4 Y Z)) = Some Q' by move: E2 E4; case: (o4) => /= E2; case: (o3) => /= E4; rewrite E2 /= E4.
  have := eqr fP' fQ'; rewrite vP' vP vQ' vQ h => /(_ erefl).
  by rewrite /run_eq r1 r2.
split; apply: red => x y z /=.
- by rewrite mulrA.
- by rewrite (extA two).
- exact: lc_lc.
- exact: rc_rc.
exact: lc_rc.
Qed.

(* an operator applied to a field gives a field *)
Theorem C35_total o d F : operator m d -> field m F -> exists2 G, apply_dop me m dga o d F = Some G & field m G.
Proof. by move=> od fF; have [X E [fX _]] := applyP o od fF; exists X. Qed.
(* the operator is additive *)
Theorem C35_additive o d F1 F2 : operator m d -> field m F1 -> field m F2 ->
  exists F G G1 G2, [/\ run a (F1 +. F2) = Some F, apply_dop me m dga o d F = Some G,
    apply_dop me m dga o d F1 = Some G1, apply_dop me m dga o d F2 = Some G2 & run_eq a G (G1 +. G2) = Some true].
Proof.
move=> od f1 f2; have [F E [fF vF]] := ad f1 f2.
have [X EX [fX vX]] := applyP o od fF; have [X1 E1 [fX1 vX1]] := applyP o od f1; have [X2 E2 [fX2 vX2]] := applyP o od f2.
exists F, X, X1, X2; split=> //; apply: eqr_add => //; rewrite vX vX1 vX2 vF.
rewrite /Dop_Proof.sem -big_split; apply: eq_bigr => t _ /=; rewrite -actDr; congr (actv _ _ _ _).
elim: t.2 (val F1) (val F2) => [//|[k j] p IH] f g /=.
suff -> : iter j (nabN k) (f + g) = iter j (nabN k) f + iter j (nabN k) g by exact: IH.
by elim: j => [//|j IHj]; rewrite !iterS IHj nabND.
Qed.
(* negation *)
Theorem C35_neg d : operator m d -> exists d', [/\ dop_neg m d = Some d', operator m d', dp_cmp d' = dp_cmp d &
  forall o F, field m F -> exists G G', [/\ apply_dop me m dga o d F = Some G, apply_dop me m dga o d' F = Some G' &
    run_eq a G' (Neg G) = Some true]].
Proof.
move=> od; have [ts Et [ot st]] : exists2 ts, omapM (fun t : mv R * pdop => LET c := mv_neg a t.1 IN Some (c, t.2)) (dp_terms d) = Some ts &
    ok_ ts /\ [seq (val t.1, t.2) | t <- ts] = [seq (- val t.1, t.2) | t <- dp_terms d].
  move/operatorE: od; elim: (dp_terms d) => [|[c p] ts IH] /=; first by exists [::].
  move=> [fc op /IH[ts' -> [ot' e]]]; have [oc bc] := Props_Diff.fieldP fc.
  have [q [<-] [fq vq]] := yields_field (yieldsW (fun _ => bc) (mv_negP two oc)).
  by eexists => //=; split=> //=; rewrite e vq.
exists (Dop ts (dp_cmp d)); rewrite /dop_neg Et; have od' : operator m (Dop ts (dp_cmp d)) by exact/operatorE.
split=> // o F fF; have [X EX [fX vX]] := applyP o od fF; have [X' EX' [fX' vX']] := applyP o od' fF.
exists X, X'; split=> //; apply: eqr_opp => //; rewrite vX' vX /= semE st big_map /= -sumrN.
apply: eq_bigr => t _ /=; apply/eqP; rewrite -addr_eq0 -actDl addNr.
by rewrite (act0l (actDl o (dp_cmp d))).
Qed.

(* division by a scalar: D/c is 1/c times D, and raises for a c without an inverse *)
Lemma actZl o cmp (z : R) x w : actv o cmp (z *: x) w = z *: actv o cmp x w.
Proof.
case: cmp; case: o => /=; first by rewrite scalerAr.
1: exact: (extZr two).
1-3: exact: selZr.
1: by rewrite scalerAl.
1: exact: (extZl two).
all: exact: selZ.
Qed.
Lemma eqr_scale c X Y : field m X -> field m Y -> val X = c *: val Y -> run_eq a X (c ##. Y) = Some true.
Proof.
move=> fX fY e; have [oY bY] := Props_Diff.fieldP fY.
have [S E [fS vS]] := yields_field (yieldsW (fun _ => bY) (mv_scaleP two c oY)).
have := eqr fX fS; rewrite vS => /(_ e); rewrite /run_eq /=; by move: E => /= [<-].
Qed.
Theorem C35_divide d c : operator m d ->
  (c \is a GRing.unit -> exists d', [/\ dop_divc m d c = Some d', operator m d', dp_cmp d' = dp_cmp d &
     forall o F, field m F -> exists G G', [/\ apply_dop me m dga o d F = Some G, apply_dop me m dga o d' F = Some G' &
       run_eq a G' (c^-1 ##. G) = Some true]]) /\
  (c \isn't a GRing.unit -> dp_terms d <> [::] -> dop_divc m d c = None).
Proof.
move=> od; split=> [uc|nc]; last first.
  rewrite /dop_divc; case: (dp_terms d) => [//|t ts] _ /=; by rewrite /mv_divc /sinv (negbTE nc).
have [ts Et [ot st]] : exists2 ts, omapM (fun t : mv R * pdop => LET x := mv_divc a t.1 c IN Some (x, t.2)) (dp_terms d) = Some ts &
    ok_ ts /\ [seq (val t.1, t.2) | t <- ts] = [seq (c^-1 *: val t.1, t.2) | t <- dp_terms d].
  move/operatorE: od; elim: (dp_terms d) => [|[x p] ts IH] /=; first by exists [::].
  move=> [fc op /IH[ts' -> [ot' e]]]; have [oc bc] := Props_Diff.fieldP fc; rewrite /mv_divc /sinv uc /=.
  have [q E [fq vq]] := yields_field (yieldsW (fun _ => bc) (mv_scaleP two c^-1 oc)); rewrite /mv_scale in E; case: E => qE; rewrite qE.
  by eexists => //=; split=> //=; rewrite e vq.
exists (Dop ts (dp_cmp d)); rewrite /dop_divc Et; have od' : operator m (Dop ts (dp_cmp d)) by exact/operatorE.
split=> // o F fF; have [X EX [fX vX]] := applyP o od fF; have [X' EX' [fX' vX']] := applyP o od' fF.
exists X, X'; split=> //; apply: eqr_scale => //; rewrite vX' vX /= semE st big_map /= scaler_sumr.
by apply: eq_bigr => t _ /=; rewrite actZl.
Qed.

Section Flat_.
Hypothesis flat : commuting me m dga.
Lemma commN i j w : ltn_ i -> ltn_ j -> nabN i (nabN j w) = nabN j (nabN i w).
Proof.
move=> li lj; rewrite !(nabNE li) !(nabNE lj); apply: (nabla_comm two (der i) (der j)) => [x|k].
  by case: par.
have [ok_ vk bk _] := @basis_ok R two a k; have fk : field m (basis_mv R k) by rewrite /field mv_validE ok_.
have [P E1 [fP vP]] := yields_field (derivP (Ordinal li) fk).
have [P' E2 [fP' vP']] := yields_field (derivP (Ordinal lj) fP).
have [Q E3 [fQ vQ]] := yields_field (derivP (Ordinal lj) fk).
have [Q' E4 [fQ' vQ']] := yields_field (derivP (Ordinal li) fQ).
have := flat li lj (ltn_ord k) E1 E2 E3 E4; rewrite /run_eq /= (mv_eqP two wf).
- by case=> /eqP; rewrite vP' vP vQ' vQ vk => h; exact: (esym h).
- by case: (Props_Diff.fieldP fP').
by case: (Props_Diff.fieldP fQ').
Qed.
Lemma addP_ d1 d2 : operator m d1 -> operator m d2 -> dp_cmp d1 = dp_cmp d2 ->
  exists d, [/\ dop_add me m dga d1 d2 = Some d, operator m d, dp_cmp d = dp_cmp d1 &
    forall o cmp w, sem o cmp (dp_terms d) w = sem o cmp (dp_terms d1) w + sem o cmp (dp_terms d2) w].
Proof.
move=> /operatorE o1 /operatorE o2 e; rewrite /dop_add e eqxx /=.
have [ts E [ot _]] := mergeP (actDl MMul false) commN ad ra iz o1 o2.
exists (Dop ts (dp_cmp d2)); split=> [|||o cmp w]; rewrite ?E //; first exact/operatorE.
have [ts' E' [_ s]] := mergeP (actDl o cmp) commN ad ra iz o1 o2.
by move: E'; rewrite E => -[->].
Qed.
Lemma consP d : operator m d -> exists2 d', dop_consolidate me m dga d = Some d' &
  [/\ operator m d', dp_cmp d' = dp_cmp d & forall o cmp w, sem o cmp (dp_terms d') w = sem o cmp (dp_terms d) w].
Proof.
move/operatorE=> od; rewrite /dop_consolidate; have [ts E [ot _]] := consolidateP (actDl MMul false) commN ad iz od.
exists (Dop ts (dp_cmp d)); rewrite ?E //; split=> [||o cmp w] //; first exact/operatorE.
have [ts' E' [_ s]] := consolidateP (actDl o cmp) commN ad iz od.
by move: E'; rewrite E => -[->].
Qed.
(* sums: the operators act on the same side *)
Theorem C35_add d1 d2 : operator m d1 -> operator m d2 -> dp_cmp d1 = dp_cmp d2 ->
  exists d, [/\ dop_add me m dga d1 d2 = Some d, operator m d, dp_cmp d = dp_cmp d1 &
    forall o F, field m F -> exists G G1 G2, [/\ apply_dop me m dga o d F = Some G,
      apply_dop me m dga o d1 F = Some G1, apply_dop me m dga o d2 F = Some G2 & run_eq a G (G1 +. G2) = Some true]].
Proof.
move=> o1 o2 e; have [d [E od cE s]] := addP_ o1 o2 e; exists d; split=> // o F fF.
have [X EX [fX vX]] := applyP o od fF; have [X1 E1 [fX1 vX1]] := applyP o o1 fF; have [X2 E2 [fX2 vX2]] := applyP o o2 fF.
by exists X, X1, X2; split=> //; apply: eqr_add => //; rewrite vX vX1 vX2 cE s -e.
Qed.
Theorem C35_add_sides d1 d2 : dp_cmp d1 != dp_cmp d2 -> dop_add me m dga d1 d2 = None.
Proof. by move=> ne; rewrite /dop_add ne. Qed.
(* a multivector used as an operator multiplies *)
Theorem C35_multivector A cmp o F : field m A -> field m F ->
  operator m (dop_of A cmp) /\ exists2 G, apply_dop me m dga o (dop_of A cmp) F = Some G &
    run_eq a G (if cmp then dop o F A else dop o A F) = Some true.
Proof.
move=> fA fF; have od : operator m (dop_of A cmp) by rewrite /operator /= fA.
split=> //; have [X EX [fX vX]] := applyP o od fF; exists X => //.
by move: vX; rewrite sem_cons sem_nil addr0 /=; case: (cmp) => vX; apply: eqr_op.
Qed.
(* equal operators act equally *)
Theorem C35_equal d1 d2 : operator m d1 -> operator m d2 -> dp_cmp d1 = dp_cmp d2 ->
  dop_eq me m dga d1 d2 = Some true -> forall o F, field m F -> exists G1 G2, [/\ apply_dop me m dga o d1 F = Some G1,
    apply_dop me m dga o d2 F = Some G2 & run_eq a G1 G2 = Some true].
Proof.
move=> o1 o2 e; rewrite /dop_eq /dop_sub; have [d2' [-> od2' c2' n2]] := C35_neg o2.
have [|d [/= E od cE s]] := addP_ o1 od2'; first by rewrite c2'.
rewrite E /= => -[/nilP d0] o F fF.
have [X1 E1 [fX1 vX1]] := applyP o o1 fF; have [X2 E2 [fX2 vX2]] := applyP o o2 fF.
exists X1, X2; split=> //; apply: eqr => //.
have [Y [Y' [EY EY' eq]]] := n2 o F fF; move: EY; rewrite E2 => -[Yx]; rewrite -{}Yx in eq.
have [X' E' [fX' vX']] := applyP o od2' fF; move: EY'; rewrite E' => -[Yx]; rewrite -{}Yx in eq.
have v' : val X' = - val X2.
  have [oY bY] := Props_Diff.fieldP fX2; have [S ES [fS vS]] := yields_field (yieldsW (fun _ => bY) (mv_negP two oY)).
  move: eq; case: ES => ES; rewrite /run_eq /= ES (mv_eqP two wf).
  - by rewrite vS => -[/eqP].
  - by case: (Props_Diff.fieldP fX').
  by case: (Props_Diff.fieldP fS).
apply/eqP; rewrite -subr_eq0 -v' vX1 vX' c2' -e -s d0; apply/eqP; exact: sem_nil.
Qed.
Lemma opv0r o x : opv o x 0 = 0.
Proof. by have := opvDr o 0 0 x; rewrite addr0 => /eqP; rewrite eq_sym -subr_eq0 addrK => /eqP. Qed.
Lemma opv0l o x : opv o 0 x = 0.
Proof. by have := opvDl o 0 0 x; rewrite addr0 => /eqP; rewrite eq_sym -subr_eq0 addrK => /eqP. Qed.
Lemma mul_mv_dopP o1 A d : operator m d -> field m A ->
  exists2 d', mul_mv_dop me m dga o1 A d = Some d' & [/\ operator m d', dp_cmp d' = false &
    forall o2 o3 o4 F, reassociates m o1 o2 o3 o4 -> field m F ->
      sem o2 false (dp_terms d') (val F) = opv o3 (val A) (sem o4 false (dp_terms d) (val F))].
Proof.
move=> od fA; have /operatorE ot := od; rewrite /mul_mv_dop.
have [ts -> [ots e]] := scaleP o1 false fA ot.
have ot' : operator m (Dop ts false) by exact/operatorE.
have [d' /= -> [od' cE s]] := consP ot'; exists d' => //; split=> // o2 o3 o4 F law fF; rewrite s semE e.
rewrite big_map /=; elim: (dp_terms d) ot => [|[c p] l IH] /=; first by rewrite big_nil sem_nil opv0r.
move=> [fc /andP[_ dp] ol]; rewrite big_cons sem_cons opvDr IH //; congr (_ + _) => /=.
by have [B _ [fB <-]] := pd_on_mvP fF dp; exact: reassocP law fA fc fB.
Qed.
Lemma mul_dop_mvP o1 A d : operator m d -> field m A ->
  exists2 d', mul_dop_mv me m dga o1 d A = Some d' & [/\ operator m d', dp_cmp d' = true &
    forall o2 o3 o4 F, reassociates m o3 o4 o2 o1 -> field m F ->
      sem o2 true (dp_terms d') (val F) = opv o4 (sem o3 true (dp_terms d) (val F)) (val A)].
Proof.
move=> od fA; have /operatorE ot := od; rewrite /mul_dop_mv.
have [ts -> [ots e]] := scaleP o1 true fA ot.
have ot' : operator m (Dop ts true) by exact/operatorE.
have [d' /= -> [od' cE s]] := consP ot'; exists d' => //; split=> // o2 o3 o4 F law fF; rewrite s semE e.
rewrite big_map /=; elim: (dp_terms d) ot => [|[c p] l IH] /=; first by rewrite big_nil sem_nil opv0l.
move=> [fc /andP[_ dp] ol]; rewrite big_cons sem_cons opvDl IH //; congr (_ + _) => /=.
by have [B _ [fB <-]] := pd_on_mvP fF dp; exact: (esym (reassocP law fB fc fA)).
Qed.
Lemma pd_on_dopP p d : operator m d -> pd_dom ltn_ p ->
  exists2 q, pd_on_dop me m dga p d = Some q & [/\ operator m q, dp_cmp q = dp_cmp d &
    forall o cmp w, sem o cmp (dp_terms q) w = papp nabN p (sem o cmp (dp_terms d) w)].
Proof.
move/operatorE=> od dp; rewrite /pd_on_dop.
have [ts E [ot _]] := pd_on_termsP (actDl MMul false) nabND (@leibN MMul false) commN ad iz df od dp.
exists (Dop ts (dp_cmp d)); rewrite ?E //; split=> [||o cmp w] //; first exact/operatorE.
have [ts' E' [_ s]] := pd_on_termsP (actDl o cmp) nabND (@leibN o cmp) commN ad iz df od dp.
by move: E'; rewrite E => -[->].
Qed.
(* A o1 D for a multivector A and an operator D acting to the right *)
Theorem C35_scale_right o1 o2 o3 o4 A d : reassociates m o1 o2 o3 o4 -> operator m d -> ~~ dp_cmp d -> field m A ->
  exists d', [/\ scale_dop me m dga o1 A d = Some d', operator m d', ~~ dp_cmp d' &
    forall F, field m F -> exists G G', [/\ apply_dop me m dga o2 d' F = Some G', apply_dop me m dga o4 d F = Some G &
      run_eq a G' (dop o3 A G) = Some true]].
Proof.
move=> law od nc fA; have [d' E [od' cE s]] := mul_mv_dopP o1 od fA.
exists d'; rewrite /scale_dop (negbTE nc) /= (negbTE nc) E cE; split=> // F fF.
have [X EX [fX vX]] := applyP o2 od' fF; have [X1 E1 [fX1 vX1]] := applyP o4 od fF.
by exists X1, X; split=> //; apply: eqr_op => //; rewrite vX vX1 cE (negbTE nc) (s _ _ _ _ law).
Qed.
(* D o1 A for an operator D acting to the left *)
Theorem C35_scale_left o1 o2 o3 o4 A d : reassociates m o3 o4 o2 o1 -> operator m d -> dp_cmp d -> field m A ->
  exists d', [/\ scale_dop me m dga o1 A d = Some d', operator m d', dp_cmp d' &
    forall F, field m F -> exists G G', [/\ apply_dop me m dga o2 d' F = Some G', apply_dop me m dga o3 d F = Some G &
      run_eq a G' (dop o4 G A) = Some true]].
Proof.
move=> law od nc fA; have [d' E [od' cE s]] := mul_dop_mvP o1 od fA.
exists d'; rewrite /scale_dop nc /= nc E cE; split=> // F fF.
have [X EX [fX vX]] := applyP o2 od' fF; have [X1 E1 [fX1 vX1]] := applyP o3 od fF.
by exists X1, X; split=> //; apply: eqr_op => //; rewrite vX vX1 cE nc (s _ _ _ _ law).
Qed.
(* (D1 o1 D2) o2 F == D1 o3 (D2 o4 F) for operators acting to the right *)
Theorem C35_compose_right o1 d1 d2 : operator m d1 -> operator m d2 -> ~~ dp_cmp d1 -> ~~ dp_cmp d2 ->
  exists d, [/\ compose_dop me m dga o1 d1 d2 = Some d, operator m d, ~~ dp_cmp d &
    forall o2 o3 o4 F, reassociates m o1 o2 o3 o4 -> field m F -> exists G G2 G1,
      [/\ apply_dop me m dga o2 d F = Some G, apply_dop me m dga o4 d2 F = Some G2,
          apply_dop me m dga o3 d1 G2 = Some G1 & run_eq a G G1 = Some true]].
Proof.
move=> od1 od2 c1 c2; have /operatorE ot1 := od1.
have h s : operator m s -> dp_cmp s = false -> exists2 d, ofoldl (fun s (t : mv R * pdop) =>
    LET q := pd_on_dop me m dga t.2 d2 IN LET p := mul_mv_dop me m dga o1 t.1 q IN dop_add me m dga s p) (dp_terms d1) s = Some d &
    [/\ operator m d, dp_cmp d = false & forall o2 o3 o4 F, reassociates m o1 o2 o3 o4 -> field m F ->
      sem o2 false (dp_terms d) (val F) =
      sem o2 false (dp_terms s) (val F) + sem o3 false (dp_terms d1) (sem o4 false (dp_terms d2) (val F))].
  elim: (dp_terms d1) ot1 s => [|[c p] ts IH] /= ot s os cs.
    by exists s => //; split=> // o2 o3 o4 F _ _; rewrite sem_nil addr0.
  case: ot => fc /andP[_ dp] ot.
  have [q -> [oq cq sq]] := pd_on_dopP od2 dp; have [r /= -> [or cr sr]] := mul_mv_dopP o1 oq fc.
  have [|s1 [/= -> os1 cs1 ss1]] := addP_ os or; first by rewrite cs cr.
  have [|d /= -> [od cd sd]] := IH ot s1 os1; first by rewrite cs1.
  exists d => //; split=> // o2 o3 o4 F law fF; rewrite (sd o2 o3 o4) // ss1 sem_cons (sr o2 o3 o4) // sq -addrA; congr (_ + (_ + _)).
have [d E [od cd sd]] := h (Dop [::] false) isT erefl.
have [d' E' [od' cd' sd']] := consP od.
exists d'; rewrite /compose_dop /= (negbTE c1) (negbTE c2) /= E /= E' cd' cd; split=> // o2 o3 o4 F law fF.
have [X EX [fX vX]] := applyP o2 od' fF; have [X2 E2 [fX2 vX2]] := applyP o4 od2 fF.
have [X1 E1 [fX1 vX1]] := applyP o3 od1 fX2; exists X, X2, X1; split=> //; apply: eqr => //.
by rewrite vX vX1 vX2 (negbTE c1) (negbTE c2) cd' cd sd' (sd o2 o3 o4) // sem_nil add0r.
Qed.
(* (F o1 D1) o2 D2 == F o3 (D1 o4 D2) for operators acting to the left *)
Theorem C35_compose_left o4 d1 d2 : operator m d1 -> operator m d2 -> dp_cmp d1 -> dp_cmp d2 ->
  exists d, [/\ compose_dop me m dga o4 d1 d2 = Some d, operator m d, dp_cmp d &
    forall o1 o2 o3 F, reassociates m o1 o2 o3 o4 -> field m F -> exists G G1 G2,
      [/\ apply_dop me m dga o3 d F = Some G, apply_dop me m dga o1 d1 F = Some G1,
          apply_dop me m dga o2 d2 G1 = Some G2 & run_eq a G G2 = Some true]].
Proof.
move=> od1 od2 c1 c2; have /operatorE ot2 := od2.
have h s : operator m s -> dp_cmp s = true -> exists2 d, ofoldl (fun s (t : mv R * pdop) =>
    LET q := pd_on_dop me m dga t.2 d1 IN LET p := mul_dop_mv me m dga o4 q t.1 IN dop_add me m dga s p) (dp_terms d2) s = Some d &
    [/\ operator m d, dp_cmp d = true & forall o1 o2 o3 F, reassociates m o1 o2 o3 o4 -> field m F ->
      sem o3 true (dp_terms d) (val F) =
      sem o3 true (dp_terms s) (val F) + sem o2 true (dp_terms d2) (sem o1 true (dp_terms d1) (val F))].
  elim: (dp_terms d2) ot2 s => [|[c p] ts IH] /= ot s os cs.
    by exists s => //; split=> // o1 o2 o3 F _ _; rewrite sem_nil addr0.
  case: ot => fc /andP[_ dp] ot.
  have [q -> [oq cq sq]] := pd_on_dopP od1 dp; have [r /= -> [or cr sr]] := mul_dop_mvP o4 oq fc.
  have [|s1 [/= -> os1 cs1 ss1]] := addP_ os or; first by rewrite cs cr.
  have [|d /= -> [od cd sd]] := IH ot s1 os1; first by rewrite cs1.
  exists d => //; split=> // o1 o2 o3 F law fF; rewrite (sd o1 o2 o3) // ss1 sem_cons (sr o3 o1 o2) // sq -addrA; congr (_ + (_ + _)).
have [d E [od cd sd]] := h (Dop [::] true) isT erefl.
have [d' E' [od' cd' sd']] := consP od.
exists d'; rewrite /compose_dop /= c1 c2 /= E /= E' cd' cd; split=> // o1 o2 o3 F law fF.
have [X EX [fX vX]] := applyP o3 od' fF; have [X1 E1 [fX1 vX1]] := applyP o1 od1 fF.
have [X2 E2 [fX2 vX2]] := applyP o2 od2 fX1; exists X, X1, X2; split=> //; apply: eqr => //.
by rewrite vX vX2 vX1 c1 c2 cd' cd sd' (sd o1 o2 o3) // sem_nil add0r.
Qed.
End Flat_.
(* the hypothesis holds if the algebra has no connection *)
Theorem C35_no_connection : dg_connect dga = false -> commuting me m dga.
Proof.
move=> nc i j k P Q P' Q' li lj lk E1 E2 E3 E4; pose k' := Ordinal lk.
have [ok_ vk bk _] := @basis_ok R two a k'; have fk : field m (basis_mv R k) by rewrite /field mv_validE ok_.
have dE (l : nat) A B (ll : (l < n)%N) : field m A -> deriv A l = Some B -> field m B /\ val B = nab (Ordinal ll) (val A).
  by move=> fA; have [X -> h] := yields_field (derivP (Ordinal ll) fA) => -[<-].
have [fP vP] := dE _ _ _ li fk E1; have [fP' vP'] := dE _ _ _ lj fP E2.
have [fQ vQ] := dE _ _ _ lj fk E3; have [fQ' vQ'] := dE _ _ _ li fQ E4.
apply: eqr => //; rewrite vP' vP vQ' vQ !(nab_off two me _ nc).
by apply/ffunP=> S; rewrite !ffunE; case: par.
Qed.
End C35.

Print Assumptions C34_pdop.
Print Assumptions C34_add.
Print Assumptions C34_neg.
Print Assumptions C34_scale.
Print Assumptions C34_sub.
Print Assumptions C34_function.
Print Assumptions C34_terms.
Print Assumptions C34_derivative.
Print Assumptions C34_consolidate.
Print Assumptions C34_compose.
Print Assumptions C34_equal.
Print Assumptions C34_additive.
Print Assumptions C34_zero_order_refuted.
Print Assumptions C35_products.
Print Assumptions C35_total.
Print Assumptions C35_additive.
Print Assumptions C35_neg.
Print Assumptions C35_divide.
Print Assumptions C35_add.
Print Assumptions C35_add_sides.
Print Assumptions C35_multivector.
Print Assumptions C35_equal.
Print Assumptions C35_scale_right.
Print Assumptions C35_scale_left.
Print Assumptions C35_compose_right.
Print Assumptions C35_compose_left.
Print Assumptions C35_no_connection.
