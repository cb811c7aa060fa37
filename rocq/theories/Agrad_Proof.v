(* Agrad_Proof.v -- what the derivative by a multivector computes *)
From mathcomp Require Import all_ssreflect all_algebra.
From Verif Require Import NatTac AlgTactics Exterior Clifford Blades Spec_Grade Grades GradeLaws ContrLaws Det Outer BladeLaws RecipBlades Nabla.
From Verif Require Import Spec_Index PyBase Ga_Model Ga_Proof_Tables Ga_Proof_Sort Ga_Proof_Sem Ga_Proof_Reduce.
From Verif Require Import Ga_Sem Ga_Proof_Rep Ga_Proof_Conv Ga_Proof_Mul Spec_Clifford Clifford_Unique Spec_Mv Ga_Proof_Den Ga_Proof_Wedge Ga_Proof_Inner.
From Verif Require Import Ga_Proof_Grade Mv_Model Mv_Proof Mv_Expr Dual_Model Dual_Proof Spec_Diff Coef_Proof Diff_Model Dop_Model Agrad_Model.
Set Implicit Arguments.
Unset Strict Implicit.
Unset Printing Implicit Defensive.
Import GRing.Theory.
Local Open Scope ring_scope.

Section Agrad.
Variables (R : comUnitRingType) (two : (2%:R : R) \is a GRing.unit) (a : ga R).
Hypothesis wf : wf_ga a.
Notation n := (ga_n a).
Notation C := (cl two a).
Notation val_ := (value two a).
Notation mvv := (mvv two a).
Notation g := (ga_metric two a).
Notation M := (mval R n).
Hypothesis ug : gmat a \in unitmx.
Variable gsym : option R.
Hypothesis gok : gsym_ok a gsym.

Section Rs.
Variables (rs : seq (expr R)) (rsE : r_basis a = Some rs) (rsok : r_ok two a rs).
Definition rvec (i : 'I_n) : M := val_ (nth [::] rs i).
Lemma rvec_homog i : homog 1 (rvec i). Proof. by have [_ /(_ i)[]] := rsok. Qed.
Lemma rvec_dual i j : gform g (bl R [set j]) (rvec i) = (j == i)%:R * r_scale a.
Proof. by have [_ /(_ i)[_ _ ->]] := rsok. Qed.
Lemma rwedges (l : seq 'I_n) x : blade_expr n x -> exists2 z,
  foldl (fun o i => LET x := o IN ga_wedge a x (nth [::] rs i)) (Some x) [seq val i | i <- l] = Some z &
  blade_expr n z /\ val_ z = foldl (fun y i => ext y (rvec i)) (val_ x) l.
Proof.
elim: l x => [|i l IH] x bx /=; first by exists x.
have [_ /(_ i)[bi _ _]] := rsok.
have [z -> [bz _ vz]] := ga_wedgeP two bx bi.
have [w E [bw vw]] := IH z bz; exists w => //; split=> //.
by rewrite vw vz.
Qed.
Lemma recip_bladeP (S : {set 'I_n}) : exists2 r, recip_blade gsym a (mk_blade (list_of S)) = Some r &
  blade_expr n r /\ val_ r = rbs (r_scale a) rvec S.
Proof.
rewrite /recip_blade (b2i_get (list_of_wf S)) /= rsE /= /list_of -map_rev.
have b1 : blade_expr n [:: (1 : R, [::])] by rewrite /blade_expr /= (@mk_blade_in n [::]).
have [z E [bz vz]] := rwedges (rev (enum S)) b1.
set o := foldl _ _ _; have -> : o = Some z by rewrite -E.
have v1 : foldl (fun y i => ext y (rvec i)) (val_ [:: (1, [::])]) (rev (enum S)) = rb rvec (enum S).
  by rewrite value_const scale1r.
rewrite /= /rbs size_map -cardE /r_scale; case: ifP => ort.
  by exists z => //; split=> //; rewrite vz v1 expr1n invr1 scale1r.
rewrite (ga_e_sqE two wf gok) /= /sinv unitrX ?e_sqv_unit //=.
exists (escale (esq a ^+ #|S|)^-1 z) => //; split; first by rewrite /blade_expr words_escale.
by rewrite /value ev_escale -/(val_ z) vz v1.
Qed.

(* ---- the operator ---- *)
Variables (sy : symbols R) (connect : bool) (N : nat) (x : nat -> R).
Notation D := (sym_diff sy).
Hypothesis der : forall k, derivation (D k).
Hypothesis Dx : forall k l, (k < N)%N -> (l < N)%N -> D k (x l) = (k == l)%:R.
Hypothesis sx : forall k, (k < N)%N -> sym_of sy (x k) = Some k.
Variables (lab : seq nat -> nat) (Gs : seq nat) (A : mv R).
Hypothesis labN : forall I, wfI n I -> size I \in Gs -> (lab I < N)%N.
Hypothesis labI : forall I J, wfI n I -> wfI n J -> size I \in Gs -> size J \in Gs -> lab I = lab J -> I = J.
Hypothesis okA : mv_ok a A.
Hypothesis blA : bladed a A.
Hypothesis coA : forall I, wfI n I -> coef (obj A) (mk_blade I) = if size I \in Gs then x (lab I) else 0.
Notation e_ := (rbs (r_scale a) rvec).
Definition labS (S : {set 'I_n}) : nat := lab (list_of S).
Lemma labS_lt (S : {set 'I_n}) : #|S| \in Gs -> (labS S < N)%N.
Proof. by move=> sS; apply: labN; rewrite ?list_of_wf ?size_list_of. Qed.
Lemma x_neq0 k : (k < N)%N -> x k != 0.
Proof.
move=> kN; apply/eqP => x0; have := Dx kN kN; rewrite x0 (drv0 (der k)) eqxx => /esym/eqP.
by rewrite oner_eq0.
Qed.
Definition gsets : seq {set 'I_n} := [seq S : {set 'I_n} <- enum {set 'I_n} | #|S| \in Gs].
Definition gterm (S : {set 'I_n}) : R * word := (x (labS S), mk_blade (list_of S)).
Lemma gterms : perm_eq (canon (obj A)) (map gterm gsets).
Proof.
have /andP[cA _] := okA; have bA := bladed_blade okA blA.
have /andP[uA nz] := cA; rewrite (canon_id cA); apply: uniq_perm.
- exact: (map_uniq uA).
- rewrite map_inj_uniq; first by rewrite filter_uniq // enum_uniq.
  move=> S T [_ /mk_blade_inj]; exact: list_of_inj.
move=> t; apply/idP/mapP => [tA|[S]].
  have [I wI tI] := blade_mem bA tA; have := coef_uniq uA tA; rewrite tI coA //.
  have := allP nz t tA; case: ifP => [sI _ E|_ nz0 t0]; last by rewrite -t0 eqxx in nz0.
  exists (set_of n I); first by rewrite mem_filter mem_enum card_set_of // sI.
  by rewrite /gterm /labS set_ofK // E -tI; case: (t).
rewrite mem_filter mem_enum andbT => sS ->.
have wS := list_of_wf S; have := coA wS; rewrite size_list_of sS => c0.
have : mk_blade (list_of S) \in words (obj A).
  apply: contraT => ni; have := coef_notin ni; rewrite c0 => /eqP; by rewrite (negbTE (x_neq0 (labS_lt sS))).
case/mapP=> u uA' tE; have := coef_uniq uA uA'; rewrite -tE c0 => xE.
by rewrite /gterm /labS xE tE; case: (u) uA'.
Qed.
Definition gdop (t : R * word) : mv R * nat :=
  (if recip_blade gsym a t.2 is Some r then mk_mv a r else A, if sym_of sy t.1 is Some k then k else 0%N).
Local Arguments gdop : simpl never.
Lemma agradE : agrad sy gsym a A = Some (map gdop (canon (obj A))).
Proof.
apply: omapM_some => t; rewrite (perm_mem gterms) => /mapP[S sS ->].
have {}sS : #|S| \in Gs by move: sS; rewrite mem_filter => /andP[].
rewrite /gdop /= (sx (labS_lt sS)) /=.
by have [r -> _] := recip_bladeP S.
Qed.
Lemma gdopP (S : {set 'I_n}) : #|S| \in Gs -> exists2 r, gdop (gterm S) = (r, labS S) & [/\ mv_ok a r, bladed a r & mvv r = e_ S].
Proof.
move=> sS; rewrite /gdop /= (sx (labS_lt sS)); have [r -> [br vr]] := recip_bladeP S; exists (mk_mv a r) => //.
by rewrite mvv_mk vr; split; [exact: mk_mv_blade|rewrite /bladed blade_brep|].
Qed.
Lemma value_dco k y : blade_expr n y -> val_ [seq (D k t.1, t.2) | t <- y] = dcoef (D k) (val_ y).
Proof.
elim: y => [|[c w] y IH] /=; first by rewrite !value_nil (dco0 _ (der k)).
case/andP=> bw by_; rewrite -(cat1s (c, w)) -(cat1s (_, w)) !value_cat (dcoD (der k)) -IH //; congr (_ + _).
by have /bladeP[I wI wE] := bw; rewrite /= in wE; rewrite wE !value_term // (dcoZ (der k)) (dco_bl (der k)) scaler0 addr0.
Qed.
Lemma sym_pdiffP k F : mv_ok a F -> bladed a F -> (connect -> gpart 0 (mvv F) = mvv F) ->
  @yields R two a true (sym_pdiff sy a connect k F) (dcoef (D k) (mvv F)).
Proof.
move=> oF bF cF; have bo := bladed_blade oF bF.
have y : @yields R two a true (Some (mk_mv a [seq (D k t.1, t.2) | t <- obj F])) (dcoef (D k) (mvv F)).
  apply: yields_blade; last exact: value_dco.
  by rewrite /blade_expr /words -map_comp.
rewrite /sym_pdiff; case: connect cF => // /(_ isT) cF.
by rewrite (is_scalarP two wf oF) /= cF eqxx.
Qed.
Lemma sym_pdiff_none k F : mv_ok a F -> bladed a F -> connect -> gpart 0 (mvv F) <> mvv F ->
  sym_pdiff sy a connect k F = None.
Proof.
move=> oF bF c nF; rewrite /sym_pdiff c (is_scalarP two wf oF) /=.
case: eqP => //= _; case: ifP => // /nilP; rewrite (canon_id (andP oF).1) => E; case: nF.
have h t : t \in obj F -> t.2 = [::].
  move=> tF; have : t \notin [seq t <- obj F | ~~ nilp t.2] by rewrite E.
  by rewrite mem_filter tF andbT negbK => /nilP.
have {}h : all (fun t => t.2 == [::]) (obj F) by apply/allP => t /h ->.
rewrite /Mv_Proof.mvv; elim: (obj F) h => [|[c1 w] l IH] /=; first by rewrite value_nil raddf0.
case/andP=> /eqP-> /IH el; rewrite -(cat1s (c1, _)) value_cat value_const raddfD /= el; congr (_ + _).
by rewrite linearZ /= gpart_bl cards0.
Qed.
Definition opC (d : dmode) (x y : C) : C :=
  match d with
  | MMul => x * y | MWedge => ext x y
  | MDot => selprod (fun u v : C => u * v) (rule_of Hestenes) x y
  | MLt => selprod (fun u v : C => u * v) (rule_of LeftC) x y
  | MGt => selprod (fun u v : C => u * v) (rule_of RightC) x y
  end.
Lemma op_ofP d X Y : mv_ok a X -> mv_ok a Y -> bladed a X -> bladed a Y -> @yields R two a true (op_of a d X Y) (opC d (mvv X) (mvv Y)).
Proof.
move=> oX oY bX bY; case: d => /=; try exact: mv_singleP.
  by apply: yieldsW (mv_mulP two wf oX oY) => _.
by apply: yieldsW (mv_wedgeP two wf oX oY) => _.
Qed.
(* the operator on the left (right = false) or on the right of the field *)
Definition act (right : bool) (d : dmode) (r f : C) : C := if right then opC d f r else opC d r f.
Definition apply_side (right : bool) (d : dmode) (ts : seq (mv R * nat)) (F : mv R) : option (mv R) :=
  if right then agrad_apply_left sy a connect d F ts else agrad_apply sy a connect d ts F.
Lemma apply_sideP right d F : mv_ok a F -> bladed a F -> (connect -> gpart 0 (mvv F) = mvv F) ->
  @yields R two a true (apply_side right d (map gdop (canon (obj A))) F)
    (\sum_(S : {set 'I_n} | #|S| \in Gs) act right d (e_ S : C) (dcoef (D (labS S)) (mvv F) : C)).
Proof.
move=> oF bF cF; move: gdopP; move: gdop => gd gdP.
have E : \sum_(S : {set 'I_n} | #|S| \in Gs) act right d (e_ S : C) (dcoef (D (labS S)) (mvv F) : C) =
         \sum_(t <- canon (obj A)) act right d (mvv (gd t).1) (dcoef (D (gd t).2) (mvv F) : C).
  rewrite (perm_big _ gterms) big_map /gsets big_filter [RHS]big_enum_cond; apply: eq_bigr => S sS.
  by have [r -> [_ _ ->]] := gdP S sS.
rewrite E; have : {subset canon (obj A) <= map gterm gsets} by move=> t; rewrite (perm_mem gterms).
have [oc vc bc] : [/\ mv_ok a (mv_const a 0), mvv (mv_const a 0) = 0 & bladed a (mv_const a 0)].
  by have [? -> ?] := const_ok two a 0; rewrite /scal scale0r.
have -> ts : apply_side right d ts F = ofoldl (fun s (t : mv R * nat) => LET dF := sym_pdiff sy a connect t.2 F IN
    LET q := (if right then op_of a d dF t.1 else op_of a d t.1 dF) IN mv_add a s q) ts (mv_const a 0) by case: (right).
set sm := \sum_(t <- _) _; rewrite -[sm]add0r -vc /sm => {sm} sub0; move: (mv_const a 0) oc bc {vc}.
elim: (canon (obj A)) sub0 => [|t l IH] sub s os bs; first by rewrite /= big_nil addr0; exists s.
have /mapP[S sS tE] := sub t (mem_head _ _).
have {}sS : #|S| \in Gs by move: sS; rewrite mem_filter => /andP[].
have [r gE [or br vr]] := gdP S sS; rewrite -tE in gE; rewrite map_cons big_cons gE /=.
have [dF -> [od vd /(_ isT) bd]] := sym_pdiffP (labS S) oF bF cF; rewrite /= -vd.
have [q -> [oq vq bq]] : @yields R two a true (if right then op_of a d dF r else op_of a d r dF) (act right d (mvv r) (mvv dF)).
  by rewrite /act; case: (right); exact: op_ofP.
rewrite /=; have [s' -> [os' vs' bs']] := mv_addP two wf os oq; rewrite /= addrA -vq -vs'.
apply: IH => //; last by apply: bs'; rewrite bs.
by move=> u ul; apply: sub; rewrite inE ul orbT.
Qed.
Lemma applyP F : mv_ok a F -> bladed a F -> (connect -> gpart 0 (mvv F) = mvv F) ->
  @yields R two a true (agrad_apply sy a connect MMul (map gdop (canon (obj A))) F)
    (\sum_(S : {set 'I_n} | #|S| \in Gs) (e_ S : C) * (dcoef (D (labS S)) (mvv F) : C)).
Proof. exact: (@apply_sideP false MMul). Qed.

(* ---- scalar fields ---- *)
Implicit Types (S T : {set 'I_n}).
Definition keep_grades (y : M) : M := [ffun S : {set 'I_n} => if #|S| \in Gs then y S else 0].
Lemma grad_scalar F c (y : M) : mv_ok a F -> bladed a F -> mvv F = c *: (bl R set0 : C) ->
  (forall S, #|S| \in Gs -> D (labS S) c = ((bl R S : C) * (y : C) : M) set0) ->
  @yields R two a true (agrad_apply sy a connect MMul (map gdop (canon (obj A))) F) (keep_grades y).
Proof.
move=> oF bF vF h; have s0 : connect -> gpart 0 (mvv F) = mvv F.
  by move=> _; rewrite vF linearZ /= gpart_bl cards0.
apply: yields_eq (applyP oF bF s0) _.
rewrite /keep_grades -(rbs_expand rvec_homog rvec_dual (r_scale_unit ug)).
apply: eq_bigr => S sS; rewrite vF (dcoZ (der _)) (dco_bl (der _)) scaler0 addr0 h //.
by rewrite -[(bl R set0 : C)]/(1 : C) -scalerAr mulr1.
Qed.
Hypothesis Dg : forall k i j, D k (geff a i j) = 0.
Lemma dco_mul k (u v : C) : dcoef (D k) (u * v : C) = (dcoef (D k) u : C) * v + u * (dcoef (D k) v : C).
Proof.
have off w : nabla (D k) (fun _ _ : 'I_n => 0) w = dcoef (D k) w.
  rewrite /nabla /dblades big1 ?addr0 // => i _; rewrite /dbasis big1 ?(ext0l two) // => j _.
  by rewrite scale0r.
rewrite -!off; apply: (@nablaM R n g _ (der k) (fun _ _ => 0)) => i j.
by rewrite -[g i j]/(geff a i j) Dg !big1 ?addr0 // => l _; rewrite mul0r.
Qed.
Lemma value_A S : (mvv A : M) S = if #|S| \in Gs then x (labS S) else 0.
Proof.
have := coA (list_of_wf S); rewrite (coef_value two (bladed_blade okA blA) (list_of_wf S)) list_ofK size_list_of.
by move=> ->.
Qed.
Lemma dco_A S : #|S| \in Gs -> dcoef (D (labS S)) (mvv A) = bl R S.
Proof.
move=> sS; apply/ffunP => T; rewrite ffunE value_A bl_coef; case: ifP => sT.
  rewrite Dx ?labS_lt //; congr (nat_of_bool _)%:R; apply/eqP/eqP => [e|->//].
  by apply: list_of_inj; apply: labI; rewrite ?list_of_wf ?size_list_of // -e.
rewrite (drv0 (der _)); case: eqP => // E; by rewrite E sS in sT.
Qed.
Lemma dco_AB (b : M) S : #|S| \in Gs -> dcoef (D (labS S)) b = 0 ->
  D (labS S) ((mvv A * (b : C) : M) set0) = ((bl R S : C) * (b : C) : M) set0.
Proof.
move=> sS b0; have := dco_mul (labS S) (mvv A) (b : C).
by move=> /(congr1 (fun z : M => z set0)); rewrite ffunE dco_A // b0 mulr0 addr0.
Qed.
Lemma dco_AA S : #|S| \in Gs ->
  D (labS S) ((mvv A * mvv A : M) set0) = ((bl R S : C) * ((2%:R *: mvv A : M) : C) : M) set0.
Proof.
move=> sS; have := dco_mul (labS S) (mvv A) (mvv A).
move=> /(congr1 (fun z : M => z set0)); rewrite ffunE dco_A // => ->.
rewrite [LHS]ffunE [X in _ + X]scalar_swap -scalerAr ffunE.
by rewrite -mulr2n mulr_natl.
Qed.
Lemma keep_A : keep_grades (mvv A) = mvv A.
Proof. by apply/ffunP => S; rewrite ffunE value_A; case: (_ \in _). Qed.
(* the sum of the reciprocal blades times the blades *)
Lemma scalar_rbs_bl S : ((e_ S : C) * (bl R S : C) : M) set0 = 1.
Proof. by rewrite (rbs_bl rvec_homog rvec_dual (r_scale_unit ug)) eqxx. Qed.
Lemma e_vec i : e_ [set i] = (r_scale a)^-1 *: rvec i.
Proof. by rewrite /rbs cards1 expr1 enum_set1 /rb /= (ext1l two). Qed.
Lemma sum_vec : \sum_(i : 'I_n) (e_ [set i] : C) * (bl R [set i] : C) = n%:R *: (bl R set0 : C).
Proof.
have u := r_scale_unit ug.
pose c : 'M[R]_n := \matrix_(i, k) rvec i [set k].
have csym i j : c i j = c j i.
  have [_ h] := r_matrix rsok; apply: (mulIr u).
  by rewrite -[c i j * _]h -[c j i * _]h (gform_sym g).
have -> : \sum_(i : 'I_n) (e_ [set i] : C) * (bl R [set i] : C) =
    n%:R *: (bl R set0 : C) + (r_scale a)^-1 *: \sum_(i : 'I_n) ext (rvec i) (bl R [set i]).
  rewrite scaler_sumr -[n in n%:R]card_ord -sum1_card natr_sum scaler_suml -big_split; apply: eq_bigr => i _.
  rewrite e_vec -scalerAl (vec_mul g _ (rvec_homog i)) (lc_recip rvec_homog rvec_dual) scalerDr; congr (_ + _).
  rewrite contr_op_bl /Cb inE eqxx setDv /nlt (_ : [set k in [set i] | _] = set0) ?cards0 ?expr0 ?scale1r.
    by rewrite scalerA mulVr // scale1r.
  by apply/setP => k; rewrite !inE; case: eqP => [->|//]; rewrite ltnn.
suff -> : \sum_(i : 'I_n) ext (rvec i) (bl R [set i]) = 0 by rewrite scaler0 addr0.
have E : \sum_(i : 'I_n) ext (rvec i) (bl R [set i]) = \sum_(i : 'I_n) \sum_(k : 'I_n) c i k *: ext (bl R [set k]) (bl R [set i]).
  apply: eq_bigr => i _; rewrite {1}(vec_decomp (rvec_homog i)) (GradeLaws.ext_suml two); apply: eq_bigr => k _.
  by rewrite (GradeLaws.extZl two) mxE.
rewrite E; set T := LHS; suff T2 : T = - T.
  have : (2%:R : R) *: T = 0 by rewrite scaler_nat mulr2n {2}T2 subrr.
  by move=> /(congr1 (fun z => (2%:R : R)^-1 *: z)); rewrite scalerA mulVr // scale1r scaler0.
rewrite {2}/T exchange_big /= -sumrN /T; apply: eq_bigr => i _; rewrite -sumrN; apply: eq_bigr => k _.
have h1 (j : 'I_n) : homog 1 (bl R [set j]) by have := @homog_bl R n [set j]; rewrite cards1.
by rewrite (GradeLaws.ext_swap (h1 k) (h1 i)) expr1 scaleN1r scalerN csym.
Qed.
End Rs.
End Agrad.
