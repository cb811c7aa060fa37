(* Props_Blade.v -- property C24: projection into and reflection in a blade. *)
From mathcomp Require Import all_ssreflect all_algebra.
From Verif Require Import NatTac AlgTactics Exterior Clifford Blades Spec_Grade Grades GradeLaws ContrLaws.
From Verif Require Import Spec_Index PyBase Ga_Model Ga_Proof_Tables Ga_Proof_Sort Ga_Proof_Sem Ga_Proof_Reduce.
From Verif Require Import Ga_Sem Ga_Proof_Rep Ga_Proof_Conv Ga_Proof_Mul Spec_Clifford Clifford_Unique Spec_Mv Ga_Proof_Den Ga_Proof_Wedge Ga_Proof_Inner.
From Verif Require Import Ga_Proof_Grade Mv_Model Mv_Proof Mv_Expr Mv_Proof_Expr Props_Mv Det Props_Dual Coef_Model Props_Versor.
From Verif Require Import Names_Model Names_Proof Coef_Proof Props_Coef BladeLaws Blade_Model.
Set Implicit Arguments.
Unset Strict Implicit.
Unset Printing Implicit Defensive.
Import GRing.Theory.
Local Open Scope ring_scope.
Open Scope py_scope.

Section Blade.
Variables (R : comUnitRingType) (two : (2%:R : R) \is a GRing.unit) (a : ga R).
Hypothesis wf : wf_ga a.
Notation n := (ga_n a).
Notation C := (cl two a).
Notation mvv := (mvv two a).
Implicit Types (X Y Z B v : mv R) (c q : R).
Notation g := (ga_metric two a).
Let cm : mval R n -> mval R n -> mval R n := cmul g.
Let Hc : is_clifford_product (fun i j : 'I_n => geff a i j) cm := clifford_product_exists g.
Let VE X : mv_ok a X -> den cm (obj X) = mvv X. Proof. exact: den_ok. Qed.

Notation yld := (@yields R two a).

(* The call of a method on the result of an expression. *)
Definition project_of p B : option (mv R) := LET x := run a p IN project_in_blade a x B.
Definition reflect_of p B : option (mv R) := LET x := run a p IN reflect_in_blade a x B.
(* The call returns a multivector equal (==) to the value of the expression p. *)
Definition gives (o : option (mv R)) p : Prop :=
  exists2 Y, o = Some Y & mv_valid a Y /\ run_eq a Y p = Some true.
(* B is the outer product of the vectors vs, and its quadratic form q is invertible. *)
Definition invertible_blade (vs : seq (mv R)) B q : Prop :=
  [/\ all (fun v => mv_valid a v && is_vec a v) vs, mv_valid a B && blade_form a B,
      run_eq a B (wedge_all vs) = Some true, mv_qform a B = Some q & q \is a GRing.unit].

(* the dictionary of the parts of all grades *)
Lemma gd_loop_keys (ts : expr R) d d' : gd_loop n ts d = Some d' -> uniq (map fst d) -> uniq (map fst d').
Proof.
elim: ts d => [|[c w] ts IH] d /=; first by case=> <-.
case: (if w is [::] then _ else _) => //= k /IH{}IH u; apply: IH.
by case: (dget d k) => [v|]; rewrite dkeys_dset; case: ifP => // nk; rewrite rcons_uniq nk.
Qed.
Lemma dget_out (d : seq (nat * expr R)) k : k \notin map fst d -> dget d k = None.
Proof. by elim: d => //= -[k' v] d IH; rewrite inE negb_or eq_sym => /andP[/negbTE -> /IH]. Qed.
Lemma decomposition_sum (x : expr R) : blade_expr n x ->
  exists2 d, grade_decomposition a x = Some d & all (fun p : nat * expr R => blade_expr n p.2) d /\
    forall F : nat -> C -> C, (forall r, F r 0 = 0) ->
      \sum_(p <- d) F p.1 (value two a p.2) = \sum_(r < n.+1) F r (gpart r (value two a x)).
Proof.
move=> bx; have [d E h] := grade_decompositionP two bx; exists d => //.
have u : uniq (map fst d) by exact: (gd_loop_keys E).
have get p : p \in d -> part d p.1 = p.2.
  rewrite /part; elim: (d) u => //= -[k v] l IH /andP[nk ul]; rewrite inE => /orP[/eqP -> /=|pl]; first by rewrite eqxx.
  by case: eqP => [e|_]; [case/negP: nk; rewrite /= e; apply: map_f|exact: IH].
split; first by apply/allP => p pd; rewrite -(get p pd); case: (h p.1).
move=> F F0.
transitivity (\sum_(r <- map fst d) F r (gpart r (value two a x))).
  rewrite big_map; apply: eq_big_seq => p pd; rewrite -(get p pd).
  by case: (h p.1) => _ ->.
rewrite -(big_mkord predT (fun r => F r (gpart r (value two a x)))) /index_iota subn0.
rewrite (bigID (fun r => r <= n)%N) /= [X in _ + X]big1 ?addr0 => [|r]; last first.
  by rewrite -ltnNge => rn; rewrite gpart_out.
rewrite [RHS](bigID (fun r => r \in map fst d)) /= [X in _ = _ + X]big1 ?addr0 => [|r nr]; last first.
  by have [_ <-] := h r; rewrite /part (dget_out nr) /= value_nil F0.
rewrite -[0%N :: iota 1 n]/(iota 0 n.+1) -big_filter -[RHS]big_filter; apply: perm_big; apply: uniq_perm; rewrite ?filter_uniq ?iota_uniq //.
by move=> r; rewrite !mem_filter mem_iota /= add0n ltnS andbC.
Qed.
Section One.
Variables (vs : seq (mv R)) (B : mv R) (q : R).
Hypothesis iB : invertible_blade vs B q.
Let bs : seq (mval R n) := [seq den cm (obj v) | v <- vs].
Lemma hbs b : b \in bs -> homog 1 b.
Proof.
have [hv _ _ _ _] := iB; rewrite /bs; elim: (vs) hv => //= v l IH /andP[/andP[h1 h2] hl].
by rewrite inE => /orP[/eqP ->|]; [exact: (vec_homog two h1 h2)|exact: IH].
Qed.
Lemma val_vs : all (mv_valid a) vs.
Proof. by have [hv _ _ _ _] := iB; apply: sub_all hv => v /andP[]. Qed.
Lemma oB : mv_ok a B. Proof. by have [_ /andP[h _] _ _ _] := iB; rewrite -mv_validE. Qed.
Lemma bB : bladed a B. Proof. by have [_ /andP[_ h] _ _ _] := iB. Qed.
Lemma vB : mvv B = wedges bs.
Proof.
have [hv /andP[hB _] e _ _] := iB; move: e; rewrite (run_eqP two wf Hc) /= ?hB ?(legal_wedge_all val_vs) // (VE oB).
by rewrite sem_wedge_all => -[/eqP].
Qed.
Lemma uq : q \is a GRing.unit. Proof. by have [] := iB. Qed.
Lemma q0 : q != 0. Proof. by apply: contraTneq uq => ->; rewrite unitr0. Qed.
Lemma Bq : (mrev (wedges bs) : C) * (wedges bs : C) = q *: 1.
Proof.
pose v (i : 'I_(size bs)) := nth 0 bs i.
have hv i : homog 1 (v i) by apply: hbs; exact: mem_nth.
have E : [seq v i | i <- enum 'I_(size bs)] = bs.
  by rewrite /v (map_comp (nth 0 bs) (@nat_of_ord _)) val_enum_ord map_nth_iota0 // take_size.
have sq := gram_sq g hv; rewrite /vps E in sq.
have hw : homog (size bs) (wedges bs) by exact: (Outer.wedges_homog two hbs).
have rv : mrev (wedges bs) = (-1) ^+ (size bs * (size bs - 1))./2 *: wedges bs by rewrite -{1}hw mrev_gpart hw.
have [_ _ _ eq_ _] := iB; move: eq_; rewrite (mv_qformP two wf oB bB) vB => -[].
rewrite rv -scalerAl sq scalerA scale_coef bl_coef eqxx mulr1 => ->.
by [].
Qed.

Lemma B0 : mvv B != 0.
Proof.
apply: contra_neq q0 => B0; have [_ _ _ eq_ _] := iB; move: eq_; rewrite (mv_qformP two wf oB bB) B0.
by rewrite mulr0 ffunE => -[].
Qed.
Lemma blade_accepted : (is_blade a (new_mv a (obj B))).2 = Some true.
Proof.
have [hv /andP[hB _] e _ _] := iB.
have [P E [oP vP bP]] := run_yields two wf Hc (legal_wedge_all val_vs).
have ib : inblade a (wedge_all vs) by elim: (vs).
have vPB : mvv P = mvv B by rewrite vP sem_wedge_all vB.
have u0 := B0.
have hP : mv_valid a P by rewrite mv_validE.
have := @C23_blade_complete _ two _ wf _ _ hv E; rewrite (run_eqP two wf Hc) /= ?hP // VE // vPB /num scale0r (negPf u0).
move/(_ erefl); rewrite /answers_blade (is_bladeE two wf oP (bladed_blade oP (bP ib))).
by rewrite (is_bladeE two wf oB (bladed_blade oB bB)) vPB.
Qed.
Lemma i_grade_char (o o' : cmv R) : [/\ cobj o = cobj o', char o = char o' & i_grade o = i_grade o'] ->
  i_grade (characterise a o) = i_grade (characterise a o').
Proof.
case: o => x b ch ig gs bf vf; case: o' => x' b' ch' ig' gs' bf' vf' /= [-> -> ->]; rewrite /characterise /=.
case: ifP => // _; case: ifP => // _; case: ifP => // _; by case: char_loop.
Qed.
Lemma is_blade_same (o : cmv R) : characterise a o = o ->
  [/\ cobj (is_blade a o).1 = cobj o, char (is_blade a o).1 = char o & i_grade (is_blade a o).1 = i_grade o].
Proof.
move=> co; rewrite /is_blade; case: (blade_flg o) => [b|] //; rewrite co.
cbv zeta; case Ei: (i_grade o) => [r|] //; case: (canon _ == _) => //; case: (r <= 1)%N => //.
have E : [/\ cobj (is_versor a o).1 = cobj o, char (is_versor a o).1 = char o & i_grade (is_versor a o).1 = i_grade o].
  by rewrite /is_versor; case: (versor_flg o) => [b|] //; cbv zeta; rewrite co; case: versor_value.
by rewrite -Ei; case: is_versor E => o2 [[]|] //= [E1 E2 E3]; case: mv_wedge.
Qed.
Lemma blade_gradeP : i_grade (characterise a (is_blade a (new_mv a (obj B))).1) = Some (size bs).
Proof.
have [_ _ co _ [gs _ [Ei ug mg]]] := newP two oB (bladed_blade oB bB).
rewrite (i_grade_char (is_blade_same co)) co Ei.
have hw : homog (size bs) (mvv B) by rewrite vB; exact: (Outer.wedges_homog two hbs).
suff -> : gs = [:: size bs] by [].
apply: perm_small_eq => //; apply: uniq_perm => // r; rewrite mg inE (negPf B0) orbF.
by rewrite (gpart_homog _ hw); case: ifP; rewrite ?eqxx // (negPf B0).
Qed.
Lemma blade_inverseP : yld true (blade_inverse a B) (Bi g bs q).
Proof.
rewrite /blade_inverse blade_accepted; have [_ _ _ -> _] := iB; rewrite /= (negPf q0).
have [V -> [oV vV bV]] := mv_revP two wf true oB; rewrite /= /mv_divc /sinv uq /= /Bi -vB -vV.
by apply: yieldsW (mv_scaleP two _ oV) => _; exact: bV.
Qed.
Lemma projectP X : mv_ok a X -> yld true (project_in_blade a X B) (proj g bs q (mvv X)).
Proof.
move=> oX; rewrite /project_in_blade; have [V -> [oV vV bV]] := blade_inverseP.
rewrite /= /mv_lc; have [L -> [oL vL bL]] := mv_singleP two wf LeftC true oX oB; rewrite /= /proj -vV.
by rewrite -vB -vL; apply: yieldsW (mv_mulP two wf oL oV) => _; exact: bV.
Qed.
Lemma reflect_loopP V k (ds : seq (nat * mv R)) acc : mv_ok a V -> bladed a V -> mv_ok a acc -> bladed a acc ->
  List.Forall (fun p : nat * mv R => mv_ok a p.2) ds ->
  yld true (reflect_loop a B V k ds acc)
    (mvv acc + \sum_(p <- ds) (-1) ^+ (p.1 * k.+1) *: (mvv B * mvv p.2 * mvv V)).
Proof.
move=> oV bV; elim: ds acc => [|[r x] ds IH] acc oa ba /=.
  by move=> _; rewrite big_nil addr0; exists acc.
move=> h; have ox := List.Forall_inv h; have {}h := List.Forall_inv_tail h.
have [P -> [oP vP bP]] := mv_mulP two wf oB ox; rewrite /=.
have [T -> [oT vT bT]] := mv_mulP two wf oP oV; rewrite /=.
have [acc' -> [oa' va' ba']] : yld true (if ((r * (k + 1)) %% 2 == 0)%N then mv_add a acc T else mv_sub a acc T)
   (mvv acc + (-1) ^+ (r * k.+1) *: mvv T).
  rewrite addn1 modn2 eqb0 -signr_odd; case: odd => /=.
    by rewrite expr1 scaleN1r; apply: yieldsW (mv_subP two wf oa oT); rewrite ba.
  by rewrite expr0 scale1r; apply: yieldsW (mv_addP two wf oa oT); rewrite ba.
rewrite big_cons /= addrA -vP -vT -va'; exact: (IH _ oa' (ba' isT) h).
Qed.
Lemma reflectP X : mv_ok a X -> bladed a X -> yld true (reflect_in_blade a X B) (refl g bs q (mvv X)).
Proof.
move=> oX bX; rewrite /reflect_in_blade; have [V -> [oV vV bV]] := blade_inverseP; rewrite /=.
have bx := bladed_blade oX bX; have cX : canonical (obj X) by case/andP: oX.
rewrite canon_id // blade_gradeP /=.
have [d -> [hd sd]] := decomposition_sum bx; rewrite /=.
have [oz vz bz] := const_ok two a 0.
apply: yields_eq (reflect_loopP _ oV (bV isT) oz bz _) _.
  by elim: (d) hd => //= p l IH /andP[hp hl]; apply: List.Forall_cons; [exact: mk_mv_blade|exact: IH].
rewrite vz /scal scale0r add0r big_map.
transitivity (\sum_(r < n.+1) (-1) ^+ (r * (size bs).+1) *: (mvv B * (gpart r (mvv X) : C) * mvv V)).
  rewrite -(sd (fun r x => (-1) ^+ (r * (size bs).+1) *: (mvv B * x * mvv V))) => [|r].
    by apply: eq_bigr => p _; rewrite mvv_mk.
  by rewrite mulr0 mul0r scaler0.
rewrite /refl vV vB -/(mvv X); transitivity ((wedges bs : C) * (\sum_(r < n.+1) (-1) ^+ (r * (size bs).+1) *: gpart r (mvv X) : C) * Bi g bs q).
  rewrite mulr_sumr mulr_suml; apply: eq_bigr => r _; rewrite -(scalerAr ((-1) ^+ _)) -(scalerAl ((-1) ^+ _)) //.
congr (_ * _ * _); rewrite /inv_; case: ifP => o.
  rewrite {2}[mvv X]gpart_sum minvolE linear_sum; apply: eq_bigr => r _ /=.
  by rewrite -minvolE minvol_gpart -signr_odd oddM o andbT signr_odd.
rewrite {2}[mvv X]gpart_sum; apply: eq_bigr => r _.
by rewrite -signr_odd oddM o andbF scale1r.
Qed.
Notation P := (proj g bs q).
Notation F := (refl g bs q).
Lemma yld_gives b o w p : yld b o w -> legal a p -> sem cm p = w -> gives o p.
Proof.
move=> [Y -> [oY vY _]] lp e; exists Y => //; have hY : mv_valid a Y by rewrite mv_validE.
by split=> //; apply: (run_law two wf Hc); rewrite /= ?hY // (VE oY) vY e.
Qed.
Lemma project_ofP p : legal a p -> yld true (project_of p B) (P (sem cm p)).
Proof.
move=> lp; have [X E [oX vX _]] := run_yields two wf Hc lp.
by rewrite /project_of E -vX; exact: projectP.
Qed.
Lemma reflect_ofP p : legal a p -> inblade a p -> yld true (reflect_of p B) (F (sem cm p)).
Proof.
move=> lp ip; have [X E [oX vX bX]] := run_yields two wf Hc lp.
by rewrite /reflect_of E -vX; apply: reflectP => //; exact: bX.
Qed.
Lemma project_obj X : mv_valid a X -> exists Y, [/\ project_in_blade a X B = Some Y, mv_ok a Y, mv_valid a Y, bladed a Y &
  den cm (obj Y) = P (den cm (obj X))].
Proof.
move=> hX; have oX : mv_ok a X by rewrite -mv_validE.
have [Y E [oY vY bY]] := projectP oX; exists Y; rewrite mv_validE oY !VE // vY; split=> //; exact: bY.
Qed.
Lemma reflect_obj X : mv_valid a X -> blade_form a X ->
  exists Y, [/\ reflect_in_blade a X B = Some Y, mv_ok a Y, mv_valid a Y, bladed a Y & den cm (obj Y) = F (den cm (obj X))].
Proof.
move=> hX bX; have oX : mv_ok a X by rewrite -mv_validE.
have [Y E [oY vY bY]] := reflectP oX bX; exists Y; rewrite mv_validE oY !VE // vY; split=> //; exact: bY.
Qed.
Let Bq_ := Bq.
Let hbs_ := hbs.
Let uq_ := uq.
Let PL (c : R) (x y : mval R n) : P (c *: x + y) = c *: P x + P y := proj_is_linear g bs q c x y.
Let FL (c : R) (x y : mval R n) : F (c *: x + y) = c *: F x + F y := refl_is_linear g bs q c x y.

(* ---- projection ---- *)
Theorem C24_project_linear X Y c : mv_valid a X -> mv_valid a Y ->
  exists X' Y', [/\ project_in_blade a X B = Some X', project_in_blade a Y B = Some Y' &
    gives (project_of (c ##. X +. Y) B) (c ##. X' +. Y')].
Proof.
move=> hX hY; have [X' [-> oX' hX' bX' eX]] := project_obj hX; have [Y' [-> oY' hY' bY' eY]] := project_obj hY.
exists X', Y'; split=> //; apply: yld_gives (project_ofP _) _ _; rewrite /= ?hX ?hY ?hX' ?hY' //.
by rewrite eX eY PL.
Qed.
Theorem C24_project_idempotent X : mv_valid a X ->
  exists2 X', project_in_blade a X B = Some X' & mv_valid a X' /\ gives (project_in_blade a X' B) X'.
Proof.
move=> hX; have [X' [-> oX' hX' bX' eX]] := project_obj hX; exists X' => //; split=> //.
by apply: yld_gives (projectP oX') _ _; rewrite //= -VE // eX (projK hbs_ uq_ Bq_).
Qed.
Theorem C24_project_grades X r : mv_valid a X -> blade_form a X ->
  exists2 X', project_in_blade a X B = Some X' & gives (project_of (Grade X r) B) (Grade X' r).
Proof.
move=> hX bX; have [X' [-> oX' hX' bX' eX]] := project_obj hX; exists X' => //.
apply: yld_gives (project_ofP _) _ _; rewrite /= ?hX ?hX' ?[_ || _]bX ?[_ || _]bX' //=.
by rewrite eX (proj_gpart g hbs_).
Qed.
(* the projection of an outer product is the outer product of the projections *)
Theorem C24_project_outer X Y : mv_valid a X -> mv_valid a Y ->
  exists X' Y', [/\ project_in_blade a X B = Some X', project_in_blade a Y B = Some Y' &
    gives (project_of (X ^. Y) B) (X' ^. Y')].
Proof.
move=> hX hY; have [X' [-> oX' hX' bX' eX]] := project_obj hX; have [Y' [-> oY' hY' bY' eY]] := project_obj hY.
exists X', Y'; split=> //; apply: yld_gives (project_ofP _) _ _; rewrite /= ?hX ?hY ?hX' ?hY' //.
by rewrite eX eY (projW hbs_ uq_ Bq_).
Qed.
(* what lies in the blade stays: all outer products of some of its vectors *)
Theorem C24_project_inside (m : bitseq) :
  gives (project_of (wedge_all (mask m vs)) B) (wedge_all (mask m vs)).
Proof.
have lm : legal a (wedge_all (mask m vs)).
  by apply: legal_wedge_all; elim: (vs) m val_vs => [|v l IH] [|[] m] //= /andP[hv /IH h]; rewrite ?hv h.
apply: yld_gives (project_ofP lm) lm _; rewrite (proj_id hbs_ uq_ Bq_) // sem_wedge_all -/(wedges _).
by rewrite map_mask; apply: span_wedges => x; exact: mem_mask.
Qed.
(* of a vector: a combination of the vectors of the blade, the rest is orthogonal to
   all of them *)
Theorem C24_project_vector X : mv_valid a X -> is_vec a X ->
  exists X' cs, [/\ project_in_blade a X B = Some X', mv_valid a X' && is_vec a X', size cs = size vs,
    run_eq a X' (lincomb (zip cs vs)) = Some true &
    all (fun v => run_eq a ((X -. X') ||. v) (Num 0) == Some true) vs].
Proof.
move=> hX vX; have hx := vec_homog two hX vX; have [X' [-> oX' hX' bX' eX]] := project_obj hX.
have hx' : homog 1 (den cm (obj X')) by rewrite eX; exact: (proj_homog g hbs_ q hx).
have [cs []] := span_vec g hbs_ (proj_span g hbs_ q (den cm (obj X))).
rewrite -eX [gpart 1 _]hx' size_map => scs Ecs; exists X', cs; split=> //.
- rewrite hX' /=; apply: (homog_vec (two := two) (bladed_blade oX' bX') oX').
  by rewrite -VE.
- have lc : legal a (lincomb (zip cs vs)).
    apply: legal_lincomb; rewrite -/(unzip2 _) unzip2_zip ?scs //; exact: val_vs.
  apply: (run_law two wf Hc); rewrite /= ?hX' // sem_lincomb Ecs /bs.
  elim: (vs) (cs) => [|v l IH] [|c cs'] //=; rewrite ?big_nil // !big_cons /= IH //.
have [hv _ _ _ _] := iB; have : {subset bs <= bs} by []. rewrite {1}/bs.
elim: (vs) hv => //= v l IH /andP[/andP[h1 h2] hl] sb; apply/andP; split; last first.
  by apply: IH => // x xl; apply: sb; rewrite inE xl orbT.
apply/eqP; apply: (run_law two wf Hc); rewrite /= ?hX ?hX' ?h1 //.
have hd : homog 1 (den cm (obj X) - den cm (obj X')) by apply: homogB.
rewrite [LHS](vec_dot g hd (vec_homog two h1 h2)) eX (proj_rest hbs_ uq_ Bq_ hx) ?scale0r ?/num ?scale0r //.
by apply: sb; rewrite mem_head.
Qed.
Theorem C24_project_orthogonal X : mv_valid a X -> is_vec a X ->
  all (fun v => run_eq a (X ||. v) (Num 0) == Some true) vs -> gives (project_in_blade a X B) (Num 0).
Proof.
move=> hX vX o; have hx := vec_homog two hX vX; have oX : mv_ok a X by rewrite -mv_validE.
apply: yld_gives (projectP oX) _ _ => //=; rewrite /num scale0r -VE // (proj_orth hbs_) // => b.
have [hv _ _ _ _] := iB; rewrite /bs; elim: (vs) hv o => //= v l IH /andP[/andP[h1 h2] hl] /andP[ov ol].
rewrite inE => /orP[/eqP ->|]; last exact: IH.
move: ov; rewrite (run_eqP two wf Hc) /= ?hX ?h1 // /num scale0r => /eqP[/eqP].
rewrite [X in X = _](vec_dot g hx (vec_homog two h1 h2)) => /(congr1 (fun f : mval R n => f set0)).
by rewrite scale_coef bl_coef eqxx mulr1 ffunE.
Qed.

(* ---- reflection ---- *)
Theorem C24_reflect_involution X : mv_valid a X -> blade_form a X ->
  exists2 X', reflect_in_blade a X B = Some X' & mv_valid a X' /\ gives (reflect_in_blade a X' B) X.
Proof.
move=> hX bX; have [X' [-> oX' hX' bX' eX]] := reflect_obj hX bX; exists X' => //; split=> //.
by apply: yld_gives (reflectP oX' bX') _ _; rewrite //= -VE // eX (reflK hbs_ uq_ Bq_).
Qed.
Theorem C24_reflect_linear X Y c : mv_valid a X -> mv_valid a Y -> blade_form a X -> blade_form a Y ->
  exists X' Y', [/\ reflect_in_blade a X B = Some X', reflect_in_blade a Y B = Some Y' &
    gives (reflect_of (c ##. X +. Y) B) (c ##. X' +. Y')].
Proof.
move=> hX hY bX bY; have [X' [-> oX' hX' bX' eX]] := reflect_obj hX bX; have [Y' [-> oY' hY' bY' eY]] := reflect_obj hY bY.
exists X', Y'; split=> //; apply: yld_gives (reflect_ofP _ _) _ _; rewrite /= ?hX ?hY ?hX' ?hY' ?[brep X || _]bX //.
by rewrite eX eY FL.
Qed.
Theorem C24_reflect_product X Y : mv_valid a X -> mv_valid a Y -> blade_form a X -> blade_form a Y ->
  exists X' Y', [/\ reflect_in_blade a X B = Some X', reflect_in_blade a Y B = Some Y' &
    gives (reflect_of (X *. Y) B) (X' *. Y')].
Proof.
move=> hX hY bX bY; have [X' [-> oX' hX' bX' eX]] := reflect_obj hX bX; have [Y' [-> oY' hY' bY' eY]] := reflect_obj hY bY.
exists X', Y'; split=> //; apply: yld_gives (reflect_ofP _ _) _ _; rewrite /= ?hX ?hY ?hX' ?hY' ?[_ || _]bX ?[_ || _]bY //.
by rewrite eX eY; apply/esym; exact: (reflM uq_ Bq_).
Qed.
Theorem C24_reflect_grades X r : mv_valid a X -> blade_form a X ->
  exists2 X', reflect_in_blade a X B = Some X' & gives (reflect_of (Grade X r) B) (Grade X' r).
Proof.
move=> hX bX; have [X' [-> oX' hX' bX' eX]] := reflect_obj hX bX; exists X' => //.
apply: yld_gives (reflect_ofP _ _) _ _; rewrite /= ?hX ?hX' ?[_ || _]bX ?[_ || _]bX' //=.
by rewrite eX (refl_gpart hbs_ uq_ Bq_).
Qed.
Theorem C24_reflect_qform X : mv_valid a X -> blade_form a X ->
  exists2 X', reflect_in_blade a X B = Some X' & isSome (mv_qform a X) /\ mv_qform a X' = mv_qform a X.
Proof.
move=> hX bX; have oX : mv_ok a X by rewrite -mv_validE.
have [X' [-> oX' hX' bX' eX]] := reflect_obj hX bX; exists X' => //.
rewrite !(mv_qformP two wf) //; split=> //; rewrite -!VE // eX (refl_mrev g bs uq_).
by rewrite -(reflM uq_ Bq_) (refl_scalar uq_ Bq_).
Qed.
(* of a vector: twice the projection minus the vector, so the vectors in the blade
   stay and the vectors orthogonal to it change sign *)
Theorem C24_reflect_vector X : mv_valid a X -> is_vec a X -> blade_form a X ->
  exists2 X', project_in_blade a X B = Some X' & gives (reflect_in_blade a X B) (2%:R ##. X' -. X).
Proof.
move=> hX vX bX; have hx := vec_homog two hX vX; have oX : mv_ok a X by rewrite -mv_validE.
have [X' [-> oX' hX' bX' eX]] := project_obj hX; exists X' => //.
apply: yld_gives (reflectP oX bX) _ _; rewrite /= ?hX ?hX' // -VE // eX (refl_vec hbs_ uq_ Bq_ hx).
by rewrite scaler_nat.
Qed.
End One.

(* ---- what raises: no blade, null blades ---- *)
Theorem C24_raises X B : (is_blade a (new_mv a (obj B))).2 = Some false \/ mv_qform a B = Some 0 ->
  project_in_blade a X B = None /\ reflect_in_blade a X B = None.
Proof.
move=> h; have E : blade_inverse a B = None.
  by rewrite /blade_inverse; case: h => [->|->] //=; rewrite eqxx; case: (is_blade _ _).2 => [[]|].
by rewrite /project_in_blade /reflect_in_blade E.
Qed.
End Blade.

(* ---- a concrete case: the blade (e0 + e1)^e2 in five dimensions ---- *)
Definition e_ (i : nat) : mv rat_comUnitRing := Mv [:: (1 : rat, mk_blade [:: i])] true.
Definition e01 : mv rat_comUnitRing := Mv [:: (1 : rat, mk_blade [:: 0%N]); (1 : rat, mk_blade [:: 1%N])] true.
Definition bl012 : mv rat_comUnitRing := Mv [:: (1 : rat, mk_blade [:: 0; 2]%N); (1 : rat, mk_blade [:: 1; 2]%N)] true.
Example C24_case : invertible_blade euclid5 [:: e01; e_ 2] bl012 2%:R /\ wf_ga euclid5.
Proof.
by split; last exact: euclid5_wf; split; vm_compute.
Qed.
(* e0^e2 + e0 is projected to half the blade and (e0 + e1)/2, and reflected to
   e1^e2 + e1 *)
Definition x02 : mv rat_comUnitRing := Mv [:: (1 : rat, mk_blade [:: 0%N]); (1 : rat, mk_blade [:: 0; 2]%N)] true.
Definition x12 : mv rat_comUnitRing := Mv [:: (1 : rat, mk_blade [:: 1%N]); (1 : rat, mk_blade [:: 1; 2]%N)] true.
Example C24_ex : [/\ mv_valid euclid5 x02 && blade_form euclid5 x02,
   obind (fun Y : mv rat_comUnitRing => run_eq euclid5 Y (((2%:R : rat)^-1 ##. e01) +. ((2%:R : rat)^-1 ##. bl012))) (project_in_blade euclid5 x02 bl012) == Some true &
   obind (fun Y : mv rat_comUnitRing => run_eq euclid5 Y x12) (reflect_in_blade euclid5 x02 bl012) == Some true].
Proof. by split; vm_compute. Qed.

(* finding: a multivector that is_blade() wrongly accepts (C23_blade_refuted) is
   accepted here too: in five dimensions the projection of the vector e0 into
   e0^e1^e2 + e0^e3^e4 is e0 + e0^e1^e2^e3^e4 up to sign, no vector *)
Theorem C24_not_a_blade_refuted :
  [/\ mv_valid euclid5 not_blade, mv_valid euclid5 (e_ 0), is_vec euclid5 (e_ 0) &
   obind (fun Y : mv rat_comUnitRing => run_eq euclid5 (Grade Y 1) Y) (project_in_blade euclid5 (e_ 0) not_blade) == Some false].
Proof. by split; vm_compute. Qed.
(* finding: reflect_in_blade raises for a multivector in base representation;
   project_in_blade does not *)
Theorem C24_base_rep_refuted : exists (a : ga rat_comUnitRing) X B,
  [/\ wf_ga a, mv_valid a X, exists q, invertible_blade a [:: B] B q, isSome (project_in_blade a X B) & ~~ isSome (reflect_in_blade a X B)].
Proof.
exists mv_ga, mv_B, mv_V; split; [by vm_compute|by vm_compute| |by vm_compute|by vm_compute].
exists (- (3%:R)); split; [by vm_compute|by vm_compute|by vm_compute| |by vm_compute].
have : (if mv_qform mv_ga mv_V is Some q then q == - (3%:R) :> rat else false) by vm_compute.
by case: (mv_qform mv_ga mv_V) => // q /eqP ->.
Qed.
Print Assumptions C24_project_linear.
Print Assumptions C24_project_idempotent.
Print Assumptions C24_project_grades.
Print Assumptions C24_project_outer.
Print Assumptions C24_project_inside.
Print Assumptions C24_project_vector.
Print Assumptions C24_project_orthogonal.
Print Assumptions C24_reflect_involution.
Print Assumptions C24_reflect_linear.
Print Assumptions C24_reflect_product.
Print Assumptions C24_reflect_grades.
Print Assumptions C24_reflect_qform.
Print Assumptions C24_reflect_vector.
Print Assumptions C24_raises.
Print Assumptions C24_not_a_blade_refuted.
Print Assumptions C24_base_rep_refuted.
