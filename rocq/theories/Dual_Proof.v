(* Dual_Proof.v -- proofs about the pseudoscalar, duality and reciprocal vectors *)
From mathcomp Require Import all_ssreflect all_algebra.
From Verif Require Import NatTac AlgTactics Exterior Clifford Blades Spec_Grade Grades.
From Verif Require Import Spec_Index PyBase Ga_Model Ga_Proof_Tables Ga_Proof_Sort Ga_Proof_Sem Ga_Proof_Reduce.
From Verif Require Import Ga_Sem Ga_Proof_Rep Ga_Proof_Conv Ga_Proof_Mul Spec_Clifford Clifford_Unique Spec_Mv Ga_Proof_Den Ga_Proof_Wedge Ga_Proof_Inner.
From Verif Require Import Ga_Proof_Grade GradeLaws Det Mv_Model Mv_Proof Mv_Expr Mv_Proof_Expr Dual_Model.
Set Implicit Arguments.
Unset Strict Implicit.
Unset Printing Implicit Defensive.
Import GRing.Theory.
Local Open Scope ring_scope.

(* ---- the last blade, and the blades of grade n-1 ---- *)
Lemma comb_gt (T : Type) (l : seq T) k : (size l < k)%N -> combinations l k = [::].
Proof. by elim: l k => [|x l IH] [|k] //= h; rewrite !IH // ltnW. Qed.
Lemma comb_size (T : Type) (l : seq T) : combinations l (size l) = [:: l].
Proof. by elim: l => [|x l IH] //=; rewrite IH comb_gt. Qed.
Lemma comb_skip (T : Type) (l : seq T) k : size l = k.+1 ->
  rev (combinations l k) = [seq skip i l | i <- iota 0 k.+1].
Proof.
elim: l k => [|x l IH] k //= [E]; case: k E => [|k] E; first by case: l E {IH}.
rewrite /skip /= drop0 rev_cat -[in combinations l k.+1]E comb_size /=; congr (_ :: _).
rewrite -map_rev IH // (iotaDl 1) -!map_comp; apply: eq_map => i /=; by rewrite /skip /= add1n.
Qed.
Lemma last_blade n : last [::] (blades_flat n) = mk_blade (iota 0 n).
Proof.
rewrite /blades_flat /blades /indexes -addn1 iotaD /= !map_cat /= flatten_cat /= cats0.
have := comb_size (iota 0 n); rewrite size_iota add0n => ->.
by rewrite cats1 last_rcons.
Qed.
Lemma rev_duals n : rev (nth [::] (blades n.+1) n) = [seq mk_blade (skip i (iota 0 n.+1)) | i <- iota 0 n.+1].
Proof.
rewrite /blades (nth_map [::]) ?size_map ?size_iota // /indexes (nth_map 0%N) ?size_iota // nth_iota //.
by rewrite add0n -map_rev (@comb_skip _ _ n) ?size_iota // -map_comp.
Qed.
Lemma wfI_iota n : wfI n (iota 0 n).
Proof.
rewrite /wfI iota_ltn_sorted /=; apply/allP => i; by rewrite mem_iota.
Qed.
Lemma skip_filter n i : (i < n)%N -> skip i (iota 0 n) = [seq j <- iota 0 n | j != i].
Proof.
move=> lt; rewrite /skip -[in RHS](cat_take_drop i (iota 0 n)) filter_cat; congr (_ ++ _).
  apply/esym/all_filterP/allP => j; rewrite take_iota mem_iota add0n leq_min => /and3P[_ h _].
  by rewrite neq_ltn h.
rewrite !drop_iota /= add0n subnS.
have : (0 < n - i)%N by rewrite subn_gt0.
case: (n - i)%N => //= k _; rewrite eqxx /=; apply/esym/all_filterP/allP => j.
by rewrite mem_iota => /andP[h _]; rewrite neq_ltn h orbT.
Qed.
Lemma skip_iota n (i : 'I_n) : skip i (iota 0 n) = list_of (setT :\ i).
Proof.
rewrite skip_filter //; apply: (irr_sorted_eq ltn_trans ltnn).
- by apply: sorted_filter; [exact: ltn_trans|exact: iota_ltn_sorted].
- by have /andP[] := list_of_wf (setT :\ i).
move=> j; rewrite mem_filter mem_iota /= add0n; case: (ltnP j n) => [lt|ge].
  rewrite andbT -[j]/(val (Ordinal lt)) mem_list_of !inE andbT; by rewrite -(inj_eq val_inj).
rewrite andbF; apply/esym/negP => h; have /andP[_ /allP/(_ j h)] := list_of_wf (setT :\ i).
by rewrite ltnNge ge.
Qed.
Lemma set_iota n : set_of n (iota 0 n) = setT.
Proof. by apply/setP => i; rewrite !inE mem_iota /= add0n ltn_ord. Qed.

Section Ps.
Variables (R : comUnitRingType) (two : (2%:R : R) \is a GRing.unit) (a : ga R).
Hypothesis wf : wf_ga a.
Notation n := (ga_n a).
Notation C := (cl two a).
Notation val_ := (value two a).
Notation mvv := (mvv two a).
Notation g := (ga_metric two a).
Implicit Types (X Y : mv R).

Definition esq : R := (-1) ^+ (n * (n - 1))./2 * \det (\matrix_(i < n, j < n) geff a i j).

Notation e_sqv := esq.
Lemma ga_eP : [/\ mv_ok a (ga_e a), mvv (ga_e a) = bl R setT, bladed a (ga_e a) & blade_expr n (obj (ga_e a))].
Proof.
rewrite /ga_e last_blade; set x := [:: _].
have bx : blade_expr n x by rewrite /blade_expr /= mk_blade_in ?wfI_iota.
split; first exact: mk_mv_blade.
- by rewrite mvv_mk /x value_term ?wfI_iota // set_iota scale1r.
- by rewrite /bladed blade_brep.
- exact: blade_canon.
Qed.
Lemma ps_sqC : (bl R setT : C) * (bl R setT : C) = e_sqv *: (bl R set0 : C).
Proof.
have := ps_sq g; rewrite /ps => ->; congr (_ * _ *: _); congr (\det _).
Qed.
Lemma ga_e_sqP : ga_e_sq None a = Some e_sqv.
Proof.
have [oe ve be _] := ga_eP; rewrite /ga_e_sq /=.
have [p -> [op vp /(_ be) bp]] := mv_mulP two wf oe oe; rewrite /=; congr Some.
by rewrite (mv_scalarP two op bp) vp ve ps_sqC scale_coef bl_coef eqxx mulr1.
Qed.

(* multiplication by the pseudoscalar on either side *)
Lemma homog_xps r (x : mval R n) : homog r x -> homog (n - r) ((x : C) * (bl R setT : C)).
Proof.
move=> hx; rewrite (homog_sum hx) mulr_suml; apply: homog_big => S /eqP cS.
rewrite -scalerAl; apply: homogZ; rewrite -cS; exact: (homog_mul_ps g).
Qed.
Lemma homog_mrev r (x : mval R n) : homog r x -> homog r (mrev x).
Proof. by move=> hx; rewrite /homog gpart_mrev hx -[in RHS]hx mrev_gpart hx. Qed.
Lemma homog_psx r (x : mval R n) : homog r x -> homog (n - r) ((bl R setT : C) * (x : C)).
Proof.
move=> hx; have -> : ((bl R setT : C) * (x : C)) = mrev ((mrev x : C) * (mrev (bl R setT) : C)).
  by rewrite -[X in X = _]mrevK; congr mrev; exact: mrevM.
apply: homog_mrev; rewrite mrev_bl -scalerAr; apply: homogZ; apply: homog_xps; exact: homog_mrev.
Qed.

Variable sy : scalar_env R.
Definition plus_branch isq s := if sy_number sy s then sy_pos sy s else isq.
Definition sgn_of (b : bool) : R := if b then 1 else -1.
Lemma ga_iP gsym isq s I J : ga_e_sq gsym a = Some s -> ga_i sy gsym isq a = Some (I, J) ->
  let sg := sgn_of (plus_branch isq s) in
  exists c, [/\ c * sy_sqrt sy (sg * s) = 1, mvv I = c *: bl R setT, mvv J = (sg * c) *: bl R setT,
    mv_ok a I /\ mv_ok a J & bladed a I /\ bladed a J].
Proof.
rewrite /ga_i => -> /=; rewrite -/(plus_branch isq s); have [oe ve be _] := ga_eP.
case: plus_branch; rewrite /mv_divc /sinv; case: ifP => // us [EI EJ] //.
- rewrite -EJ -EI {J EJ}.
  exists ((sy_sqrt sy s)^-1); rewrite !mul1r; have [_ [<-] [-> -> h]] := mv_scaleP two (sy_sqrt sy s)^-1 oe.
  by split; rewrite ?ve // ?mulVr //; split; exact: h.
exists ((sy_sqrt sy (- s))^-1); rewrite !mulN1r.
have [K EK [oK vK bK]] := mv_scaleP two (sy_sqrt sy (- s))^-1 oe.
move: EI EK; rewrite /= => EI [EK]; move: EI; rewrite EK => <-{I}.
have {EJ}<- : mk_mv a (eneg (obj K)) = J by rewrite -EK.
have [_ [<-] [-> -> h]] := mv_negP two oK.
by split; rewrite ?vK ?ve ?scaleNr // ?mulVr //; split; [exact: bK|exact: h (bK be)].
Qed.
Lemma ga_i_total gsym isq s : ga_e_sq gsym a = Some s ->
  sy_sqrt sy (sgn_of (plus_branch isq s) * s) \is a GRing.unit ->
  exists I J, ga_i sy gsym isq a = Some (I, J).
Proof.
rewrite /ga_i => -> /=; rewrite -/(plus_branch isq s); case: plus_branch; rewrite ?mul1r ?mulN1r => us;
  by rewrite /mv_divc /sinv us /=; eauto.
Qed.
End Ps.

(* ---- reciprocal basis ---- *)
Section Recip.
Variables (R : comUnitRingType) (two : (2%:R : R) \is a GRing.unit) (a : ga R).
Hypothesis wf : wf_ga a.
Notation n := (ga_n a).
Notation C := (cl two a).
Notation val_ := (value two a).
Notation g := (ga_metric two a).
Notation e_sqv := (esq a).
Implicit Types (X Y : mv R) (i j : 'I_n).

Lemma gform_bl i (x : mval R n) : gform g (bl R [set i]) x = \sum_j x [set j] * geff a i j.
Proof.
rewrite /gform (bigD1 i) //= [X in _ + X]big1 ?addr0 => [|k ki]; last first.
  by apply: big1 => j _; rewrite bl_coef (inj_eq set1_inj) (negbTE ki) !mul0r.
by apply: eq_bigr => j _; rewrite bl_coef eqxx mul1r.
Qed.
Lemma gform_gen_recip i j : gform g (bl R [set j]) (recip g i) = (j == i)%:R * e_sqv.
Proof.
have := vec_rel g (_ : homog 1 (bl R [set j])) (homog_recip g i).
have h1 : homog 1 (bl R [set j]) by have := @homog_bl R n [set j]; rewrite cards1.
move=> /(_ h1); have := recip_gen g i j; rewrite /cgen => ->.
rewrite -[(ps R n : clifford g) * _]/((bl R setT : C) * (bl R setT : C)) ps_sqC scalerA mulrnAl.
move=> /(one_inj n); rewrite -[X in X = _]mulr_natl -[X in _ = X]mulr_natl => /(mulrI two) ->.
by [].
Qed.

Definition r_scale : R := if is_ortho a then 1 else e_sqv.
Definition r_ok (rs : seq (expr R)) := size rs = n /\ forall i,
  [/\ blade_expr n (nth [::] rs i), homog 1 (val_ (nth [::] rs i)) &
   forall j, gform g (bl R [set j]) (val_ (nth [::] rs i)) = (j == i)%:R * r_scale].

Lemma r_loopP m k : is_ortho a = false -> (k + m = n)%N -> exists2 zs,
  r_basis_loop a ((-1) ^+ k) [seq mk_blade (skip i (iota 0 n)) | i <- iota k m] = Some zs &
  size zs = m /\ forall i : nat, (i < m)%N -> blade_expr n (nth [::] zs i) /\
    forall j : 'I_n, j = (k + i)%N :> nat -> val_ (nth [::] zs i) = recip g j.
Proof.
move=> no; elim: m k => [|m IH] k km /=; first by exists [::].
have kn : (k < n)%N by rewrite -km addnS ltnS leq_addr.
have wI : wfI n (skip k (iota 0 n)) by rewrite (skip_iota (Ordinal kn)) list_of_wf.
have bx : blade_expr n [:: (1 : R, mk_blade (skip k (iota 0 n)))] by rewrite /blade_expr /= mk_blade_in.
have [x -> [bsx _ vx]] := blade_to_base_nonortho two no (blade_mix bx).
have [_ ve _ be] := ga_eP two a.
have okx : ok_expr a (escale ((-1) ^+ k) x).
  rewrite /ok_expr words_escale; apply: sub_all bsx => w /= wb; by rewrite /okw no wb orbT.
rewrite /= -[canon [:: (1, last _ _)]]/(obj (ga_e a)).
have [y -> [by_ _ vy]] := ga_mulP two wf okx (blade_ok be); rewrite /=.
have [z -> [bz _ vz]] := base_to_blade_nonortho two wf no (blade_mix by_).
rewrite /= (_ : - (-1) ^+ k = (-1) ^+ k.+1); last by rewrite exprS mulN1r.
have [|zs -> [sz IHz]] := IH k.+1; first by rewrite addSnnS.
exists (canon z :: zs) => //; split=> [|[_|i] /=]; first by rewrite /= sz.
  split; first exact: blade_canon.
  move=> j; rewrite addn0 => jk; rewrite value_canon /value (vz _ _ (wf_rel two wf)) (vy _ _ (wf_rel two wf)).
  rewrite ev_escale (vx _ _ (wf_rel two wf)) -!/(val_ _) -[val_ (obj _)]/(mvv two a _) ve /recip -jk.
  have -> : val_ [:: (1, mk_blade (skip j (iota 0 n)))] = bl R (setT :\ j).
    by rewrite value_term ?jk // -jk skip_iota list_ofK (@scale1r _ [lmodType R of mval R n]).
  by rewrite -scalerAl.
rewrite ltnS => im; have [b1 b2] := IHz i im; split=> // j jk; apply: b2.
by rewrite jk addSnnS.
Qed.
Lemma r_basisP : is_ortho a ==> [forall i : 'I_n, gij a i i \is a GRing.unit] ->
  exists2 rs, r_basis a = Some rs & r_ok rs.
Proof.
rewrite /r_basis /r_ok /r_scale; case: ifP => [ort /forallP ug|no _].
  pose f (i : nat) : expr R := [:: ((gij a i i)^-1, mk_blade [:: i])].
  exists (map f (iota 0 n)).
    apply: omapM_some => i; rewrite mem_iota /= add0n => lt.
    by rewrite /sinv (ug (Ordinal lt)).
  rewrite size_map size_iota; split=> // i.
  rewrite (nth_map 0%N) ?size_iota // nth_iota // add0n.
  have wI : wfI n [:: val i] by rewrite /wfI /= ltn_ord.
  have vE : val_ (f i) = (gij a i i)^-1 *: bl R [set i].
    rewrite /f value_term //; congr (_ *: bl R _).
    by apply/setP => j; rewrite !inE (inj_eq val_inj).
  have bi : homog 1 (bl R [set i]) by have := @homog_bl R n [set i]; rewrite cards1.
  split; first by rewrite /f /blade_expr /words all_seq1 inE mk_blade_in.
    by rewrite vE; apply: homogZ.
  move=> j; rewrite vE gform_bl (bigD1 i) //= [X in _ + X]big1 ?addr0 => [|k ki]; last first.
    by rewrite scale_coef bl_coef (inj_eq set1_inj) (negbTE ki) mulr0 mul0r.
  rewrite scale_coef bl_coef eqxx !mulr1; case: (j =P i) => [->|/eqP ji].
    by rewrite /geff minnn maxnn mulVr ?(ug i).
  suff -> : geff a j i = 0 by rewrite mulr0.
  by apply: ortho_geff; rewrite ?(inj_eq val_inj).
have n0 : (0 < n)%N by case: (posnP n) no => // n0; rewrite /is_ortho n0.
have := rev_duals n.-1; rewrite prednK // => ->.
have [//|zs -> [sz h]] := r_loopP no (_ : 0 + n = n)%N; exists zs => //; split=> // i.
have [b1 b2] := h i (ltn_ord i); rewrite (b2 i) ?add0n //; split=> // [|j]; first exact: homog_recip.
exact: gform_gen_recip.
Qed.

Definition gmat : 'M[R]_n := \matrix_(i, j) geff a i j.
Lemma geff_sym i j : geff a i j = geff a j i.
Proof. by rewrite /geff minnC maxnC. Qed.
Lemma gmat_tr : gmat^T = gmat.
Proof. by apply/matrixP => i j; rewrite !mxE geff_sym. Qed.
Lemma gmat_ortho : is_ortho a -> gmat \in unitmx -> [forall i : 'I_n, gij a i i \is a GRing.unit].
Proof.
move=> ort; have -> : gmat = diag_mx (\row_i gij a i i).
  apply/matrixP => i j; rewrite !mxE; case: (i =P j) => [->|/eqP ij]; first by rewrite /geff minnn maxnn mulr1n.
  by rewrite mulr0n; apply: ortho_geff; rewrite ?(inj_eq val_inj).
rewrite unitmxE det_diag => u; apply/forallP => i; move: u; rewrite (bigD1 i) //= unitrM => /andP[].
by rewrite mxE.
Qed.
Lemma e_sqv_unit : (e_sqv \is a GRing.unit) = (gmat \in unitmx).
Proof. by rewrite unitmxE /esq unitrM unitrX ?unitrN1 //. Qed.
Lemma r_scale_unit : gmat \in unitmx -> r_scale \is a GRing.unit.
Proof. by rewrite -e_sqv_unit /r_scale; case: is_ortho => // _; exact: unitr1. Qed.
Lemma r_basis_unit : gmat \in unitmx -> exists2 rs, r_basis a = Some rs & r_ok rs.
Proof. by move=> u; apply: r_basisP; apply/implyP => o; exact: gmat_ortho. Qed.

Lemma gform_expand (x y : mval R n) : gform g x y = \sum_k x [set k] * gform g (bl R [set k]) y.
Proof.
rewrite /gform; apply: eq_bigr => k _; rewrite -/(gform g _ _) gform_bl mulr_sumr.
by apply: eq_bigr => j _; rewrite mulrA.
Qed.
Lemma r_matrix rs : r_ok rs -> let c := \matrix_(i, k) (val_ (nth [::] rs i) : mval R n) [set k] in
  c *m gmat = r_scale%:M /\
  forall i j, gform g (val_ (nth [::] rs i)) (val_ (nth [::] rs j)) = c i j * r_scale.
Proof.
move=> [sz h] c; split=> [|i j].
  apply/matrixP => i j; rewrite !mxE; have [_ _ /(_ j)] := h i; rewrite gform_bl => E.
  rewrite -[RHS]mulr_natl eq_sym -E; apply: eq_bigr => k _; rewrite !mxE; congr (_ * _); exact: geff_sym.
rewrite gform_expand (bigD1 j) //= [X in _ + X]big1 ?addr0 => [|k kj].
  by have [_ _ ->] := h j; rewrite eqxx mul1r mxE.
by have [_ _ ->] := h j; rewrite (negbTE kj) mul0r mulr0.
Qed.
Lemma as_scalarP z c : blade_expr n z -> val_ z = c *: (bl R set0 : C) -> as_scalar z = Some c.
Proof.
move=> bz vz; have b0 : blade_expr n [:: (c, [::])] by have := in_rep_const a true c.
have : perm_eq (canon z) (canon [:: (c, [::])]) by apply: (@value_perm _ two a _ _ bz b0); rewrite vz value_const.
rewrite /as_scalar /canon /= /merge_terms /= -/(merge_terms z) -/(canon z).
case: eqP => [->|_] /= p; first by rewrite (perm_nilP p).
have := perm_size p; case: (canon z) p => [|t [|? ?]] // p _.
by have := perm_mem p t; rewrite !inE eqxx => /esym/eqP ->.
Qed.
Definition gsym_ok (gsym : option R) := if gsym is Some d then d = \det gmat else True.
Lemma ga_e_sqE gsym : gsym_ok gsym -> ga_e_sq gsym a = Some e_sqv.
Proof. by case: gsym => [d /= -> //|_]; exact: (@ga_e_sqP R two a wf). Qed.

Lemma g_inv_entryP gsym i j : gmat \in unitmx -> gsym_ok gsym ->
  g_inv_entry gsym a i j = Some (invmx gmat i j).
Proof.
move=> u gs; rewrite /g_inv_entry; have [rs -> ok] := r_basis_unit u; rewrite /=.
have [cg cc] := r_matrix ok; set c := (\matrix_(_, _) _) in cg cc.
have tu := r_scale_unit u.
have cE k l : c k l = r_scale * invmx gmat k l.
  have : r_scale^-1 *: c = invmx gmat.
    by rewrite -[c](mulmxK u) cg scalemxAl scale_scalar_mx mulVr // mul1mx.
  by move=> <-; rewrite [in RHS]mxE mulrA mulrV // mul1r.
have sym k l : invmx gmat k l = invmx gmat l k by rewrite -[in RHS]gmat_tr -trmx_inv [in RHS]mxE.
suff E (k l : 'I_n) : (LET x := ga_single a Hestenes (nth [::] rs k) (nth [::] rs l) IN
   LET c := as_scalar x IN if is_ortho a then Some c
   else LET s := ga_e_sq gsym a IN LET d := sinv (s ^+ 2) IN Some (c * d)) = Some (invmx gmat k l).
  by rewrite /minn /maxn; case: ltnP => _; rewrite E // sym.
have [bk hk _] := ok.2 k; have [bL hl _] := ok.2 l.
have [z -> [bz _ vz]] := ga_singleP two wf Hestenes bk bL; rewrite /=.
have vz' : val_ z = (r_scale * invmx gmat k l * r_scale) *: (bl R set0 : C).
  by rewrite vz [LHS](vec_dot g hk hl) cc cE.
rewrite (as_scalarP bz vz') /= ga_e_sqE //= /sinv; move: tu; rewrite /r_scale; case: is_ortho.
  by rewrite mul1r mulr1.
move=> tu; rewrite unitrX // /=; congr Some; rewrite [e_sqv * _]mulrC -(mulrA (invmx _ _ _)) -expr2 -mulrA mulrV ?unitrX // mulr1 //.
Qed.
End Recip.

(* ---- reciprocal frames ---- *)
Lemma map_skip (T S : Type) (f : T -> S) i l : map f (skip i l) = skip i (map f l).
Proof. by rewrite /skip map_cat map_take map_drop. Qed.

Section Frame.
Variables (R : comUnitRingType) (two : (2%:R : R) \is a GRing.unit) (a : ga R).
Hypothesis wf : wf_ga a.
Notation n := (ga_n a).
Notation C := (cl two a).
Notation g := (ga_metric two a).
Notation mvv := (mvv two a).
Let cm : mval R n -> mval R n -> mval R n := fun x y => (x : C) * (y : C).
Let Hc : is_clifford_product (fun i j : 'I_n => geff a i j) cm := clifford_product_exists g.
Implicit Types (bs : seq (mv R)).

Lemma legal_frame bs : all (mv_valid a) bs -> legal a (frame_wedge bs).
Proof.
rewrite /frame_wedge; have : legal a (Num 1 : py R) by [].
by elim: bs (Num 1) => //= b bs IH p lp /andP[vb /IH]; apply; rewrite /= lp.
Qed.
Lemma inblade_frame bs : all (bladed a) bs -> inblade a (frame_wedge bs).
Proof.
rewrite /frame_wedge; have : inblade a (Num 1 : py R) by [].
by elim: bs (Num 1) => //= b bs IH p lp /andP[vb /IH]; apply.
Qed.
Lemma sem_frame bs : sem cm (frame_wedge bs) = wedges [seq den cm (obj b) | b <- bs].
Proof.
rewrite /frame_wedge -[RHS](ext1l two).
have <- : sem cm (Num 1 : py R) = bl R set0 by rewrite /= /num scale1r.
elim: bs (Num 1) => [|b bs IH] p /=; first by rewrite /wedges /= (ext1r two).
by rewrite IH /= /wedges /= (extA two).
Qed.

Variable bs : seq (mv R).
Hypothesis ok : all (fun X => mv_ok a X && bladed a X) bs.
Notation k := (size bs).
Notation bi i := (nth (mv_const a 0) bs i).
Let v (i : 'I_k) : mval R n := den cm (obj (bi i)).
Hypothesis hv : forall i, homog 1 (v i).

Lemma bs_valid : all (mv_valid a) bs.
Proof. by apply: sub_all ok => X /andP[]; rewrite mv_validE. Qed.
Lemma bs_bladed : all (bladed a) bs.
Proof. by apply: sub_all ok => X /andP[]. Qed.
Lemma map_bs : [seq den cm (obj b) | b <- bs] = [seq v i | i <- enum 'I_k].
Proof.
rewrite -[in LHS](mkseq_nth (mv_const a 0) bs) /mkseq -val_enum_ord -!map_comp; exact: eq_map.
Qed.
Lemma map_bs_skip (i : 'I_k) : [seq den cm (obj b) | b <- skip i bs] = [seq v j | j <- enum (setT :\ i)].
Proof.
have -> : skip i bs = skip i (mkseq (fun j => bi j) k) by rewrite mkseq_nth.
rewrite /mkseq -[in LHS]map_skip skip_iota /list_of -!map_comp; exact: eq_map.
Qed.
Definition gram_det : R := (-1) ^+ (k * (k - 1))./2 * \det (\matrix_(i < k, j < k) gform g (v i) (v j)).
Lemma frame_sq : cm (sem cm (frame_wedge bs)) (sem cm (frame_wedge bs)) = gram_det *: bl R set0.
Proof. rewrite sem_frame map_bs; exact: (gram_sq g hv). Qed.
Lemma frame_E_sqP : frame_E_sq a bs = Some gram_det.
Proof.
rewrite /frame_E_sq.
have l : legal a (Mul (frame_wedge bs) (frame_wedge bs)) by rewrite /= legal_frame ?bs_valid.
have [p -> [op vp bp]] := run_yields two wf Hc l; rewrite /= in bp *; congr Some.
rewrite (mv_scalarP two op) ?bp ?inblade_frame ?bs_bladed // vp /=.
by have := congr1 (fun z : mval R n => z set0) frame_sq; rewrite scale_coef bl_coef eqxx mulr1.
Qed.
Lemma legal_rec (i : nat) : legal a (frame_rec bs i).
Proof.
rewrite /frame_rec /= !legal_frame ?bs_valid // /skip all_cat; have V := bs_valid.
move: (V); rewrite -{1}(cat_take_drop i bs) all_cat => /andP[-> _].
by move: V; rewrite -{1}(cat_take_drop i.+1 bs) all_cat => /andP[_ ->].
Qed.
Lemma frame_recP (i : 'I_k) : exists2 Z, run a (frame_rec bs i) = Some Z &
  [/\ mv_ok a Z, bladed a Z, homog 1 (mvv Z) & forall j, gform g (v j) (mvv Z) = (j == i)%:R * gram_det].
Proof.
have [Z -> [oZ vZ bZ]] := run_yields two wf Hc (legal_rec i); exists Z => //.
have {}vZ : mvv Z = vrecip g v i.
  rewrite vZ /frame_rec /= !sem_frame map_bs_skip map_bs /vrecip scalerAl; exact: esym.
split=> //; first by apply: bZ => /=; rewrite inblade_frame ?bs_bladed.
  by rewrite vZ; exact: vrecip_vec.
move=> j; rewrite vZ; apply: (vrecip_dot hv); exact: (gram_sq g hv).
Qed.
End Frame.
