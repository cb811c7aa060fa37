(* Inverse_Proof.v -- what shirokov_inverse and hitzer_inverse compute *)
From mathcomp Require Import all_ssreflect all_algebra.
From Verif Require Import NatTac AlgTactics Exterior Clifford Blades Spec_Grade Grades GradeLaws ContrLaws.
From Verif Require Import Spec_Index PyBase Ga_Model Ga_Proof_Sem Ga_Sem Ga_Proof_Rep Spec_Clifford Spec_Mv.
From Verif Require Import Mv_Model Mv_Proof Transfer Shirokov Hitzer Inverse_Model.
Set Implicit Arguments.
Unset Strict Implicit.
Unset Printing Implicit Defensive.
Import GRing.Theory.
Local Open Scope ring_scope.


Section HnumE.
Variables (R : comUnitRingType) (n : nat) (g : cmetric R n).
Variable U : clifford g.
Let d := U * con U.
Let X := U * (con U * (mrev d : clifford g)).
Lemma hnumE0 : n = 0%N -> hnum U = 1. Proof. by move=> e; subst n. Qed.
Lemma hnumE1 : n = 1%N -> hnum U = minvol U. Proof. by move=> e; subst n. Qed.
Lemma hnumE2 : n = 2%N -> hnum U = con U. Proof. by move=> e; subst n. Qed.
Lemma hnumE3 : n = 3%N -> hnum U = con U * (mrev d : clifford g).
Proof. by move=> e; subst n. Qed.
Lemma hnumE4 : n = 4%N -> hnum U = con U * (d - two_of (gpart 3 d) - two_of (gpart 4 d)).
Proof. by move=> e; subst n. Qed.
Lemma hnumE5 : n = 5%N ->
  hnum U = con U * (mrev d : clifford g) * (X - two_of (gpart 1 X) - two_of (gpart 4 X)).
Proof. by move=> e; subst n. Qed.
End HnumE.

Section Proof.
Variables (R : comUnitRingType) (two : (2%:R : R) \is a GRing.unit) (a : ga R).
Hypothesis wf : wf_ga a.
Notation n := (ga_n a).
Notation C := (cl two a).
Implicit Types (X Y U : mv R) (c : R).
Notation mvv := (mvv two a).
Notation bladed := (bladed a).
Notation G := (clifford (ga_metric two a)).

Lemma le5 m : (m <= 5)%N ->
  m = 0%N \/ m = 1%N \/ m = 2%N \/ m = 3%N \/ m = 4%N \/ m = 5%N.
Proof. by case: m => [|[|[|[|[|[|]]]]]] // _; tauto. Qed.
Lemma mul_bl X Y : mv_ok a X -> mv_ok a Y -> bladed Y ->
  exists2 Z, mv_mul a X Y = Some Z & [/\ mv_ok a Z, bladed Z & mvv Z = mvv X * mvv Y].
Proof. by move=> oX oY bY; have [Z -> [oZ vZ bZ]] := mv_mulP two wf oX oY; exists Z => //; split=> //; exact: bZ. Qed.
Lemma scale_bl c X : mv_ok a X -> bladed X ->
  exists2 Z, mv_scale a c X = Some Z & [/\ mv_ok a Z, bladed Z & mvv Z = c *: mvv X].
Proof. by move=> oX bX; have [Z -> [oZ vZ bZ]] := mv_scaleP two c oX; exists Z => //; split=> //; exact: bZ. Qed.
Lemma sub_bl X Y : mv_ok a X -> mv_ok a Y -> bladed X ->
  exists2 Z, mv_sub a X Y = Some Z & [/\ mv_ok a Z, bladed Z & mvv Z = mvv X - mvv Y].
Proof. by move=> oX oY bX; have [Z -> [oZ vZ bZ]] := mv_subP two wf oX oY; exists Z => //; split=> //; apply: bZ; rewrite bX. Qed.
Lemma grade_bl r X : mv_ok a X -> bladed X ->
  exists2 Z, mv_grade a X r = Some Z & [/\ mv_ok a Z, bladed Z & mvv Z = gpart r (mvv X)].
Proof. by move=> oX bX; have [Z -> [oZ vZ bZ]] := mv_gradeP two r true oX bX; exists Z => //; split=> //; exact: bZ. Qed.
Lemma rev_bl X : mv_ok a X ->
  exists2 Z, mv_rev a X = Some Z & [/\ mv_ok a Z, bladed Z & mvv Z = mrev (mvv X)].
Proof. by move=> oX; have [Z -> [oZ vZ bZ]] := mv_revP two wf true oX; exists Z => //; split=> //; exact: bZ. Qed.
Lemma ccon_bl X : mv_ok a X -> bladed X ->
  exists2 Z, mv_ccon a X = Some Z & [/\ mv_ok a Z, bladed Z & mvv Z = con (mvv X : G)].
Proof. by move=> oX bX; have [Z -> [oZ vZ bZ]] := mv_cconP two wf true oX bX; exists Z => //; split=> //; exact: bZ. Qed.

Lemma hitzer_numP X : mv_ok a X -> bladed X -> (n <= 5)%N ->
  exists2 Z, hitzer_num a X = Some Z & [/\ mv_ok a Z, bladed Z & mvv Z = hnum (mvv X : G)].
Proof.
move=> oX bX /le5; rewrite /hitzer_num /two_of; have [tw twE] : exists tw, tw = 2%:R :> R by [exists 2%:R].
rewrite -!twE; case=> [E|[E|[E|[E|[E|E]]]]]; rewrite {1}E.
- rewrite (hnumE0 _ E); have [Z -> [oZ bZ vZ]] /= := scale_bl 0 oX bX.
  have [W -> [oW vW bW]] := mv_addcP two 1 oZ; exists W => //; split=> //; first exact: bW.
  by rewrite vW vZ scale0r add0r /scal scale1r.
- rewrite (hnumE1 _ E); have [Z -> [oZ vZ bZ]] := mv_involP two wf true oX bX; exists Z => //.
  by split=> //; exact: bZ.
- by rewrite (hnumE2 _ E); exact: ccon_bl.
- rewrite (hnumE3 _ E); have [c -> [oc bc vc]] /= := ccon_bl oX bX.
  have [d -> [od bd vd]] /= := mul_bl oX oc bc; have [r -> [or br vr]] /= := rev_bl od.
  by have [z -> [oz bz vz]] := mul_bl oc or br; exists z => //; split=> //; rewrite vz vr vd vc.
- rewrite (hnumE4 _ E); have [c -> [oc bc vc]] /= := ccon_bl oX bX.
  have [d -> [od bd vd]] /= := mul_bl oX oc bc.
  have [d3 -> [o3 b3 v3]] /= := grade_bl 3 od bd; have [t3 /Some_inj <- [ot3 bt3 vt3]] := scale_bl tw o3 b3.
  have [s3 -> [os3 bs3 vs3]] /= := sub_bl od ot3 bd.
  have [d4 -> [o4 b4 v4]] /= := grade_bl 4 od bd; have [t4 /Some_inj <- [ot4 bt4 vt4]] := scale_bl tw o4 b4.
  have [m -> [om bm vm]] /= := sub_bl os3 ot4 bs3.
  have [z -> [oz bz vz]] := mul_bl oc om bm; exists z => //; split=> //.
  by rewrite vz vm vs3 vt3 vt4 v3 v4 vd vc twE.
rewrite (hnumE5 _ E); have [c -> [oc bc vc]] /= := ccon_bl oX bX.
have [d -> [od bd vd]] /= := mul_bl oX oc bc; have [r -> [or br vr]] /= := rev_bl od.
have [co -> [oco bco vco]] /= := mul_bl oc or br; have [x -> [ox bx vx]] /= := mul_bl oX oco bco.
have [d3 -> [o3 b3 v3]] /= := grade_bl 1 ox bx; have [t3 /Some_inj <- [ot3 bt3 vt3]] := scale_bl tw o3 b3.
have [s3 -> [os3 bs3 vs3]] /= := sub_bl ox ot3 bx.
have [d4 -> [o4 b4 v4]] /= := grade_bl 4 ox bx; have [t4 /Some_inj <- [ot4 bt4 vt4]] := scale_bl tw o4 b4.
have [m -> [om bm vm]] /= := sub_bl os3 ot4 bs3.
have [z -> [oz bz vz]] := mul_bl oco om bm; exists z => //; split=> //.
by rewrite vz vm vs3 vt3 vt4 v3 v4 vx vco vr vd vc twE.
Qed.

Hypothesis qa : rational_ring R.

(* a division by the value c of X*Z gives an inverse *)
Lemma div_inverse X Z c Y : mv_ok a X -> mv_ok a Z -> mvv X * mvv Z = c%:A -> mv_divc a Z c = Some Y ->
  mv_ok a Y /\ inverse two a X Y.
Proof.
move=> oX oZ XZ; rewrite /mv_divc; case Ed: sinv => [d|] //= E.
have [W EW [oW vW _]] := mv_scaleP two d oZ; move: E; rewrite EW => /Some_inj <-; split=> //.
have XY : mvv X * mvv W = 1 by rewrite vW -scalerAr XZ scalerA mulrC (sinvP Ed) scale1r.
by split=> //; exact: cl_mulC1.
Qed.
Lemma hitzer_sound X Y : mv_ok a X -> bladed X -> mv_hitzer a X = Some Y -> mv_ok a Y /\ inverse two a X Y.
Proof.
move=> oX bX; have [n5|n5] := leqP n 5; last first.
  by rewrite /mv_hitzer /hitzer_num; case: n n5 => [|[|[|[|[|[|]]]]]].
have [Z EZ [oZ bZ vZ]] := hitzer_numP oX bX n5; have [P EP [oP bP vP]] := mul_bl oX oZ bZ.
rewrite /mv_hitzer EZ /= EP /=; case: eqP => // _; apply: div_inverse => //.
rewrite (mv_scalarP two oP bP) vP vZ; exact: (hitzer_scalar _ qa n5).
Qed.

(* ---- shirokov_inverse ---- *)
Variable quot : nat -> nat -> R.

Lemma shirokov_NE m : shirokov_N m = shN m.
Proof. by rewrite /shirokov_N /shN addn1 divn2. Qed.
Lemma shirokov_stepP X k U : mv_ok a X -> mv_ok a U -> bladed U -> quot (shN n) k = (shN n)%:R / k%:R ->
  exists A V, [/\ shirokov_step quot a X k U = Some (A, V), mv_ok a A, mv_ok a V, bladed V &
    mvv V = (mvv X : G) * ((mvv U : G) - (shc k (mvv U : G))%:A) /\ mvv V = - ((mvv X : G) * mvv A)].
Proof.
move=> oX oU bU hk; rewrite /shirokov_step shirokov_NE hk.
set c := _ * mv_scalar U; have [A -> [oA vA bA]] := mv_rsubcP two c oU.
rewrite /obind /oapp /=; have [M /Some_inj EM [oM vM bM]] := mv_negP two oX; rewrite EM; have [V -> [oV bV vV]] /= := mul_bl oM oA (bA bU).
exists A, V; split=> //; split; last by rewrite vV vM mulNr.
rewrite vV vM vA mulNr -mulrN opprB; congr (_ * (_ - _)).
by rewrite /shc /c (mv_scalarP two oU bU).
Qed.
Lemma shirokov_stepG X k U : mv_ok a X -> mv_ok a U -> bladed U ->
  exists A V, [/\ shirokov_step quot a X k U = Some (A, V), mv_ok a A, mv_ok a V &
    mvv A = (quot (shN n) k * (mvv U : mval R n) set0)%:A - mvv U].
Proof.
move=> oX oU bU; rewrite /shirokov_step shirokov_NE.
set c := _ * mv_scalar U; have [A -> [oA vA bA]] := mv_rsubcP two c oU.
rewrite /obind /oapp /=; have [M /Some_inj EM [oM vM bM]] := mv_negP two oX; rewrite EM; have [V -> [oV bV vV]] /= := mul_bl oM oA (bA bU).
by exists A, V; split=> //; rewrite vA /c (mv_scalarP two oU bU).
Qed.
Hypothesis quotE : forall k, (0 < k < shN n)%N -> quot (shN n) k = (shN n)%:R / k%:R.
Lemma shirokov_loopP X m k B U : mv_ok a X -> mv_ok a U -> bladed U ->
  mvv U = sh (mvv X : G) k -> (k + m < shN n)%N ->
  (if B is Some A then mv_ok a A /\ mvv U = - ((mvv X : G) * mvv A) else True) ->
  exists B' V, [/\ shirokov_loop quot a X m k.+1 B U = Some (B', V), mv_ok a V, bladed V,
    mvv V = sh (mvv X : G) (k + m) &
    (if B' is Some A then mv_ok a A /\ mvv V = - ((mvv X : G) * mvv A) else True) /\
    (B || (m != 0%N) -> B')].
Proof.
move=> oX; elim: m k B U => [|m IH] k B U oU bU vU hk hB /=.
  by exists B, U; split=> //; rewrite ?addn0 // orbF.
have hk1 : (0 < k.+1 < shN n)%N.
  by rewrite /=; apply: leq_ltn_trans hk; rewrite addnS ltnS leq_addr.
have [A [V [-> oA oV bV [vV hV]]]] /= := shirokov_stepP oX oU bU (quotE hk1).
have [||B' [W [-> oW bW vW [hB' nB]]]] := IH k.+1 (Some A) V oV bV _ _ (conj oA hV).
- by rewrite vV vU.
- by rewrite addSnnS.
by exists B', W; split=> //; [rewrite vW addSnnS | split=> // _; exact: nB].
Qed.
Lemma shN_gt0 m : (0 < shN m)%N. Proof. by rewrite /shN expn_gt0. Qed.
Lemma shirokov_run X : mv_ok a X -> bladed X -> (0 < n)%N ->
  exists A V, [/\ shirokov_loop quot a X (shirokov_N n - 1) 1 None X = Some (Some A, V), mv_ok a A, mv_ok a V, bladed V &
    mvv V = sh (mvv X : G) (shN n).-1 /\ mvv V = - ((mvv X : G) * mvv A)].
Proof.
move=> oX bX n0; rewrite shirokov_NE subn1.
have [||B [V [-> oV bV vV [hB nB]]]] := @shirokov_loopP X (shN n).-1 0 None X oX oX bX _ _ I.
- by [].
- by rewrite add0n prednK // shN_gt0.
case: B hB nB => [A [oA hV] _|_ nB]; first by exists A, V; split.
suff : false by []; apply: nB; rewrite /= /shN -subn1 subn_eq0 -ltnNge.
by rewrite -[X in (X < _)%N](expn0 2) ltn_exp2l //; case: n n0 => // m _; rewrite /= ltnS.
Qed.
Lemma shirokov_sound X Y : mv_ok a X -> bladed X -> mv_shirokov quot a X = Some Y -> mv_ok a Y /\ inverse two a X Y.
Proof.
move=> oX bX; case: (posnP n) => [n0|n0].
  by rewrite /mv_shirokov n0 /=; case: eqP.
have [A [V [E oA oV bV [vV hV]]]] := shirokov_run oX bX n0.
rewrite /mv_shirokov E /=; case: eqP => // _; apply: div_inverse => //.
rewrite -[LHS]opprK -hV scaleNr; congr (- _); rewrite (mv_scalarP two oV bV) vV.
exact: (sh_scalar _ qa).
Qed.
End Proof.

Section Complete.
Variables (F : fieldType) (two : (2%:R : F) \is a GRing.unit) (a : ga F).
Hypothesis wf : wf_ga a.
Hypothesis qa : rational_ring F.
Notation n := (ga_n a).
Notation C := (cl two a).
Notation mvv := (mvv two a).
Notation bladed := (bladed a).
Notation G := (clifford (ga_metric two a)).

Lemma con_con (u : G) : con (con u : G) = u.
Proof. 
rewrite /con; apply/ffunP => S; rewrite !ffunE !mulrA -!exprD.
by rewrite -signr_odd (_ : odd _ = false) ?mul1r // !oddD; do 2 case: (odd _). Qed.
Lemma con_anti (u v : G) : con (u * v) = (con v : G) * con u.
Proof. by rewrite /con !minvolE ginvM (mrevM (ginv u : G)). Qed.
Definition inv (u : G) := exists w : G, w * u = 1.
Lemma inv0 (u v : G) : inv u -> u * v = 0 -> v = 0.
Proof. by case=> w wu uv; rewrite -[v]mul1r -wu -mulrA uv mulr0. Qed.
Lemma invM (u v : G) : inv u -> inv v -> inv (u * v).
Proof.
case=> w wu [z zv]; exists (z * w).
by rewrite mulrA -(mulrA z) wu mulr1.
Qed.
Lemma con1 : con (1 : G) = 1.
Proof. by rewrite -[LHS]mulr1 -[X in _ * X]con_con -con_anti mulr1 con_con. Qed.
Lemma inv_con (u : G) : inv u -> inv (con u).
Proof.
case=> w /(@cl_mulC1 _ two a) uw; exists (con w).
by rewrite -con_anti uw con1.
Qed.
Lemma inv_mrev (u : G) : inv u -> inv (mrev u : G).
Proof.
case=> w /(@cl_mulC1 _ two a) uw; exists (mrev w).
rewrite -[LHS](mrevM u w) uw; by apply/ffunP => S; rewrite ffunE bl_coef; case: eqP => [->|_]; rewrite ?mulr0 // cards0 mulr1.
Qed.
Lemma inv_n0 (u : G) : inv u -> u <> 0.
Proof. by case=> w wu u0; move: wu; rewrite u0 mulr0 => /esym/eqP; rewrite oner_eq0. Qed.
Lemma flip0 (p q : nat) (x : G) : p != q -> x - two_of (gpart p x : G) - two_of (gpart q x : G) = 0 -> x = 0.
Proof.
move=> pq E.
have h r (z : G) : gpart r (two_of z) = two_of (gpart r z : G) by rewrite /two_of linearZ.
have neg0 (y : G) : y - two_of y = 0 -> y = 0.
  by rewrite /two_of scaler_nat mulr2n opprD addrA subrr add0r => /eqP; rewrite oppr_eq0 => /eqP.
have gp : gpart p x = 0 :> G.
  apply: neg0; have := congr1 (gpart p) E.
  by rewrite !raddfB /= !h !gpart_gpart eqxx (negPf pq) raddf0 /two_of scaler0 subr0.
have gq : gpart q x = 0 :> G.
  apply: neg0; have := congr1 (gpart q) E.
  by rewrite !raddfB /= !h !gpart_gpart eqxx eq_sym (negPf pq) raddf0 /two_of scaler0 subr0.
by move: E; rewrite gp gq /two_of !scaler0 !subr0.
Qed.
Lemma hnum_n0 (u : G) : (n <= 5)%N -> inv u -> hnum u <> 0.
Proof.
move=> /le5 h iu; have icu := inv_con iu; have id := invM iu icu; have ird := inv_mrev id.
case: h => [E|[E|[E|[E|[E|E]]]]].
- by rewrite (hnumE0 _ E) => /eqP; rewrite oner_eq0.
- rewrite (hnumE1 _ E) => h; apply: (inv_n0 iu).
  by apply/ffunP => S; move/ffunP/(_ S): h; rewrite !ffunE => /eqP; rewrite mulf_eq0 signr_eq0 => /eqP.
- by rewrite (hnumE2 _ E); exact: inv_n0.
- by rewrite (hnumE3 _ E) => /(inv0 icu); exact: inv_n0.
- by rewrite (hnumE4 _ E) => /(inv0 icu)/flip0 h; apply: (inv_n0 id); exact: h.
rewrite (hnumE5 _ E) => /(inv0 (invM icu ird))/flip0 h.
by apply: (inv_n0 (invM iu (invM icu ird))); exact: h.
Qed.
Lemma hitzer_complete X Z : mv_ok a X -> bladed X -> (n <= 5)%N -> (mvv X : G) * Z = 1 ->
  exists Y, mv_hitzer a X = Some Y.
Proof.
move=> oX bX n5 XZ; have iX : inv (mvv X) by exists Z; exact: cl_mulC1 XZ.
have [W EW [oW bW vW]] := hitzer_numP two wf oX bX n5.
have [P EP [oP bP vP]] := mul_bl two wf oX oW bW; rewrite /mv_hitzer EW /= EP /=.
have P0 : mv_scalar P != 0.
  apply/eqP => E; apply: (hnum_n0 n5 iX); apply: (inv0 iX).
  rewrite (hitzer_scalar _ qa n5) -vW -[_ * _]vP -(mv_scalarP two oP bP) E.
  exact: scale0r.
by rewrite (negPf P0) /mv_divc /sinv unitfE P0; eexists.
Qed.
Lemma sh_n0 (u : G) k : (k < shN n)%N -> inv u -> sh u k <> 0.
Proof.
move=> hk iu; elim: k hk => [|k IH] hk /=; first exact: inv_n0.
move/(inv0 iu)/subr0_eq => E; apply: IH; first exact: ltnW.
have s : (sh u k : mval F n) set0 = shc k.+1 (sh u k).
  rewrite {1}E; by rewrite ffunE; have := bl_coef F (set0 : {set 'I_n}) set0; rewrite eqxx => e; rewrite -[RHS]mulr1 -[X in _ = _ * X]/(true%:R) -e.
have s0 : (sh u k : mval F n) set0 = 0.
  move/eqP: s; rewrite /shc -subr_eq0 -{1}[(sh u k : mval F n) set0]mul1r -mulrBl mulf_eq0 => /orP[|/eqP //].
  move=> e; exfalso; move: e; rewrite subr_eq0 => /eqP e.
  have u1 : (k.+1%:R : F) != 0 by rewrite -unitfE qa.
  have : ((shN n - k.+1)%:R : F) = 0.
    by rewrite natrB ?(ltnW hk) // -[(shN n)%:R](divfK u1) -e mul1r subrr.
  have -> : (shN n - k.+1 = (shN n - k.+2).+1)%N by rewrite -subSn.
  by apply/eqP; rewrite -unitfE qa.
by rewrite E /shc s0 mulr0; exact: scale0r.
Qed.
Lemma shirokov_complete quot X Z : (forall k, (0 < k < shN n)%N -> quot (shN n) k = (shN n)%:R / k%:R) ->
  mv_ok a X -> bladed X -> (0 < n)%N -> (mvv X : G) * Z = 1 ->
  exists Y, mv_shirokov quot a X = Some Y.
Proof.
move=> q oX bX n0 XZ; have iX : inv (mvv X) by exists Z; exact: cl_mulC1 XZ.
have [A [V [E oA oV bV [vV hV]]]] := shirokov_run two wf q oX bX n0.
rewrite /mv_shirokov E /=.
have P0 : mv_scalar V != 0.
  apply/eqP => e; apply: (@sh_n0 (mvv X) (shN n).-1 _ iX); first by rewrite prednK ?shN_gt0.
  rewrite (sh_scalar _ qa) -vV -(mv_scalarP two oV bV) e; exact: scale0r.
by rewrite (negPf P0) /mv_divc /sinv unitfE oppr_eq0 P0; eexists.
Qed.
End Complete.
