(* Mv_Proof.v -- what the operators of the Mv model compute *)
From mathcomp Require Import all_ssreflect all_algebra.
From Verif Require Import NatTac AlgTactics Exterior Clifford Blades Spec_Grade Grades.
From Verif Require Import Spec_Index PyBase Ga_Model Ga_Proof_Tables Ga_Proof_Sort Ga_Proof_Sem Ga_Proof_Reduce.
From Verif Require Import Ga_Sem Ga_Proof_Rep Ga_Proof_Conv Ga_Proof_Mul Spec_Clifford Clifford_Unique Spec_Mv Ga_Proof_Den Ga_Proof_Wedge Ga_Proof_Inner.
From Verif Require Import Ga_Proof_Grade Mv_Model.
Set Implicit Arguments.
Unset Strict Implicit.
Unset Printing Implicit Defensive.
Import GRing.Theory.
Local Open Scope ring_scope.

(* well-formed multivector objects: the expression is in the representation the
   flag says (in an orthogonal algebra both are the same symbols) *)
Definition mv_ok (R : comUnitRingType) (a : ga R) (X : mv R) : bool :=
  canonical (obj X) &&
  (if brep X || is_ortho a then blade_expr (ga_n a) (obj X) else base_expr (ga_n a) (obj X)).

Section Mv.
Variables (R : comUnitRingType) (two : (2%:R : R) \is a GRing.unit) (a : ga R).
Hypothesis wf : wf_ga a.
Notation n := (ga_n a).
Notation C := (cl two a).
Notation val_ := (value two a).
Implicit Types (x y : expr R) (u v w : C) (I J : seq nat) (t : R * word) (X Y Z : mv R) (c : R).

Definition mvv X : C := val_ (obj X).
Definition bladed X := brep X || is_ortho a.
(* the call returns a well-formed object with value v, in blade representation if b *)
Definition yields (b : bool) (o : option (mv R)) (v : C) :=
  exists2 X, o = Some X & [/\ mv_ok a X, mvv X = v & b -> bladed X].

Lemma ok_ok X : mv_ok a X -> ok_expr a (obj X).
Proof.
case/andP=> _; rewrite /ok_expr; case: ifP => [_|/norP[_ no]] h; first exact: blade_ok.
by apply: sub_all h => w /=; rewrite /okw (negbTE no) => ->; rewrite orbT.
Qed.
Lemma ok_blade X : mv_ok a X -> brep X -> blade_expr n (obj X).
Proof. by case/andP=> _ + br; rewrite br. Qed.
Lemma ok_blade_ortho X : mv_ok a X -> is_ortho a -> blade_expr n (obj X).
Proof. by case/andP=> _ + br; rewrite br orbT. Qed.
Lemma blade_brep x : blade_expr n x -> brep (mk_mv a x).
Proof.
move=> bx; apply/allP => t tx; have [I wI ->] := blade_mem (blade_canon bx) tx.
by rewrite blade_first mk_blade_in.
Qed.
Lemma mk_mv_blade x : blade_expr n x -> mv_ok a (mk_mv a x).
Proof. by move=> bx; rewrite /mv_ok (blade_brep bx) /= canonical_canon blade_canon. Qed.
Lemma mk_mv_base x : is_ortho a = false -> base_expr n x -> mv_ok a (mk_mv a x).
Proof.
move=> no bx; have bc : base_expr n (canon x) by exact: all_words_canon.
rewrite /mv_ok /= canonical_canon no orbF /=; case: ifP => // /allP h.
apply/allP => w /mapP[t tx ->]; have := h t tx.
have /baseP[I wI ->] := allP bc _ (map_f snd tx).
by case: I wI => [|i [|j I]].
Qed.
Lemma mvv_mk x : mvv (mk_mv a x) = val_ x.
Proof. exact: value_canon. Qed.
Lemma yields_blade x v : blade_expr n x -> val_ x = v -> forall b, yields b (Some (mk_mv a x)) v.
Proof.
move=> h <- b; exists (mk_mv a x) => //; rewrite mvv_mk mk_mv_blade //; split=> // _.
by rewrite /bladed blade_brep.
Qed.
(* the representation of an object, and what it allows *)
Definition in_rep (b : bool) x := if b || is_ortho a then blade_expr n x else base_expr n x.
Lemma in_rep_mk b x v : in_rep b x -> val_ x = v -> yields (b || is_ortho a) (Some (mk_mv a x)) v.
Proof.
rewrite /in_rep; case: ifP => [_|/norP[_ no]] h E; first exact: yields_blade.
by exists (mk_mv a x); rewrite // mvv_mk mk_mv_base //; exact: negbTE.
Qed.
Lemma in_rep_cat b x y : in_rep b (x ++ y) = in_rep b x && in_rep b y.
Proof. by rewrite /in_rep; case: ifP => _; rewrite ?blade_cat ?base_cat. Qed.
Lemma in_rep_eneg b x : in_rep b (eneg x) = in_rep b x.
Proof. by rewrite /in_rep /blade_expr /base_expr words_eneg. Qed.
Lemma in_rep_escale b c x : in_rep b (escale c x) = in_rep b x.
Proof. by rewrite /in_rep /blade_expr /base_expr words_escale. Qed.
Lemma in_rep_const b c : in_rep b [:: (c, [::])].
Proof.
rewrite /in_rep /blade_expr /base_expr /= (@mk_blade_in n [::]) // (@mk_base_in n [::]) //.
by case: ifP.
Qed.
Lemma ok_rep X : mv_ok a X -> in_rep (brep X) (obj X).
Proof. by case/andP. Qed.

Lemma yields_bind b (o : option (mv R)) v (f : mv R -> option (mv R)) b' w :
  yields b o v ->
  (forall X, mv_ok a X -> mvv X = v -> (b -> bladed X) -> yields b' (f X) w) ->
  yields b' (obnd o f) w.
Proof. by case=> X -> [oX vX bX] /(_ X oX vX bX). Qed.
Lemma yields_some X : mv_ok a X -> yields (bladed X) (Some X) (mvv X).
Proof. by move=> oX; exists X. Qed.
Lemma yieldsW (b b' : bool) o v : (b' -> b) -> yields b o v -> yields b' o v.
Proof. by move=> h [X -> [oX vX bX]]; exists X => //; split=> // /h. Qed.
Lemma yields_eq b o v w : yields b o v -> v = w -> yields b o w.
Proof. by move=> + <-. Qed.

Lemma blade_repP X : mv_ok a X ->
  exists2 X', blade_rep a X = Some X' & [/\ brep X', mv_ok a X' & mvv X' = mvv X].
Proof.
move=> oX; rewrite /blade_rep; case: ifP => br; first by exists X.
case ort: (is_ortho a).
  rewrite /base_to_blade_rep ort /=; eexists; [reflexivity|split=> //].
  by rewrite /mv_ok /= ok_blade_ortho // andbT; case/andP: oX.
have := ok_rep oX; rewrite br /in_rep /= ort => bx.
have [y -> [b_y cy vy]] := base_to_blade_nonortho two wf ort (base_mix bx).
exists (Mv y true) => //; split=> //; first by rewrite /mv_ok /= cy.
by rewrite /mvv /value vy //; exact: gen_rel.
Qed.
Lemma base_repP X : mv_ok a X ->
  exists2 X', base_rep a X = Some X' & [/\ ~~ brep X', mv_ok a X' & mvv X' = mvv X].
Proof.
move=> oX; rewrite /base_rep; case: ifP => br; last by exists X => //; split=> //; rewrite br.
case ort: (is_ortho a).
  rewrite /blade_to_base_rep ort /=; eexists; [reflexivity|split=> //].
  by rewrite /mv_ok /= ort ok_blade_ortho // andbT; case/andP: oX.
have := ok_rep oX; rewrite br /in_rep /= => bx.
have [y -> [b_y cy vy]] := blade_to_base_nonortho two ort (blade_mix bx).
exists (Mv y false) => //; split=> //; first by rewrite /mv_ok /= ort cy.
by rewrite /mvv /value vy //; exact: gen_rel.
Qed.

(* ---- scalars ---- *)
Definition scal c : mval R n := c *: bl R set0.
Lemma scal_gpart (v : mval R n) : gpart 0 v = scal (v set0).
Proof.
apply/ffunP => S; rewrite !ffunE cards_eq0; case: eqP => [->|_]; first by rewrite mulr1.
by rewrite mulr0.
Qed.
Lemma gpart_scal c : gpart 0 (scal c) = scal c.
Proof. by rewrite /scal linearZ /= gpart_bl cards0. Qed.
Lemma val_const c : val_ [:: (c, [::])] = scal c.
Proof. exact: value_const. Qed.
Lemma yields_const c b : yields b (Some (mv_const a c)) (scal c).
Proof.
apply: yields_blade; last exact: val_const.
by have := in_rep_const true c; rewrite /in_rep.
Qed.
Lemma const_ok c : [/\ mv_ok a (mv_const a c), mvv (mv_const a c) = scal c & bladed (mv_const a c)].
Proof. by have [_ [<-] [? ? /(_ isT)]] := yields_const c true. Qed.

Lemma is_scalarP X : mv_ok a X -> is_scalar a X = Some (gpart 0 (mvv X) == mvv X).
Proof. by move=> oX; rewrite /is_scalar (ga_gradesP two wf (ok_ok oX)) /= mset0_scalar. Qed.
Lemma is_vectorP X : mv_ok a X -> is_vector a X = Some ((mvv X != 0) && (gpart 1 (mvv X) == mvv X)).
Proof. by move=> oX; rewrite /is_vector (ga_gradesP two wf (ok_ok oX)) /= mset1_vector. Qed.
Lemma rep_perm b x y : in_rep b x -> in_rep b y -> val_ x = val_ y -> perm_eq (canon x) (canon y).
Proof.
rewrite /in_rep; case: ifP => _; [exact: value_perm|exact: base_value_perm].
Qed.
Lemma scalar_obj X : mv_ok a X -> gpart 0 (mvv X) = mvv X ->
  obj X = [::] \/ exists c, obj X = [:: (c, [::])].
Proof.
move=> oX sX; have := ok_rep oX; case/andP: oX => /andP[u nz] _ rX.
have pe : perm_eq (canon (obj X)) (canon [:: ((mvv X : mval R n) set0, [::])]).
  by apply: (rep_perm rX (in_rep_const _ _)); rewrite val_const -scal_gpart sX.
have E t : t \in obj X -> t.2 = [::].
  move=> tx; have := allP nz _ tx; rewrite -(coef_uniq u tx).
  have -> := proj2 (canon_perm _ _) pe t.2.
  by rewrite coef_cons coef_nil addr0; case: ([::] =P t.2) => [->//|_]; rewrite eqxx.
case: (obj X) u E => [|[c w] [|[c' w'] l]] u E; first by left.
  by right; exists c; have /= -> := E _ (mem_head _ _).
exfalso; have := E (c, w) (mem_head _ _); have := E (c', w').
rewrite !inE eqxx orbT => /(_ isT) /= E1 E2; move: u; rewrite /= E1 E2 inE eqxx //.
Qed.
Lemma mul_scal c (v : C) : (scal c : C) * v = c *: v.
Proof. by rewrite /scal -scalerAl mul1r. Qed.
Lemma mul_scalr c (v : C) : v * (scal c : C) = c *: v.
Proof. by rewrite /scal -scalerAr mulr1. Qed.

(* ---- linear operators ---- *)
Lemma mv_negP X : mv_ok a X -> yields (bladed X) (mv_neg a X) (- mvv X).
Proof.
move=> oX; apply: in_rep_mk; first by rewrite in_rep_eneg ok_rep.
by rewrite value_eneg.
Qed.
Lemma mv_scaleP c X : mv_ok a X -> yields (bladed X) (mv_scale a c X) (c *: mvv X).
Proof.
move=> oX; apply: in_rep_mk; first by rewrite in_rep_escale ok_rep.
by rewrite value_escale.
Qed.
Lemma mv_arithP op (f : C -> C -> C) X Y :
  (forall b x y, in_rep b x -> in_rep b y -> in_rep b (op x y)) ->
  (forall x y, val_ (op x y) = f (val_ x) (val_ y)) ->
  mv_ok a X -> mv_ok a Y -> yields (bladed X || bladed Y) (mv_arith op a X Y) (f (mvv X) (mvv Y)).
Proof.
move=> hop fE oX oY; rewrite /mv_arith; case: eqP => E.
  rewrite /bladed -E orbb; apply: in_rep_mk; last exact: fE.
  by apply: hop; rewrite ?ok_rep // E ok_rep.
case: ifP => bX.
  have [Y' -> [bY oY' vY]] := blade_repP oY; rewrite /=; apply: yields_blade; last by rewrite fE -vY.
  by have := hop true (obj X) (obj Y'); rewrite /in_rep /=; apply; apply: ok_blade.
have bY : brep Y by move: E; rewrite bX; case: brep.
have [X' -> [bX' oX' vX]] := blade_repP oX; rewrite /=; apply: yields_blade; last by rewrite fE -vX.
by have := hop true (obj X') (obj Y); rewrite /in_rep /=; apply; apply: ok_blade.
Qed.
Lemma mv_addP X Y : mv_ok a X -> mv_ok a Y -> yields (bladed X || bladed Y) (mv_add a X Y) (mvv X + mvv Y).
Proof.
apply: (@mv_arithP _ (fun u v : C => u + v)) => [b x y hx hy|x y]; last exact: value_cat.
by rewrite in_rep_cat hx.
Qed.
Lemma mv_subP X Y : mv_ok a X -> mv_ok a Y -> yields (bladed X || bladed Y) (mv_sub a X Y) (mvv X - mvv Y).
Proof.
apply: (@mv_arithP _ (fun u v : C => u - v)) => [b x y hx hy|x y]; last by rewrite value_cat value_eneg.
by rewrite in_rep_cat hx in_rep_eneg.
Qed.
Lemma mv_addcP X c : mv_ok a X -> yields (bladed X) (mv_addc a X c) (mvv X + scal c).
Proof.
move=> oX; apply: in_rep_mk; first by rewrite in_rep_cat ok_rep //= in_rep_const.
by rewrite value_cat val_const.
Qed.
Lemma mv_subcP X c : mv_ok a X -> yields (bladed X) (mv_subc a X c) (mvv X - scal c).
Proof.
move=> oX; apply: in_rep_mk; first by rewrite in_rep_cat ok_rep //= in_rep_const.
by rewrite value_cat val_const /scal scaleNr.
Qed.
Lemma mv_rsubcP X c : mv_ok a X -> yields (bladed X) (mv_rsubc a X c) ((scal c : C) - mvv X).
Proof.
move=> oX; apply: in_rep_mk; last first.
  by rewrite -cat1s value_cat val_const value_eneg.
by rewrite -cat1s in_rep_cat in_rep_const in_rep_eneg ok_rep.
Qed.

(* ---- products ---- *)
Lemma emul_nil y : emul [::] y = [::]. Proof. by []. Qed.
Lemma emul_scal c y : emul [:: (c, [::])] y = escale c y.
Proof. by rewrite /emul /= cats0. Qed.
Lemma mv_mulP X Y : mv_ok a X -> mv_ok a Y -> yields (bladed Y) (mv_mul a X Y) (mvv X * mvv Y).
Proof.
move=> oX oY; rewrite /mv_mul (is_scalarP oX) /=; case: eqP => [sX|_].
  apply: in_rep_mk; case: (scalar_obj oX sX) => [E|[c E]].
  - by rewrite E /in_rep; case: ifP.
  - by rewrite E emul_scal in_rep_escale ok_rep.
  - by rewrite /mvv E !value_nil mul0r.
  - by rewrite /mvv E emul_scal value_escale val_const mul_scal.
have mul x y : ok_expr a x -> ok_expr a y -> exists2 z, ga_mul a x y = Some z &
    blade_expr n z /\ val_ z = val_ x * val_ y.
  move=> hx hy; have [z Ez [bz cz vz]] := ga_mulP two wf hx hy; exists z => //.
  by split=> //; exact: (vz _ _ (wf_rel two wf)).
case: ifP => [/andP[bX bY]|_].
  have [z -> [rz vz]] := mul _ _ (ok_ok oX) (ok_ok oY); rewrite /=.
  by apply: yields_blade.
have [X' -> [bX oX' vX]] := base_repP oX; have [Y' -> [bY oY' vY]] := base_repP oY; rewrite /=.
have [z -> [rz vz]] := mul _ _ (ok_ok oX') (ok_ok oY'); rewrite /=.
have bc : blade_expr n (canon z) by exact: all_words_canon.
have vc : val_ (canon z) = mvv X * mvv Y by rewrite value_canon vz -vX -vY.
rewrite /blade_rep /=; case ort: (is_ortho a).
  rewrite /base_to_blade_rep ort /=; eexists; [reflexivity|split=> //].
  by rewrite /mv_ok /= canonical_canon.
have [y -> [b_y cy vy]] := base_to_blade_nonortho two wf ort (blade_mix bc).
exists (Mv y true) => //; split=> //; first by rewrite /mv_ok /= cy.
by rewrite /mvv /value vy //; exact: gen_rel.
Qed.
Lemma ext_scal c (v : mval R n) : ext (scal c) v = c *: v.
Proof. by rewrite (extE two) /scal -scalerAl mul1r. Qed.
Lemma mv_wedgeP X Y : mv_ok a X -> mv_ok a Y ->
  yields (bladed Y) (mv_wedge a X Y) (ext (mvv X) (mvv Y)).
Proof.
move=> oX oY; rewrite /mv_wedge (is_scalarP oX) /=; case: eqP => [sX|_].
  apply: yields_eq (mv_mulP oX oY) _.
  by rewrite -sX scal_gpart ext_scal mul_scal.
have [X' -> [bX oX' vX]] := blade_repP oX; have [Y' -> [bY oY' vY]] := blade_repP oY; rewrite /=.
have [z -> [bz _ vz]] := ga_wedgeP two (ok_blade oX' bX) (ok_blade oY' bY).
by apply: yields_blade; rewrite ?vz // -vX -vY.
Qed.
Lemma mv_singleP k X Y b : mv_ok a X -> mv_ok a Y ->
  yields b (mv_single k a X Y) (selprod (fun u v : C => u * v) (rule_of k) (mvv X) (mvv Y)).
Proof.
move=> oX oY; rewrite /mv_single.
have [X' -> [bX oX' vX]] := blade_repP oX; have [Y' -> [bY oY' vY]] := blade_repP oY; rewrite /=.
have [z -> [bz _ vz]] := ga_singleP two wf k (ok_blade oX' bX) (ok_blade oY' bY).
by apply: yields_blade; rewrite ?vz // -vX -vY.
Qed.
Lemma pow_loopP k X Y : mv_ok a X -> mv_ok a Y -> bladed Y ->
  yields (bladed X) (pow_loop a k Y X) (mvv Y * mvv X ^+ k).
Proof.
elim: k Y => [|k IH] Y oX oY bY /=; first by rewrite expr0 mulr1; exists Y.
case: (mv_mulP oY oX) => Z -> [oZ vZ bZ] /=.
rewrite exprS mulrA -vZ; case: (boolP (bladed X)) => bX.
  by apply: yieldsW (IH _ oX oZ (bZ bX)).
have {IH} IH W j : mv_ok a W -> yields false (pow_loop a j W X) (mvv W * mvv X ^+ j).
  elim: j W => [|j IHj] W oW /=; first by rewrite expr0 mulr1; exists W.
  by case: (mv_mulP oW oX) => V -> [oV vV _] /=; rewrite exprS mulrA -vV; exact: IHj.
exact: IH.
Qed.
Lemma scal1 : scal 1 = 1 :> C. Proof. by rewrite /scal scale1r. Qed.
Lemma mv_powP k X : mv_ok a X -> yields (bladed X) (mv_pow a X k) (mvv X ^+ k).
Proof.
move=> oX; have [o v b] := const_ok 1; have := pow_loopP k oX o b.
by rewrite v scal1 mul1r.
Qed.
Lemma mv_anticomP X Y : mv_ok a X -> mv_ok a Y ->
  yields (bladed X && bladed Y) (mv_anticom a X Y) (half R *: (mvv X * mvv Y + mvv Y * mvv X)).
Proof.
move=> oX oY; rewrite /mv_anticom.
case: (mv_mulP oX oY) => P -> [oP vP bP]; case: (mv_mulP oY oX) => Q -> [oQ vQ bQ] /=.
case: (mv_addP oP oQ) => S -> [oS vS bS] /=.
rewrite -vP -vQ -vS; apply: yieldsW (mv_scaleP _ oS) => /andP[bX bY].
by apply: bS; rewrite bP.
Qed.
Lemma mv_comP X Y : mv_ok a X -> mv_ok a Y ->
  yields (bladed X && bladed Y) (mv_com a X Y) (half R *: (mvv X * mvv Y - mvv Y * mvv X)).
Proof.
move=> oX oY; rewrite /mv_com.
case: (mv_mulP oX oY) => P -> [oP vP bP]; case: (mv_mulP oY oX) => Q -> [oQ vQ bQ] /=.
case: (mv_subP oP oQ) => S -> [oS vS bS] /=.
rewrite -vP -vQ -vS; apply: yieldsW (mv_scaleP _ oS) => /andP[bX bY].
by apply: bS; rewrite bP.
Qed.

(* ---- grade functions ---- *)
Lemma bladed_blade X : mv_ok a X -> bladed X -> blade_expr n (obj X).
Proof. by case/andP=> _; rewrite /bladed => + br; rewrite br. Qed.
Lemma mv_gradeP X r b : mv_ok a X -> bladed X -> yields b (mv_grade a X r) (gpart r (mvv X)).
Proof.
move=> oX bX; rewrite /mv_grade; have [z -> [bz _ vz]] := ga_get_gradeP two r (bladed_blade oX bX).
exact: yields_blade.
Qed.
Lemma mv_evenP X b : mv_ok a X -> bladed X -> yields b (mv_even a X) (meven (mvv X)).
Proof.
move=> oX bX; rewrite /mv_even; have [z -> [bz _ vz]] := ga_even_oddP two true (bladed_blade oX bX).
exact: yields_blade.
Qed.
Lemma mv_oddP X b : mv_ok a X -> bladed X -> yields b (mv_odd a X) (modd (mvv X)).
Proof.
move=> oX bX; rewrite /mv_odd; have [z -> [bz _ vz]] := ga_even_oddP two false (bladed_blade oX bX).
exact: yields_blade.
Qed.
Lemma mv_involP X b : mv_ok a X -> bladed X -> yields b (mv_invol a X) (minvol (mvv X)).
Proof.
move=> oX bX; rewrite /mv_invol.
case: (mv_evenP true oX bX) => E -> [oE vE bE]; case: (mv_oddP true oX bX) => O -> [oO vO bO] /=.
by rewrite minvol_eo -vE -vO; apply: yieldsW (mv_subP oE oO); rewrite bE.
Qed.
Lemma mv_revP X b : mv_ok a X -> yields b (mv_rev a X) (mrev (mvv X)).
Proof.
move=> oX; rewrite /mv_rev; have [X' -> [bX oX' vX]] := blade_repP oX; rewrite /=.
have [z -> [bz _ vz]] := ga_reverseP two (ok_blade oX' bX).
by apply: yields_blade; rewrite ?vz // -vX.
Qed.
Lemma mv_cconP X b : mv_ok a X -> bladed X -> yields b (mv_ccon a X) (mrev (minvol (mvv X))).
Proof.
move=> oX bX; rewrite /mv_ccon; case: (mv_involP true oX bX) => E -> [oE vE bE] /=.
by rewrite -vE; exact: mv_revP.
Qed.
Lemma mv_scalarP X : mv_ok a X -> bladed X -> mv_scalar X = (mvv X : mval R n) set0.
Proof. by move=> oX bX; exact: scalar_partP (bladed_blade oX bX). Qed.
Lemma mv_spP X Y : mv_ok a X -> mv_ok a Y -> bladed Y -> mv_sp a X Y = Some ((mvv X * mvv Y : mval R n) set0).
Proof.
move=> oX oY bY; rewrite /mv_sp; case: (mv_mulP oX oY) => P -> [oP vP bP] /=.
by rewrite mv_scalarP ?vP ?bP.
Qed.
Lemma mv_sprevP X Y : mv_ok a X -> mv_ok a Y -> bladed Y ->
  mv_sprev a X Y = Some (((mrev (mvv X) : C) * mvv Y : mval R n) set0).
Proof.
move=> oX oY bY; rewrite /mv_sprev; case: (mv_revP true oX) => R' -> [oR vR bR] /=.
case: (mv_mulP oR oY) => P -> [oP vP bP] /=.
by rewrite mv_scalarP ?vP ?bP // vR.
Qed.
Lemma mv_qformP X : mv_ok a X -> bladed X -> 
  mv_qform a X = Some (((mrev (mvv X) : C) * mvv X : mval R n) set0).
Proof. by move=> oX; exact: mv_sprevP. Qed.

(* ---- equality ---- *)
Lemma rep_nil b x : in_rep b x -> (canon x == [::]) = (val_ x == 0).
Proof.
move=> rx; apply/eqP/eqP => [E|E]; first by rewrite -value_canon E value_nil.
have : perm_eq (canon x) (canon [::]).
  apply: (rep_perm rx); last by rewrite value_nil.
  by rewrite /in_rep; case: ifP.
by move/perm_nilP.
Qed.
Lemma is_zeroP X : mv_ok a X -> is_zero X = (mvv X == 0).
Proof. by move=> oX; rewrite /is_zero (rep_nil (ok_rep oX)). Qed.
Lemma rep_size b x : in_rep b x -> all (fun w : word => size w <= 1)%N (words x).
Proof.
rewrite /in_rep; case: ifP => _ h; apply: sub_all h => w.
  by case/bladeP=> I _ ->; exact: mk_blade_size.
by case/baseP=> I _ ->; exact: mk_base_size.
Qed.
Lemma rep_linear_expand b x : in_rep b x -> in_rep b (linear_expand x) /\ val_ (linear_expand x) = val_ x.
Proof.
move=> rx; split; last by rewrite /value ev_linear_expand // (rep_size rx).
have := rx; rewrite /in_rep; case: ifP => _ h; apply: linear_expand_words h.
- exact: (@mk_blade_in n [::]).
- by move=> w /= /bladeP[I _ ->]; exact: mk_blade_size.
- exact: (@mk_base_in n [::]).
- by move=> w /= /baseP[I _ ->]; exact: mk_base_size.
Qed.
Lemma mv_expandP X : mv_ok a X -> mv_ok a (mv_expand a X) /\ mvv (mv_expand a X) = mvv X.
Proof.
move=> oX; have [rx vx] := rep_linear_expand (ok_rep oX).
by have [_ [<-] [o v _]] := in_rep_mk rx vx.
Qed.
Lemma mv_eqP X Y : mv_ok a X -> mv_ok a Y -> mv_eq a X Y = Some (mvv X == mvv Y).
Proof.
move=> oX oY; rewrite /mv_eq; case: (mv_subP oX oY) => D -> [oD vD _]; rewrite /obnd.
have [o1 v1] := mv_expandP oD; have [o2 v2] := mv_expandP o1.
have -> : obj (mv_expand a (mv_expand a D)) == [::] = (canon (obj (mv_expand a (mv_expand a D))) == [::]).
  have := is_zeroP o2; rewrite /is_zero => ->; apply/eqP/eqP => [E|]; first by rewrite /mvv E value_nil.
  move=> E0; have := rep_nil (ok_rep o2); rewrite -/(mvv _) E0 eqxx => /eqP E; move: E.
  case/andP: o2 => /andP[u nz] _; case: (obj _) u nz => // t l u nz E.
  have := coef_canon (t :: l) t.2; rewrite E coef_nil (coef_uniq u (mem_head _ _)) => /esym/eqP.
  by move=> E1; case: (negP (andP nz).1); rewrite E1.
by rewrite (rep_nil (ok_rep o2)) -/(mvv _) v2 v1 vD subr_eq0.
Qed.
Lemma mv_eqcP X c : mv_ok a X -> mv_eqc a X c = Some (mvv X == scal c :> mval R n).
Proof.
move=> oX; rewrite /mv_eqc (is_scalarP oX) /=; congr Some; apply/idP/idP => [/andP[/eqP sX pe]|/eqP E].
  rewrite /mvv -[val_ _]value_canon.
  have -> : val_ (canon (obj X)) = val_ (canon [:: (c, [::])]) by rewrite /value /ev; apply: perm_big.
  by rewrite value_canon val_const eqxx.
rewrite E gpart_scal eqxx /=; apply: (rep_perm (ok_rep oX) (in_rep_const _ _)).
by rewrite val_const -E.
Qed.

(* ---- inverses ---- *)
(* a one-sided inverse is two-sided: left multiplication is a square matrix *)
Definition lmx (u : C) : 'M[R]_(#|{: {set 'I_n}}|) :=
  \matrix_(i, j) ((u * (bl R (enum_val j) : C) : mval R n) (enum_val i)).
Lemma lmxM u v : lmx (u * v) = lmx u *m lmx v.
Proof.
apply/matrixP => i j; rewrite !mxE -mulrA.
have -> : v * (bl R (enum_val j) : C) = \sum_S (v * (bl R (enum_val j) : C) : mval R n) S *: bl R S.
  exact: mval_decomp.
rewrite mulr_sumr sum_coef (reindex_onto enum_val enum_rank) /= => [|S _]; last by rewrite enum_rankK.
rewrite (eq_bigl xpredT) => [|k]; last by rewrite enum_valK eqxx.
by apply: eq_bigr => k _; rewrite -scalerAr scale_coef !mxE mulrC.
Qed.
Lemma lmx_inj u v : lmx u = lmx v -> u = v.
Proof.
move=> /matrixP E; apply/ffunP => S; have := E (enum_rank S) (enum_rank set0).
by rewrite !mxE !enum_rankK !mulr1.
Qed.
Lemma lmx1 : lmx 1 = 1%:M.
Proof.
apply/matrixP => i j; rewrite !mxE mul1r bl_coef.
by rewrite (inj_eq enum_val_inj) eq_sym; case: eqP.
Qed.
Lemma cl_mulC1 u v : u * v = 1 -> v * u = 1.
Proof.
move=> E; apply: lmx_inj; rewrite lmxM lmx1; apply: mulmx1C.
by rewrite -lmxM E lmx1.
Qed.
Lemma cl_inv_uniq u v w : u * v = 1 -> u * w = 1 -> v = w.
Proof. by move=> E F; rewrite -[v]mulr1 -F mulrA (cl_mulC1 E) mul1r. Qed.

Lemma scalar_val X : mv_ok a X -> gpart 0 (mvv X) = mvv X -> mvv X = scal (mv_scalar X).
Proof.
move=> oX sX; rewrite -sX scal_gpart; congr scal; symmetry.
apply: scalar_partP; case: (scalar_obj oX sX) => [->//|[c ->]].
by have := in_rep_const true c; rewrite /in_rep.
Qed.
Lemma scalM c d : (scal c : C) * (scal d : C) = scal (c * d).
Proof. by rewrite mul_scal /scal scalerA. Qed.
Lemma scal_inj c d : scal c = scal d -> c = d.
Proof. by move=> /ffunP/(_ set0); rewrite !scale_coef !bl_coef eqxx !mulr1. Qed.
Lemma sinvP c d : sinv c = Some d -> c * d = 1.
Proof. by rewrite /sinv; case: ifP => // u [<-]; rewrite divrr. Qed.
Definition inverse X Y := mvv X * mvv Y = 1 /\ mvv Y * mvv X = 1.
Lemma mv_inv_sound X Y : mv_ok a X -> mv_inv a X = Some Y -> mv_ok a Y /\ inverse X Y.
Proof.
move=> oX; rewrite /mv_inv (is_scalarP oX) /=; case: eqP => [sX|_].
  case E: (sinv _) => [d|] //= [<-]; have [o v b] := const_ok d; split=> //.
  suff h : mvv X * mvv (mv_const a d) = 1 by split=> //; exact: cl_mulC1.
  by rewrite v (scalar_val oX sX) scalM (sinvP E) scal1.
case: (mv_mulP oX oX) => Q -> [oQ vQ _]; rewrite /= (is_scalarP oQ) /=; case: eqP => [sQ|_].
  case E: (sinv _) => [d|] //= H; case: (mv_scaleP d oX) => Z; rewrite H => -[->] [oZ vZ _].
  split=> //; suff h : mvv X * mvv Z = 1 by split=> //; exact: cl_mulC1.
  by rewrite vZ -scalerAr -vQ (scalar_val oQ sQ) -mul_scal scalM mulrC (sinvP E) scal1.
case: (mv_revP true oX) => V -> [oV vV _] /=.
case: (mv_mulP oX oV) => P -> [oP vP _]; rewrite /= (is_scalarP oP) /=; case: eqP => [sP|//].
case E: (sinv _) => [d|] //= H; case: (mv_scaleP d oV) => Z; rewrite H => -[->] [oZ vZ _].
split=> //; suff h : mvv X * mvv Z = 1 by split=> //; exact: cl_mulC1.
by rewrite vZ -scalerAr -vP (scalar_val oP sP) -mul_scal scalM mulrC (sinvP E) scal1.
Qed.
Lemma scal_unit c v : (scal c : C) * v = 1 -> c \is a GRing.unit.
Proof.
rewrite mul_scal => /ffunP/(_ set0); rewrite scale_coef bl_coef eqxx /= => E.
by apply/unitrPr; exists ((v : mval R n) set0).
Qed.
(* inv() succeeds when the element, its square or X * rev X is an invertible scalar *)
Lemma mv_inv_complete X c : mv_ok a X -> c \is a GRing.unit ->
  [\/ mvv X = scal c, mvv X * mvv X = scal c | mvv X * (mrev (mvv X) : C) = scal c] ->
  exists Y, mv_inv a X = Some Y.
Proof.
move=> oX uc h.
have [W XW] : exists W : C, mvv X * W = 1.
  case: h => [->|E|E].
  - by exists (scal c^-1); rewrite scalM divrr // scal1.
  - by exists (c^-1 *: mvv X); rewrite -scalerAr E -mul_scal scalM mulVr // scal1.
  - by exists (c^-1 *: (mrev (mvv X) : C)); rewrite -scalerAr E -mul_scal scalM mulVr // scal1.
have un k : (exists w, (mvv X * w = 1)) -> forall d v, mvv X * v = scal d -> (exists w, v * w = 1) ->
    sinv d = Some d^-1.
  move=> _ d v E [w vw]; rewrite /sinv (@scal_unit d (w * W)) // -E -mulrA [v * _]mulrA vw mul1r XW //.
rewrite /mv_inv (is_scalarP oX) /=; case: eqP => [sX|_].
  have -> : sinv (mv_scalar X) = Some (mv_scalar X)^-1.
    by rewrite /sinv (@scal_unit _ W) // -(scalar_val oX sX).
  by eexists.
case: (mv_mulP oX oX) => Q -> [oQ vQ _]; rewrite /= (is_scalarP oQ) /=; case: eqP => [sQ|nQ].
  have -> : sinv (mv_scalar Q) = Some (mv_scalar Q)^-1.
    rewrite /sinv (@scal_unit _ (W * W)) // -(scalar_val oQ sQ) vQ.
    by rewrite -mulrA [mvv X * (W * W)]mulrA XW mul1r.
  by rewrite /=; case: (mv_scaleP (mv_scalar Q)^-1 oX) => Z ->; eexists.
case: (mv_revP true oX) => V -> [oV vV _] /=.
case: (mv_mulP oX oV) => P -> [oP vP _]; rewrite /= (is_scalarP oP) /=; case: eqP => [sP|nP].
  have VW : mvv V * (mrev W : C) = 1.
    rewrite vV -mrevM (cl_mulC1 XW).
    by rewrite mrev_bl cards0 /= expr0 scale1r.
  have -> : sinv (mv_scalar P) = Some (mv_scalar P)^-1.
    rewrite /sinv (@scal_unit _ ((mrev W : C) * W)) // -(scalar_val oP sP) vP.
    by rewrite -mulrA [mvv V * _]mulrA VW mul1r.
  by rewrite /=; case: (mv_scaleP (mv_scalar P)^-1 oV) => Z ->; eexists.
case: h => E; exfalso.
- by apply: nQ; rewrite vQ E scalM gpart_scal.
- by apply: nQ; rewrite vQ E gpart_scal.
- by apply: nP; rewrite vP vV E gpart_scal.
Qed.
Lemma mv_divP X Y Z : mv_ok a X -> mv_ok a Y -> mv_div a X Y = Some Z -> mv_ok a Z /\ mvv Z * mvv Y = mvv X.
Proof.
move=> oX oY; rewrite /mv_div; case E: (mv_inv a Y) => [I|] //= H.
have [oI [YI IY]] := mv_inv_sound oY E; case: (mv_mulP oX oI) => Z'; rewrite H => -[->] [oZ vZ _].
by rewrite vZ -mulrA IY mulr1.
Qed.
End Mv.
