(* Props_Recip.v -- property C25, continued: Ga.mvr. *)
From mathcomp Require Import all_ssreflect all_algebra.
From Coq Require Import String Ascii.
From Verif Require Import NatTac AlgTactics Exterior Clifford Blades Spec_Grade Grades GradeLaws.
From Verif Require Import Spec_Index PyBase Ga_Model Ga_Proof_Tables Ga_Proof_Sort Ga_Proof_Sem Ga_Proof_Reduce.
From Verif Require Import Ga_Sem Ga_Proof_Rep Ga_Proof_Conv Ga_Proof_Mul Spec_Clifford Clifford_Unique Spec_Mv Ga_Proof_Den Ga_Proof_Wedge Ga_Proof_Inner.
From Verif Require Import Ga_Proof_Grade Det Mv_Model Mv_Proof Mv_Expr Mv_Proof_Expr Props_Mv Dual_Model Dual_Proof Props_Dual Recip_Model.
Set Implicit Arguments.
Unset Strict Implicit.
Unset Printing Implicit Defensive.
Import GRing.Theory.
Local Open Scope ring_scope.
Open Scope py_scope.

Section Recip.
Variables (R : comUnitRingType) (two : (2%:R : R) \is a GRing.unit) (a : ga R).
Hypothesis wf : wf_ga a.
Notation n := (ga_n a).
Notation g := (ga_metric two a).
Notation mvv := (mvv two a).
Let cm : mval R n -> mval R n -> mval R n := cmul g.
Let Hc : is_clifford_product (fun i j : 'I_n => geff a i j) cm := clifford_product_exists g.
Let law p q : legal a p -> legal a q -> sem cm p = sem cm q -> run_eq a p q = Some true.
Proof. exact: (run_law two wf Hc). Qed.
Let VE X : mv_ok a X -> den cm (obj X) = mvv X. Proof. exact: den_ok. Qed.

(* the factor of the documentation: e_j . e^i is 1 for i = j when the caller
   asks for normalised vectors or the basis is orthogonal, and e^2 otherwise *)
Definition mvr_factor (norm : bool) : R := if norm || is_ortho a then 1 else e_squared a.

(* mvr gives n vectors with e_j . e^i = delta_ij, or e^2 delta_ij for an
   oblique basis when not normalised *)
Theorem C25_mvr gsym norm : \det (metric_mx a) \is a GRing.unit -> det_declared a gsym ->
  exists rs, [/\ ga_mvr gsym a norm = Some rs, size rs = n &
    forall i j, (i < n)%N -> (j < n)%N ->
      let ri := nth (mv_const a 0) rs i in
      [/\ mv_valid a ri, is_vec a ri &
       run_eq a (basis_mv R j ||. ri) (Num (if i == j then mvr_factor norm else 0)) = Some true]].
Proof.
move=> u dd; have [rs [E sz ur h]] := C25_reciprocal_basis two wf u.
case c: (norm && ~~ is_ortho a); last first.
  exists rs; rewrite /ga_mvr c; split=> // i j li lj; have [v w e] := h i j li lj; split=> //.
  suff -> : mvr_factor norm = r_factor a by [].
  by move: c; rewrite /mvr_factor /r_factor; case: norm => //=; case: (is_ortho a).
have [o [sq us]] : is_ortho a = false /\ ga_e_sq gsym a = Some (e_squared a) /\ e_squared a \is a GRing.unit.
  have o : is_ortho a = false by apply/negbTE; case/andP: c.
  by move: ur; rewrite /r_factor o => us; split; [|split; [exact: (ga_e_sqE two wf dd)|]].
pose d x := if mv_divc a x (e_squared a) is Some z then z else mv_const a 0.
have dP i : (i < n)%N -> let x := nth (mv_const a 0) rs i in
    [/\ mv_divc a x (e_squared a) = Some (d x), mv_ok a (d x) & mvv (d x) = (e_squared a)^-1 *: mvv x].
  move=> li x; have [v _ _] := h i i li li; rewrite /d /mv_divc /sinv us.
  rewrite mv_validE in v; have [z /= [Ez] [oz vz _]] := mv_scaleP two (e_squared a)^-1 v.
  by rewrite /mv_scale /= -/x Ez.
exists [seq d (nth (mv_const a 0) rs i) | i <- iota 0 n].
rewrite size_map size_iota /ga_mvr c E /= sq /=; split=> //.
  by apply: omapM_some => i; rewrite mem_iota /= add0n => li; case: (dP i li).
move=> i j li lj; rewrite (nth_map 0%N) ?size_iota // nth_iota // add0n /=.
have [v w e] := h i j li lj; have [_ oz vz] := dP i li; rewrite mv_validE in v.
set x := nth _ _ _ in v w e oz vz * .
have [ob vb _ _] := basis_ok two (Ordinal lj); rewrite /= in ob vb.
have bz : blade_expr n (obj (d x)).
  rewrite /d /mv_divc /sinv us; apply: blade_canon; rewrite /blade_expr words_escale; exact: vec_blade.
have hx : homog 1 (mvv x) by rewrite -VE //; apply: (vec_homog two (X := x)); rewrite ?mv_validE.
have hz : homog 1 (mvv (d x)) by rewrite vz; exact: homogZ.
split; [by rewrite mv_validE|exact: (homog_vec bz oz hz)|].
have hb : homog 1 (bl R [set Ordinal lj]) by have := @homog_bl R n [set Ordinal lj]; rewrite cards1.
apply: law; rewrite /legal ?mv_validE ?ob ?oz //.
move: e; rewrite (run_eqP two wf Hc) /legal ?mv_validE ?ob ?v // => -[/eqP].
have sE X : mv_ok a X -> sem cm (basis_mv R j ||. X) = selprod cm hestenes_grade (mvv (basis_mv R j)) (mvv X).
  by move=> oX; rewrite -!VE.
rewrite -[X in X = _ -> _]/(sem cm (basis_mv R j ||. x)) !sE // vb (vec_dot g hb hx) (vec_dot g hb hz) vz => e1.
have -> : gform g (bl R [set Ordinal lj]) ((e_squared a)^-1 *: mvv x) = (e_squared a)^-1 * gform g (bl R [set Ordinal lj]) (mvv x).
  rewrite /gform mulr_sumr; apply: eq_bigr => k _; rewrite mulr_sumr; apply: eq_bigr => l _.
  by rewrite [((_ *: _) : mval R n) _]ffunE mulrCA !mulrA.
rewrite -scalerA e1 /num /= /num scalerA /mvr_factor /r_factor o.
have -> : norm by case/andP: c.
by case: eqP => _; rewrite ?mulVr ?mulr0.
Qed.
End Recip.

(* g = [[1,3],[3,2]]: e^0 = (-2 e0 + 3 e1)/7, e^1 = (3 e0 - e1)/7, and with
   norm=False seven times that *)
Example C25_mvr_case : [/\ \det (metric_mx mv_ga) \is a GRing.unit, det_declared mv_ga None,
  omap (fun r => [seq perm_eq (obj xy.1) xy.2 | xy <- zip r
    [:: [:: (- (2%:R / 7%:R : rat), mk_blade [:: 0%N]); (3%:R / 7%:R, mk_blade [:: 1%N])];
        [:: (3%:R / 7%:R : rat, mk_blade [:: 0%N]); (- (1 / 7%:R), mk_blade [:: 1%N])]]]) (ga_mvr None mv_ga true) = Some [:: true; true] &
  omap (fun r => [seq perm_eq (obj xy.1) xy.2 | xy <- zip r
    [:: [:: (- (2%:R : rat), mk_blade [:: 0%N]); (3%:R, mk_blade [:: 1%N])];
        [:: (3%:R : rat, mk_blade [:: 0%N]); (-1, mk_blade [:: 1%N])]]]) (ga_mvr None mv_ga false) = Some [:: true; true]].
Proof.
split; [|by []|by vm_compute|by vm_compute].
rewrite (expand_det_row _ ord0) !big_ord_recl big_ord0 /cofactor !det_mx11 !mxE /geff /gij /=.
by vm_compute.
Qed.
Print Assumptions C25_mvr.
