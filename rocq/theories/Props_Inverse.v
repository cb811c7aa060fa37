(* Props_Inverse.v -- property C20: hitzer_inverse() and shirokov_inverse().

   [mv_hitzer a X] and [mv_shirokov quot a X] model X.hitzer_inverse() and
   X.shirokov_inverse(); None is an exception.  [quot N k] is the value of the Python
   quotient N / k of two integers.  [rational_ring R]: every positive integer is
   invertible in the ring of scalars.  The notation is that of Props_Mv.v. *)
From mathcomp Require Import all_ssreflect all_algebra.
From Verif Require Import NatTac AlgTactics Exterior Clifford Blades Spec_Grade Grades GradeLaws.
From Verif Require Import Spec_Index PyBase Ga_Model Ga_Proof_Tables Ga_Proof_Sort Ga_Proof_Sem Ga_Proof_Reduce.
From Verif Require Import Ga_Sem Ga_Proof_Rep Ga_Proof_Conv Ga_Proof_Mul Spec_Clifford Clifford_Unique Spec_Mv Ga_Proof_Den Ga_Proof_Wedge Ga_Proof_Inner.
From Verif Require Import Ga_Proof_Grade Mv_Model Mv_Proof Mv_Expr Mv_Proof_Expr Props_Mv.
From Verif Require Import Transfer Shirokov Hitzer Inverse_Model Inverse_Proof.
Set Implicit Arguments.
Unset Strict Implicit.
Unset Printing Implicit Defensive.
Import GRing.Theory.
Local Open Scope ring_scope.
Open Scope py_scope.

(* the quotients which shirokov_inverse uses in dimension n are exact *)
Definition exact_quot (R : comUnitRingType) (quot : nat -> nat -> R) (n : nat) : Prop :=
  forall k, (0 < k < 2 ^ ((n + 1) %/ 2))%N -> quot (2 ^ ((n + 1) %/ 2))%N k = (2 ^ ((n + 1) %/ 2))%:R / k%:R.

Lemma rational_two (R : comUnitRingType) : rational_ring R -> (2%:R : R) \is a GRing.unit.
Proof. by move=> q; exact: (q 1%N). Qed.
Lemma exact_quotE (R : comUnitRingType) quot n : @exact_quot R quot n ->
  forall k, (0 < k < shN n)%N -> quot (shN n) k = (shN n)%:R / k%:R.
Proof. by rewrite -shirokov_NE. Qed.

Section Laws.
Variables (R : comUnitRingType) (qa : rational_ring R) (a : ga R).
Hypothesis wf : wf_ga a.
Notation n := (ga_n a).
Implicit Types (X Y Z : mv R).
Let two := rational_two qa.
Let cm : mval R n -> mval R n -> mval R n := cmul (ga_metric two a).
Let Hc : is_clifford_product (fun i j : 'I_n => geff a i j) cm := clifford_product_exists (ga_metric two a).
Let law p q : legal a p -> legal a q -> sem cm p = sem cm q -> run_eq a p q = Some true.
Proof. exact: (run_law two wf Hc). Qed.

Lemma inverse_run X Y : mv_ok a X -> mv_ok a Y /\ inverse two a X Y ->
  [/\ mv_valid a Y, run_eq a (X *. Y) (Num 1) = Some true & run_eq a (Y *. X) (Num 1) = Some true].
Proof.
move=> oX [oY [XY YX]]; split; first by rewrite mv_validE.
  apply: law; rewrite /= ?mv_validE ?oX ?oY //= !(den_ok two Hc) // /num scale1r; exact: XY.
apply: law; rewrite /= ?mv_validE ?oX ?oY //= !(den_ok two Hc) // /num scale1r; exact: YX.
Qed.

(* what hitzer_inverse returns is a two-sided inverse *)
Theorem C20_hitzer X Y : mv_valid a X -> blade_form a X -> mv_hitzer a X = Some Y ->
  [/\ mv_valid a Y, run_eq a (X *. Y) (Num 1) = Some true & run_eq a (Y *. X) (Num 1) = Some true].
Proof.
by rewrite mv_validE => oX bX E; apply: inverse_run => //; exact: hitzer_sound E.
Qed.
(* above dimension 5 it raises *)
Theorem C20_hitzer_dimension X : (5 < n)%N -> mv_hitzer a X = None.
Proof. by rewrite /mv_hitzer /hitzer_num; case: n => [|[|[|[|[|[|]]]]]]. Qed.
(* what shirokov_inverse returns is a two-sided inverse, when the quotients N / k are exact.
   Missing: Python's N / k is a double, which is not exact from dimension 3 on *)
Theorem C20_shirokov_partial quot X Y : exact_quot quot n ->
  mv_valid a X -> blade_form a X -> mv_shirokov quot a X = Some Y ->
  [/\ mv_valid a Y, run_eq a (X *. Y) (Num 1) = Some true & run_eq a (Y *. X) (Num 1) = Some true].
Proof.
rewrite mv_validE => /exact_quotE q oX bX E; apply: inverse_run => //; exact: shirokov_sound E.
Qed.
(* in dimensions 1 and 2 the only quotient used is 2 / 1, which is exact in Python *)
Theorem C20_shirokov_low_dimension (quot : nat -> nat -> R) X Y : (n <= 2)%N -> quot 2%N 1%N = 2%:R ->
  mv_valid a X -> blade_form a X -> mv_shirokov quot a X = Some Y ->
  [/\ mv_valid a Y, run_eq a (X *. Y) (Num 1) = Some true & run_eq a (Y *. X) (Num 1) = Some true].
Proof.
move=> n2 q; apply: C20_shirokov_partial => k.
by case: n n2 => [|[|[|]]] // _; case: k => [|[|]] //; rewrite divr1.
Qed.
End Laws.
Print Assumptions C20_hitzer.
Print Assumptions C20_hitzer_dimension.
Print Assumptions C20_shirokov_partial.
Print Assumptions C20_shirokov_low_dimension.

Section Field.
Variables (F : fieldType) (char0 : [char F] =i pred0) (a : ga F).
Hypothesis wf : wf_ga a.
Notation n := (ga_n a).
Implicit Types (X Y Z : mv F).
Let qa : rational_ring F. Proof. by move=> k; rewrite unitfE; move: (charf0P F); case=> h _; rewrite h. Qed.
Let two := rational_two qa.
Let cm : mval F n -> mval F n -> mval F n := cmul (ga_metric two a).
Let Hc : is_clifford_product (fun i j : 'I_n => geff a i j) cm := clifford_product_exists (ga_metric two a).

(* over a field they fail on no invertible multivector *)
Theorem C20_hitzer_succeeds X Z : (n <= 5)%N -> mv_valid a X -> mv_valid a Z -> blade_form a X ->
  run_eq a (X *. Z) (Num 1) = Some true -> exists Y, mv_hitzer a X = Some Y.
Proof.
move=> n5 hX hZ bX; have [oX oZ] : mv_ok a X /\ mv_ok a Z by rewrite -!mv_validE.
rewrite (run_eqP two wf Hc) /= ?hX ?hZ //= !(den_ok two Hc) // /num scale1r => -[/eqP XZ].
exact: hitzer_complete XZ.
Qed.
Theorem C20_shirokov_succeeds_partial quot X Z : (0 < n)%N -> exact_quot quot n ->
  mv_valid a X -> mv_valid a Z -> blade_form a X ->
  run_eq a (X *. Z) (Num 1) = Some true -> exists Y, mv_shirokov quot a X = Some Y.
Proof.
move=> n0 /exact_quotE q hX hZ bX; have [oX oZ] : mv_ok a X /\ mv_ok a Z by rewrite -!mv_validE.
rewrite (run_eqP two wf Hc) /= ?hX ?hZ //= !(den_ok two Hc) // /num scale1r => -[/eqP XZ].
exact: shirokov_complete XZ.
Qed.
End Field.
Print Assumptions C20_hitzer_succeeds.
Print Assumptions C20_shirokov_succeeds_partial.

(* ---- the theorems are about something ---- *)
Notation Q := rat_comUnitRing.
Lemma rat_rational : rational_ring Q.
Proof. by move=> k; rewrite unitfE Num.Theory.pnatr_eq0. Qed.
Definition rat_quot (N k : nat) : Q := (N%:R / k%:R : rat).
Lemma rat_quot_exact n : exact_quot rat_quot n. Proof. by move=> k _; rewrite /rat_quot. Qed.
(* Euclidean space of dimension n; X = 2 + e0 *)
Definition inv_ga n : ga Q := @Ga Q n [seq [seq (i == j)%:R | j <- iota 0 n] | i <- iota 0 n].
Definition inv_X : mv Q := Mv [:: (2%:R : rat, [::]); (1 : rat, mk_blade [:: 0%N])] true.
Example C20_hyps : [&& wf_ga (inv_ga 3), wf_ga (inv_ga 4), mv_valid (inv_ga 3) inv_X & blade_form (inv_ga 3) inv_X].
Proof. by vm_compute. Qed.
Definition one_check (a : ga Q) (X : mv Q) (o : option (mv Q)) : bool :=
  if o is Some Y then run_eq a (X *. Y) (Num 1) == Some true else false.
(* e0 + 3 e0^e1 in the oblique plane, 2 + e0 in Euclidean space *)
Example C20_ex_hitzer : one_check mv_ga mv_X (mv_hitzer mv_ga mv_X) && one_check (inv_ga 3) inv_X (mv_hitzer (inv_ga 3) inv_X).
Proof. by vm_compute. Qed.
Example C20_ex_shirokov : one_check mv_ga mv_X (mv_shirokov rat_quot mv_ga mv_X) &&
  one_check (inv_ga 3) inv_X (mv_shirokov rat_quot (inv_ga 3) inv_X).
Proof. by vm_compute. Qed.

(* the formulas of dimensions 4 and 5 *)
Example C20_ex_hitzer45 : one_check (inv_ga 4) inv_X (mv_hitzer (inv_ga 4) inv_X) && one_check (inv_ga 5) inv_X (mv_hitzer (inv_ga 5) inv_X).
Proof. by vm_compute. Qed.
Lemma opt_ex T (o : option T) (P : T -> bool) : (if o is Some Y then P Y else false) -> exists2 Y, o = Some Y & P Y.
Proof. by case: o => // Y h; exists Y. Qed.
(* ---- findings ---- *)
(* in the algebra of dimension 0 shirokov_inverse raises on every scalar: the loop
   is not entered and adjU is unbound *)
Theorem C20_shirokov_dim0_refuted : exists (a : ga Q) X,
  [/\ wf_ga a, mv_valid a X, run_eq a (X *. X) (Num 1) = Some true & forall quot, mv_shirokov quot a X = None].
Proof.
exists (@Ga Q 0 [::]), (Mv [:: (1 : rat, [::])] true); split; first by vm_compute.
- by vm_compute.
- by apply/eqP; vm_compute.
by move=> q; move: (Mv _ _) => X; rewrite /mv_shirokov /=; case: eqP.
Qed.
(* the inverse 3 - (1/2) e0*e1 of e0*e1 in the oblique plane *)
Definition inv_B : mv Q := Mv [:: (3%:R : rat, [::]); (- (2%:R)^-1 : rat, mk_base [:: 0; 1]%N)] false.
Lemma inv_B_inverse : mv_valid mv_ga inv_B && (run_eq mv_ga (mv_B *. inv_B) (Num 1) == Some true).
Proof. by vm_compute. Qed.
Lemma inv_B_bad : exists2 Y, mv_shirokov rat_quot mv_ga mv_B = Some Y & run_eq mv_ga (mv_B *. Y) (Num 1) == Some false.
Proof. by refine (opt_ex (P := fun Y : mv Q => run_eq mv_ga (mv_B *. Y) (Num 1) == Some false) _); vm_compute. Qed.
(* given e0*e1 in base representation, shirokov_inverse reads the wrong scalar part and
   returns a multivector which is not the inverse *)
Theorem C20_shirokov_base_rep_refuted : exists (a : ga Q) X Y Z,
  [/\ wf_ga a, mv_valid a X /\ mv_valid a Z, run_eq a (X *. Z) (Num 1) = Some true,
      mv_shirokov rat_quot a X = Some Y & run_eq a (X *. Y) (Num 1) = Some false].
Proof.
have [Y E /eqP h1] := inv_B_bad; have /andP[vZ /eqP h2] := inv_B_inverse.
exists mv_ga, mv_B, Y, inv_B; split; [by vm_compute|split; [by vm_compute|exact: vZ]|exact: h2|exact: E|exact: h1].
Qed.

(* a fraction whose denominator is a power of two is not 4/3 *)
Lemma dyadic_third (m : int) (e : nat) : (m%:~R / 2%:R ^+ e : rat) != 4%:R / 3%:R.
Proof.
have t0 : (2%:R ^+ e : rat) != 0 by rewrite expf_neq0.
apply/eqP => /(congr1 (fun z => z * 2%:R ^+ e * 3%:R)).
rewrite divfK // mulrAC divfK // => /eqP.
rewrite -natrX -natrM -[3%:R]/(3%:Z%:~R) -intrM -[(_ * _)%:R]/((4 * 2 ^ e)%N%:Z%:~R) eqr_int => /eqP/(congr1 absz).
rewrite abszM !absz_nat => h; have : (3 %| 4 * 2 ^ e)%N by rewrite -h dvdn_mull.
by rewrite -[4%N]/(2 ^ 2)%N -expnD Euclid_dvdX.
Qed.
Lemma quot_gap (R : comUnitRingType) (V : lmodType R) (x one : V) (d q r s t : R) :
  d *: ((q * s) *: x - (t *: one + (r * s) *: x)) = one -> (d * ((q - r) * s)) *: x = (1 + d * t) *: one.
Proof. by move=> h; rewrite scalerDl scale1r -{1}h; lmod R. Qed.
Definition inv_E : mv Q := Mv [:: (1 : rat, mk_blade [:: 1%N])] true.
Lemma inv_X_hitzer : exists2 Z, mv_hitzer (inv_ga 3) inv_X = Some Z &
    mv_valid (inv_ga 3) Z && (run_eq (inv_ga 3) (inv_X *. Z) (Num 1) == Some true).
Proof.
by refine (opt_ex (P := fun Z : mv Q => mv_valid (inv_ga 3) Z && (run_eq (inv_ga 3) (inv_X *. Z) (Num 1) == Some true)) _); vm_compute.
Qed.
Lemma inv_X_scalar : if shirokov_step rat_quot (inv_ga 3) inv_X 1 inv_X is Some r then
    if shirokov_step rat_quot (inv_ga 3) inv_X 2 r.2 is Some r' then mv_scalar r'.2 != 0 else false
  else false.
Proof. by vm_compute. Qed.
Lemma inv_X_E : run_eq (inv_ga 3) (inv_X *. inv_E) (inv_E *. inv_X) = Some false.
Proof. by apply/eqP; vm_compute. Qed.
Lemma inv_X_hyps : [/\ wf_ga (inv_ga 3), mv_valid (inv_ga 3) inv_X, mv_valid (inv_ga 3) inv_E & blade_form (inv_ga 3) inv_X].
Proof. by split; vm_compute. Qed.
(* from dimension 3 on, the quotient 4 / 3 is rounded to a double, a fraction whose
   denominator is a power of two.  With such a value, and every other number exact,
   shirokov_inverse does not return the inverse of 2 + e0 *)
Theorem C20_shirokov_double_refuted (quot : nat -> nat -> Q) (m : int) (e : nat) :
  quot 4%N 1%N = 4%:R -> quot 4%N 2%N = 2%:R -> quot 4%N 3%N = (m%:~R / 2%:R ^+ e : rat) ->
  exists (a : ga Q) X Z, [/\ wf_ga a, mv_valid a X /\ mv_valid a Z, blade_form a X, run_eq a (X *. Z) (Num 1) = Some true &
    ~ exists2 Y, mv_shirokov quot a X = Some Y & run_eq a (X *. Y) (Num 1) = Some true].
Proof.
move=> q1 q2 q3.
have [Z _ /andP[vZ /eqP XZ]] := inv_X_hitzer; have h2 := inv_X_scalar; have h3 := inv_X_E; have [wf vX vE bX] := inv_X_hyps.
exists (inv_ga 3), inv_X, Z; split; [exact: wf|by split|exact: bX|exact: XZ|]; case=> Y.
have e1 U : shirokov_step quot (inv_ga 3) inv_X 1 U = shirokov_step rat_quot (inv_ga 3) inv_X 1 U.
  by rewrite /shirokov_step [shirokov_N _]/= q1 /rat_quot divr1.
have e2 U : shirokov_step quot (inv_ga 3) inv_X 2 U = shirokov_step rat_quot (inv_ga 3) inv_X 2 U.
  by rewrite /shirokov_step [shirokov_N _]/= q2.
have a3 : ga_n (inv_ga 3) = 3%N by [].
move: q3 (dyadic_third m e); set q := (_ / _ : rat) => q3 qn; move: q qn q3 => q qn q3.
move: (inv_ga 3) a3 wf inv_X vX bX vZ XZ inv_E vE h2 h3 e1 e2 => a a3 wf X vX bX vZ XZ E vE h2 h3 e1 e2.
have oX : mv_ok a X by rewrite -mv_validE.
have oE : mv_ok a E by rewrite -mv_validE.
have qa := rat_rational; have two := rational_two qa.
have Hc := clifford_product_exists (ga_metric two a).
rewrite /mv_shirokov a3 -[(shirokov_N 3 - 1)%N]/3%N /shirokov_loop e1.
have N4 : shN (ga_n a) = 4%N by rewrite a3.
have [|A1 [V1 [E1 oA1 oV1 bV1 [vV1 _]]]] := @shirokov_stepP _ two a wf rat_quot X 1 X oX oX bX; first by [].
have [|A2 [V2 [E2 oA2 oV2 bV2 [vV2 _]]]] := @shirokov_stepP _ two a wf rat_quot X 2 V1 oX oV1 bV1; first by [].
rewrite E1 /= e2 E2; move: h2; rewrite E1 /= E2 /= => s0.
have [A3 [V3 [-> oA3 oV3 vA3]]] /= := shirokov_stepG two wf quot 3 oX oV2 bV2.
case: ifP => // _; rewrite /mv_divc; case Ed: sinv => [d|] //= EY XY.
have [W EW [oW vW _]] := mv_scaleP two d oA3; move: EY; rewrite EW => /Some_inj EY; subst W.
set x : clifford (ga_metric two a) := mvv two a X.
set s : rat := (mvv two a V2 : mval Q (ga_n a)) set0.
have s1 : s != 0 by rewrite /s -(mv_scalarP two oV2 bV2).
have d0 : d != 0 by have := sinvP Ed; case: eqP => // -> /eqP; rewrite mulr0 eq_sym oner_eq0.
have xY : x * mvv two a Y = 1.
  move: XY; rewrite (run_eqP two wf Hc) /= ?vX ?mv_validE //= !(den_ok two Hc) // /num scale1r => -[/eqP h]; exact: h.
have [t xt] : exists t : rat, x * ((mvv two a V2 : clifford _) - (4%:R / 3%:R * s)%:A) = t%:A.
  eexists; have := sh_scalar x qa.
  rewrite N4 /= -vV1 -vV2 /shc N4 -/s => h; exact: h.
have k0 : d * ((q - 4%:R / 3%:R) * s) != 0 by rewrite !mulf_neq0 // subr_eq0.
have xs : x = ((d * ((q - 4%:R / 3%:R) * s))^-1 * (1 + d * t))%:A.
  have := xY; rewrite vW vA3 -/s N4 q3 => h.
  have e3 : (mvv two a V2 : clifford (ga_metric two a)) = ((mvv two a V2 : clifford _) - (4%:R / 3%:R * s)%:A) + (4%:R / 3%:R * s)%:A.
    by rewrite subrK.
  move: h; rewrite e3 -scalerAr mulrBr mulrDr xt -!scalerAr !mulr1 => h.
  have {}h : (d * ((q - 4%:R / 3%:R) * s)) *: x = (1 + d * t)%:A.
    exact: (quot_gap h).
  by rewrite -scalerA -h scalerA mulVf // scale1r.
move: h3; rewrite (run_eqP two wf Hc) /= ?vX ?vE // !(den_ok two Hc) // => -[/negP]; apply; apply/eqP.
rewrite -[LHS]/(x * mvv two a E) -[RHS]/((mvv two a E : clifford _) * x) xs -scalerAl -scalerAr mul1r mulr1 //.
Qed.
Print Assumptions C20_shirokov_dim0_refuted.
Print Assumptions C20_shirokov_base_rep_refuted.
Print Assumptions C20_shirokov_double_refuted.
