(* Cplx.v -- the complex numbers over Coq's real numbers, with square root, cosine,
   sine and their hyperbolic forms, satisfy the laws of Spec_Exp.v.  This is the
   concrete case for the theorems of Props_Exp.v; it is the only file that uses
   the axioms of Coq's real numbers and of Coq.Logic.ClassicalEpsilon. *)
From Coq Require Import Reals Lra ClassicalEpsilon FunctionalExtensionality.
From mathcomp Require Import all_ssreflect all_algebra.
From Verif Require Import Exp_Model Spec_Exp.
Set Implicit Arguments.
Unset Strict Implicit.
Unset Printing Implicit Defensive.

(* ---- the real numbers as a type with decidable equality and choice ---- *)
Definition R_eqb (x y : R) : bool := if Req_EM_T x y then true else false.
Lemma R_eqP : Equality.axiom R_eqb.
Proof. by move=> x y; rewrite /R_eqb; case: Req_EM_T => h; constructor. Qed.
Canonical R_eqType := EqType R (EqMixin R_eqP).
Definition R_find (P : pred R) (n : nat) : option R :=
  if excluded_middle_informative (exists x, P x) is left h
  then Some (proj1_sig (constructive_indefinite_description _ h)) else None.
Lemma R_find_correct P n x : R_find P n = Some x -> P x.
Proof.
rewrite /R_find; case: excluded_middle_informative => // h [<-].
exact: proj2_sig (constructive_indefinite_description _ h).
Qed.
Lemma R_find_complete (P : pred R) : (exists x, P x) -> exists n, R_find P n.
Proof. by move=> h; exists 0%N; rewrite /R_find; case: excluded_middle_informative. Qed.
Lemma R_find_ext (P Q : pred R) : P =1 Q -> R_find P =1 R_find Q.
Proof. by move=> e n; have -> : P = Q by apply: functional_extensionality. Qed.
Canonical R_choiceType := ChoiceType R (Choice.Mixin R_find_correct R_find_complete R_find_ext).

(* ---- the complex numbers ---- *)
Definition cplx := (R * R)%type.
Canonical cplx_eqType := [eqType of cplx].
Canonical cplx_choiceType := [choiceType of cplx].
Local Open Scope R_scope.
Definition cadd (u v : cplx) : cplx := (u.1 + v.1, u.2 + v.2).
Definition copp (u : cplx) : cplx := (- u.1, - u.2).
Definition cmul_ (u v : cplx) : cplx := (u.1 * v.1 - u.2 * v.2, u.1 * v.2 + u.2 * v.1).
Definition c0 : cplx := (0, 0).
Definition c1 : cplx := (1, 0).
Definition cI : cplx := (0, 1).
Definition cinv (u : cplx) : cplx := (u.1 / (u.1 * u.1 + u.2 * u.2), - u.2 / (u.1 * u.1 + u.2 * u.2)).
Lemma cplx_eq (u v : cplx) : u.1 = v.1 -> u.2 = v.2 -> u = v.
Proof. by case: u v => x y [x' y'] /= -> ->. Qed.
Lemma caddA : associative cadd. Proof. by move=> u v w; apply: cplx_eq => /=; ring. Qed.
Lemma caddC : commutative cadd. Proof. by move=> u v; apply: cplx_eq => /=; ring. Qed.
Lemma cadd0 : left_id c0 cadd. Proof. by move=> u; apply: cplx_eq => /=; ring. Qed.
Lemma caddN : left_inverse c0 copp cadd. Proof. by move=> u; apply: cplx_eq => /=; ring. Qed.
Lemma cmulA : associative cmul_. Proof. by move=> u v w; apply: cplx_eq => /=; ring. Qed.
Lemma cmulC : commutative cmul_. Proof. by move=> u v; apply: cplx_eq => /=; ring. Qed.
Lemma cmul1 : left_id c1 cmul_. Proof. by move=> u; apply: cplx_eq => /=; ring. Qed.
Lemma cmulD : left_distributive cmul_ cadd. Proof. by move=> u v w; apply: cplx_eq => /=; ring. Qed.
Lemma c1_neq0 : c1 != c0. Proof. by apply/eqP => -[]; lra. Qed.
Lemma norm_neq0 (u : cplx) : u <> c0 -> u.1 * u.1 + u.2 * u.2 <> 0.
Proof.
case: u => x y h /= e; apply: h.
have hx : 0 <= x * x by apply: Rle_0_sqr.
have hy : 0 <= y * y by apply: Rle_0_sqr.
have x0 : x = 0 by apply: Rsqr_0_uniq; rewrite /Rsqr; lra.
have y0 : y = 0 by apply: Rsqr_0_uniq; rewrite /Rsqr; lra.
by rewrite x0 y0.
Qed.
Lemma cmulV (u : cplx) : u != c0 -> cmul_ (cinv u) u = c1.
Proof. by move/eqP => /norm_neq0 h; apply: cplx_eq => /=; field. Qed.
Lemma cinv0 : cinv c0 = c0.
Proof. by apply: cplx_eq; rewrite /= /Rdiv ?Ropp_0 Rmult_0_l. Qed.
Canonical cplx_zmodType := ZmodType cplx (ZmodMixin caddA caddC cadd0 caddN).
Canonical cplx_ringType := RingType cplx (ComRingMixin cmulA cmulC cmul1 cmulD c1_neq0).
Canonical cplx_comRingType := ComRingType cplx cmulC.
Definition cplx_unitMixin := @FieldUnitMixin cplx_comRingType cinv cmulV cinv0.
Canonical cplx_unitRingType := UnitRingType cplx cplx_unitMixin.
Canonical cplx_comUnitRingType := [comUnitRingType of cplx].
Lemma cplx_fieldMixin : GRing.Field.mixin_of cplx_unitRingType. Proof. by []. Qed.
Canonical cplx_idomainType := IdomainType cplx (FieldIdomainMixin cplx_fieldMixin).
Canonical cplx_fieldType := FieldType cplx cplx_fieldMixin.

(* ---- the functions ---- *)
Definition csqrt (u : cplx) : cplx :=
  let m := sqrt (u.1 * u.1 + u.2 * u.2) in
  (sqrt ((m + u.1) / 2), (if Rlt_dec u.2 0 then -1 else 1) * sqrt ((m - u.1) / 2)).
Definition ccos (u : cplx) : cplx := (cos u.1 * cosh u.2, - (sin u.1 * sinh u.2)).
Definition csin (u : cplx) : cplx := (sin u.1 * cosh u.2, cos u.1 * sinh u.2).
Definition ccosh (u : cplx) : cplx := (cosh u.1 * cos u.2, sinh u.1 * sin u.2).
Definition csinh (u : cplx) : cplx := (sinh u.1 * cos u.2, cosh u.1 * sin u.2).

Lemma csqrtP u : cmul_ (csqrt u) (csqrt u) = u.
Proof.
case: u => x y; rewrite /csqrt /cmul_ /=; set m := sqrt (x * x + y * y).
have n0 : 0 <= x * x + y * y by have := Rle_0_sqr x; have := Rle_0_sqr y; rewrite /Rsqr; lra.
have m2 : m * m = x * x + y * y by exact: (sqrt_sqrt _ n0).
have m0 : 0 <= m by exact: sqrt_pos.
have mx : 0 <= m + x /\ 0 <= m - x.
  have : Rabs x <= m.
    rewrite -(sqrt_Rsqr_abs x); apply: sqrt_le_1; rewrite /Rsqr //; have := Rle_0_sqr y; have := Rle_0_sqr x; rewrite /Rsqr; lra.
  by rewrite /Rabs; case: Rcase_abs; lra.
have p1 : 0 <= (m + x) / 2 by lra.
have p2 : 0 <= (m - x) / 2 by lra.
have s1 := sqrt_sqrt _ p1; have s2 := sqrt_sqrt _ p2.
have s12 : sqrt ((m + x) / 2) * sqrt ((m - x) / 2) = Rabs y / 2.
  rewrite -sqrt_mult //.
  have -> : (m + x) / 2 * ((m - x) / 2) = Rsqr (y / 2).
    have -> : (m + x) / 2 * ((m - x) / 2) = (m * m - x * x) / 4 by field.
    have -> : Rsqr (y / 2) = y * y / 4 by rewrite /Rsqr; field.
    by rewrite m2; field.
  by rewrite sqrt_Rsqr_abs /Rdiv Rabs_mult [Rabs (/ 2)]Rabs_pos_eq; lra.
case: Rlt_dec => y0; apply: cplx_eq => /=.
- by ring_simplify; nra.
- by move: s12; rewrite /Rabs; case: Rcase_abs; nra.
- by ring_simplify; nra.
- by move: s12; rewrite /Rabs; case: Rcase_abs; nra.
Qed.
Lemma cosh_plus x y : cosh (x + y) = cosh x * cosh y + sinh x * sinh y.
Proof. by rewrite /cosh /sinh Ropp_plus_distr !exp_plus; field. Qed.
Lemma sinh_plus x y : sinh (x + y) = sinh x * cosh y + cosh x * sinh y.
Proof. by rewrite /cosh /sinh Ropp_plus_distr !exp_plus; field. Qed.
Lemma cosh_opp x : cosh (- x) = cosh x. Proof. by rewrite /cosh Ropp_involutive; field. Qed.
Lemma sinh_opp x : sinh (- x) = - sinh x. Proof. by rewrite /sinh Ropp_involutive; field. Qed.

Definition complex_functions (num pos : cplx -> bool) : elementary cplx_comUnitRingType :=
  @Elementary cplx_comUnitRingType csqrt ccos csin ccosh csinh num pos.
Theorem complex_laws num pos : elementary_laws (complex_functions num pos) cI.
Proof.
split.
- by apply: cplx_eq => /=; ring.
- exact: csqrtP.
- by apply: cplx_eq => /=; rewrite ?cos_0 ?sin_0 ?cosh_0 ?sinh_0; ring.
- by apply: cplx_eq => /=; rewrite ?cos_0 ?sin_0 ?cosh_0 ?sinh_0; ring.
- by move=> u; apply: cplx_eq => /=; rewrite ?cos_neg ?sin_neg ?cosh_opp ?sinh_opp; ring.
- by move=> u; apply: cplx_eq => /=; rewrite ?cos_neg ?sin_neg ?cosh_opp ?sinh_opp; ring.
- by move=> u v; apply: cplx_eq => /=; rewrite ?cos_plus ?sin_plus ?cosh_plus ?sinh_plus; ring.
- by move=> u v; apply: cplx_eq => /=; rewrite ?cos_plus ?sin_plus ?cosh_plus ?sinh_plus; ring.
- move=> u; apply: cplx_eq => /=; rewrite !Rmult_0_l !Rmult_1_l !Rminus_0_l !Rplus_0_l ?cos_neg ?sin_neg; ring.
- move=> u; apply: cplx_eq => /=; rewrite !Rmult_0_l !Rmult_1_l !Rminus_0_l !Rplus_0_l ?cos_neg ?sin_neg; ring.
Qed.
Lemma cplx_two : ((2%:R)%R : cplx_comUnitRingType) \is a GRing.unit.
Proof. by rewrite GRing.unitfE; apply/eqP => -[]; rewrite /=; lra. Qed.
