(* Spec_Diff.v -- what is assumed of differentiation of scalars, and a concrete
   differential field: the rational functions in one variable over Q. *)
From mathcomp Require Import all_ssreflect all_algebra fraction.
From Verif Require Import AlgTactics.
Set Implicit Arguments.
Unset Strict Implicit.
Unset Printing Implicit Defensive.
Import GRing.Theory.
Local Open Scope ring_scope.

(* a derivation of a commutative ring *)
Definition derivation (R : comRingType) (d : R -> R) : Prop :=
  (forall x y, d (x + y) = d x + d y) /\ (forall x y, d (x * y) = d x * y + x * d y).
(* partial derivatives by the coordinates number 0, 1, ... *)
Definition partials (R : comRingType) (d : nat -> R -> R) : Prop :=
  (forall k, derivation (d k)) /\ (forall j k x, d j (d k x) = d k (d j x)).

Section Derivation.
Variables (R : comRingType) (d : R -> R).
Hypothesis der : derivation d.
Lemma drvD x y : d (x + y) = d x + d y. Proof. by case: der. Qed.
Lemma drvM x y : d (x * y) = d x * y + x * d y. Proof. by case: der. Qed.
Lemma drv0 : d 0 = 0.
Proof. by have := drvD 0 0; rewrite addr0 => /eqP; rewrite eq_sym -subr_eq0 addrK => /eqP. Qed.
Lemma drvN x : d (- x) = - d x.
Proof. by apply/eqP; rewrite -addr_eq0 -drvD addNr drv0. Qed.
Lemma drvB x y : d (x - y) = d x - d y. Proof. by rewrite drvD drvN. Qed.
Lemma drv1 : d 1 = 0.
Proof.
by have := drvM 1 1; rewrite !mulr1 mul1r => /eqP; rewrite eq_sym -subr_eq0 addrK => /eqP.
Qed.
Lemma drv_nat k : d k%:R = 0.
Proof. by elim: k => [|k IH]; rewrite ?drv0 // mulrS drvD drv1 add0r. Qed.
Lemma drv_sum (I : Type) (r : seq I) (P : pred I) F :
  d (\sum_(i <- r | P i) F i) = \sum_(i <- r | P i) d (F i).
Proof. by elim/big_rec2: _ => [|i x y _ <-]; [exact: drv0 | exact: drvD]. Qed.
Lemma drv_sgn k : d ((-1) ^+ k) = 0.
Proof. by rewrite -signr_odd; case: odd; rewrite ?expr1 ?expr0 ?drvN drv1 ?oppr0. Qed.
End Derivation.

Lemma drvV (R : comUnitRingType) (d : R -> R) x : derivation d -> x \is a GRing.unit ->
  d x^-1 = - (d x / x ^+ 2).
Proof.
move=> der u; have : d (x * x^-1) = 0 by rewrite divrr // drv1.
rewrite drvM // => /eqP; rewrite addrC addr_eq0 => /eqP e.
by apply: (mulrI u); rewrite e mulrN expr2 invrM // mulrCA mulVKr.
Qed.

Section Ratfun.
Variable F : fieldType.
Notation P := {poly F}.
Notation K := {fraction P}.
Notation inF := (@FracField.tofrac [idomainType of {poly F}]).
Definition numer (x : K) : P := \n_(repr x).
Definition denom (x : K) : P := \d_(repr x).
Lemma denom_neq0 x : denom x != 0. Proof. exact: denom_ratioP. Qed.
Lemma fracE (x : K) : x = inF (numer x) / inF (denom x).
Proof.
rewrite /numer /denom; set r := repr x; have d0 : inF \d_r != 0 by rewrite tofrac_eq0 denom_ratioP.
apply: (mulIf d0); rewrite mulfVK // -[x]reprK -/r.
rewrite -[_ * _]/(FracField.mul _ _) ![FracField.tofrac _]piE -(FracField.pi_mul r); apply/eqP.
rewrite (@eqquotE _ _ (FracField.frac_of_eqQuotType _)) FracField.equivfE /FracField.mulf.
by rewrite !numden_Ratio ?mulf_neq0 ?oner_eq0 ?denom_ratioP //= !mulr1 mulrC.
Qed.
(* (p/q)' = (p'q - pq')/q^2 *)
Definition fderiv (x : K) : K :=
  inF ((numer x)^`() * denom x - numer x * (denom x)^`()) / inF (denom x ^+ 2).
Lemma inF_neq0 q : q != 0 -> inF q != 0. Proof. by rewrite tofrac_eq0. Qed.
Lemma fderivE (x : K) (p q : P) : q != 0 -> x = inF p / inF q ->
  fderiv x = inF (p^`() * q - p * q^`()) / inF (q ^+ 2).
Proof.
move=> q0 e; have d0 := denom_neq0 x.
have cr : numer x * q = p * denom x.
  apply/eqP; rewrite -tofrac_eq !tofracM -eqr_div ?inF_neq0 //.
  by rewrite -fracE -e.
have := congr1 (fun r : P => r^`()) cr; rewrite !derivM => crd.
apply/eqP; rewrite /fderiv eqr_div ?inF_neq0 ?expf_neq0 // -!tofracM tofrac_eq; apply/eqP.
move: (numer x) (denom x) cr crd => n d cr crd.
rewrite [LHS](_ : _ = d * q * (n^`() * q + n * q^`()) - n * q * (d^`() * q) - d * (n * q) * q^`()); last by cring.
by rewrite crd cr; cring.
Qed.
Lemma fderiv_poly p : fderiv (inF p) = inF p^`().
Proof.
rewrite (@fderivE _ p 1) ?oner_neq0 ?tofrac1 ?divr1 //.
by rewrite derivC mulr0 subr0 mulr1 expr1n tofrac1 divr1.
Qed.
Lemma fderiv_derivation : derivation fderiv.
Proof.
split=> x y; rewrite [x]fracE [y]fracE; move: (numer x) (numer y) (denom x) (denom y) (denom_neq0 x) (denom_neq0 y).
  move=> p r q s q0 s0.
  rewrite (@fderivE (inF p / inF q) p q) // (@fderivE (inF r / inF s) r s) //.
  rewrite (@fderivE _ (p * s + r * q) (q * s)) ?mulf_neq0 //; last first.
    by rewrite addf_div ?inF_neq0 // -!tofracM -tofracD.
  rewrite addf_div ?inF_neq0 ?expf_neq0 // -!tofracM -tofracD.
  apply/eqP; rewrite eqr_div ?inF_neq0 ?mulf_neq0 ?expf_neq0 ?mulf_neq0 // -!tofracM tofrac_eq !derivE.
  by apply/eqP; rewrite !exprS !expr0; cring.
move=> p r q s q0 s0.
rewrite (@fderivE (inF p / inF q) p q) // (@fderivE (inF r / inF s) r s) //.
rewrite (@fderivE _ (p * r) (q * s)) ?mulf_neq0 //; last first.
  by rewrite mulf_div -!tofracM.
rewrite !mulf_div -!tofracM addf_div ?inF_neq0 ?mulf_neq0 ?expf_neq0 // -!tofracM -tofracD.
apply/eqP; rewrite eqr_div ?inF_neq0 ?mulf_neq0 ?expf_neq0 ?mulf_neq0 // -!tofracM tofrac_eq !derivE.
by apply/eqP; rewrite !exprS !expr0; cring.
Qed.
End Ratfun.

(* rational functions of the coordinate x_0 over Q; they do not depend on the
   other coordinates *)
Notation ratfun := {fraction {poly rat}}.
Definition rf_x : ratfun := FracField.tofrac 'X.
Definition rf_diff (k : nat) (f : ratfun) : ratfun := if k == 0%N then fderiv f else 0.
Lemma rf_partials : partials rf_diff.
Proof.
have d0 : fderiv (0 : ratfun) = 0 by exact: (drv0 (fderiv_derivation _)).
split=> [[|k]|[|j] [|k] x]; rewrite /rf_diff ?d0 //=; first exact: fderiv_derivation.
by split=> x y; rewrite ?mul0r ?mulr0 addr0.
Qed.
Lemma rf_diff_x : rf_diff 0 rf_x = 1.
Proof. by rewrite /rf_diff /= fderiv_poly derivX tofrac1. Qed.
Lemma rf_x_neq0 : rf_x != 0. Proof. by rewrite tofrac_eq0 polyX_eq0. Qed.
Lemma rf_x_unit : rf_x \is a GRing.unit. Proof. by rewrite unitfE rf_x_neq0. Qed.
