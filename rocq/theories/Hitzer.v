(* Hitzer.v -- the closed formulas of Hitzer and Sangwine for the inverse of a multivector
   in dimensions up to five: the product of a multivector and the numerator is a scalar. *)
From mathcomp Require Import all_ssreflect all_algebra all_field.
From Verif Require Import NatTac AlgTactics Exterior Clifford Blades Spec_Grade Grades GradeLaws.
From Verif Require Import ContrLaws Det BladeLaws Transfer Shirokov.
Set Implicit Arguments.
Unset Strict Implicit.
Unset Printing Implicit Defensive.
Import GRing.Theory.
Local Open Scope ring_scope.

(* the numerators *)
Section Num.
Variables (R : comUnitRingType) (n : nat) (g : cmetric R n).
Notation C := (clifford g).
Definition con (U : C) : C := mrev (minvol U).
Definition two_of (x : C) : C := 2%:R *: x.
Definition hnum (U : C) : C :=
  let d := U * con U in
  match n with
  | 0 => 1
  | 1 => minvol U
  | 2 => con U
  | 3 => con U * (mrev d : C)
  | 4 => con U * (d - two_of (gpart 3 d) - two_of (gpart 4 d))
  | _ => let X := U * (con U * (mrev d : C)) in
         con U * (mrev d : C) * (X - two_of (gpart 1 X) - two_of (gpart 4 X))
  end.
End Num.

Section HNat.
Variables (R S : comUnitRingType) (f : {rmorphism R -> S}) (n : nat).
Variables (g : cmetric R n) (h : cmetric S n).
Hypothesis gh : forall i j, h i j = f (g i j).
Lemma mapv_con (U : clifford g) : mapv f (con U) = con (mapv f U : clifford h).
Proof. by rewrite /con mapv_mrev mapv_minvol. Qed.
Lemma mapv_two (U : clifford g) : mapv f (two_of U) = two_of (mapv f U : clifford h).
Proof. by rewrite /two_of mapvZ rmorph_nat. Qed.
Lemma mapv_hnum (U : clifford g) : mapv f (hnum U) = hnum (mapv f U : clifford h).
Proof.
have m := mapv_mul gh; rewrite /hnum.
case: (n) g h U m => [|[|[|[|[|k]]]]] g' h' U m.
- exact: mapv1.
- exact: mapv_minvol.
- by rewrite mapv_mrev mapv_minvol.
- by rewrite m mapv_mrev m mapv_mrev mapv_minvol.
- by rewrite m !mapvB !mapvZ !rmorph_nat !mapv_gpart m !mapv_mrev mapv_minvol.
- by rewrite m mapvB mapvB !mapvZ !rmorph_nat !mapv_gpart !m !mapv_mrev m !mapv_mrev mapv_minvol.
Qed.
End HNat.

Section Kit.
Variables (R : comUnitRingType) (n : nat) (g : cmetric R n).
Notation C := (clifford g).
Notation M := (mval R n).
Implicit Types (x y u v : C) (S : {set 'I_n}).
Notation I := (ps R n : C).

Lemma half0 (c : R) : c = - c -> c = 0.
Proof.
move/eqP; rewrite -addr_eq0 -mulr2n -mulr_natl => /eqP e.
by apply: (mulrI (two_unit g)); rewrite e mulr0.
Qed.
Lemma oppM_coef (x : M) S : (- x) S = - x S. Proof. by rewrite ffunE. Qed.
Lemma rev_vanish x S : mrev x = x -> odd (#|S| * (#|S| - 1))./2 -> x S = 0.
Proof. by move=> e o; apply: half0; rewrite -{1}e ffunE -signr_odd o expr1 mulN1r. Qed.
Lemma con_vanish x S : con x = x -> odd (#|S| + (#|S| * (#|S| - 1))./2) -> x S = 0.
Proof.
move=> e o; apply: half0; rewrite -{1}e ffunE ffunE mulrA -exprD -signr_odd addnC o expr1 mulN1r //.
Qed.
Lemma even_vanish x S : minvol x = x -> odd #|S| -> x S = 0.
Proof. by move=> e o; apply: half0; rewrite -{1}e ffunE -signr_odd o expr1 mulN1r. Qed.
Lemma scal_of x : (forall S, (0 < #|S|)%N -> x S = 0) -> x = ((x : M) set0)%:A.
Proof.
move=> h; apply/ffunP => S; rewrite scale_coef bl_coef.
have [->|S0] := eqVneq S set0; first by rewrite mulr1.
by rewrite mulr0 h // card_gt0.
Qed.
Lemma parts (rs : seq nat) (x : M) : uniq rs -> (forall S, #|S| \notin rs -> x S = 0) ->
  x = \sum_(r <- rs) gpart r x.
Proof.
move=> un h; apply/ffunP => S; rewrite sum_coef.
have [Sr|Sr] := boolP (#|S| \in rs); last first.
  rewrite h // big1_seq // => r /andP[_ rr]; rewrite ffunE; case: eqP => // e.
  by rewrite e rr in Sr.
rewrite (bigD1_seq #|S|) //= ffunE eqxx big1 ?addr0 // => r rS.
by rewrite ffunE eq_sym (negPf rS).
Qed.
Lemma con_self (U : C) : con (U * con U) = U * con U.
Proof.
rewrite /con !minvolE ginvM (mrevM (ginv U : C)); congr (_ * _).
rewrite -!minvolE; apply/ffunP => S; rewrite !ffunE !mulrA -!exprD.
by rewrite -signr_odd (_ : odd _ = false) ?mul1r // !oddD; do 2 case: (odd _).
Qed.
Lemma blade_I w : I * cblade g w = (((-1) ^+ n.+1) ^+ size w) *: (cblade g w * I).
Proof.
rewrite /cblade; have pg := ps_gen g; move: ((-1) ^+ n.+1) pg => q pg.
elim: w => [|i w IH]; first by rewrite /= expr0 scale1r mulr1 mul1r.
rewrite [blade_of _ _]/= exprS -scalerAr -scalerAl scalerA [_ * 2%:R^-1]mulrC -scalerA; congr (_ *: _).
move: (blade_of _ w) IH => b; move: (_ ^+ size w) ((-1) ^+ size w) => s t IH.
rewrite mulrDr mulrDl -scalerAr -scalerAl scalerDr.
have -> : I * (cgen g i * b) = (q * s) *: (cgen g i * b * I).
  by rewrite mulrA pg -scalerAl -(mulrA (cgen g i) I) IH -scalerAr scalerA mulrA.
have -> : I * (b * cgen g i) = (q * s) *: (b * cgen g i * I).
  by rewrite mulrA IH -scalerAl -(mulrA b I) pg -scalerAr scalerA mulrA [s * _]mulrC.
by rewrite !scalerA [t * _]mulrC.
Qed.
Lemma I_odd x : odd n -> I * x = x * I.
Proof.
move=> on; rewrite (mval_decomp x) mulr_sumr mulr_suml; apply: eq_bigr => S _.
rewrite -scalerAr -scalerAl -(cblade_enum g S) blade_I -signr_odd /= on expr0 expr1n scale1r //.
Qed.
Lemma I_even x : ~~ odd n -> I * x = (minvol x : C) * I.
Proof.
move=> on; rewrite minvolE.
have -> : (ginv x : C) = \sum_S (x : M) S *: ((-1) ^+ #|S| *: (bl R S : C)).
  by rewrite {1}(mval_decomp x) raddf_sum; apply: eq_bigr => S _; rewrite [LHS]linearZ /= ginv_bl.
rewrite {1}(mval_decomp x) mulr_sumr mulr_suml; apply: eq_bigr => S _.
rewrite -!scalerAr -!scalerAl -(cblade_enum g S) blade_I -[in LHS]signr_odd /= on expr1 -cardE //.
Qed.
Lemma homog_I r x : homog r x -> homog (n - r) (x * I).
Proof.
move=> hx; rewrite (homog_sum hx) mulr_suml; elim/big_ind: _ => [||S /eqP <-].
- by rewrite /homog; apply/ffunP => T; rewrite !ffunE; case: ifP.
- by move=> u v; apply: homogD.
by rewrite -scalerAl; apply: homogZ; apply: homog_mul_ps.
Qed.
Hypothesis det : \det (\matrix_(i, j) g i j) \is a GRing.unit.
Definition isq : R := (-1) ^+ (n * (n - 1))./2 * \det (gmx g).
Lemma isqE : I * I = isq%:A. Proof. exact: ps_sq. Qed.
Lemma isq_unit : isq \is a GRing.unit. Proof. by rewrite unitrM unitrX ?unitrN1 //; exact: det. Qed.
Lemma undual r x : homog r x -> exists2 y : C, homog (n - r) y & x = y * I.
Proof.
move=> hx; exists (isq^-1 *: (x * I)); first by apply: homogZ; apply: homog_I.
by rewrite -scalerAl -mulrA isqE -scalerAr mulr1 scalerA mulVr ?isq_unit // scale1r.
Qed.
End Kit.

Section Scalars.
Variables (R : comUnitRingType) (n : nat) (g : cmetric R n).
Notation C := (clifford g).
Notation M := (mval R n).
Implicit Types (x y u v : C) (S : {set 'I_n}).
Notation I := (ps R n : C).
Definition isS x : Prop := exists c : R, x = c%:A.
Lemma isS_val x : isS x -> x = ((x : M) set0)%:A.
Proof. by case=> c ->; rewrite scale_coef bl_coef eqxx mulr1. Qed.
Lemma isS_of x : (forall S, (0 < #|S|)%N -> x S = 0) -> isS x.
Proof. by move=> h; exists ((x : M) set0); exact: scal_of. Qed.
Lemma isSD x y : isS x -> isS y -> isS (x + y).
Proof. by case=> a -> [b ->]; exists (a + b); rewrite scalerDl. Qed.
Lemma isSN x : isS x -> isS (- x).
Proof. by case=> a ->; exists (- a); rewrite scaleNr. Qed.
Lemma isSM x y : isS x -> isS y -> isS (x * y).
Proof. by case=> a -> [b ->]; exists (a * b); rewrite mulr_algl scalerA. Qed.
Lemma isSZ c x : isS x -> isS (c *: x).
Proof. by case=> a ->; exists (c * a); rewrite scalerA. Qed.
Lemma isS_C x y : isS x -> x * y = y * x.
Proof. by case=> a ->; rewrite mulr_algl mulr_algr. Qed.
Lemma diffsq x y : x * y = y * x -> (x + y) * (x - y) = x * x - y * y.
Proof. by move=> e; rewrite mulrDl !mulrBr e addrA subrK. Qed.
Lemma isS_gpart0 x : isS (gpart 0 x).
Proof.
apply: isS_of => S; rewrite ffunE lt0n => /negPf ->; exact: erefl.
Qed.
Lemma isS_vec u v : homog 1 u -> homog 1 v -> isS (u * v + v * u).
Proof. by move=> hu hv; rewrite vec_rel //; exists (gform g u v *+ 2). Qed.
Lemma isS_sq v : homog 1 v -> isS (v * v).
Proof.
move=> hv; have [c e] := isS_vec hv hv; exists (2%:R^-1 * c).
by rewrite -scalerA -e -mulr2n -scaler_nat scalerA mulVr ?scale1r //; exact: (two_unit g).
Qed.
Lemma hinv r (x : M) : homog r x -> minvol x = (-1) ^+ r *: x.
Proof. by move=> <-; apply/ffunP => S; rewrite scale_coef !ffunE; case: eqP => [->|] //; rewrite !mulr0. Qed.
Lemma hrev r (x : M) : homog r x -> mrev x = (-1) ^+ (r * (r - 1))./2 *: x.
Proof. by move=> <-; apply/ffunP => S; rewrite scale_coef !ffunE; case: eqP => [->|] //; rewrite !mulr0. Qed.
Lemma cardle S : (#|S| <= n)%N.
Proof. by have := max_card (mem S); rewrite card_ord. Qed.
Lemma homog_top x : homog n x -> x = (x : M) setT *: I.
Proof.
move=> <-; apply/ffunP => S; rewrite scale_coef bl_coef !ffunE.
have [->|nS] := eqVneq S setT; first by rewrite mulr1.
rewrite mulr0; case: eqP => // e; case/eqP: nS; apply/eqP; rewrite eqEcard subsetT /= cardsT card_ord e //.
Qed.
Lemma isS_II : isS (I * I). Proof. by rewrite isqE; exists (isq g). Qed.
Lemma homog0 r : homog r (0 : M).
Proof. by apply/ffunP => T; rewrite !ffunE; case: ifP. Qed.
Lemma commv_homog (B v : C) : homog 2 B -> homog 1 v -> homog 1 (B * v - v * B).
Proof.
move=> hB hv; have e : minvol B = B by rewrite (hinv hB) -signr_odd scale1r.
have -> : B * v - v * B = - 2%:R *: (selprod (fun u v : C => u * v) left_grade v B : C).
  rewrite (lcE g _ hv) e scalerA mulNr mulrV ?scaleN1r ?opprB //; exact: (two_unit g).
apply: homogZ; rewrite lc_gcontr //; elim/big_ind: _ => [|x y|i _]; first exact: homog0.
  exact: homogD.
by apply: homogZ; apply: homog_gcontr.
Qed.
Lemma bisq (B : C) : homog 2 B -> (n <= 5)%N -> exists s, exists2 q : C, homog 4 q & B * B = s%:A + q.
Proof.
move=> hB n5; exists ((B * B : M) set0), (gpart 4 (B * B)); first exact: homog_gpart.
have mi : minvol (B * B) = B * B.
  by rewrite minvolE ginvM -minvolE (hinv hB) -signr_odd scale1r.
have mr : mrev (B * B) = B * B by rewrite mrevM (hrev hB) /= expr1 scaleN1r mulrNN.
have h : forall S, #|S| \notin [:: 0; 4]%N -> (B * B : M) S = 0.
  move=> S; have := cardle S => cS nS.
  have [o|o] := boolP (odd (#|S| * (#|S| - 1))./2); first exact: (rev_vanish mr).
  have [o'|o'] := boolP (odd #|S|); first exact: (even_vanish mi).
  move: nS o o' (leq_trans cS n5); case: #|S| => [|[|[|[|[|[|]]]]]] //.
rewrite [LHS](parts _ h) // !big_cons big_nil addr0; congr (_ + _).
by rewrite [LHS](isS_val (isS_gpart0 _)) ffunE cards0.
Qed.
End Scalars.

Section Low.
Variable R : comUnitRingType.
Lemma h_low n (g : cmetric R n) (U : clifford g) : (n <= 2)%N -> isS (U * con U).
Proof.
move=> n2; apply: isS_of => S; have := leq_trans (cardle S) n2; have := con_vanish (S := S) (con_self U).
by case: #|S| => [|[|[|]]] // h _ _; apply: h.
Qed.
Lemma h0 (g : cmetric R 0) (U : clifford g) : isS (U * hnum U).
Proof. by rewrite /hnum mulr1; apply: isS_of => S; have := cardle S; case: #|S|. Qed.
Lemma h1 (g : cmetric R 1) (U : clifford g) : isS (U * hnum U).
Proof.
have -> : hnum U = con U; last exact: h_low.
apply/ffunP => S; rewrite [RHS]ffunE; have := cardle S.
by case: #|S| => [|[|]] // _; rewrite mul1r.
Qed.
Lemma h2 (g : cmetric R 2) (U : clifford g) : isS (U * hnum U).
Proof. exact: h_low. Qed.
Lemma parts2 n (g : cmetric R n) (d : clifford g) r : (0 < r)%N ->
  (forall S : {set 'I_n}, #|S| \notin [:: 0; r]%N -> (d : mval R n) S = 0) -> d = gpart 0 d + gpart r d.
Proof.
move=> r0 h; rewrite [LHS](parts _ h); first by rewrite !big_cons big_nil addr0.
by rewrite /= inE eq_sym -lt0n r0.
Qed.
Lemma parts3 n (g : cmetric R n) (d : clifford g) r s : (0 < r)%N -> (r < s)%N ->
  (forall S : {set 'I_n}, #|S| \notin [:: 0; r; s]%N -> (d : mval R n) S = 0) -> d = gpart 0 d + (gpart r d + gpart s d).
Proof.
move=> r0 rs h; rewrite [LHS](parts _ h); first by rewrite !big_cons big_nil addr0.
rewrite /= !inE negb_or [0%N == r]eq_sym [0%N == s]eq_sym -!lt0n r0 (ltn_trans r0 rs) ltn_eqF //.
Qed.
Lemma h3 (g : cmetric R 3) (U : clifford g) : isS (U * hnum U).
Proof.
rewrite /hnum mulrA; have cs := con_self U; move: (U * con U) cs => d cs.
have {1}-> : d = gpart 0 d + gpart 3 d.
  apply: parts2 => // S nS; have := con_vanish (S := S) cs.
  by move: nS (cardle S); case: #|S| => [|[|[|[|]]]] // _ _ h; apply: h.
have -> : (mrev d : clifford g) = (gpart 0 d : clifford g) - gpart 3 d.
  rewrite {1}(_ : d = gpart 0 d + gpart 3 d).
    by rewrite mrevD (hrev (homog_gpart 0 d)) (hrev (homog_gpart 3 d)) expr0 scale1r /= -signr_odd scaleN1r.
  apply: (parts2 (g := g)) => // S nS; have := con_vanish (S := S) cs.
  by move: nS (cardle S); case: #|S| => [|[|[|[|]]]] // _ _ h; apply: h.
rewrite diffsq; last by apply: isS_C; exact: isS_gpart0.
apply: isSD; first by apply: isSM; exact: isS_gpart0.
apply: isSN; rewrite (homog_top (g := g) (homog_gpart 3 d)) -scalerAl -scalerAr.
by do 2 apply: isSZ; exact: isS_II.
Qed.
End Low.

Section Nd.
Variables (R : comUnitRingType).
Lemma h4 (g : cmetric R 4) (U : clifford g) :
  \det (\matrix_(i, j) g i j) \is a GRing.unit -> isS (U * hnum U).
Proof.
move=> det; rewrite /hnum mulrA; have cs := con_self U; move: (U * con U) cs => d cs.
have E : d = gpart 0 d + (gpart 3 d + gpart 4 d).
  apply: (parts3 (g := g)) => // S nS; have := con_vanish (S := S) cs.
  by move: nS (cardle S); case: #|S| => [|[|[|[|[|]]]]] // _ _ h; apply: h.
have -> : d - two_of (gpart 3 d) - two_of (gpart 4 d) = (gpart 0 d : clifford g) - (gpart 3 d + gpart 4 d).
  by rewrite {1}E /two_of !scaler_nat; zmod.
rewrite {1}E; move: (homog_gpart 3 d) (homog_gpart 4 d) (isS_gpart0 (d : clifford g)).
move: (gpart 0 d : clifford g) (gpart 3 d : clifford g) (gpart 4 d : clifford g) => a p q hp hq Sa.
rewrite diffsq; last exact: isS_C.
apply: isSD; first exact: isSM.
have [v hv pE] := undual det hp; have qE := homog_top (g := g) hq.
have pq : (p : clifford g) * q + (q : clifford g) * p = 0.
  rewrite qE -scalerAr -scalerAl (I_even (g := g)) // (hinv hp) -signr_odd scaleN1r mulNr scalerN.
  by rewrite subrr.
have -> : (p + q : clifford g) * (p + q) = p * p + q * q + (p * q + q * p) by ncring.
rewrite pq addr0; apply: isSN; apply: isSD; last first.
  by rewrite qE -scalerAl -scalerAr; do 2 apply: isSZ; exact: isS_II.
rewrite pE -mulrA [_ * (v * _)]mulrA (I_even (g := g)) // (hinv hv) expr1 scaleN1r !mulNr mulrN.
rewrite -(mulrA v) mulrA; apply: isSN; apply: isSM; [exact: isS_sq | exact: isS_II].
Qed.

Lemma comm_zero (g : cmetric R 5) (B v p : clifford g) :
  isS (v * p + p * v) -> B * p = p * B ->
  (B * v - v * B) * p + p * (B * v - v * B) = 0.
Proof.
have e2 : B * p = p * B -> p * B * v = B * p * v by move->.
move=> Sv Bp; rewrite mulrBl mulrBr -[v * B * p]mulrA {1}Bp [p * (B * v)]mulrA (e2 Bp) !mulrA.
have := isS_C B Sv; rewrite mulrDl mulrDr !mulrA => /esym e.
transitivity (B * v * p + B * p * v - (v * p * B + p * v * B)); first by zmod.
by rewrite e subrr.
Qed.
Lemma sqsum n (g : cmetric R n) (Y u I : clifford g) : (forall x, I * x = x * I) ->
  (Y + u * I) * (Y + u * I) = Y * Y + u * I * (u * I) + (Y * u + u * Y) * I.
Proof.
move=> Ic; rewrite !mulrDl !mulrDr -[u * I * Y]mulrA Ic !mulrA.
move: (Y * Y) (Y * u * I) (u * Y * I) (u * I * u * I) => a b c d; zmod.
Qed.
Lemma h5 (g : cmetric R 5) (U : clifford g) :
  \det (\matrix_(i, j) g i j) \is a GRing.unit -> isS (U * hnum U).
Proof.
move=> det; rewrite /hnum !mulrA; have cs := con_self U; move: (U * con U) cs => d cs.
have E : d = gpart 0 d + (gpart 3 d + gpart 4 d).
  apply: (parts3 (g := g)) => // S nS; have := con_vanish (S := S) cs.
  by move: nS (cardle S); case: #|S| => [|[|[|[|[|[|]]]]]] // _ _ h; apply: h.
have Er : (mrev d : clifford g) = (gpart 0 d : clifford g) + (- (gpart 3 d : clifford g) + gpart 4 d).
  rewrite {1}E !mrevD (hrev (homog_gpart 0 d)) (hrev (homog_gpart 3 d)) (hrev (homog_gpart 4 d)).
  have s0 : (-1) ^+ (0 * (0 - 1))./2 = 1 :> R by [].
  have s3 : (-1) ^+ (3 * (3 - 1))./2 = -1 :> R by rewrite -signr_odd.
  have s4 : (-1) ^+ (4 * (4 - 1))./2 = 1 :> R by rewrite -signr_odd.
  by rewrite s0 s3 s4 !scale1r scaleN1r.
have dE : d * (mrev d : clifford g) = ((gpart 0 d : clifford g) + (gpart 3 d + gpart 4 d)) *
    ((gpart 0 d : clifford g) + (- (gpart 3 d : clifford g) + gpart 4 d)) by rewrite {1}E Er.
rewrite !dE {E Er dE}; move: (homog_gpart 3 d) (homog_gpart 4 d) (isS_gpart0 (d : clifford g)).
move: (gpart 0 d : clifford g) (gpart 3 d : clifford g) (gpart 4 d : clifford g) => a p q hp hq [k ->].
have [B hB pE] := undual det hp; have [v hv qE] := undual det hq.
have Ic (x : clifford g) : (ps R 5 : clifford g) * x = x * (ps R 5 : clifford g) by apply: I_odd.
have II := isqE g; have eu := isq_unit det; move: (isq g) II eu => e II eu.
have [s [z hz BB]] := bisq hB isT; have [w hw zE] := undual det hz.
move: (ps R 5 : clifford g) Ic II pE qE zE => I Ic II pE qE zE.
pose Y : clifford g := e *: (B * v - v * B).
pose u : clifford g := (k *+ 2) *: v - e *: w.
have [c vv] : isS (v * v) by exact: isS_sq.
pose X0 : clifford g := (k ^+ 2 + e * c - e * s)%:A.
have II2 (x y : clifford g) : x * I * (y * I) = e *: (x * y).
  by rewrite -mulrA [I * (y * I)]mulrA Ic -mulrA II -!scalerAr mulr1.
have XE : (k%:A + (p + q)) * (k%:A + (- p + q)) = X0 + (Y + u * I).
  have -> : (k%:A + (p + q)) * (k%:A + (- p + q)) =
    k ^+ 2 *: 1 + q * q - p * p + (k *+ 2) *: q + (p * q - q * p) by lalg R.
  rewrite pE qE !II2 vv BB zE /X0 /Y /u !mulrBl -!scalerAl.
  move: (v * I) (w * I) (B * v) (v * B) => qa wa bv vb; lalg R.
have hu : homog 1 u by rewrite /u -scaleNr; apply: homogD; apply: homogZ.
have hY : homog 1 Y by apply: homogZ; apply: commv_homog.
have huI : homog 4 (u * I).
  by rewrite /u mulrBl -!scalerAl -qE -zE -scaleNr; apply: homogD; apply: homogZ.
have SX : isS X0 by exists (k ^+ 2 + e * c - e * s).
have gD r (x y : mval R 5) : gpart r (x + y) = gpart r x + gpart r y.
  by apply/ffunP => S; rewrite !ffunE; case: ifP; rewrite ?addr0.
have hX : homog 0 X0.
  by rewrite /X0; apply: homogZ; have := homog_bl R (set0 : {set 'I_5}); rewrite cards0.
have gX1 : gpart 1 (X0 + (Y + u * I)) = Y.
  by rewrite !gD (gpart_homog 1 hX) (gpart_homog 1 hY) (gpart_homog 1 huI) /= add0r addr0.
have gX4 : gpart 4 (X0 + (Y + u * I)) = u * I.
  by rewrite !gD (gpart_homog 4 hX) (gpart_homog 4 hY) (gpart_homog 4 huI) /= !add0r.
rewrite XE gX1 gX4.
have -> : X0 + (Y + u * I) - two_of Y - two_of (u * I) = X0 - (Y + u * I).
  by rewrite /two_of !scaler_nat; zmod.
rewrite diffsq; last exact: isS_C.
apply: isSD; [exact: isSM | apply: isSN].
rewrite (sqsum _ _ Ic).
have -> : Y * u + u * Y = 0.
  have Bw : B * w = w * B.
    have Bz : B * z = z * B.
      have zB : z = B * B - s%:A by rewrite BB addrC addKr.
      by rewrite zB mulrBl mulrBr mulr_algl mulr_algr mulrA.
    have : (B * w - w * B) * I = 0 by rewrite mulrBl -!mulrA -zE -Ic !mulrA -[w * I * B]/(w * I * B) -zE Bz subrr.
    move/(congr1 (fun x => x * I)); rewrite mul0r -mulrA II -scalerAr mulr1 => /(congr1 (fun x => e^-1 *: x)).
    by rewrite scaler0 scalerA mulVr // scale1r => /eqP; rewrite subr_eq0 => /eqP.
  have Svv : isS (v * v + v * v) by exact: isS_vec.
  have Bvv : (B * v - v * B) * v + v * (B * v - v * B) = 0.
    by rewrite mulrBl mulrBr -!mulrA vv !mulrA vv mulr_algl mulr_algr addrA subrK subrr.
  have Bvw := comm_zero (isS_vec hv hw) Bw.
  move: Bvv Bvw; rewrite /Y /u; move: (B * v - v * B) => t Bvv Bvw.
  have -> : e *: t * ((k *+ 2) *: v - e *: w) + ((k *+ 2) *: v - e *: w) * (e *: t) =
    (e * (k *+ 2)) *: (t * v + v * t) - (e * e) *: (t * w + w * t) by lalg R.
  by rewrite Bvv Bvw !scaler0 subrr.
rewrite mul0r addr0 II2; apply: isSD; [exact: isS_sq | apply: isSZ; exact: isS_sq].
Qed.
End Nd.

Theorem hitzer_scalar (R : comUnitRingType) (n : nat) (g : cmetric R n) (U : clifford g) :
  rational_ring R -> (n <= 5)%N -> U * hnum U = ((U * hnum U : mval R n) set0)%:A.
Proof.
move=> qa n5.
pose E (S : comUnitRingType) (h : cmetric S n) (x : mval S n) : mval S n :=
  (x : clifford h) * hnum (x : clifford h) - (((x : clifford h) * hnum (x : clifford h) : mval S n) set0)%:A.
suff: E R g U = 0 by move/eqP; rewrite subr_eq0 => /eqP.
apply: (@transfer n E) => // [R' S f g' h qa' gh x|h x d].
  by rewrite /E mapvB (mapv_alg f g' h) -mapv_coef (mapv_mul gh) (mapv_hnum gh).
apply/eqP; rewrite subr_eq0; apply/eqP; apply: isS_val.
have d' : \det (\matrix_(i, j) h i j) \is a GRing.unit by rewrite unitfE.
case: (n) n5 h x d d' => [|[|[|[|[|[|]]]]]] // _ h x _ d'.
- exact: h0.
- exact: h1.
- exact: h2.
- exact: h3.
- exact: h4.
- exact: h5.
Qed.
Print Assumptions hitzer_scalar.
Print Assumptions sh_scalar.
