(* Props_Exp.v -- property C21 (exponential) and the rotation part of C24. *)
From mathcomp Require Import all_ssreflect all_algebra.
From Coq Require Import String.
From Verif Require Import NatTac AlgTactics Exterior Clifford Blades Spec_Grade Grades GradeLaws ContrLaws.
From Verif Require Import Spec_Index PyBase PyStr Ga_Model Ga_Proof_Tables Ga_Proof_Sort Ga_Proof_Sem Ga_Proof_Reduce.
From Verif Require Import Ga_Sem Ga_Proof_Rep Ga_Proof_Conv Ga_Proof_Mul Spec_Clifford Clifford_Unique Spec_Mv Ga_Proof_Den Ga_Proof_Wedge Ga_Proof_Inner.
From Verif Require Import Ga_Proof_Grade Mv_Model Mv_Proof Mv_Expr Mv_Proof_Expr Props_Mv Det Props_Dual Coef_Model Props_Versor.
From Verif Require Import Names_Model Names_Proof Coef_Proof Props_Coef BladeLaws Blade_Model Props_Blade Exp_Model Spec_Exp.
Set Implicit Arguments.
Unset Strict Implicit.
Unset Printing Implicit Defensive.
Import GRing.Theory.
Local Open Scope ring_scope.
Open Scope py_scope.

Section Com.
Variables (R : comUnitRingType) (two : (2%:R : R) \is a GRing.unit) (n : nat) (g : cmetric R n).
Notation C := (clifford g).
Lemma minvol_gp r (x : mval R n) : minvol (gpart r x) = (-1) ^+ r *: gpart r x.
Proof. by apply/ffunP => S; rewrite !ffunE; case: eqP => [->|_]; rewrite ?mulr0. Qed.
Lemma mrev_Z c (x : mval R n) : mrev (c *: x) = c *: mrev x.
Proof. exact: (linearZ_LR (Linear (@mrev_is_linear R n))). Qed.
Lemma tri2 m : odd ((m.+2 * (m.+2 - 1))./2) = ~~ odd ((m * (m - 1))./2).
Proof. by rewrite [(m.+2 - 1)%N]subn1 half_step [(m.+1 - 1)%N]subn1 half_step /=; case: odd; case: odd. Qed.
(* the commutator with a bivector keeps the grade *)
Lemma com_homog (r : nat) (B x : C) : homog 2 B -> homog r x -> homog r (B * x - x * B : C).
Proof.
move=> hB hx; set y : C := B * x - x * B.
have yi : minvol y = (-1) ^+ r *: y :> C.
  have iB : minvol B = B :> C by rewrite -{1}hB minvol_gp hB expr2 mulrNN mulr1 scale1r.
  have ix : minvol x = (-1) ^+ r *: x :> C by rewrite -{1}hx minvol_gp hx.
  by rewrite /y !minvolE linearB /= !ginvM -!minvolE iB ix -scalerAr -scalerAl scalerBr.
have yr : mrev y = (-1) ^+ (r * (r - 1))./2 *: y :> C.
  have rB : mrev B = - B :> C by rewrite -{1}hB mrev_gpart hB /= expr1 scaleN1r.
  have rx : mrev x = (-1) ^+ (r * (r - 1))./2 *: x :> C by rewrite -{1}hx mrev_gpart hx.
  rewrite /y -scaleN1r mrevD mrev_Z !mrevM rB rx -scalerAl mulrN -scalerAr mulNr !scalerN !scaleN1r opprK addrC.
  by rewrite scalerBr.
have ly : low r.+3 y.
  apply: low_add; first exact: (low_mul g (homog_low hB) (homog_low hx)).
  by apply: low_opp; rewrite -[r.+3]addn3; exact: (low_mul g (homog_low hx) (homog_low hB)).
have hy : high (r - 2) y.
  apply: high_add; first exact: (high_mul g (homog_low hB) (homog_high hx)).
  by rewrite -scaleN1r; apply: high_scale; exact: (high_mulr g (homog_high hx) (homog_low hB)).
have neg k : gpart k y = - gpart k y -> gpart k y = 0.
  set z := gpart k y => e; have z2 : z + z = 0 by rewrite {1}e addNr.
  have -> : z = (2%:R)^-1 *: (z + z) by rewrite -mulr2n -scaler_nat scalerA mulVr // scale1r.
  by rewrite z2 scaler0.
have sgn (b c : bool) (z : mval R n) : (-1) ^+ b *: z = (-1) ^+ c *: z -> b != c -> z = - z.
  by case: b; case: c => //=; rewrite expr1 expr0 scale1r scaleN1r => e _.
have z k : k != r -> gpart k y = 0.
  move=> kr; case: (ltnP k (r - 2)) => [|k1]; first exact: gpart_high.
  case: (leqP r.+3 k) => [|k2]; first exact: gpart_low.
  case: (boolP (odd k == odd r)) => o; last first.
    apply: neg; have := congr1 (gpart k) yi; rewrite gpart_minvol linearZ /= -[in LHS]signr_odd -[in RHS]signr_odd.
    by move/sgn; apply.
  apply: neg; have := congr1 (gpart k) yr; rewrite gpart_mrev linearZ /= -[in LHS]signr_odd -[in RHS]signr_odd.
  move/sgn; apply.
  have [->|->] : k = r.+2 \/ r = k.+2; last 2 first.
  - by rewrite tri2; case: odd.
  - by rewrite tri2; case: odd.
  case: (ltngtP k r) kr => // kr _; [right|left].
    have [e|e] : r = k.+2 \/ r = k.+1 by nlia.
      by [].
    by move: o; rewrite e /=; case: odd.
  have [e|e] : k = r.+2 \/ k = r.+1 by nlia.
    by [].
  by move: o; rewrite e /=; case: odd.
rewrite /homog; case: (leqP r n) => rn; last first.
  rewrite gpart_out // [RHS]gpart_sum big1 // => k _; apply: z.
  by apply: contraTneq rn => <-; rewrite -ltnNge.
rewrite [RHS]gpart_sum (bigD1 (Ordinal (rn : (r < n.+1)%N))) //= big1 ?addr0 // => k kr; apply: z.
by apply: contra_neq kr => e; apply: val_inj.
Qed.
End Com.

Section Exp.
Variables (R : fieldType) (two : (2%:R : R) \is a GRing.unit) (a : ga R).
Hypothesis wf : wf_ga a.
Variables (f : elementary R) (i : R).
Hypothesis laws : elementary_laws f i.
Notation n := (ga_n a).
Notation C := (cl two a).
Notation mvv := (mvv two a).
Notation g := (ga_metric two a).
Implicit Types (X Y Z : mv R) (c q r : R) (hint : string).
Let cm : mval R n -> mval R n -> mval R n := cmul g.
Let Hc : is_clifford_product (fun i j : 'I_n => geff a i j) cm := clifford_product_exists g.
Let VE X : mv_ok a X -> den cm (obj X) = mvv X. Proof. exact: den_ok. Qed.
Notation yld := (@yields R two a).
Let ygives b o w p : yld b o w -> legal a p -> sem cm p = w -> gives a o p := @yld_gives R two a wf b o w p.

(* ---- the functions ---- *)
Lemma i_neq0 : i != 0.
Proof. by apply/eqP => i0; have := i_square laws; rewrite i0 mulr0 => /eqP; rewrite eq_sym oppr_eq0 oner_eq0. Qed.
Lemma root_pm r r' : r * r = r' * r' -> r' = r \/ r' = - r.
Proof.
move/eqP; rewrite -!expr2 eqf_sqr => /orP[/eqP ->|/eqP ->]; first by left.
by right; rewrite opprK.
Qed.
Lemma cos_root r r' : r * r = r' * r' -> fcos f r' = fcos f r.
Proof. by case/root_pm => ->; rewrite ?(cos_even laws). Qed.
Lemma sin_root r r' : r * r = r' * r' -> fsin f r' / r' = fsin f r / r.
Proof. by case/root_pm => -> //; rewrite (sin_odd laws) invrN mulrN mulNr opprK. Qed.
Lemma i_root r : (i * r) * (i * r) = - (r * r).
Proof. by rewrite mulrACA (i_square laws) mulN1r. Qed.
Lemma sinh_quot r : fsinh f r / r = fsin f (i * r) / (i * r).
Proof. by rewrite -(sinh_sin laws) -mulf_div divff ?i_neq0 // mul1r. Qed.
Lemma pythagoras r : fcos f r * fcos f r + fsin f r * fsin f r = 1.
Proof.
have := cos_add laws r (- r); rewrite subrr (cos_zero laws) (cos_even laws) (sin_odd laws) mulrN opprK.
by move=> ->.
Qed.
(* the value of exp for the square sq *)
Definition expv q (x : C) : C := if q == 0 then x + 1 else
  let r := fsqrt f (- q) in fcos f r *: 1 + (fsin f r / r) *: x.
Lemma root_neq0 q r : q != 0 -> r * r = - q -> r != 0.
Proof. by move=> q0 e; apply: contra_neq q0 => r0; rewrite -[q]opprK -e r0 mulr0 oppr0. Qed.
Lemma expvE q r x : q != 0 -> r * r = - q -> expv q x = fcos f r *: 1 + (fsin f r / r) *: x.
Proof.
move=> q0 e; rewrite /expv (negPf q0) /=; have e2 : fsqrt f (- q) * fsqrt f (- q) = r * r by rewrite (sqrt_square laws).
by rewrite (cos_root (esym e2)) (sin_root (esym e2)).
Qed.
Lemma expvEh q r x : q != 0 -> r * r = q -> expv q x = fcosh f r *: 1 + (fsinh f r / r) *: x.
Proof.
move=> q0 e; rewrite (cosh_cos laws) sinh_quot; apply: expvE => //; by rewrite i_root e.
Qed.
Lemma unit_neq0 r : r != 0 -> sinv (r : R) = Some r^-1.
Proof. by move=> h; rewrite /sinv unitfE h. Qed.

Lemma two_termsP x c d : blade_expr n x -> yld true (Some (mk_mv a ((c, [::]) :: escale d x))) (c *: 1 + d *: (value two a x : C)).
Proof.
move=> bx; have := in_rep_cat a true [:: (c, [::])] (escale d x).
rewrite in_rep_const in_rep_escale /in_rep /= bx => h; apply: yields_blade => //.
by rewrite -cat1s value_cat value_const value_escale.
Qed.
Lemma escaleM c d (x : expr R) : escale c (escale d x) = escale (c * d) x.
Proof. by rewrite /escale -map_comp; apply: eq_map => t /=; rewrite mulrA. Qed.

Lemma expP hint X q : mv_ok a X -> mvv X * mvv X = q *: 1 -> yld true (mv_exp f a hint X) (expv q (mvv X)).
Proof.
move=> oX; rewrite /mv_exp; have [X' -> [bX' oX' <-]] := blade_repP two wf oX; rewrite /= => sq.
have [S -> [oS vS bS]] := mv_mulP two wf oX' oX'; rewrite /= (is_scalarP two wf oS) /=.
have b' : bladed a X' by rewrite /bladed bX'.
have bx := bladed_blade oX' b'.
have eS : mvv S = scal a q by rewrite vS sq.
have cS : (scal a q : mval R n) set0 = q by rewrite /scal scale_coef bl_coef eqxx mulr1.
rewrite eS gpart_scal eqxx (mv_scalarP two oS (bS b')) eS cS.
case: (q =P 0) => [q0|/eqP q0].
  by rewrite /expv q0 eqxx -(scal1 two); apply: yieldsW (mv_addcP two 1 oX').
have hyp : yld true (exp_hyp f a X' q) (expv q (mvv X')).
  have e := sqrt_square laws q; have r0 : fsqrt f q != 0 by apply: contra_neq q0 => r0; rewrite -e r0 mulr0.
  rewrite /exp_hyp unit_neq0 //= (expvEh _ q0 e) escaleM; exact: two_termsP.
have trig : yld true (exp_trig f a X' q) (expv q (mvv X')).
  have e := sqrt_square laws (- q); have r0 := root_neq0 q0 e.
  rewrite /exp_trig unit_neq0 //= (expvE _ q0 e) escaleM; exact: two_termsP.
have rest : yld true (if is_number f q then (if positive f q then exp_hyp f a X' q else exp_trig f a X' q)
  else if hint == "+"%string then exp_hyp f a X' q else exp_trig f a X' q) (expv q (mvv X')).
  by case: ifP => _; case: ifP.
have [] := @rep_linear_expand _ two a true (obj X'); first by rewrite /in_rep.
rewrite /in_rep /= -/(mvv X').
case: (linear_expand (obj X')) => [|[c w] [|t l]] // bw vw.
have bw1 : blade_expr n [:: (1 : R, w)] by exact: bw.
have vw1 : mvv X' = c *: (value two a [:: (1 : R, w)] : C).
  by rewrite -value_escale -vw /escale /= mulr1.
rewrite /exp_term; have oW := mk_mv_blade bw1; have [W2 -> [oW2 vW2 bW2]] := mv_mulP two wf oW oW; rewrite /=.
rewrite (mv_scalarP two oW2 (bW2 _)) ?/bladed ?blade_brep // vW2 !mvv_mk.
set v := value two a _ in vw1 *; set b := ((v : C) * v : mval R n) set0.
have eb : c * c * b = q.
  by have := congr1 (fun z : mval R n => z set0) sq; rewrite vw1 -scalerAl -scalerAr scalerA {1}scale_coef => e; rewrite -{1}cS; exact: e.
have b0 : b != 0 by apply: contra_neq q0 => b0; rewrite -eb b0 mulr0.
have c0 : c != 0 by apply: contra_neq q0 => c0; rewrite -eb c0 !mul0r.
have quot (s r : R) : s * r^-1 = s / (r * c) * c by rewrite invfM mulrA mulfVK.
have terms (k s r : R) : yld true (Some (mk_mv a [:: (k, [::]); (s * r^-1, w)])) (k *: 1 + (s / (r * c)) *: mvv X').
  rewrite vw1 scalerA -quot; have := two_termsP k (s * r^-1) bw1.
  by rewrite /escale /= mulr1.
case: ifP => _.
  have e := sqrt_square laws (- b); have r0 := root_neq0 b0 e.
  rewrite unit_neq0 //= (@expvE q (fsqrt f (- b) * c)) //.
  by rewrite mulrACA e mulNr mulrC eb.
have e := sqrt_square laws b; have r0 : fsqrt f b != 0 by apply: contra_neq b0 => r0; rewrite -e r0 mulr0.
rewrite unit_neq0 //= (@expvEh q (fsqrt f b * c)) //.
by rewrite mulrACA e mulrC eb.
Qed.
Definition exp_of hint p : option (mv R) := LET x := run a p IN mv_exp f a hint x.
Lemma exp_ofP hint p q : legal a p -> (sem cm p : C) * (sem cm p : C) = q *: 1 ->
  yld true (exp_of hint p) (expv q (sem cm p)).
Proof.
move=> lp; have [X E [oX vX _]] := run_yields two wf Hc lp.
by rewrite /exp_of E -vX => e; exact: expP.
Qed.
Lemma sqP X q : mv_valid a X -> run_eq a (X *. X) (Num q) = Some true ->
  (den cm (obj X) : C) * (den cm (obj X) : C) = q *: 1.
Proof. by move=> hX; rewrite (run_eqP two wf Hc) /= ?hX // => -[/eqP]. Qed.
Lemma exp_gives hint X q p : mv_valid a X -> run_eq a (X *. X) (Num q) = Some true -> legal a p ->
  sem cm p = expv q (den cm (obj X)) -> gives a (mv_exp f a hint X) p.
Proof.
move=> hX /(sqP hX) e lp ep; have h : yld true (mv_exp f a hint X) (expv q (den cm (obj X))) by exact: (exp_ofP hint (p := X) hX e).
exact: (ygives h).
Qed.

(* ---- C21 ---- *)
(* A*A == 0: exp(A) is 1 + A *)
Theorem C21_null hint X : mv_valid a X -> run_eq a (X *. X) (Num 0) = Some true ->
  gives a (mv_exp f a hint X) (Num 1 +. X).
Proof.
move=> hX e; apply: (exp_gives _ hX e) => //=.
by rewrite /expv eqxx addrC /num scale1r.
Qed.
(* A*A == q: the trigonometric form for every square root r of -q, and the hyperbolic
   form for every square root r of q, whatever the hint *)
Theorem C21_trig hint X q r : mv_valid a X -> run_eq a (X *. X) (Num q) = Some true -> q != 0 -> r * r = - q ->
  gives a (mv_exp f a hint X) (Num (fcos f r) +. (fsin f r / r) ##. X).
Proof.
move=> hX e q0 er; apply: (exp_gives _ hX e) => //=.
by rewrite (expvE _ q0 er).
Qed.
Theorem C21_hyp hint X q r : mv_valid a X -> run_eq a (X *. X) (Num q) = Some true -> q != 0 -> r * r = q ->
  gives a (mv_exp f a hint X) (Num (fcosh f r) +. (fsinh f r / r) ##. X).
Proof.
move=> hX e q0 er; apply: (exp_gives _ hX e) => //=.
by rewrite (expvEh _ q0 er).
Qed.
(* the hint does not change the value *)
Theorem C21_hint h1 h2 X q : mv_valid a X -> run_eq a (X *. X) (Num q) = Some true ->
  exists2 Y, mv_exp f a h1 X = Some Y & mv_valid a Y /\ gives a (mv_exp f a h2 X) Y.
Proof.
move=> hX e; have [Y E [oY vY _]] := exp_ofP h1 (p := X) hX (sqP hX e).
have hY : mv_valid a Y by rewrite mv_validE.
exists Y => //; split=> //; apply: (exp_gives _ hX e) => //=.
by rewrite VE // vY.
Qed.
(* exp((s + t)*A) == exp(s*A)*exp(t*A) *)
Lemma expvM q s t (x : C) : x * x = q *: 1 ->
  expv (s * s * q) (s *: x) * expv (t * t * q) (t *: x) = expv ((s + t) * (s + t) * q) ((s + t) *: x).
Proof.
move=> xx; case: (q =P 0) => [q0|/eqP q0].
  rewrite q0 !mulr0 /expv eqxx mulrDl !mulrDr -scalerAl -scalerAr scalerA xx q0 scale0r scaler0 add0r.
  by rewrite !mul1r mulr1 scalerDl addrA.
have [r er] : exists r, r * r = - q by exists (fsqrt f (- q)); exact: (sqrt_square laws).
have r0 := root_neq0 q0 er.
suff E u : expv (u * u * q) (u *: x) = fcos f (u * r) *: 1 + (fsin f (u * r) / r) *: x.
  rewrite !E [(s + t) * r]mulrDl (cos_add laws) (sin_add laws).
  move: (fcos f (s * r)) (fsin f (s * r)) (fcos f (t * r)) (fsin f (t * r)) => c1 s1 c2 s2.
  have qE : s1 / r * (s2 / r) * q = - (s1 * s2).
    by rewrite -[q]opprK -er mulrN mulf_div mulfVK // mulf_neq0.
  rewrite [LHS]mulrDr [X in X + _]mulrDl [X in _ + X = _]mulrDl -!scalerAl -!scalerAr !mulr1 !mul1r !scalerA xx scalerA qE.
  by rewrite [X in _ + X = _]addrC addrACA -!scalerDl; congr (_ + _ *: _); rewrite mulrDl mulrAC mulrA.
case: (u * u * q =P 0) => [uq|/eqP uq].
  have u0 : u = 0.
    by move/eqP: uq; rewrite mulf_eq0 (negPf q0) orbF mulf_eq0 orbb => /eqP.
  by rewrite /expv uq eqxx u0 scale0r mul0r (cos_zero laws) (sin_zero laws) mul0r scale0r add0r addr0 scale1r.
have e : u * r * (u * r) = - (u * u * q) by rewrite mulrACA er mulrN.
have u0 : u != 0 by apply: contra_neq uq => ->; rewrite !mul0r.
rewrite (expvE _ uq e) scalerA; congr (_ + _ *: _).
by rewrite invfM [u^-1 * _]mulrC mulrA mulfVK.
Qed.
Lemma sq_scale s q (x : C) : x * x = q *: 1 -> (s *: x) * (s *: x) = (s * s * q) *: 1.
Proof. by move=> e; rewrite -scalerAl -scalerAr e !scalerA. Qed.
Theorem C21_group h1 h2 h3 s t X q : mv_valid a X -> run_eq a (X *. X) (Num q) = Some true ->
  exists Y Z, [/\ exp_of h1 (s ##. X) = Some Y, exp_of h2 (t ##. X) = Some Z, mv_valid a Y, mv_valid a Z &
    gives a (exp_of h3 ((s + t) ##. X)) (Y *. Z)].
Proof.
move=> hX /(sqP hX) e.
have [Y EY [oY vY _]] := exp_ofP h1 (p := s ##. X) hX (sq_scale s e).
have [Z EZ [oZ vZ _]] := exp_ofP h2 (p := t ##. X) hX (sq_scale t e).
exists Y, Z; rewrite !mv_validE oY oZ; split=> //.
apply: (ygives (exp_ofP h3 (p := (s + t) ##. X) hX (sq_scale (s + t) e))); rewrite /= ?mv_validE ?oY //.
by rewrite (VE oY) (VE oZ) vY vZ; exact: expvM.
Qed.
(* exp(A)*exp(-A) == 1 == exp(-A)*exp(A) *)
Theorem C21_inverse h1 h2 X q : mv_valid a X -> run_eq a (X *. X) (Num q) = Some true ->
  exists Y Z, [/\ mv_exp f a h1 X = Some Y, exp_of h2 (Neg X) = Some Z, mv_valid a Y && mv_valid a Z,
    run_eq a (Y *. Z) (Num 1) = Some true & run_eq a (Z *. Y) (Num 1) = Some true].
Proof.
move=> hX /(sqP hX) e.
have e' : (sem cm (Neg X) : C) * (sem cm (Neg X) : C) = q *: 1 by rewrite /= mulrNN.
have [Y EY [oY vY _]] := exp_ofP h1 (p := X) hX e.
have [Z EZ [oZ vZ _]] := exp_ofP h2 (p := Neg X) hX e'.
have oYv : mv_valid a Y by rewrite mv_validE.
have oZv : mv_valid a Z by rewrite mv_validE.
have E0 : expv 0 (0 : C) = 1 by rewrite /expv eqxx add0r.
have [YZ ZY] : (mvv Y * mvv Z = 1 /\ mvv Z * mvv Y = 1)%R.
  rewrite vY vZ /=; set x : C := den cm (obj X) in e * .
  have := expvM 1 (-1) e; have := expvM (-1) 1 e.
  by rewrite subrr addNr mulrNN !mul1r scale1r scaleN1r scale0r !mul0r E0 => -> ->.
by exists Y, Z; rewrite oYv oZv; split=> //; apply: (run_law two wf Hc); rewrite /= ?oYv ?oZv // (VE oY) (VE oZ) /num scale1r.
Qed.
Lemma mrev1 : mrev (1 : C) = 1 :> C.
Proof. by rewrite [LHS]mrev_bl cards0 scale1r. Qed.
Lemma mrevZ c (x : mval R n) : mrev (c *: x) = c *: mrev x.
Proof. exact: (linearZ_LR (Linear (@mrev_is_linear R n))). Qed.
Lemma mrev_expv q (x : C) : mrev (expv q x) = expv q (mrev x).
Proof. by rewrite /expv; case: ifP => _ /=; rewrite mrevD ?mrevZ mrev1. Qed.
(* the reverse of the exponential is the exponential of the reverse *)
Theorem C21_reverse h1 h2 X q : mv_valid a X -> run_eq a (X *. X) (Num q) = Some true ->
  exists2 Y, mv_exp f a h1 X = Some Y & mv_valid a Y /\ gives a (exp_of h2 (Rev X)) (Rev Y).
Proof.
move=> hX /(sqP hX) e; have [Y EY [oY vY _]] := exp_ofP h1 (p := X) hX e.
have hY : mv_valid a Y by rewrite mv_validE.
exists Y => //; split=> //.
have e' : (sem cm (Rev X) : C) * (sem cm (Rev X) : C) = q *: 1.
  by rewrite /= -mrevM e mrevZ mrev1.
apply: (ygives (exp_ofP h2 (p := Rev X) hX e')) => //=; rewrite (VE oY) vY /=.
exact: mrev_expv.
Qed.
(* A*A no scalar: exp(A) raises *)
Theorem C21_raises hint X : mv_valid a X -> (forall q, run_eq a (X *. X) (Num q) <> Some true) ->
  mv_exp f a hint X = None.
Proof.
move=> hX ns; have oX : mv_ok a X by rewrite -mv_validE.
rewrite /mv_exp; have [X' -> [bX' oX' vX']] := blade_repP two wf oX; rewrite /=.
have [S -> [oS vS bS]] := mv_mulP two wf oX' oX'; rewrite /= (is_scalarP two wf oS) /=; case: eqP => // eS.
case: (ns (mv_scalar S)); apply: (run_law two wf Hc); rewrite /= ?hX // (VE oX) -vX'.
by rewrite /num -/(scal a _) -(scalar_val oS eS) vS.
Qed.

(* ---- C24, rotation ---- *)
Definition rotate_of hint p T : option (mv R) := LET x := run a p IN rotate_multivector f a hint x T.
Definition rot q (t x : C) : C := expv (q / 4%:R) (- ((2%:R)^-1 *: t)) * x * expv (q / 4%:R) ((2%:R)^-1 *: t).
Lemma rotate_ofP hint p T q : legal a p -> mv_valid a T -> run_eq a (T *. T) (Num q) = Some true ->
  yld true (rotate_of hint p T) (rot q (den cm (obj T)) (sem cm p)).
Proof.
move=> lp hT /(sqP hT); have oT : mv_ok a T by rewrite -mv_validE.
rewrite (VE oT) => e; have [X E [oX vX _]] := run_yields two wf Hc lp.
rewrite /rotate_of E -vX /rotate_multivector.
have [m -> [om vm _]] := mv_negP two oT; rewrite /= /mv_divc /sinv two /=.
have [_ [<-] [om2 vm2 _]] := mv_scaleP two (2%:R)^-1 om.
have e4 : (2%:R)^-1 * (2%:R)^-1 * q = q / 4%:R by rewrite -invfM -natrM mulrC.
have em : mvv (mk_mv a (escale (2%:R)^-1 (obj m))) * mvv (mk_mv a (escale (2%:R)^-1 (obj m))) = (q / 4%:R) *: 1 by rewrite vm2 vm -e4; apply: sq_scale; rewrite mulrNN.
have [Rm -> [oRm vRm _]] := expP hint om2 em; rewrite /=.
have [_ [<-] [op2 vp2 _]] := mv_scaleP two (2%:R)^-1 oT.
have ep : mvv (mk_mv a (escale (2%:R)^-1 (obj T))) * mvv (mk_mv a (escale (2%:R)^-1 (obj T))) = (q / 4%:R) *: 1 by rewrite vp2 -e4; apply: sq_scale.
have [Rp -> [oRp vRp bRp]] := expP hint op2 ep; rewrite /=.
have [y -> [oy vy _]] := mv_mulP two wf oRm oX; rewrite /=.
apply: yields_eq (yieldsW _ (mv_mulP two wf oy oRp)) _; first by move=> _; exact: bRp.
by rewrite vy vRm vRp /rot vm2 vm vp2 scalerN.
Qed.
Section Theta.
Variables (T : mv R) (q : R).
Hypotheses (hT : mv_valid a T) (eT : run_eq a (T *. T) (Num q) = Some true).
Let t : C := den cm (obj T).
Let h : C := (2%:R)^-1 *: t.
Lemma hh : h * h = (q / 4%:R) *: 1.
Proof.
rewrite (sq_scale (2%:R)^-1 (sqP hT eT)); congr (_ *: _); by rewrite -invfM -natrM mulrC.
Qed.
Notation Ep := (expv (q / 4%:R) h).
Notation Em := (expv (q / 4%:R) (- h)).
Lemma EmEp : Em * Ep = 1 /\ Ep * Em = 1.
Proof.
have E0 : expv 0 (0 : C) = 1 by rewrite /expv eqxx add0r.
have := expvM 1 (-1) hh; have := expvM (-1) 1 hh.
by rewrite subrr addNr mulrNN !mul1r scale1r scaleN1r scale0r !mul0r E0 => -> ->.
Qed.
Lemma rotE x : rot q t x = Em * x * Ep. Proof. by []. Qed.
Lemma rotM (x y : C) : rot q t (x * y) = rot q t x * rot q t y.
Proof. by rewrite !rotE; have [_ e] := EmEp; rewrite !mulrA -[_ * Ep * Em]mulrA e mulr1. Qed.
Lemma rotL c (x y : C) : rot q t (c *: x + y) = c *: rot q t x + rot q t y.
Proof. by rewrite !rotE mulrDr mulrDl -scalerAr -scalerAl. Qed.
Lemma rot1 : rot q t 1 = 1. Proof. by rewrite rotE mulr1; have [] := EmEp. Qed.
Lemma rot0 : rot q t 0 = 0. Proof. by rewrite rotE mulr0 mul0r. Qed.
Lemma rotS c : rot q t (c *: 1) = c *: 1.
Proof.
have r0 : rot q t 0 = 0 by rewrite rotE mulr0 mul0r.
by have := rotL c 1 0; rewrite r0 !addr0 rot1.
Qed.
Lemma expvN (x y : C) p : x * y = - (y * x) -> x * expv p y = expv p (- y) * x.
Proof.
move=> e; rewrite /expv; case: ifP => _ /=; first by rewrite mulrDr mulrDl mulr1 mul1r mulNr e.
by rewrite mulrDr mulrDl -!scalerAr -!scalerAl mulr1 mul1r mulNr e.
Qed.
Lemma expvC (x y : C) p : x * y = y * x -> x * expv p y = expv p y * x.
Proof.
move=> e; rewrite /expv; case: ifP => _ /=; first by rewrite mulrDr mulrDl mulr1 mul1r e.
by rewrite mulrDr mulrDl -!scalerAr -!scalerAl mulr1 mul1r e.
Qed.
Lemma rotate_obj hint X : mv_valid a X -> exists Y, [/\ rotate_multivector f a hint X T = Some Y, mv_ok a Y, mv_valid a Y, bladed a Y &
  den cm (obj Y) = rot q t (den cm (obj X))].
Proof.
move=> hX; have [Y E [oY vY bY]] := rotate_ofP hint (p := X) hX hT eT.
by exists Y; rewrite mv_validE oY (VE oY) vY; split=> //; exact: bY.
Qed.
Theorem C24_rotate_linear hint X Y c : mv_valid a X -> mv_valid a Y ->
  exists X' Y', [/\ rotate_multivector f a hint X T = Some X', rotate_multivector f a hint Y T = Some Y' &
    gives a (rotate_of hint (c ##. X +. Y) T) (c ##. X' +. Y')].
Proof.
move=> hX hY; have [X' [-> oX' hX' bX' eX]] := rotate_obj hint hX; have [Y' [-> oY' hY' bY' eY]] := rotate_obj hint hY.
exists X', Y'; split=> //; apply: (ygives (rotate_ofP hint _ hT eT)); rewrite /= ?hX ?hY ?hX' ?hY' //.
by rewrite eX eY -rotL.
Qed.
Theorem C24_rotate_product hint X Y : mv_valid a X -> mv_valid a Y ->
  exists X' Y', [/\ rotate_multivector f a hint X T = Some X', rotate_multivector f a hint Y T = Some Y' &
    gives a (rotate_of hint (X *. Y) T) (X' *. Y')].
Proof.
move=> hX hY; have [X' [-> oX' hX' bX' eX]] := rotate_obj hint hX; have [Y' [-> oY' hY' bY' eY]] := rotate_obj hint hY.
exists X', Y'; split=> //; apply: (ygives (rotate_ofP hint _ hT eT)); rewrite /= ?hX ?hY ?hX' ?hY' //.
by rewrite eX eY; apply/esym; exact: rotM.
Qed.
Theorem C24_rotate_scalar hint c : gives a (rotate_of hint (Num c) T) (Num c).
Proof. by apply: (ygives (rotate_ofP hint _ hT eT)) => //=; apply/esym; exact: rotS. Qed.
(* the rotation by -itheta is the inverse *)
Theorem C24_rotate_inverse hint X : mv_valid a X ->
  exists X' T', [/\ rotate_multivector f a hint X T = Some X', run a (Neg T) = Some T', mv_valid a T' &
    gives a (rotate_multivector f a hint X' T') X].
Proof.
move=> hX; have [X' [-> oX' hX' bX' eX]] := rotate_obj hint hX.
have [T' ET [oT' vT' _]] := run_yields two wf Hc (p := Neg T) hT.
have hT' : mv_valid a T' by rewrite mv_validE.
have eT' : run_eq a (T' *. T') (Num q) = Some true.
  by apply: (run_law two wf Hc); rewrite /= ?hT' // (VE oT') vT' /=; apply: etrans (mulrNN (den cm (obj T) : C) (den cm (obj T))) _; exact: sqP.
exists X', T'; split=> //.
apply: (ygives (rotate_ofP hint (p := X') hX' hT' eT')) => //=.
rewrite eX (VE oT') vT' /= rotE /rot -/t scalerN opprK -/h.
have [e1 e2] := EmEp.
by rewrite !mulrA e2 mul1r -mulrA e2 mulr1.
Qed.
(* a multivector that commutes with itheta stays *)
Theorem C24_rotate_fixed hint X : mv_valid a X -> run_eq a (X *. T) (T *. X) = Some true ->
  gives a (rotate_multivector f a hint X T) X.
Proof.
move=> hX; rewrite (run_eqP two wf Hc) /= ?hX ?hT // => -[/eqP e].
apply: (ygives (rotate_ofP hint (p := X) hX hT eT)) => //=; rewrite -/t rotE -mulrA expvC.
  by rewrite mulrA; have [-> _] := EmEp; rewrite mul1r.
by rewrite /h -scalerAr -scalerAl; congr (_ *: _).
Qed.
(* a multivector that anticommutes with itheta, such as a vector of the plane of
   itheta, is multiplied by exp(itheta): the angle is the full one *)
Theorem C24_rotate_plane hint X : mv_valid a X -> run_eq a (X *. T) (Neg (T *. X)) = Some true ->
  exists2 Y, mv_exp f a hint T = Some Y & mv_valid a Y /\ gives a (rotate_multivector f a hint X T) (X *. Y).
Proof.
move=> hX; rewrite (run_eqP two wf Hc) /= ?hX ?hT // => -[/eqP e].
have [Y EY [oY vY _]] := exp_ofP hint (p := T) hT (sqP hT eT).
have hY : mv_valid a Y by rewrite mv_validE.
exists Y => //; split=> //; apply: (ygives (rotate_ofP hint (p := X) hX hT eT)); rewrite /= ?hX ?hY // (VE oY) vY /= -/t rotE.
rewrite -[Em * _]expvN; last by rewrite /h -scalerAr -scalerAl -scalerN; congr (_ *: _).
rewrite -mulrA; apply: (congr1 (fun z : C => (den cm (obj X) : C) * z)); have := expvM (2%:R)^-1 (2%:R)^-1 (sqP hT eT).
have -> : (2%:R)^-1 + (2%:R)^-1 = 1 :> R by rewrite -[LHS]mulr2n -[LHS]mulr_natl mulrV.
rewrite !mul1r scale1r => <-; rewrite -/t -/h; have -> : (2%:R)^-1 * (2%:R)^-1 * q = q / 4%:R by rewrite -invfM -natrM mulrC.
by [].
Qed.
(* ---- rotation by a bivector ---- *)
Section Bivector.
Hypotheses (bT : blade_form a T) (gT : run_eq a (Grade T 2) T = Some true).
Lemma t2 : homog 2 t.
Proof.
move: gT; rewrite (run_eqP two wf Hc) /= ?hT ?[_ || _]bT // => -[/eqP e].
exact: e.
Qed.
Lemma h2 : homog 2 h. Proof. by rewrite /homog /h linearZ /= t2. Qed.
Lemma homogZ (r : nat) c (x : mval R n) : homog r x -> homog r (c *: x).
Proof. by rewrite /homog linearZ /= => ->. Qed.
Lemma homogD (r : nat) (x y : mval R n) : homog r x -> homog r y -> homog r (x + y).
Proof. by rewrite /homog linearD /= => -> ->. Qed.
Lemma rotor_expand (c s : R) (x y : C) :
  (c *: 1 + s *: - y) * x * (c *: 1 + s *: y) = (c * c) *: x + (- (c * s)) *: (y * x - x * y) + (- (s * s)) *: (y * x * y).
Proof.
have -> : (c *: 1 + s *: - y) * x = c *: x - s *: (y * x) by rewrite mulrDl -scalerAl mul1r -scalerAl mulNr scalerN.
rewrite mulrDr -!scalerAr mulr1 mulrBl -!scalerAl !scalerBr !scalerA [s * c]mulrC !scaleNr opprK -!addrA; congr (_ + _).
Qed.
Lemma expv_form p : exists c s, forall y : C, expv p y = c *: 1 + s *: y.
Proof.
case: (p =P 0) => [p0|/eqP p0]; first by exists 1, 1 => y; rewrite /expv p0 eqxx !scale1r addrC.
by exists (fcos f (fsqrt f (- p))), (fsin f (fsqrt f (- p)) / fsqrt f (- p)) => y; rewrite /expv (negPf p0).
Qed.
Lemma sandwich (r : nat) (x : C) : homog r x -> homog r (h * x * h).
Proof.
move=> hx; set u : C := h * x - x * h; have hu : homog r u by exact: (com_homog two h2 hx).
have e1 : h * x * h = (q / 4%:R) *: x - h * u.
  by rewrite /u mulrBr [h * (h * x)]mulrA hh -(scalerAl (q / 4%:R)) mul1r opprB addrC subrK mulrA.
have e2 : h * x * h = (q / 4%:R) *: x + u * h.
  by rewrite /u mulrBl -[x * h * h]mulrA hh -(scalerAr (q / 4%:R)) mulr1 addrC subrK.
have hu2 : homog r (h * u - u * h : C) by exact: (com_homog two h2 hu).
have e3 : h * u = - (u * h) by apply: oppr_inj; rewrite opprK; apply: (addrI ((q / 4%:R) *: x)); rewrite -e1 -e2.
have e4 : h * u = (2%:R)^-1 *: (h * u - u * h).
  rewrite -e3 -mulr2n -scaler_nat scalerA mulVr // scale1r //.
rewrite e1; apply: homogD; first exact: homogZ.
by rewrite e4 -scaleN1r; do 2 apply: homogZ.
Qed.
Lemma rot_homog (r : nat) (x : C) : homog r x -> homog r (rot q t x).
Proof.
move=> hx; rewrite rotE; have [c [s E]] := expv_form (q / 4%:R); rewrite !E.
have -> : (c *: 1 + s *: - h) * x * (c *: 1 + s *: h) = (c * c) *: x + (- (c * s)) *: (h * x - x * h) + (- (s * s)) *: (h * x * h) :> C.
  exact: rotor_expand.
do !apply: homogD; apply: homogZ => //; first exact: (com_homog two h2 hx).
exact: sandwich.
Qed.
Lemma rot_is_linear : linear (rot q t).
Proof. by move=> c x y; exact: rotL. Qed.
Definition rot_linear := Linear rot_is_linear.
Lemma rot_gpart (r : nat) (x : C) : rot q t (gpart r x) = gpart r (rot q t x).
Proof.
have -> : rot q t x = \sum_(k < n.+1) rot q t (gpart k x).
  by rewrite {1}[x]gpart_sum; exact: (linear_sum rot_linear).
rewrite (raddf_sum (gpart_additive R n r)) /=.
case: (leqP r n) => rn; last first.
  rewrite gpart_out // [LHS]rot0 big1 // => k _.
  by rewrite gpart_out.
rewrite (bigD1 (Ordinal (rn : (r < n.+1)%N))) //= big1 ?addr0 => [|k kr].
  by apply/esym; apply: rot_homog; exact: homog_gpart.
rewrite (gpart_homog _ (rot_homog (homog_gpart k x))); case: eqP => // e.
by case/negP: kr; apply/eqP/val_inj; rewrite /= e.
Qed.
Lemma rot_sel (F : nat -> nat -> option nat) (x y : C) :
  rot q t (selprod (fun u v : C => u * v) F x y) = selprod (fun u v : C => u * v) F (rot q t x) (rot q t y).
Proof.
apply: etrans (linear_sum rot_linear _ _ _) _; apply: eq_bigr => r _; apply: etrans (linear_sum rot_linear _ _ _) _; apply: eq_bigr => s _ /=.
case: (F r s) => [k|]; last exact: rot0.
by rewrite rot_gpart rotM !rot_gpart.
Qed.
Lemma mrev_h : mrev h = - h :> C.
Proof. by rewrite -{1}h2 mrev_gpart h2 /= expr1 scaleN1r. Qed.
Lemma rot_mrev (x : C) : mrev (rot q t x) = rot q t (mrev x).
Proof.
rewrite !rotE !mrevM !mrev_expv mrev_h.
have -> : mrev (- h) = h :> C by rewrite -scaleN1r mrevZ mrev_h scaleN1r opprK.
by rewrite mulrA.
Qed.
Lemma rot_scalar (x : C) : (rot q t x : mval R n) set0 = (x : mval R n) set0.
Proof. by rewrite rotE -mulrA scalar_swap -mulrA; have [_ ->] := EmEp; rewrite mulr1. Qed.

(* it keeps the grades, so vectors are sent to vectors *)
Theorem C24_rotate_grades hint X (r : nat) : mv_valid a X -> blade_form a X ->
  exists2 X', rotate_multivector f a hint X T = Some X' & gives a (rotate_of hint (Grade X r) T) (Grade X' r).
Proof.
move=> hX bX; have [X' [-> oX' hX' bX' eX]] := rotate_obj hint hX; exists X' => //.
apply: (ygives (rotate_ofP hint _ hT eT)); rewrite /= ?hX ?hX' ?[_ || _]bX ?[_ || _]bX' //=.
by rewrite eX; apply/esym; exact: rot_gpart.
Qed.
(* the outer and the inner product *)
Theorem C24_rotate_products hint X Y : mv_valid a X -> mv_valid a Y ->
  exists X' Y', [/\ rotate_multivector f a hint X T = Some X', rotate_multivector f a hint Y T = Some Y',
    gives a (rotate_of hint (X ^. Y) T) (X' ^. Y'), gives a (rotate_of hint (X ||. Y) T) (X' ||. Y') &
    gives a (rotate_of hint (X <. Y) T) (X' <. Y')].
Proof.
move=> hX hY; have [X' [-> oX' hX' bX' eX]] := rotate_obj hint hX; have [Y' [-> oY' hY' bY' eY]] := rotate_obj hint hY.
exists X', Y'; split=> //; apply: (ygives (rotate_ofP hint _ hT eT)); rewrite /= ?hX ?hY ?hX' ?hY' // eX eY; apply/esym.
- by rewrite -/t !(ext_selprod two g); exact: rot_sel.
- exact: rot_sel.
- exact: rot_sel.
Qed.
Theorem C24_rotate_qform hint X : mv_valid a X -> blade_form a X ->
  exists2 X', rotate_multivector f a hint X T = Some X' & isSome (mv_qform a X) /\ mv_qform a X' = mv_qform a X.
Proof.
move=> hX bX; have oX : mv_ok a X by rewrite -mv_validE.
have [X' [-> oX' hX' bX' eX]] := rotate_obj hint hX; exists X' => //.
rewrite !(mv_qformP two wf) //; split=> //; rewrite -!VE // eX rot_mrev.
by rewrite -rotM rot_scalar.
Qed.
End Bivector.
End Theta.
(* itheta*itheta no scalar: the rotation raises *)
Theorem C24_rotate_raises hint X T : mv_valid a T -> (forall q, run_eq a (T *. T) (Num q) <> Some true) ->
  rotate_multivector f a hint X T = None.
Proof.
move=> hT ns; have oT : mv_ok a T by rewrite -mv_validE.
rewrite /rotate_multivector; have [m -> [om vm _]] := mv_negP two oT; rewrite /= /mv_divc /sinv two.
have [m2 E [om2 vm2 _]] := mv_scaleP two (2%:R)^-1 om.
have hm2 : mv_valid a m2 by rewrite mv_validE.
rewrite -[LET d := Some _ IN mv_scale a d m]/(mv_scale a (2%:R)^-1 m) E -[LET m0 := Some m2 IN _]/(LET Rm := mv_exp f a hint m2 IN _).
suff -> : mv_exp f a hint m2 = None by [].
apply: C21_raises => // q' /(sqP hm2); rewrite (VE om2) vm2 vm => e.
case: (ns (4%:R * q')); apply: (run_law two wf Hc); rewrite /= ?hT // (VE oT).
have -> : mvv T = - (2%:R *: ((2%:R)^-1 *: - mvv T)) by rewrite scalerA mulrV // scale1r opprK.
apply: etrans (mulrNN (_ : C) _) _; apply: etrans (sq_scale 2%:R e) _.
by rewrite -natrM.
Qed.
End Exp.

Print Assumptions C21_null.
Print Assumptions C21_trig.
Print Assumptions C21_hyp.
Print Assumptions C21_hint.
Print Assumptions C21_group.
Print Assumptions C21_inverse.
Print Assumptions C21_reverse.
Print Assumptions C21_raises.
Print Assumptions C24_rotate_linear.
Print Assumptions C24_rotate_product.
Print Assumptions C24_rotate_scalar.
Print Assumptions C24_rotate_inverse.
Print Assumptions C24_rotate_fixed.
Print Assumptions C24_rotate_plane.
Print Assumptions C24_rotate_grades.
Print Assumptions C24_rotate_products.
Print Assumptions C24_rotate_qform.
Print Assumptions C24_rotate_raises.
