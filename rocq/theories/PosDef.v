(* PosDef.v -- in a positive definite metric the quadratic form <rev(x) x> of a
   multivector is positive, and zero at 0 only. *)
From mathcomp Require Import all_ssreflect all_algebra.
From Verif Require Import NatTac AlgTactics Exterior Clifford Blades Spec_Grade Grades GradeLaws ContrLaws.
Set Implicit Arguments.
Unset Strict Implicit.
Unset Printing Implicit Defensive.
Import GRing.Theory Num.Theory Order.POrderTheory.
Local Open Scope ring_scope.

Section Sub.
Variables (R : comUnitRingType) (n : nat) (g : cmetric R n).
Notation M := (mval R n).
Notation C := (clifford g).
Implicit Types (i j k : 'I_n) (S T U V : {set 'I_n}) (x y : M).

(* combinations of the blades inside U *)
Definition sub U x : Prop := forall S, ~~ (S \subset U) -> x S = 0.
Lemma sub0 U : sub U 0. Proof. by move=> S _; rewrite ffunE. Qed.
Lemma subD U x y : sub U x -> sub U y -> sub U (x + y).
Proof. by move=> hx hy S hS; rewrite ffunE hx // hy // addr0. Qed.
Lemma subZ U c x : sub U x -> sub U (c *: x).
Proof. by move=> hx S hS; rewrite scale_coef hx // mulr0. Qed.
Lemma subN U x : sub U x -> sub U (- x).
Proof. by rewrite -scaleN1r; exact: subZ. Qed.
Lemma subB U x y : sub U x -> sub U y -> sub U (x - y).
Proof. by move=> hx hy; apply: subD => //; exact: subN. Qed.
Lemma sub_sum U (I : Type) (r : seq I) (P : pred I) (F : I -> M) :
  (forall z, P z -> sub U (F z)) -> sub U (\sum_(z <- r | P z) F z).
Proof. by move=> h; elim/big_ind: _ => //; [exact: sub0|exact: subD]. Qed.
Lemma sub_bl U S : S \subset U -> sub U (bl R S).
Proof. by move=> h T hT; rewrite bl_coef; case: eqP hT => // ->; rewrite h. Qed.
Lemma sub_mono U V x : U \subset V -> sub U x -> sub V x.
Proof. by move=> h hx S hS; apply: hx; apply: contra hS => /subset_trans; exact. Qed.
Lemma sub_lin U V (f : {linear M -> M}) x : (forall S, S \subset U -> sub V (f (bl R S))) -> sub U x -> sub V (f x).
Proof.
move=> h hx; rewrite [x]mval_decomp linear_sum; apply: sub_sum => S _; rewrite linearZ /=.
by case: (boolP (S \subset U)) => hS; [apply: subZ; exact: h|rewrite hx // scale0r; exact: sub0].
Qed.
Lemma sub_wedge U i x : i \in U -> sub U x -> sub U (wedge_op i x).
Proof.
move=> iU; apply: (sub_lin (f := [linear of @wedge_op R n i])) => S hS /=; rewrite wedge_op_bl /Wb.
case: ifP => _; first exact: sub0.
by apply: subZ; apply: sub_bl; rewrite subUset sub1set iU.
Qed.
Lemma sub_contr U i x : sub U x -> sub U (contr_op i x).
Proof.
apply: (sub_lin (f := [linear of @contr_op R n i])) => S hS /=; rewrite contr_op_bl /Cb.
case: ifP => _; last exact: sub0.
by apply: subZ; apply: sub_bl; apply: subset_trans hS; exact: subsetDl.
Qed.
Lemma sub_gcontr U i x : sub U x -> sub U (gcontr g i x).
Proof. by move=> h; rewrite gcontrE; apply: sub_sum => j _; apply: subZ; exact: sub_contr. Qed.
Lemma sub_lmul U i x : i \in U -> sub U x -> sub U (lmul g i x).
Proof. by move=> iU hx; apply: subD; [exact: sub_wedge|exact: sub_gcontr]. Qed.
Lemma sub_Op U w y : {subset w <= U} -> sub U y -> sub U (Op g w y).
Proof.
elim: w y => [|i w IH] y hw hy //=; have iU : i \in U by apply: hw; rewrite mem_head.
have hw' : {subset w <= U} by move=> j jw; apply: hw; rewrite inE jw orbT.
apply: subZ; apply: subD; first by apply: sub_lmul => //; exact: IH.
by apply: subZ; apply: IH => //; exact: sub_lmul.
Qed.
Lemma sub_mul U x y : sub U x -> sub U y -> sub U ((x : C) * (y : C)).
Proof.
move=> hx hy; apply: sub_sum => S _.
case: (boolP (S \subset U)) => hS; last by rewrite hx // scale0r; exact: sub0.
by apply: subZ; apply: sub_Op => // j; rewrite mem_enum; move/subsetP: hS; exact.
Qed.
Lemma sub_mrev U x : sub U x -> sub U (mrev x).
Proof.
apply: (sub_lin (f := Linear (@mrev_is_linear R n))) => S hS /=.
by rewrite mrev_bl; apply: subZ; exact: sub_bl.
Qed.
(* the blades inside k |: U are those inside U and their products with e_k *)
Lemma sub_split U k x : k \notin U -> sub (k |: U) x ->
  exists b c : M, [/\ sub U b, sub U c & x = (b : C) + (c : C) * cgen g k].
Proof.
move=> kU hx.
suff H S : S \subset k |: U -> exists b c : M, [/\ sub U b, sub U c & bl R S = (b : C) + (c : C) * cgen g k].
  rewrite [x]mval_decomp; elim/big_rec: _ => [|S y _ [b [c [hb hc ->]]]].
    by exists 0, 0; split; [exact: sub0|exact: sub0|rewrite mul0r addr0].
  case: (boolP (S \subset k |: U)) => hS; last by exists b, c; rewrite hx // scale0r add0r.
  have [b' [c' [hb' hc' ->]]] := H S hS.
  exists (x S *: b' + b), (x S *: c' + c); split; [by apply: subD => //; exact: subZ|by apply: subD => //; exact: subZ|].
  by rewrite scalerDr mulrDl -scalerAl addrACA.
case: (boolP (k \in S)) => kS hS; last first.
  exists (bl R S), 0; split; [apply: sub_bl|exact: sub0|by rewrite mul0r addr0].
  apply/subsetP => i iS; move/subsetP: hS => /(_ i iS); rewrite !inE => /orP[/eqP ik|//].
  by rewrite -ik iS in kS.
have TU : S :\ k \subset U.
  apply/subsetP => i; rewrite !inE => /andP[ik iS]; move/subsetP: hS => /(_ i iS).
  by rewrite !inE (negPf ik).
pose s : R := (-1) ^+ (#|S :\ k| + nlt k (S :\ k)).
exists (s *: ((-1) ^+ #|S :\ k| *: gcontr g k (bl R (S :\ k)))), (s *: bl R (S :\ k)); split.
- by do 2!apply: subZ; apply: sub_gcontr; exact: sub_bl.
- by apply: subZ; exact: sub_bl.
rewrite -scalerAl cgen_mulr /rmul ginv_bl !linearZ /= [_ *: (s *: _)]scalerA [_ * s]mulrC -scalerA.
rewrite -!scalerDr addrC subrK wedge_op_bl /Wb !inE eqxx /= setD1K //.
by rewrite [X in _ = s *: X]scalerA scalerA -exprD /s -exprD -signr_odd oddD addbb scale1r.
Qed.
End Sub.

Section PosDef.
Variables (R : realFieldType) (n : nat) (g : cmetric R n).
Notation M := (mval R n).
Notation C := (clifford g).
Let two := two_unit g.
Implicit Types (i j k : 'I_n) (S T U V : {set 'I_n}) (x y : M).
Hypothesis pd : forall x : 'I_n -> R, (exists i, x i != 0) -> 0 < \sum_i \sum_j x i * x j * g i j.

(* the vector with coefficients c *)
Definition vec (c : 'I_n -> R) : C := \sum_i c i *: cgen g i.
Lemma vec_sub U c : (forall i, i \notin U -> c i = 0) -> sub U (vec c).
Proof.
move=> h; apply: sub_sum => i _; case: (boolP (i \in U)) => iU; last by rewrite h // scale0r; exact: sub0.
by apply: subZ; apply: sub_bl; rewrite sub1set.
Qed.
Lemma half2 (u : C) (q : R) : u + u = (q *+ 2) *: 1 -> u = q *: 1.
Proof.
move=> e; rewrite -[LHS]scale1r -(mulVr two) -scalerA scaler_nat [u *+ 2]mulr2n e scalerA mulrnAr -mulrnAl.
by rewrite -(mulr_natr _^-1) mulVr // mul1r.
Qed.
Lemma vec_sq c : vec c * vec c = (\sum_i \sum_j c i * c j * g i j) *: 1.
Proof.
apply: half2; rewrite {1 2}/vec.
have -> : (\sum_i c i *: cgen g i) * vec c = \sum_i \sum_j (c i * c j) *: (cgen g i * cgen g j).
  rewrite mulr_suml; apply: eq_bigr => i _; rewrite /vec mulr_sumr; apply: eq_bigr => j _.
  by rewrite -scalerAl -scalerAr scalerA.
rewrite {2}exchange_big -big_split /= -sumrMnl scaler_suml; apply: eq_bigr => i _.
rewrite -big_split /= -sumrMnl scaler_suml; apply: eq_bigr => j _.
rewrite [c j * c i]mulrC -scalerDr cgen_rel scalerA; congr (_ *: _).
by rewrite mulrnAr.
Qed.
(* the scalar part of a product with a vector sees the vector part only *)
Lemma scalar_vec x c : ((x : C) * vec c : M) set0 = \sum_i \sum_j x [set i] * c j * g i j.
Proof.
rewrite exchange_big /vec mulr_sumr sum_coef; apply: eq_bigr => j _ /=.
rewrite -scalerAr scale_coef -scalar_swap cgen_mul /lmul ffunE gcontrE sum_coef.
have -> : wedge_op j x set0 = 0.
  rewrite [x]mval_decomp linear_sum sum_coef big1 // => S _; rewrite linearZ /= scale_coef wedge_op_bl /Wb.
  case: ifP => _; first by rewrite ffunE mulr0.
  by rewrite scale_coef bl_coef eq_sym setU_eq0 -cards_eq0 cards1 /= !mulr0.
rewrite add0r mulr_sumr; apply: eq_bigr => i _; rewrite scale_coef (gram_sym g) /=.
have -> : contr_op i x set0 = x [set i].
  rewrite {1}[x]mval_decomp linear_sum sum_coef (bigD1 [set i]) //= big1 => [|S nS].
    by rewrite linearZ /= scale_coef contr_op_bl /Cb set11 scale_coef bl_coef (nlt_del i (set11 i)) setDv eqxx nlt0 ltnn expr0 addr0 !mulr1.
  rewrite linearZ /= scale_coef contr_op_bl /Cb; case: ifP => iS; last by rewrite ffunE mulr0.
  rewrite scale_coef bl_coef; case: eqP => [e|]; last by rewrite !mulr0.
  by rewrite -(setD1K iS) -e setU0 eqxx in nS.
by rewrite mulrA mulrAC [c j * _]mulrC.
Qed.
(* the part of e_k orthogonal to U *)
Lemma orthogonal_part U k : k \notin U -> exists c : 'I_n -> R,
  [/\ forall i, i \notin U -> c i = 0 & forall i, i \in U -> \sum_j c j * g j i = g k i].
Proof.
move=> kU.
pose A := \matrix_(i, j) (if (i \in U) && (j \in U) then g i j else (i == j)%:R).
have A0 (i j : 'I_n) : i \notin U -> A i j = (i == j)%:R by move=> h; rewrite mxE (negPf h).
have unitA : A \in unitmx.
  rewrite -row_free_unit -kermx_eq0; apply/eqP/row_matrixP => r; rewrite row0.
  have /sub_kermxP := row_sub r (kermx A); move: (row r _) => v vA.
  have v0 i : i \notin U -> v 0 i = 0.
    move=> iU; have := congr1 (fun m : 'rV_n => m 0 i) vA; rewrite !mxE (bigD1 i) //= big1 => [|j ji].
      by rewrite A0 // eqxx mulr1 addr0.
    by rewrite mxE (negPf iU) andbF (negPf ji) mulr0.
  apply/eqP; case: (boolP (v == 0)) => // /rV0Pn nz.
  suff E : \sum_i \sum_j v 0 i * v 0 j * g i j = 0 by have := pd nz; rewrite E ltxx.
  rewrite big1 // => i _.
  case: (boolP (i \in U)) => iU; last by rewrite big1 // => j _; rewrite v0 // !mul0r.
  have := congr1 (fun m : 'rV_n => v 0 i * m 0 i) vA; rewrite !mxE mulr0 => vAi; rewrite -[RHS]vAi.
  rewrite mulr_sumr; apply: eq_bigr => j _; rewrite mxE iU andbT.
  case: (boolP (j \in U)) => jU; first by rewrite -mulrA (gram_sym g).
  by rewrite (v0 _ jU) !(mulr0, mul0r).
pose b : 'rV_n := \row_i (if i \in U then g k i else 0).
pose c := b *m invmx A.
have cA : c *m A = b by rewrite mulmxKV.
move: c cA => c cA.
have c0 i : i \notin U -> c 0 i = 0.
  move=> iU; have := congr1 (fun m : 'rV_n => m 0 i) cA; rewrite !mxE (negPf iU) (bigD1 i) //= big1 => [|j ji].
    by rewrite A0 // eqxx mulr1 addr0.
  by rewrite mxE (negPf iU) andbF (negPf ji) mulr0.
exists (fun i => c 0 i); split=> // i iU.
have := congr1 (fun m : 'rV_n => m 0 i) cA; rewrite !mxE iU => <-.
apply: eq_bigr => j _; rewrite mxE iU andbT; case: (boolP (j \in U)) => // jU.
by rewrite c0 // !mul0r.
Qed.
Definition qf (x : C) : R := ((mrev x : C) * x : M) set0.
Lemma qf_pos U x : sub U x -> 0 <= qf x /\ (qf x = 0 -> x = 0).
Proof.
move: {2}#|U| (erefl #|U|) => m; elim: m U x => [|m IH] U x cU hx.
  have {cU hx} -> : x = x set0 *: (1 : C).
    apply/ffunP => S; rewrite scale_coef bl_coef; case: eqP => [->|nS]; first by rewrite mulr1.
    by rewrite mulr0 hx //; apply/negP; rewrite (cards0_eq cU) subset0 => /eqP.
  rewrite /qf [mrev _](linearZ_LR (Linear (@mrev_is_linear R n))) /= mrev_bl cards0 expr0 scale1r.
  rewrite -scalerAl -scalerAr mul1r !scale_coef bl_coef eqxx mulr1.
  split; first exact: sqr_ge0.
  by move/eqP; rewrite mulf_eq0 orbb => /eqP ->; rewrite scale0r.
have [k kU] : exists k, k \in U by apply/card_gt0P; rewrite cU.
pose V := U :\ k.
have cV : #|V| = m by apply/eqP; move: cU; rewrite (cardsD1 k) kU => -[] ->.
have kV : k \notin V by rewrite !inE eqxx.
have UE : U = k |: V by rewrite setD1K.
have [b0 [d [hb0 hd xE]]] : exists b c : M, [/\ sub V b, sub V c & x = (b : C) + (c : C) * cgen g k].
  by apply: sub_split => //; rewrite -UE.
have [c [c0 cg]] := orthogonal_part kV.
pose e i := (i == k)%:R - c i.
have ek : e k = 1 by rewrite /e eqxx c0 // subr0.
have gk : cgen g k = vec e + vec c.
  rewrite /vec -big_split (bigD1 k) //= big1 => [|i ik].
    by rewrite addr0 -scalerDl /e eqxx subrK scale1r.
  by rewrite -scalerDl /e (negPf ik) subrK scale0r.
have orth y : sub V y -> ((y : C) * vec e : M) set0 = 0.
  move=> hy; rewrite scalar_vec big1 // => i _.
  case: (boolP (i \in V)) => iV; last by rewrite big1 // => j _; rewrite hy ?mul0r // sub1set.
  suff E : \sum_j e j * g i j = 0 by rewrite -[RHS](mulr0 (y [set i])) -[in RHS]E mulr_sumr; apply: eq_bigr => j _; rewrite mulrA.
  transitivity (\sum_j ((j == k)%:R * g j i - c j * g j i)).
    by apply: eq_bigr => j _; rewrite /e mulrBl (gram_sym g).
  rewrite sumrB (cg _ iV) (bigD1 k) //= eqxx mul1r big1 ?addr0 ?subrr // => j jk.
  by rewrite (negPf jk) mul0r.
pose b : C := (b0 : C) + (d : C) * vec c.
have hb : sub V b by apply: subD => //; apply: sub_mul => //; exact: vec_sub.
have {xE}xE : x = b + (d : C) * vec e.
  by rewrite xE gk mulrDr /b -addrA [X in _ = _ + X]addrC.
set q := \sum_i \sum_j e i * e j * g i j.
have q0 : 0 < q by apply: pd; exists k; rewrite ek oner_eq0.
have [b_ge b_eq] := IH V b cV hb; have [d_ge d_eq] := IH V d cV hd.
have rv : mrev (vec e) = vec e.
  rewrite /vec (linear_sum (Linear (@mrev_is_linear R n))); apply: eq_bigr => i _.
  by rewrite linearZ /= mrev_cgen.
have E : qf x = qf b + q * qf d.
  have -> : qf x = (((mrev b : C) + (vec e : C) * (mrev d : C)) * (b + (d : C) * vec e) : M) set0.
    by rewrite /qf xE mrevD mrevM rv.
  rewrite mulrDr !mulrDl ffunE [X in X + _]ffunE [X in _ + X]ffunE /=.
  have -> : ((vec e : C) * (mrev d : C) * b : M) set0 = 0.
    by rewrite -mulrA -scalar_swap; apply: orth; apply: sub_mul => //; exact: sub_mrev.
  have -> : ((mrev b : C) * ((d : C) * vec e) : M) set0 = 0.
    by rewrite mulrA; apply: orth; apply: sub_mul => //; exact: sub_mrev.
  rewrite addr0 add0r; congr (_ + _).
  rewrite scalar_swap -!mulrA (mulrA (vec e)) vec_sq -/q -scalerAl mul1r -scalerAr scale_coef.
  by rewrite -scalar_swap.
rewrite E; split; first by rewrite addr_ge0 // mulr_ge0 // ltW.
move/eqP; rewrite paddr_eq0 ?mulr_ge0 ?(ltW q0) // mulf_eq0 (gt_eqF q0) /= => /andP[/eqP/b_eq b_0 /eqP/d_eq d_0].
by rewrite xE b_0 d_0 mul0r addr0.
Qed.
Theorem qf_posdef x : 0 <= qf x /\ (qf x = 0 -> x = 0).
Proof. by apply: (@qf_pos setT) => S; rewrite subsetT. Qed.
End PosDef.
