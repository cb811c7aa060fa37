(* Gamma.v -- a matrix representation of every Clifford algebra over the algebraic
   numbers, of size 2^((n+1)/2), in which the trace is a multiple of the scalar part. *)
From mathcomp Require Import all_ssreflect all_algebra all_field.
From Verif Require Import NatTac AlgTactics.
Set Implicit Arguments.
Unset Strict Implicit.
Unset Printing Implicit Defensive.
Import GRing.Theory.
Local Open Scope ring_scope.

(* ---- a symmetric matrix is a square, M M^T ---- *)
Lemma algC2 : (2%:R : algC) != 0. Proof. by rewrite Num.Theory.pnatr_eq0. Qed.

Lemma schur n (a : algC) (b : 'rV[algC]_n) (C : 'M[algC]_n) (s : algC) (M : 'M[algC]_n) :
  a != 0 -> s ^+ 2 = a -> C - a^-1 *: (b^T *m b) = M *m M^T ->
  block_mx a%:M b b^T C =
  block_mx s%:M 0 (s^-1 *: b^T) M *m (block_mx s%:M 0 (s^-1 *: b^T) M)^T :> 'M_(1 + n).
Proof.
move=> a0 sa CM; have s0 : s != 0 by apply: contra_neq a0 => s0; rewrite -sa s0 expr0n.
rewrite tr_block_mx mulmx_block !trmx0 !mul0mx !mulmx0 !addr0 -CM.
rewrite tr_scalar_mx linearZ /= trmxK -!scalemxAl -!scalemxAr mul_scalar_mx mul_mx_scalar !scalerA.
rewrite mul_scalar_mx scalerA mulVf // !scale1r scale_scalar_mx -invfM -expr2 sa.
by rewrite [X in _ = block_mx _ _ _ X]addrC subrK.
Qed.

Lemma sym_square n (G : 'M[algC]_n) : G^T = G -> exists M : 'M[algC]_n, G = M *m M^T.
Proof.
elim: n G => [|n IH] G Gs; first by exists 0; apply/matrixP; case.
have step (H : 'M[algC]_(1 + n)) : H^T = H -> (H 0 0 != 0 \/ ursubmx H = 0) ->
  exists M : 'M[algC]_(1 + n), H = M *m M^T.
  move=> Hs; pose a := H 0 0; pose b := ursubmx H; pose C := drsubmx H.
  have ea : ulsubmx H = a%:M by rewrite [LHS]mx11_scalar !mxE; congr (H _ _)%:M; apply: val_inj.
  have eb : dlsubmx H = b^T by rewrite -[in LHS]Hs -trmx_ursub.
  have Cs : C^T = C by rewrite /C -[in RHS]Hs -trmx_drsub.
  have eH : H = block_mx a%:M b b^T C by rewrite -ea -eb submxK.
  case=> [a0|b0].
    have /IH [M eM] : (C - a^-1 *: (b^T *m b))^T = C - a^-1 *: (b^T *m b).
      by rewrite linearB /= linearZ /= trmx_mul trmxK Cs.
    exists (block_mx (Num.Theory.sqrtC a)%:M 0 ((Num.Theory.sqrtC a)^-1 *: b^T) M).
    by rewrite [LHS]eH; apply: schur => //; rewrite Num.Theory.sqrtCK.
  have [a0|a0] := eqVneq a 0.
    have [M eM] := IH C Cs; exists (block_mx 0 0 0 M).
    rewrite [LHS]eH /b b0 a0 trmx0 eM tr_block_mx !trmx0 mulmx_block !mulmx0 !mul0mx !addr0 add0r.
    by congr block_mx; apply/matrixP => i j; rewrite !mxE mul0rn.
  have [M eM] := IH C Cs; exists (block_mx (Num.Theory.sqrtC a)%:M 0 0 M).
  rewrite [LHS]eH /b b0 trmx0 eM tr_block_mx !trmx0 mulmx_block !mulmx0 !mul0mx !addr0 add0r.
  by rewrite tr_scalar_mx -scalar_mxM -expr2 Num.Theory.sqrtCK.
have [G0|G0] := boolP ((G 0 0 != 0) || (ursubmx (G : 'M_(1 + n)) == 0)).
  by apply: step => //; case/orP: G0 => [->|/eqP ->]; [left|right].
move: G0; rewrite negb_or negbK => /andP[/eqP a0 b0].
have [j bj] : exists j, ursubmx (G : 'M_(1 + n)) 0 j != 0.
  apply/existsP; apply: contraT; rewrite negb_exists => /forallP h; case/eqP: b0.
  by apply/rowP => j; rewrite [RHS]mxE; apply/eqP; have := h j; rewrite negbK.
pose k : 'I_n.+1 := rshift 1 j.
have k0 : k != 0 by [].
have Gk : G 0 k != 0 by move: bj; rewrite !mxE; congr (G _ _ != 0); apply: val_inj.
have Gk' : G k 0 = G 0 k by rewrite -[in LHS]Gs mxE.
pose P (t : algC) : 'M_n.+1 := 1%:M + t *: delta_mx 0 k.
have Pinv t : P t *m P (- t) = 1%:M.
  rewrite /P mulmxDl mul1mx mulmxDr mulmx1 -scalemxAl -scalemxAr mul_delta_mx_0 // ?scaler0 ?addr0.
  by rewrite scaleNr -addrA addNr addr0.
have Pval t : (P t *m G *m (P t)^T) 0 0 = t * 2%:R * G 0 k + t ^+ 2 * G k k.
  have row (A : 'M[algC]_n.+1) i : (P t *m A) 0 i = A 0 i + t * A k i.
    rewrite /P mulmxDl mul1mx -scalemxAl mxE [X in _ + X]mxE; congr (_ + _ * _).
    by rewrite mxE (bigD1 k) //= mxE !eqxx mul1r big1 ?addr0 // => l lk; rewrite mxE (negPf lk) mul0r.
  have ent i : (G *m (P t)^T) i 0 = (P t *m G) 0 i by rewrite -[in LHS]Gs -trmx_mul mxE.
  rewrite -mulmxA row !ent !row Gk' a0 add0r mulrDr addrA -mulrDr -mulr2n -mulr_natl expr2 !mulrA.
  by rewrite [X in X * _ + _]mulrC -[in RHS]mulrA [2%:R * _]mulrC !mulrA.
have [t tn] : exists t, (P t *m G *m (P t)^T) 0 0 != 0.
  have [e|e] := eqVneq ((P 1 *m G *m (P 1)^T) 0 0) 0; last by exists 1.
  exists (-1); rewrite Pval; move: e; rewrite Pval sqrrN expr1n !mul1r => /eqP.
  rewrite addr_eq0 => /eqP e; rewrite mulN1r mulNr e opprK -mulr2n -mulr_natl mulf_neq0 ?algC2 //.
  rewrite -oppr_eq0 -e mulf_neq0 ?algC2 //.
have [M eM] : exists M : 'M[algC]_n.+1, P t *m G *m (P t)^T = M *m M^T.
  by apply: step; [rewrite !trmx_mul trmxK Gs mulmxA | left].
exists (P (- t) *m M); rewrite trmx_mul mulmxA -(mulmxA _ M) -eM !mulmxA.
have Q := Pinv (- t); rewrite opprK in Q; rewrite Q mul1mx -mulmxA -trmx_mul Q trmx1 mulmx1 //.
Qed.

(* ---- anticommuting matrices ---- *)
Fixpoint gdim (m : nat) : nat := if m is m'.+1 then (gdim m' + (gdim m').+1)%N else 0%N.
Lemma gdimE m : (gdim m).+1 = (2 ^ m)%N.
Proof. by elim: m => //= m IH; rewrite expnS mul2n -addnn -IH. Qed.

Notation Mg m := ('M[algC]_((gdim m).+1)).
Notation ii := (Num.Theory.imaginaryC : algC).
Definition blk (m : nat) (a b c d : Mg m) : Mg m.+1 :=
  block_mx a b c d.
Lemma blkM m (a b c d a' b' c' d' : Mg m) :
  blk a b c d * blk a' b' c' d' = blk (a * a' + b * c') (a * b' + b * d') (c * a' + d * c') (c * b' + d * d').
Proof. exact: (@mulmx_block _ (gdim m).+1 (gdim m).+1 (gdim m).+1 (gdim m).+1 (gdim m).+1 (gdim m).+1). Qed.
Lemma blkD m (a b c d a' b' c' d' : Mg m) :
  blk a b c d + blk a' b' c' d' = blk (a + a') (b + b') (c + c') (d + d').
Proof. exact: (@add_block_mx _ (gdim m).+1 (gdim m).+1 (gdim m).+1 (gdim m).+1). Qed.
Lemma blkZ m k (a b c d : Mg m) :
  k *: blk a b c d = blk (k *: a) (k *: b) (k *: c) (k *: d).
Proof. exact: (@scale_block_mx _ (gdim m).+1 (gdim m).+1 (gdim m).+1 (gdim m).+1). Qed.
Lemma blk1 m : blk 1 0 0 1 = 1 :> Mg m.+1.
Proof. by apply: (esym (@scalar_mx_block _ (gdim m).+1 (gdim m).+1 1)). Qed.
Lemma blk_tr m (a b c d : Mg m) : \tr (blk a b c d) = \tr a + \tr d.
Proof. exact: (@mxtrace_block _ (gdim m).+1 (gdim m).+1). Qed.

Fixpoint gam (m : nat) (j : nat) : Mg m :=
  match m return Mg m with
  | 0 => 0
  | m'.+1 => if (j < m'.*2)%N then blk (gam m' j) 0 0 (- gam m' j)
             else if j == m'.*2 then blk 0 1 1 0
             else blk 0 (- ii%:A) ii%:A 0
  end.
Fixpoint chir (m : nat) : Mg m :=
  match m return Mg m with
  | 0 => 1
  | m'.+1 => blk (chir m') 0 0 (- chir m')
  end.
Lemma blk0 m : blk 0 0 0 0 = 0 :> Mg m.+1.
Proof. exact: (@block_mx0 _ (gdim m).+1 (gdim m).+1 (gdim m).+1 (gdim m).+1). Qed.
Lemma chir_sq m : chir m * chir m = 1.
Proof. by elim: m => [|m IH] /=; rewrite ?mulr1 // blkM !mul0r !mulr0 !addr0 add0r mulrNN IH blk1. Qed.

Lemma chir_gam m j : chir m * gam m j = - (gam m j * chir m).
Proof.
elim: m j => [|m IH] j /=; first by rewrite mulr0 mul0r oppr0.
case: ifP => _.
  rewrite !blkM !mul0r !mulr0 !addr0 !add0r !mulrNN IH.
  by rewrite -[RHS]scaleN1r blkZ !scaleN1r oppr0 ?opprK.
by case: ifP => _; rewrite !blkM -[RHS]scaleN1r blkZ !scaleN1r !(mul0r, mulr0, addr0, add0r, mulr1, mul1r, mulNr, mulrN, mulr_algl, mulr_algr, oppr0, opprK).
Qed.
Lemma gam_rel m j k : (j < m.*2)%N -> (k < m.*2)%N ->
  gam m j * gam m k + gam m k * gam m j = (2%:R *+ (j == k))%:A.
Proof.
elim: m j k => [|m IH] // j k; rewrite doubleS !ltnS => jm km.
have blkA (c : algC) : c%:A = blk c%:A 0 0 c%:A :> Mg m.+1 by rewrite -blk1 blkZ !scaler0.
rewrite blkA /=.
have ii2 : ii * ii = -1 by rewrite -expr2 Num.Theory.sqrCi.
have [jl|jl] := ltnP j m.*2; have [kl|kl] := ltnP k m.*2.
- by rewrite !blkM blkD !mul0r !mulr0 !addr0 !add0r !mulrNN IH.
- have -> : (j == k) = false by apply/negP => /eqP e; rewrite -e leqNgt jl in kl.
  by case: ifP => _; rewrite !blkM blkD !(mul0r, mulr0, addr0, add0r, mulr1, mul1r, mulNr, mulrN, mulr_algl, mulr_algr, oppr0, opprK, mulr0n, scale0r, subrr, addNr).
- have -> : (j == k) = false by apply/negP => /eqP e; rewrite e leqNgt kl in jl.
  by case: ifP => _; rewrite !blkM blkD !(mul0r, mulr0, addr0, add0r, mulr1, mul1r, mulNr, mulrN, mulr_algl, mulr_algr, oppr0, opprK, mulr0n, scale0r, subrr, addNr).
have two (x : Mg m) : x + x = 2%:R *: x by rewrite scaler_nat mulr2n.
case: eqP => [ej|nj]; case: eqP => [ek|nk].
- by rewrite ej ek eqxx mulr1n !blkM blkD !(mul0r, mulr0, addr0, add0r, mulr1) two.
- have -> : (j == k) = false by apply/negP => /eqP e; rewrite -e in nk.
  by rewrite !blkM blkD !(mul0r, mulr0, addr0, add0r, mulr1, mul1r, mulr0n, scale0r, subrr, addNr).
- have -> : (j == k) = false by apply/negP => /eqP e; rewrite e in nj.
  by rewrite !blkM blkD !(mul0r, mulr0, addr0, add0r, mulr1, mul1r, mulr0n, scale0r, subrr, addNr).
have -> : (j == k) = true.
  by apply/eqP; move: jl kl nj nk jm km; nlia.
rewrite !blkM blkD !(mul0r, mulr0, addr0, add0r, mulrN, mulNr, mulr_algl) scalerA ii2.
by rewrite scaleN1r !opprK two.
Qed.
