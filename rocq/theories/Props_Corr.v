(* Props_Corr.v -- property C71: correlation *)
From mathcomp Require Import all_ssreflect all_algebra.
From Verif Require Import PyBase Corr_Model Spec_Corr.
Set Implicit Arguments.
Unset Strict Implicit.
Unset Printing Implicit Defensive.
Import GRing.Theory Num.Theory Order.TTheory.
Local Open Scope ring_scope.

Section Props.
Variable R : rcfType.
Implicit Types (l : seq R).

(* ---- the loops ---- *)
Lemma total_prefix M k (s : R) j : (j + k <= size (s_flat M))%N ->
  total_loop M (iota j k) s = Some (s + \sum_(i <- iota j k) nth 0 (s_flat M) i).
Proof.
elim: k j s => [|k IH] j s jk /=; first by rewrite big_nil addr0.
rewrite {1}/at_flat; have -> : (j < size (s_flat M))%N by apply: leq_trans jk; rewrite addnS ltnS leq_addr.
by rewrite /= IH ?addSnnS // big_cons addrA.
Qed.
Lemma centred_prefix ave k j l : (j + k <= size l)%N ->
  foldl (fun l i => set_nth 0 l i (nth 0 l i - ave)) l (iota j k) =
  [seq (if (j <= i < j + k)%N then nth 0 l i - ave else nth 0 l i) | i <- iota 0 (size l)].
Proof.
elim: k j l => [|k IH] j l jk /=.
  rewrite -[LHS](mkseq_nth 0) /mkseq; apply: eq_map => i; rewrite addn0; case: ifP => // /andP[h1 h2].
  by move: (leq_ltn_trans h1 h2); rewrite ltnn.
have jl : (j < size l)%N by apply: leq_trans jk; rewrite addnS ltnS leq_addr.
have sz : size (set_nth 0 l j (nth 0 l j - ave)) = size l by rewrite size_set_nth; apply/maxn_idPr.
rewrite IH ?sz ?addSnnS //; apply: eq_map => i; rewrite nth_set_nth /=.
case: (ltngtP j i) => [ji|ij|<-] //=; rewrite ?leqnn ?ltnn ?addnS ?ltnS ?leq_addr //.
Qed.
Lemma foldl_sum (T : Type) (F : T -> R) (s : R) (l : seq T) : foldl (fun s x => s + F x) s l = s + \sum_(x <- l) F x.
Proof. by elim: l s => [|x l IH] s /=; rewrite ?big_nil ?addr0 // IH big_cons addrA. Qed.

Variable n : nat.
Implicit Types x y : 'I_n -> R.
Lemma nth_enum_map x (i : 'I_n) : nth 0 [seq x i | i <- enum 'I_n] i = x i.
Proof. by rewrite (nth_map i) ?size_enum_ord // nth_ord_enum. Qed.
Lemma sum_enum (F : R -> R) x : \sum_(c <- [seq x i | i <- enum 'I_n]) F c = \sum_i F (x i).
Proof. by rewrite big_map big_enum. Qed.
Lemma total_column x : total (column x) n = Some (\sum_i x i).
Proof.
have sz : size (s_flat (column x)) = n by rewrite size_map size_enum_ord.
rewrite /total total_prefix ?sz // add0r -(sum_enum id); congr Some.
by rewrite [in RHS](big_nth 0) size_map size_enum_ord /index_iota subn0.
Qed.
Lemma size_entries x : size [seq x i | i <- enum 'I_n] = n. Proof. by rewrite size_map size_enum_ord. Qed.
Lemma centred_column x c : centred (column x) n c = column (fun i => x i - c).
Proof.
rewrite /centred /column /=; congr SMatrix; rewrite centred_prefix size_entries //.
apply: (@eq_from_nth _ 0); first by rewrite size_map size_iota size_entries.
rewrite size_map size_iota => i hi; rewrite (nth_map 0%N) ?size_iota // nth_iota // !add0n /= hi.
by rewrite -[i]/(val (Ordinal hi)) !nth_enum_map.
Qed.
Lemma mdot_column x y : mdot (column x) (column y) = Some (\sum_i x i * y i).
Proof.
rewrite /mdot /= orbT !size_map eqxx /=; congr Some; rewrite (foldl_sum (fun p : R * R => p.1 * p.2)) add0r.
by rewrite zip_map big_map big_enum.
Qed.
Lemma mnorm_column x : mnorm (column x) = Num.sqrt (\sum_i x i ^+ 2).
Proof.
rewrite /mnorm (foldl_sum (fun c : R => `|c| ^+ 2)) add0r (sum_enum (fun c : R => `|c| ^+ 2)); congr Num.sqrt.
by apply: eq_bigr => i _; rewrite real_normK ?num_real.
Qed.

(* ---- the coefficient ---- *)
Variable evalf : R -> R.
Notation corr x y := (correlation evalf (column x) (column y)).
Lemma corrE x y : (0 < n)%N -> corr x y =
  (let q := evalf (deviation x * deviation y) in if q == 0 then None else Some (covariance x y / q)).
Proof.
by move=> n0; rewrite /correlation /= !total_column eqn0Ngt n0 /= !centred_column mdot_column !mnorm_column.
Qed.

(* ---- Cauchy-Schwarz ---- *)
Lemma lagrange x y : let A := \sum_i x i ^+ 2 in let B := \sum_i y i ^+ 2 in let C := \sum_i x i * y i in
  \sum_i (B * x i - C * y i) ^+ 2 = B * (A * B - C ^+ 2).
Proof.
move=> A B C.
have E i : (B * x i - C * y i) ^+ 2 = B ^+ 2 * x i ^+ 2 - (B * C) *+ 2 * (x i * y i) + C ^+ 2 * y i ^+ 2.
  by rewrite sqrrB !exprMn (mulrACA B (x i)) mulrnAl.
rewrite (eq_bigr _ (fun i _ => E i)) big_split sumrB /= -!mulr_sumr -/A -/B -/C.
have -> : B ^+ 2 * A = B * (A * B) by rewrite expr2 -mulrA (mulrC A).
by rewrite mulrnAl -mulrA -expr2 (mulrC (C ^+ 2)) mulrBr mulr2n opprD addrA subrK.
Qed.
Lemma sumsq0 x : \sum_i x i ^+ 2 = 0 -> forall i, x i = 0.
Proof.
move=> /eqP; rewrite psumr_eq0 => [/allP h i|i _]; last exact: sqr_ge0.
by have /eqP/eqP := h i (mem_index_enum i); rewrite sqrf_eq0 => /eqP.
Qed.
Lemma sumsq_ge0 x : 0 <= \sum_i x i ^+ 2. Proof. by apply: sumr_ge0 => i _; exact: sqr_ge0. Qed.
Lemma cauchy x y : (\sum_i x i * y i) ^+ 2 <= (\sum_i x i ^+ 2) * (\sum_i y i ^+ 2).
Proof.
have := sumsq_ge0 y; rewrite le_eqVlt eq_sym => /orP[/eqP h|h].
  by rewrite h mulr0 big1 ?expr0n // => i _; rewrite (sumsq0 h) mulr0.
rewrite -subr_ge0 -(pmulr_rge0 _ h) -lagrange; apply: sumr_ge0 => i _; exact: sqr_ge0.
Qed.
(* ---- the properties of the coefficient ---- *)
Lemma dev_ge0 x : 0 <= deviation x. Proof. exact: sqrtr_ge0. Qed.
Lemma dev_sq x : deviation x ^+ 2 = \sum_i (x i - mean x) ^+ 2.
Proof. by rewrite sqr_sqrtr // (sumsq_ge0 (fun i => x i - mean x)). Qed.
Hypothesis n0 : (0 < n)%N.
Lemma nR : n%:R != 0 :> R. Proof. by rewrite pnatr_eq0 -lt0n. Qed.
Lemma dev0 x : deviation x = 0 <-> constant x.
Proof.
split=> [h i j|c].
  have := dev_sq x; rewrite h expr0n /= => /esym/(sumsq0 (x := fun i => x i - mean x)) z.
  by have /eqP := z i; have /eqP := z j; rewrite !subr_eq0 => /eqP -> /eqP ->.
have m i : mean x = x i.
  rewrite /mean (eq_bigr (fun=> x i)) => [|j _]; last exact: c.
  by rewrite sumr_const card_ord -[x i *+ n]mulr_natr mulfK ?nR.
apply/eqP; rewrite -sqrf_eq0 dev_sq big1 // => i _; by rewrite -m subrr expr0n.
Qed.
Lemma devs0 x y : ~ constant x -> ~ constant y -> 0 < deviation x * deviation y.
Proof.
by move=> cx cy; rewrite mulr_gt0 // lt_def dev_ge0 andbT; apply/eqP => /dev0.
Qed.
Definition exact_evalf : Prop := forall q, evalf q = q.
Theorem C71_value x y : exact_evalf -> ~ constant x -> ~ constant y -> corr x y = Some (pearson x y).
Proof. by move=> ex cx cy; rewrite corrE //= ex gt_eqF // devs0. Qed.
Theorem C71_constant x y : exact_evalf -> constant x \/ constant y -> corr x y = None.
Proof. by move=> ex c; rewrite corrE //= ex; case: c => /dev0 ->; rewrite ?mul0r ?mulr0 eqxx. Qed.
Theorem C71_symmetric x y : corr x y = corr y x.
Proof.
rewrite !corrE //= mulrC; have -> // : covariance x y = covariance y x.
by apply: eq_bigr => i _; rewrite mulrC.
Qed.
Lemma cov_le x y : `|covariance x y| <= deviation x * deviation y.
Proof.
rewrite -(ler_pexpn2r (n := 2)) ?nnegrE ?mulr_ge0 ?dev_ge0 // real_normK ?num_real // exprMn !dev_sq.
exact: (cauchy (fun i => x i - mean x) (fun i => y i - mean y)).
Qed.
(* the coefficient is between -1 and 1, up to the relative error of evalf *)
Theorem C71_bound x y (eps r : R) : eps < 1 -> (forall q, 0 <= q -> (1 - eps) * q <= evalf q) ->
  corr x y = Some r -> `|r| <= (1 - eps)^-1.
Proof.
move=> e1 ev; rewrite corrE //=; case: eqP => // /eqP q0 [<-].
have d0 : 0 <= deviation x * deviation y by rewrite mulr_ge0 ?dev_ge0.
have le0 : 0 < 1 - eps by rewrite subr_gt0.
have evp : 0 < evalf (deviation x * deviation y).
  rewrite lt_def q0 /=; apply: le_trans (ev _ d0); by rewrite mulr_ge0 // ltW.
rewrite normrM normfV (gtr0_norm evp) ler_pdivr_mulr // ler_pdivl_mull //.
by apply: le_trans (ev _ d0); rewrite ler_pmul2l // cov_le.
Qed.
(* shifts do not matter, factors change only the sign *)
Lemma mean_affine x (p q : R) : mean (fun i => p * x i + q) = p * mean x + q.
Proof.
rewrite /mean big_split -mulr_sumr sumr_const card_ord mulrDl -mulrA /= -[q *+ n]mulr_natr mulfK ?nR //.
Qed.
Lemma centre_affine x (p q : R) i : p * x i + q - mean (fun i => p * x i + q) = p * (x i - mean x).
Proof. by rewrite mean_affine opprD addrACA subrr addr0 mulrBr. Qed.
Lemma dev_affine x (p q : R) : deviation (fun i => p * x i + q) = `|p| * deviation x.
Proof.
rewrite /deviation; under eq_bigr => i _ do rewrite centre_affine exprMn.
by rewrite -mulr_sumr sqrtrM ?sqr_ge0 // sqrtr_sqr.
Qed.
Lemma cov_affine x y (p q s t : R) : covariance (fun i => p * x i + q) (fun i => s * y i + t) = p * s * covariance x y.
Proof.
rewrite /covariance; under eq_bigr => i _ do rewrite !centre_affine mulrACA.
by rewrite -mulr_sumr.
Qed.
Theorem C71_affine x y (p q s t : R) : exact_evalf -> p != 0 -> s != 0 ->
  corr (fun i => p * x i + q) (fun i => s * y i + t) = omap (fun r => Num.sg (p * s) * r) (corr x y).
Proof.
move=> ex p0 s0; rewrite !corrE //= !ex !dev_affine cov_affine mulrACA -normrM.
have ps : `|p * s| != 0 by rewrite normr_eq0 mulf_neq0.
rewrite mulf_eq0 (negbTE ps) /=; case: eqP => //= _; congr Some.
rewrite invfM mulrACA; congr (_ * _).
by rewrite {1}[p * s]numEsg mulfK.
Qed.
(* the coefficient is 1 exactly for increasing affine relations *)
Theorem C71_one x y : exact_evalf -> ~ constant x -> ~ constant y ->
  (corr x y = Some 1 <-> exists p q, 0 < p /\ forall i, y i = p * x i + q).
Proof.
move=> ex cx cy; have dd := devs0 cx cy.
have [dx dy] : 0 < deviation x /\ 0 < deviation y.
  by split; rewrite lt_def dev_ge0 andbT; apply/eqP => /dev0.
split=> [|[p [q [p0 yE]]]].
  rewrite C71_value // => -[h].
  have cE : covariance x y = deviation x * deviation y by rewrite -[LHS](divfK (lt0r_neq0 dd)) [X in X * _]h mul1r.
  set X := fun i => x i - mean x; set Y := fun i => y i - mean y.
  have cp : 0 < covariance x y by rewrite cE.
  have := lagrange Y X; rewrite /= -/(deviation _).
  have sX : \sum_i X i ^+ 2 = deviation x ^+ 2 by rewrite dev_sq.
  have sY : \sum_i Y i ^+ 2 = deviation y ^+ 2 by rewrite dev_sq.
  have sC : \sum_i Y i * X i = covariance x y by apply: eq_bigr => i _; rewrite mulrC.
  rewrite sX sY sC cE exprMn [X in _ * (_ - X)]mulrC subrr mulr0 => /(sumsq0 (x := fun i => _ * Y i - _ * X i)) z.
  exists (deviation y / deviation x), (mean y - deviation y / deviation x * mean x); split; first by rewrite divr_gt0.
  move=> i; have /eqP zi := z i; rewrite subr_eq0 expr2 -!mulrA in zi; have e := mulfI (lt0r_neq0 dx) (eqP zi).
  have {}e : Y i = deviation y / deviation x * X i.
    by apply: (mulfI (lt0r_neq0 dx)); rewrite e !mulrA (mulrAC _ (deviation y)) divff ?lt0r_neq0 // mul1r.
  by rewrite addrCA -mulrBr -[x i - mean x]/(X i) -e /Y addrC subrK.
have -> : corr x y = corr (fun i => 1 * x i + 0) (fun i => p * x i + q).
  rewrite !corrE //=; have E (f h : 'I_n -> R) : f =1 h -> mean f = mean h by move=> e; rewrite /mean (eq_bigr _ (fun i _ => e i)).
  have ex1 : x =1 (fun i => 1 * x i + 0) by move=> i; rewrite mul1r addr0.
  have -> : deviation (fun i => 1 * x i + 0) = deviation x by rewrite dev_affine normr1 mul1r.
  have -> : deviation y = deviation (fun i => p * x i + q).
    by rewrite /deviation (E _ _ yE); congr Num.sqrt; apply: eq_bigr => i _; rewrite yE.
  have -> // : covariance x y = covariance (fun i => 1 * x i + 0) (fun i => p * x i + q).
  by rewrite /covariance (E _ _ yE) -(E _ _ ex1); apply: eq_bigr => i _; rewrite yE -ex1.
rewrite C71_affine ?oner_neq0 ?lt0r_neq0 // C71_value //= mul1r gtr0_sg // mul1r /pearson.
have -> : covariance x x = deviation x * deviation x.
  by rewrite -expr2 dev_sq; apply: eq_bigr => i _; rewrite expr2.
by rewrite divff // mulf_neq0 // lt0r_neq0.
Qed.
End Props.

Section Cases.
Variable R : rcfType.
Definition of_list (l : seq R) (i : 'I_3) : R := nth 0 l i.
Lemma of_listE l : size l = 3%N -> [seq of_list l i | i <- enum 'I_3] = l.
Proof.
move=> sl; rewrite -[RHS](mkseq_nth 0) /mkseq sl -val_enum_ord.
by elim: (enum 'I_3) => //= i e ->.
Qed.
(* 0, 1, 2 and 5, 3, 1 *)
Example C71_ex : let x := of_list [:: 0; 1; 2%:R] in let y := of_list [:: 5%:R; 3%:R; 1] in
  [/\ exact_evalf (@id R), ~ constant x, ~ constant y & correlation id (column x) (column y) = Some (- 1)].
Proof.
move=> x y; have i0 : (0 < 3)%N by []; have i1 : (1 < 3)%N by [].
have ex : exact_evalf (@id R) by [].
have cx : ~ constant x by move/(_ (Ordinal i0) (Ordinal i1)); rewrite /x /of_list /= => /eqP; rewrite eq_sym oner_eq0.
have cy : ~ constant y by move/(_ (Ordinal i0) (Ordinal i1)); rewrite /y /of_list /= => /eqP; rewrite eqr_nat.
split=> //.
have yE i : y i = (- 2%:R) * x i + 5%:R.
  apply/eqP; rewrite mulNr addrC eq_sym subr_eq /y /x /of_list.
  case: i => [[|[|[|]]]] // h; rewrite [nth _ _ _]/= [nth _ _ (Ordinal _)]/=.
  - by rewrite mulr0 addr0.
  - by rewrite mulr1 -natrD.
  by rewrite -natrM -(natrD _ 1).
have -> : correlation id (column x) (column y) = correlation id (column (fun i => 1 * x i + 0)) (column (fun i => - 2%:R * x i + 5%:R)).
  by congr correlation; rewrite /column; congr SMatrix; apply: eq_map => i; rewrite ?yE // mul1r addr0.
have C1 : correlation id (column x) (column x) = Some 1.
  by apply/C71_one => //; exists 1, 0; split=> // i; rewrite mul1r addr0.
have n2 : (- 2%:R != 0 :> R) by rewrite oppr_eq0 pnatr_eq0.
rewrite (C71_affine (n := 3) (evalf := id) _ x x 0 5%:R ex) // ?oner_neq0 // C1 /= mul1r mulr1 sgrN gtr0_sg ?ltr0Sn //.
Qed.
(* finding: for row vectors the loops run over one entry only: the mean is taken to be the
   first entry, and only the first entry is reduced by it (mv.py:2051-2063) *)
Theorem C71_row_refuted : exists x y : 'I_3 -> R, [/\ correlation id (row x) (row y) = Some 1, ~ constant x, ~ constant y
  & correlation id (column x) (column y) <> Some 1].
Proof.
pose x := of_list [:: 1; 0; 1]; pose y := of_list [:: 0; 0; 1].
have i0 : (0 < 3)%N by []; have i1 : (1 < 3)%N by []; have i2 : (2 < 3)%N by [].
have cx : ~ constant x by move/(_ (Ordinal i0) (Ordinal i1)); rewrite /x /of_list /= => /eqP; rewrite oner_eq0.
have cy : ~ constant y by move/(_ (Ordinal i0) (Ordinal i2)); rewrite /y /of_list /= => /eqP; rewrite eq_sym oner_eq0.
exists x, y; split=> //.
  rewrite /correlation /row !of_listE // /total /= !add0r !divr1 !subrr /= /centred /mdot /mnorm /=.
  rewrite !subrr !normr0 normr1 !expr0n expr1n /= !addr0 !add0r sqrtr1 mulr1 oner_eq0 divr1 !mul0r !add0r ?mulr1 //.
move/(C71_one (n := 3)) => /(_ erefl (fun=> erefl) cx cy)[p [q [_ h]]].
have := h (Ordinal i0); rewrite -[x _]/(x (Ordinal i2)) -h /y /of_list /= => /eqP; by rewrite eq_sym oner_eq0.
Qed.
End Cases.

Print Assumptions C71_value.
Print Assumptions C71_constant.
Print Assumptions C71_symmetric.
Print Assumptions C71_bound.
Print Assumptions C71_affine.
Print Assumptions C71_one.
Print Assumptions C71_row_refuted.
