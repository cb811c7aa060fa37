(* Transfer.v -- the Clifford product commutes with homomorphisms of the scalars,
   and an identity between multivectors that holds over the algebraic numbers for
   every nondegenerate metric holds over every commutative ring that contains the
   rational numbers, for every metric. *)
From mathcomp Require Import all_ssreflect all_algebra all_field.
From Verif Require Import NatTac AlgTactics Exterior Clifford Blades Spec_Grade Grades.
Set Implicit Arguments.
Unset Strict Implicit.
Unset Printing Implicit Defensive.
Import GRing.Theory.
Local Open Scope ring_scope.

(* all positive integers are invertible *)
Definition rational_ring (R : comUnitRingType) : Prop := forall k : nat, (k.+1%:R : R) \is a GRing.unit.

Section Natural.
Variables (R S : comUnitRingType) (f : {rmorphism R -> S}) (n : nat).
Variables (g : cmetric R n) (h : cmetric S n).
Hypothesis gh : forall i j, h i j = f (g i j).
Notation M := (mval R n).
Implicit Types (x y : M) (i j : 'I_n) (A : {set 'I_n}).

Definition mapv x : mval S n := [ffun A => f (x A)].
Lemma mapvD x y : mapv (x + y) = mapv x + mapv y.
Proof. by apply/ffunP => A; rewrite !ffunE rmorphD. Qed.
Lemma mapvZ c x : mapv (c *: x) = f c *: mapv x.
Proof. by apply/ffunP => A; rewrite ffunE !scale_coef ffunE rmorphM. Qed.
Lemma mapv0 : mapv 0 = 0.
Proof. by apply/ffunP => A; rewrite !ffunE rmorph0. Qed.
Lemma mapvN x : mapv (- x) = - mapv x.
Proof. by rewrite -scaleN1r mapvZ rmorphN1 scaleN1r. Qed.
Lemma mapvB x y : mapv (x - y) = mapv x - mapv y.
Proof. by rewrite mapvD mapvN. Qed.
Lemma mapv_sum (I : Type) (r : seq I) (P : pred I) (F : I -> M) :
  mapv (\sum_(z <- r | P z) F z) = \sum_(z <- r | P z) mapv (F z).
Proof. by apply: (big_morph mapv mapvD mapv0). Qed.
Lemma mapv_bl A : mapv (bl R A) = bl S A.
Proof. by apply/ffunP => B; rewrite ffunE !bl_coef; case: eqP; rewrite ?rmorph1 ?rmorph0. Qed.
Lemma mapv_coef x A : mapv x A = f (x A). Proof. by rewrite ffunE. Qed.
Lemma mapv_lin (F : {set 'I_n} -> M) (G : {set 'I_n} -> mval S n) x :
  (forall A, mapv (F A) = G A) -> mapv (lin F x) = lin G (mapv x).
Proof. by move=> h'; rewrite /lin mapv_sum; apply: eq_bigr => A _; rewrite mapvZ h' ffunE. Qed.
Lemma rsign m : f ((-1) ^+ m) = (-1) ^+ m. Proof. by rewrite rmorphX rmorphN1. Qed.
Lemma mapv_wedge i x : mapv (wedge_op i x) = wedge_op i (mapv x).
Proof.
rewrite /wedge_op -!lock; apply: mapv_lin => A; rewrite /Wb; case: ifP => _; rewrite ?mapv0 //.
by rewrite mapvZ rsign mapv_bl.
Qed.
Lemma mapv_contr i x : mapv (contr_op i x) = contr_op i (mapv x).
Proof.
rewrite /contr_op -!lock; apply: mapv_lin => A; rewrite /Cb; case: ifP => _; rewrite ?mapv0 //.
by rewrite mapvZ rsign mapv_bl.
Qed.
Lemma mapv_gcontr i x : mapv (gcontr g i x) = gcontr h i (mapv x).
Proof. by rewrite !gcontrE mapv_sum; apply: eq_bigr => j _; rewrite mapvZ mapv_contr gh. Qed.
Lemma mapv_lmul i x : mapv (lmul g i x) = lmul h i (mapv x).
Proof. by rewrite /lmul mapvD mapv_wedge mapv_gcontr. Qed.
Lemma f_nat k : f k%:R = k%:R. Proof. exact: rmorph_nat. Qed.
Lemma mapv_Op w x : mapv (Op g w x) = Op h w (mapv x).
Proof.
elim: w x => [|i w IH] x //=; rewrite mapvZ mapvD mapv_lmul IH mapvZ IH mapv_lmul rsign.
by rewrite rmorphV ?(two_unit g) // f_nat.
Qed.
Lemma mapv_mul (x y : clifford g) : mapv (x * y) = (mapv x : clifford h) * (mapv y : clifford h).
Proof.
rewrite [LHS]mapv_sum; apply: eq_bigr => A _; rewrite mapvZ mapv_Op; congr (_ *: _).
by rewrite ffunE.
Qed.
Lemma mapv1 : mapv (1 : clifford g) = (1 : clifford h). Proof. exact: mapv_bl. Qed.
Lemma mapv_mrev x : mapv (mrev x) = mrev (mapv x).
Proof. by apply/ffunP => A; rewrite !ffunE rmorphM rsign. Qed.
Lemma mapv_minvol x : mapv (minvol x) = minvol (mapv x).
Proof. by apply/ffunP => A; rewrite !ffunE rmorphM rsign. Qed.
Lemma mapv_gpart r x : mapv (gpart r x) = gpart r (mapv x).
Proof. by apply/ffunP => A; rewrite !ffunE; case: ifP; rewrite ?rmorph0. Qed.
End Natural.

(* ---- the rational numbers map to every ring that contains them ---- *)
Section Ratr.
Variables (R : comUnitRingType).
Hypothesis qa : rational_ring R.
Lemma int_unit (z : int) : z != 0 -> (z%:~R : R) \is a GRing.unit.
Proof.
case: z => [[|k]|k] // _; first exact: qa.
by rewrite NegzE mulrNz unitrN; exact: qa.
Qed.
Lemma ratr_frac (a b : int) : b != 0 -> ratr (a%:~R / b%:~R : rat) = a%:~R / b%:~R :> R.
Proof.
move=> b0; set q : rat := _ / _; have q1 : q * b%:~R = a%:~R by rewrite mulfVK // intr_eq0.
have e : (numq q * b)%R = (a * denq q)%R.
  apply/eqP; rewrite -(eqr_int rat_numDomainType) !intrM -q1 mulrAC; apply/eqP; congr (_ * _).
  by rewrite -{2}[q]divq_num_den mulfVK // intr_eq0 denq_neq0.
have e' : (numq q)%:~R * b%:~R = a%:~R * (denq q)%:~R :> R by rewrite -!intrM e.
rewrite /ratr; apply: (mulIr (int_unit b0)); rewrite mulrVK ?int_unit // -mulrA [_^-1 * _]mulrC mulrA e' mulrK //.
by rewrite int_unit // denq_neq0.
Qed.
Lemma frac_sub (a b d e : R) : d \is a GRing.unit -> e \is a GRing.unit ->
  (a * e - b * d) / (d * e) = a / d - b / e.
Proof.
move=> du eu; apply: (@mulIr _ (d * e)); first by rewrite unitrM du.
by rewrite mulrVK ?unitrM ?du // mulrBl mulrA mulrVK // [X in _ = _ - X]mulrCA [d * (_)]mulrC mulrVK //.
Qed.
Lemma ratr_rmorph : rmorphism (ratr : rat -> R).
Proof.
have fr (q : rat) : q = (numq q)%:~R / (denq q)%:~R by rewrite divq_num_den.
have d0 (q : rat) : (denq q)%:~R != 0 :> rat by rewrite intr_eq0 denq_neq0.
have du (q : rat) : (denq q)%:~R \is a @GRing.unit R by rewrite int_unit // denq_neq0.
split=> [p q|].
  have E : p - q = (numq p * denq q - numq q * denq p)%:~R / (denq p * denq q)%:~R.
    by rewrite -[in LHS](divq_num_den p) -[in LHS](divq_num_den q) -mulNr addf_div // mulrzBr !intrM mulNr.
  rewrite E ratr_frac ?mulf_neq0 ?denq_neq0 // /ratr mulrzBr !intrM.
  by rewrite frac_sub.
split=> [p q|]; last by rewrite /ratr (_ : numq 1 = 1) // (_ : denq 1 = 1) // divr1.
have E : p * q = (numq p * numq q)%:~R / (denq p * denq q)%:~R.
  by rewrite {1}[p]fr {1}[q]fr mulf_div !intrM.
rewrite E ratr_frac ?mulf_neq0 ?denq_neq0 // /ratr !intrM invrM //.
by rewrite [X in _ * X]mulrC mulrACA.
Qed.
End Ratr.

(* ---- polynomials in k variables, with rational coefficients ---- *)
Fixpoint ip (k : nat) : idomainType :=
  if k is k'.+1 then [idomainType of {poly (ip k')}] else [idomainType of rat].

Fixpoint var (k j : nat) : ip k :=
  match k return ip k with
  | 0 => 0
  | k'.+1 => if j == k' then 'X else (var k' j)%:P
  end.

Lemma ip_rational k : rational_ring (ip k).
Proof.
elim: k => [|k IH] j /=.
  by rewrite unitfE; apply/eqP => /eqP; rewrite Num.Theory.pnatr_eq0.
rewrite -(rmorph_nat (polyC_rmorphism (ip k))).
by apply: (rmorph_unit (polyC_rmorphism (ip k))); exact: IH.
Qed.

Section Ev.
Variables (S : comUnitRingType) (qa : rational_ring S).
Fixpoint ev (v : nat -> S) k : {rmorphism (ip k) -> S} :=
  match k return {rmorphism (ip k) -> S} with
  | 0 => RMorphism (ratr_rmorph qa)
  | k'.+1 => [rmorphism of horner_morph (fun x => mulrC (v k') (ev v k' x))]
  end.
Lemma ev_var v k j : (j < k)%N -> ev v k (var k j) = v j.
Proof.
elim: k => // k IH; rewrite ltnS leq_eqVlt /=; case: eqP => [->|_] /= jk.
  by rewrite /horner_morph map_polyX hornerX.
by rewrite /horner_morph map_polyC hornerC; exact: IH.
Qed.
Lemma ev_ext v w k : (forall j, (j < k)%N -> v j = w j) -> ev v k =1 ev w k.
Proof.
elim: k => // k IH vw p /=; rewrite /horner_morph vw //; congr (_.[_]).
by apply: eq_map_poly => x; apply: IH => j jk; apply: vw; apply: leqW.
Qed.
End Ev.

Lemma algC_rational : rational_ring [comUnitRingType of algC].
Proof. by move=> k; rewrite unitfE Num.Theory.pnatr_eq0. Qed.

Lemma nonroot (q : {poly algC}) : q != 0 -> exists c, q.[c] != 0.
Proof.
move=> q0; case: (boolP (all (root q) [seq (i%:R : algC) | i <- iota 0 (size q)])) => [al|].
  have := max_poly_roots q0 al; rewrite size_map size_iota ltnn map_inj_uniq ?iota_uniq; first by move=> /(_ isT).
  by move=> i j /eqP; rewrite Num.Theory.eqr_nat => /eqP.
by case/allPn => c _ nc; exists c.
Qed.

Lemma ev_neq0 k (p : ip k) : p != 0 -> exists v, ev algC_rational v k p != 0.
Proof.
elim: k p => [|k IH] /= p p0.
  exists (fun _ => 0); rewrite /= fmorph_eq0 //.
have /IH [v vl] : lead_coef p != 0 by rewrite lead_coef_eq0.
have q0 : map_poly (ev algC_rational v k) p != 0 by rewrite -lead_coef_eq0 lead_coef_map_eq.
have [c cn] := nonroot q0.
exists (fun j => if j == k then c else v j); rewrite /= /horner_morph eqxx.
rewrite (@eq_map_poly _ _ _ (ev algC_rational v k)) // => x; apply: ev_ext => j.
by move=> jk; rewrite ltn_eqF.
Qed.

(* ---- the transfer principle ---- *)
Section Universal.
Variable n : nat.
Definition nv := (n * n + #|{set 'I_n}|)%N.
Definition gvar (i j : 'I_n) := (minn i j * n + maxn i j)%N.
Lemma gvar_lt i j : (gvar i j < n * n)%N.
Proof.
have n0 : (0 < n)%N by apply: leq_ltn_trans (ltn_ord i).
have l1 : (minn i j < n)%N by rewrite gtn_min ltn_ord.
have l2 : (maxn i j < n)%N by rewrite gtn_max !ltn_ord.
apply: (@leq_trans (minn i j * n + n)); first by rewrite /gvar ltn_add2l.
by rewrite -mulSnr leq_mul2r l1 orbT.
Qed.
Lemma two_ip k : (2%:R : ip k) \is a GRing.unit. Proof. exact: ip_rational. Qed.
Lemma gvar_sym i j : gvar i j = gvar j i. Proof. by rewrite /gvar minnC maxnC. Qed.
Definition gU : cmetric (ip nv) n.
Proof. by refine (@CMetric _ n (fun i j => var nv (gvar i j)) _ (two_ip nv)) => i j; rewrite gvar_sym. Defined.
Definition xU : mval (ip nv) n := [ffun A => var nv (n * n + enum_rank A)].

Section At.
Variables (S : comUnitRingType) (g : cmetric S n) (x : mval S n).
Definition point (m : nat) : S :=
  if (m < n * n)%N then
    match insub (m %/ n)%N : option 'I_n, insub (m %% n)%N : option 'I_n with
    | Some i, Some j => g i j | _, _ => 0 end
  else match insub (m - n * n)%N : option 'I_#|{set 'I_n}| with
    | Some r => x (enum_val r) | None => 0 end.
Lemma point_g i j : point (gvar i j) = g i j.
Proof.
rewrite /point gvar_lt.
have n0 : (0 < n)%N by apply: leq_ltn_trans (ltn_ord i).
have l1 : (minn i j < n)%N by rewrite gtn_min ltn_ord.
have l2 : (maxn i j < n)%N by rewrite gtn_max !ltn_ord.
rewrite /gvar divnMDl // modnMDl (divn_small l2) addn0 (modn_small l2).
by have [ij|ij] := leqP i j; rewrite !valK // gram_sym.
Qed.
Lemma point_x A : point (n * n + enum_rank A) = x A.
Proof.
rewrite /point ltnNge leq_addr /= addKn insubT ?ltn_ord // => h.
by rewrite (_ : Sub _ _ = enum_rank A) ?enum_rankK //; apply: val_inj.
Qed.
End At.

Theorem transfer (E : forall R : comUnitRingType, cmetric R n -> mval R n -> mval R n) :
  (forall (R S : comUnitRingType) (f : {rmorphism R -> S}) (g : cmetric R n) (h : cmetric S n),
     rational_ring R -> (forall i j, h i j = f (g i j)) ->
     forall x, mapv f (E R g x) = E S h (mapv f x)) ->
  (forall (g : cmetric [comUnitRingType of algC] n) x,
     \det (\matrix_(i, j) g i j) != 0 -> E _ g x = 0) ->
  forall (R : comUnitRingType) (g : cmetric R n) x, rational_ring R -> E R g x = 0.
Proof.
move=> nat base R g x qa.
suff U0 : E (ip nv) gU xU = 0.
  pose f := ev qa (point g x) nv.
  have gf i j : g i j = f (gU i j).
    by rewrite /f /= ev_var ?point_g // ltn_addr // gvar_lt.
  have xf : x = mapv f xU.
    by apply/ffunP => A; rewrite !ffunE ev_var ?point_x // /nv ltn_add2l.
  by rewrite {1}xf -(nat _ _ f gU g (ip_rational _) gf) U0 mapv0.
apply/ffunP => A; rewrite [RHS]ffunE; apply/eqP; apply: contraT => c0.
pose D : ip nv := \det (\matrix_(i, j) gU i j).
have D0 : D != 0.
  have os (i j : 'I_n) : (i == j)%:R = (j == i)%:R :> algC by rewrite eq_sym.
  pose one := @CMetric [comUnitRingType of algC] n _ os (algC_rational 1%N).
  apply/eqP => /(congr1 (ev algC_rational (point one 0) nv)); rewrite rmorph0 -det_map_mx.
  rewrite (_ : map_mx _ _ = 1%:M); first by rewrite det1 => /eqP; rewrite oner_eq0.
  by apply/matrixP => i j; rewrite !mxE ev_var ?point_g // ltn_addr // gvar_lt.
have [v] : exists v, ev algC_rational v nv (D * E (ip nv) gU xU A) != 0.
  by apply: ev_neq0; rewrite mulf_eq0 negb_or D0.
rewrite rmorphM mulf_eq0 negb_or => /andP[vD vc].
pose f := ev algC_rational v nv.
have hs i j : f (gU i j) = f (gU j i) by rewrite gram_sym.
pose h := @CMetric [comUnitRingType of algC] n (fun i j => f (gU i j)) hs (algC_rational 1%N).
have e : mapv f (E _ gU xU) = 0.
  rewrite (nat _ _ f gU h (ip_rational _)) //; apply: base.
  rewrite (_ : \matrix_(i, j) _ = map_mx f (\matrix_(i, j) gU i j)) ?det_map_mx //.
  by apply/matrixP => i j; rewrite !mxE.
by case/negP: vc; move/ffunP/(_ A): e; rewrite ffunE [X in _ = X]ffunE => ->.
Qed.
End Universal.
