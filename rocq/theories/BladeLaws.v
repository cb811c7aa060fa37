(* BladeLaws.v -- projection and reflection in an outer product of vectors, in
   a Clifford algebra. *)
From mathcomp Require Import all_ssreflect all_algebra.
From Verif Require Import AlgTactics Exterior Clifford Blades Spec_Grade Grades GradeLaws ContrLaws Det Outer.
Set Implicit Arguments.
Unset Strict Implicit.
Unset Printing Implicit Defensive.
Import GRing.Theory.
Local Open Scope ring_scope.

Section BladeLaws.
Variables (R : comUnitRingType) (n : nat) (g : cmetric R n).
Notation M := (mval R n).
Notation C := (clifford g).
Notation two := (two_unit g).
Notation mulC := (fun u v : C => u * v).
Implicit Types (x y z u b : M).
Notation lc := (selprod mulC left_grade).

Lemma lc_gcontr u y : homog 1 u -> lc u y = \sum_i u [set i] *: gcontr g i y.
Proof.
move=> hu; rewrite {1}(vec_decomp hu) sel_suml; apply: eq_bigr => i _; rewrite selZ; congr (_ *: _).
rewrite {1}[y]mval_decomp {2}[y]mval_decomp sel_sumr linear_sum; apply: eq_bigr => S _.
by rewrite selZr sel_left_gen linearZ.
Qed.
Lemma ext_wedge u y : homog 1 u -> ext u y = \sum_i u [set i] *: wedge_op i y.
Proof.
move=> hu; rewrite {1}(vec_decomp hu) (ext_suml two); apply: eq_bigr => i _.
by rewrite (extZl two) (wedge_opE two).
Qed.
(* y*u = u^y' - u<y' for the grade involution y' of y *)
Lemma vec_mulr u y : homog 1 u -> (y : C) * (u : C) = ext u (minvol y) - lc u (minvol y).
Proof.
move=> hu; rewrite (lc_gcontr _ hu) (ext_wedge _ hu) -sumrB {1}(vec_decomp hu) mulr_sumr; apply: eq_bigr => i _.
by rewrite -scalerAr -scalerBr -[(bl R [set i] : C)]/(cgen g i) cgen_mulr.
Qed.
Lemma lc_ext u b y : homog 1 u -> homog 1 b ->
  lc u (ext b y) = gform g u b *: y - ext b (lc u y).
Proof.
move=> hu hb; apply/eqP; rewrite eq_sym subr_eq; apply/eqP.
rewrite !(lc_gcontr _ hu) !(ext_wedge _ hb) /gform.
have -> : \sum_j b [set j] *: wedge_op j (\sum_i u [set i] *: gcontr g i y) =
          \sum_i \sum_j (u [set i] * b [set j]) *: wedge_op j (gcontr g i y).
  rewrite exchange_big; apply: eq_bigr => j _ /=; rewrite linear_sum scaler_sumr; apply: eq_bigr => i _.
  by rewrite linearZ scalerA mulrC.
rewrite -big_split scaler_suml; apply: eq_bigr => i _ /=.
rewrite linear_sum scaler_sumr -big_split scaler_suml; apply: eq_bigr => j _ /=.
by rewrite linearZ /= scalerA -scalerDr addrC wedge_gcontr scalerA.
Qed.
Lemma lcE u y : homog 1 u -> lc u y = 2%:R^-1 *: ((u : C) * (y : C) - (minvol y : C) * (u : C)).
Proof.
move=> hu; rewrite (vec_mul g y hu) (vec_mulr _ hu) !minvolE ginvK opprB addrACA subrr addr0.
by rewrite halfV //; exact: two.
Qed.
Lemma extE u y : homog 1 u -> ext u y = 2%:R^-1 *: ((u : C) * (y : C) + (minvol y : C) * (u : C)).
Proof.
move=> hu; rewrite (vec_mul g y hu) (vec_mulr _ hu) !minvolE ginvK [X in X + _]addrC addrACA subrr addr0.
by rewrite halfV //; exact: two.
Qed.
Lemma lc_mul u y z : homog 1 u -> lc u ((y : C) * (z : C)) = (lc u y : C) * (z : C) + (minvol y : C) * (lc u z : C).
Proof.
move=> hu; rewrite !(lcE _ hu) -scalerAl -scalerAr -scalerDr !minvolE ginvM mulrBl mulrBr !mulrA.
by rewrite addrA subrK.
Qed.
Lemma ext_mul u y z : homog 1 u -> ext u ((y : C) * (z : C)) = (lc u y : C) * (z : C) + (minvol y : C) * (ext u z : C).
Proof.
move=> hu; rewrite (lcE _ hu) !(extE _ hu) -scalerAl -scalerAr -scalerDr !minvolE ginvM mulrBl mulrDr !mulrA.
by rewrite addrA subrK.
Qed.

(* ---- the span of the outer products of given vectors ---- *)
Section Span.
Variable bs : seq M.
Hypothesis hbs : forall b, b \in bs -> homog 1 b.
Inductive span : M -> Prop :=
  | span0 : span 0
  | span1 : span (bl R set0)
  | spanD x y : span x -> span y -> span (x + y)
  | spanZ (c : R) x : span x -> span (c *: x)
  | spanW b x : b \in bs -> span x -> span (ext b x).
Notation B := (wedges bs).
Lemma spanN x : span x -> span (- x). Proof. by move=> sx; rewrite -scaleN1r; exact: spanZ. Qed.
Lemma span_sum (J : Type) (r : seq J) (P : pred J) (F : J -> M) :
  (forall i, P i -> span (F i)) -> span (\sum_(i <- r | P i) F i).
Proof. by move=> h; apply: big_ind => //; [exact: span0|exact: spanD]. Qed.
Lemma span_wedges l : {subset l <= bs} -> span (wedges l).
Proof.
elim: l => [|b l IH] h /=; first exact: span1.
by apply: spanW; [apply: h; rewrite mem_head|apply: IH => x xl; apply: h; rewrite inE xl orbT].
Qed.
Lemma span_B : span B. Proof. by apply: span_wedges. Qed.
Lemma span_ext x y : span x -> span y -> span (ext x y).
Proof.
move=> sx sy; elim: {x} sx => [||x x' _ sx _ sx'|c x _ sx|b x bb _ sx].
- by rewrite (ext0l two); exact: span0.
- by rewrite (ext1l two).
- by rewrite (extDl two); exact: spanD.
- by rewrite (extZl two); exact: spanZ.
by rewrite -(extA two); exact: spanW.
Qed.
Lemma span_lcv u y : homog 1 u -> span y -> span (lc u y).
Proof.
move=> hu; elim=> {y} [||x x' _ sx _ sx'|c x _ sx|b x bb sx slx].
- by rewrite sel0r; exact: span0.
- suff -> : lc u (bl R set0) = 0 by exact: span0.
  by rewrite (lc_gcontr _ hu) big1 // => i _; rewrite gcontr1 scaler0.
- by rewrite selDr; exact: spanD.
- by rewrite selZr; exact: spanZ.
rewrite (lc_ext _ hu (hbs bb)); apply: spanD; first exact: spanZ.
by apply: spanN; exact: spanW.
Qed.
Lemma lc1 y : lc (bl R set0) y = y.
Proof.
rewrite [y]mval_decomp sel_sumr; apply: eq_bigr => S _; rewrite selZr; congr (_ *: _).
have h0 : homog 0 (bl R (set0 : {set 'I_n})) by have := homog_bl R (set0 : {set 'I_n}); rewrite cards0.
rewrite (sel_homog g left_grade h0 (homog_bl R S)) /left_grade leq0n subn0.
by rewrite -[(bl R set0 : C)]/(1 : C) mul1r; exact: homog_bl.
Qed.
Lemma span_lc x y : span y -> span (lc x y).
Proof.
move=> sy; rewrite [x]mval_decomp sel_suml; apply: span_sum => S _; rewrite selZ; apply: spanZ.
rewrite -(wword_enum R S); elim: (enum S) => [|i w IH] /=; first by rewrite lc1.
rewrite (wedge_opE two) lc_lc; apply: span_lcv => //.
by rewrite -(cards1 i); exact: homog_bl.
Qed.
Lemma mem_ext b l : b \in l -> {subset l <= bs} -> ext b (wedges l) = 0.
Proof.
elim: l => //= b' l IH bl' sl; have h' : homog 1 b' by apply: hbs; apply: sl; rewrite mem_head.
have hb : homog 1 b by apply: hbs; exact: sl.
rewrite (extA two); move: bl'; rewrite inE => /orP[/eqP ->|bl'].
  by rewrite (ext_vv two) // (ext0l two).
rewrite (ext_swap hb h') expr1 scaleN1r (extNl two) -(extA two) IH ?(ext0r two) ?oppr0 // => x xl.
by apply: sl; rewrite inE xl orbT.
Qed.
(* inside the blade the left contraction onto it is the product with it *)
Lemma span_lcB x : span x -> (x : C) * (B : C) = lc x B.
Proof.
elim=> {x} [||x x' _ sx _ sx'|c x _ sx|b x bb sx E].
- by rewrite mul0r sel0.
- by rewrite lc1 -[(bl R set0 : C)]/(1 : C) mul1r.
- by rewrite mulrDl sx sx' selD.
- by rewrite -scalerAl sx selZ.
have hb := hbs bb; rewrite lc_lc -E.
have -> : (ext b x : C) = (b : C) * (x : C) - lc b x by rewrite (vec_mul g x hb) addrC addKr.
rewrite mulrBl -mulrA (vec_mul g _ hb) (ext_mul _ _ hb) (mem_ext bb) // mulr0 addr0.
by rewrite addrK.
Qed.

(* ---- projection ---- *)
Variable q : R.
Hypothesis uq : q \is a GRing.unit.
Notation k := (size bs).
Lemma hB : homog k B. Proof. exact: (Outer.wedges_homog two hbs). Qed.
Hypothesis Bq : (mrev B : C) * (B : C) = q *: 1.
Definition Bi : C := q^-1 *: (mrev B : C).
Let s : R := (-1) ^+ (k * (k - 1))./2.
Lemma mrevB : mrev B = s *: B.
Proof. by rewrite -{1}hB mrev_gpart hB. Qed.
Lemma ss : s * s = 1. Proof. by rewrite -expr2 sqrr_sign. Qed.
Lemma BiB : Bi * (B : C) = 1. Proof. by rewrite /Bi -scalerAl Bq scalerA mulVr // scale1r. Qed.
Lemma BB : (B : C) * (B : C) = (s * q) *: 1.
Proof. by rewrite -scalerA -Bq mrevB -scalerAl scalerA ss scale1r. Qed.
Lemma BiE : Bi = (s * q^-1) *: (B : C). Proof. by rewrite /Bi mrevB scalerA mulrC. Qed.
Lemma BBi : (B : C) * Bi = 1.
Proof. by rewrite -BiB BiE -scalerAr -scalerAl. Qed.
Definition proj x : M := (lc x B : C) * Bi.
Lemma proj_is_linear : linear proj.
Proof. by move=> c x y; rewrite /proj selD selZ mulrDl -scalerAl. Qed.
Canonical proj_additive := Additive proj_is_linear.
Canonical proj_linear := Linear proj_is_linear.
Lemma proj_span x : span (proj x).
Proof.
have sx : span (lc x B) by apply: span_lc; exact: span_B.
by rewrite /proj BiE -scalerAr (span_lcB sx); apply: spanZ; apply: span_lc; exact: span_B.
Qed.
Lemma proj_id x : span x -> proj x = x.
Proof. by move=> sx; rewrite /proj -(span_lcB sx) -mulrA BBi mulr1. Qed.
Lemma projK x : proj (proj x) = proj x. Proof. by apply: proj_id; exact: proj_span. Qed.
Lemma proj_lcB x : (proj x : C) * (B : C) = lc x B.
Proof. by rewrite /proj -mulrA BiB mulr1. Qed.
Lemma proj_homog r x : homog r x -> homog r (proj x).
Proof.
move=> hx; have sx : span (lc x B) by apply: span_lc; exact: span_B.
rewrite /proj BiE -scalerAr (span_lcB sx); apply: homogZ.
rewrite [lc x B](sel_homog g left_grade hx hB) /left_grade; case: ifP => rk; last by rewrite sel0 /homog raddf0.
rewrite (sel_homog g left_grade (homog_gpart _ _) hB) /left_grade leq_subr subKn //.
exact: homog_gpart.
Qed.
Lemma proj_gpart r x : proj (gpart r x) = gpart r (proj x).
Proof.
rewrite {2}[x]gpart_sum (linear_sum proj_linear) /= (raddf_sum (gpart_additive R n r)) /=.
case: (leqP r n) => rn; last first.
  rewrite gpart_out // linear0 big1 // => i _.
  by rewrite (gpart_homog _ (proj_homog (homog_gpart _ _))) ifF //; apply/negbTE; rewrite neq_ltn orbC (leq_trans (ltn_ord i)).
rewrite (bigD1 (Ordinal (rn : (r < n.+1)%N))) //= big1 ?addr0 => [|i ni].
  by rewrite (gpart_homog _ (proj_homog (homog_gpart _ _))) eqxx.
rewrite (gpart_homog _ (proj_homog (homog_gpart _ _))) ifF //; apply: contraNF ni => /eqP E.
by apply/eqP/val_inj.
Qed.
(* a vector orthogonal to the blade *)
Lemma proj_orth u : homog 1 u -> (forall b, b \in bs -> gform g u b = 0) -> proj u = 0.
Proof.
move=> hu o; rewrite /proj; suff -> : lc u B = 0 by rewrite mul0r.
have : {subset bs <= bs} by []. elim: {1 3}bs => [|b l IH] sl /=.
  by rewrite (lc_gcontr _ hu) big1 // => i _; rewrite gcontr1 scaler0.
have bb : b \in bs by apply: sl; rewrite mem_head.
rewrite (lc_ext _ hu (hbs bb)) o // scale0r IH ?(ext0r two) ?subr0 // => x xl.
by apply: sl; rewrite inE xl orbT.
Qed.
Lemma proj_ext u y : homog 1 u -> proj (ext u y) = ext (proj u) (proj y).
Proof.
move=> hu; have hp := proj_homog hu.
have o : lc (u - proj u) B = 0.
  by rewrite selD -[- proj u]scaleN1r selZ -(span_lcB (proj_span u)) proj_lcB scaleN1r subrr.
have z : lc (ext (u - proj u) y) B = 0.
  rewrite [y]gpart_sum (ext_sumr two) sel_suml big1 // => r _.
  have hup : homog 1 (u - proj u) by apply: homogB.
  by rewrite (ext_swap hup (homog_gpart r y)) selZ lc_lc o sel0r scaler0.
have E : lc (ext u y) B = lc (ext (proj u) y) B.
  by apply/eqP; rewrite -subr_eq0 -[- lc _ _]scaleN1r -selZ -selD -(extZl two) -(extDl two) scaleN1r z.
rewrite /proj -/(proj u) -/(proj y) E lc_lc -proj_lcB (span_lcB (proj_span y)) -lc_lc.
rewrite -span_lcB; first by rewrite -mulrA BBi mulr1.
by apply: span_ext; exact: proj_span.
Qed.
(* the vectors of the span are the linear combinations *)
Lemma span_vec x : span x -> exists cs, size cs = size bs /\ gpart 1 x = \sum_(p <- zip cs bs) p.1 *: p.2.
Proof.
have gZ (c : R) y : gpart 1 (c *: y) = c *: gpart 1 y by rewrite linearZ.
elim=> {x} [||x x' _ [cs [scs E]] _ [cs' [scs' E']]|c x _ [cs [scs E]]|b x bb sx _].
- by exists (nseq (size bs) 0); rewrite size_nseq raddf0; split=> //; elim: (bs) => [|b l IH]; rewrite /= ?big_nil ?big_cons //= scale0r add0r.
- exists (nseq (size bs) 0); rewrite size_nseq gpart_bl cards0 /=; split=> //.
  by elim: (bs) => [|b l IH]; rewrite /= ?big_nil ?big_cons //= scale0r add0r.
- exists [seq p.1 + p.2 | p <- zip cs cs']; rewrite size_map size_zip scs scs' minnn raddfD /= E E'; split=> //.
  elim: (bs) cs cs' scs scs' {E E'} => [|b l IH] [|c cs] [|c' cs'] //=; first by rewrite !big_nil addr0.
  by move=> [/IH{}IH] [/IH{}IH]; rewrite !big_cons /= -IH scalerDl addrACA.
- exists [seq c * d | d <- cs]; rewrite size_map gZ E scaler_sumr; split=> //.
  elim: (bs) cs {scs E} => [|b l IH] [|d cs] //=; rewrite ?big_nil // !big_cons /= IH scalerA //.
exists [seq (if i == index b bs then x set0 else 0) | i <- iota 0 (size bs)]; rewrite size_map size_iota; split=> //.
have -> : gpart 1 (ext b x) = x set0 *: b.
  rewrite {1}[x]gpart_sum (ext_sumr two) raddf_sum big_ord_recl /= big1 ?addr0 => [|r _].
    have h0 : homog 0 (gpart 0 x) by exact: homog_gpart.
    have -> : gpart 0 x = x set0 *: bl R set0.
      apply/ffunP => S; rewrite scale_coef bl_coef ffunE cards_eq0; case: eqP => [->|_]; by rewrite ?mulr1 ?mulr0.
    rewrite (extZr two) (ext1r two) gZ; congr (_ *: _); exact: hbs.
  by rewrite (gpart_homog _ (homog_ext two (hbs bb) (homog_gpart _ _))).
have -> : zip [seq (if i == index b bs then x set0 else 0) | i <- iota 0 (size bs)] bs =
   [seq ((if i == index b bs then x set0 else 0), nth 0 bs i) | i <- iota 0 (size bs)].
  rewrite -[X in zip _ X](mkseq_nth 0) /mkseq; move: (index b bs) => j.
  by elim: (iota _ _) => //= i l ->.
rewrite big_map (bigD1_seq (index b bs)) ?iota_uniq ?mem_iota ?index_mem //= eqxx nth_index // big1 ?addr0 // => i ni.
by rewrite (negbTE ni) scale0r.
Qed.
(* what is left of a vector is orthogonal to the blade *)
Lemma proj_rest u b : homog 1 u -> b \in bs -> gform g (u - proj u) b = 0.
Proof.
move=> hu bb; have hb := hbs bb; set w := u - proj u.
have hw : homog 1 w by apply: homogB => //; exact: proj_homog.
have o : lc w B = 0.
  by rewrite selD -[- proj u]scaleN1r selZ -(span_lcB (proj_span u)) proj_lcB scaleN1r subrr.
have mB : minvol B = (-1) ^+ k *: B.
  apply/ffunP => S; rewrite scale_coef ffunE; case: (#|S| =P k) => [->|/eqP ne] //.
  by rewrite -hB ffunE (negbTE ne) !mulr0.
have wB : (w : C) * (B : C) = (-1) ^+ k *: ((B : C) * (w : C)).
  by rewrite (vec_mul g _ hw) (vec_mulr _ hw) mB selZr o (extZr two) scaler0 add0r subr0 scalerA -expr2 sqrr_sign scale1r.
have bB : (b : C) * (B : C) = - ((-1) ^+ k *: ((B : C) * (b : C))).
  rewrite (vec_mul g _ hb) (vec_mulr _ hb) mB selZr (extZr two) (mem_ext bb) // scaler0 sub0r addr0.
  by rewrite scalerN opprK scalerA -expr2 sqrr_sign scale1r.
have E1 : (w : C) * (b : C) * (B : C) = - ((B : C) * ((w : C) * (b : C))).
  by rewrite -mulrA bB mulrN -scalerAr [X in _ *: X]mulrA wB -scalerAl scalerA -expr2 sqrr_sign scale1r mulrA.
have E2 : (b : C) * (w : C) * (B : C) = - ((B : C) * ((b : C) * (w : C))).
  by rewrite -mulrA wB -scalerAr [X in _ *: X]mulrA bB mulNr scalerN -scalerAl scalerA -expr2 sqrr_sign scale1r mulrA.
have S := vec_rel g hw hb.
have := congr1 (fun z : C => (z : C) * (B : C)) S; rewrite mulrDl E1 E2 -opprD -mulrDr S -scalerAr -scalerAl mulr1 mul1r.
set c := gform g w b *+ 2 => /eqP; rewrite eq_sym -subr_eq0 opprK -scalerDl => /eqP E.
have : (c + c) *: (1 : C) = 0.
  by rewrite -BBi scalerAl E mul0r.
move/(congr1 (fun f : M => f set0)); rewrite scale_coef bl_coef eqxx mulr1 ffunE /c -mulr2n -!mulrnA.
rewrite -mulr_natr => E4; have u4 : ((2 * 2)%N%:R : R) \is a GRing.unit.
  by rewrite natrM unitrM two.
by rewrite -[LHS](mulrK u4) E4 mul0r.
Qed.
(* a linear map that turns outer products with vectors into outer products *)
Lemma outer_all (h : {linear M -> M}) : h (bl R set0) = bl R set0 ->
  (forall u y, homog 1 u -> h (ext u y) = ext (h u) (h y)) -> forall x y, h (ext x y) = ext (h x) (h y).
Proof.
move=> h1 hW x y.
have lin1 : linear (fun x => h (ext x y)) by move=> c u u'; rewrite (extDl two) (extZl two) linearP.
have lin2 : linear (fun x => ext (h x) (h y)) by move=> c u u'; rewrite linearP (extDl two) (extZl two).
move: x; apply: (@ext_lin _ _ _ _ lin1 lin2) => S; rewrite -(wword_enum R S).
elim: (enum S) => [|i w IH] /=; first by rewrite (ext1l two) h1 (ext1l two).
have hi : homog 1 (bl R [set i]) by rewrite -(cards1 i); exact: homog_bl.
rewrite (wedge_opE two) -(extA two) hW // IH (extA two); congr ext.
by rewrite hW.
Qed.
Lemma proj1 : proj (bl R set0) = bl R set0. Proof. by apply: proj_id; exact: span1. Qed.
Lemma projW x y : proj (ext x y) = ext (proj x) (proj y).
Proof. exact: (outer_all proj1 proj_ext). Qed.

(* ---- reflection ---- *)
Definition inv_ j x : M := if odd j then minvol x else x.
Lemma inv_M j (x y : C) : inv_ j (x * y : C) = (inv_ j x : C) * (inv_ j y : C).
Proof. by rewrite /inv_; case: odd; rewrite // !minvolE ginvM. Qed.
Lemma inv_K j : involutive (inv_ j).
Proof. by move=> x; rewrite /inv_; case: odd; rewrite // !minvolE ginvK. Qed.
Definition refl x : M := (B : C) * (inv_ k.+1 x : C) * Bi.
Lemma inv_lin j (c : R) x y : inv_ j (c *: x + y) = c *: inv_ j x + inv_ j y.
Proof. by rewrite /inv_; case: odd; rewrite // !minvolE linearP. Qed.
Lemma refl_is_linear : linear refl.
Proof. by move=> c x y; rewrite /refl inv_lin mulrDr mulrDl -(scalerAr c) -(scalerAl c). Qed.
Canonical refl_additive := Additive refl_is_linear.
Canonical refl_linear := Linear refl_is_linear.
Lemma reflM x y : refl ((x : C) * (y : C)) = (refl x : C) * (refl y : C).
Proof.
by rewrite /refl inv_M !mulrA; congr (_ * _ * Bi); rewrite -[_ * Bi * _]mulrA BiB mulr1.
Qed.
Lemma refl1 : refl (bl R set0) = bl R set0.
Proof.
rewrite /refl /inv_ minvolE ginv_bl cards0 expr0 scale1r if_same.
by rewrite -[(bl R set0 : C)]/(1 : C) mulr1 BBi.
Qed.
Lemma minvol_B : minvol B = (-1) ^+ k *: B.
Proof.
apply/ffunP => S; rewrite scale_coef ffunE; case: (#|S| =P k) => [->|/eqP ne] //.
by rewrite -hB ffunE (negbTE ne) !mulr0.
Qed.
Lemma minvolZ (c : R) x : minvol (c *: x) = c *: minvol x. Proof. by rewrite minvolE linearZ. Qed.
Lemma inv_minvol j x : inv_ j (minvol x) = minvol (inv_ j x).
Proof. by rewrite /inv_; case: odd. Qed.
Lemma minvol_Bi : minvol Bi = (-1) ^+ k *: Bi.
Proof. by rewrite BiE minvolZ minvol_B !scalerA mulrC. Qed.
Lemma conj_sign (c : R) (x y z : C) : c * c = 1 -> (c *: x) * y * (c *: z) = x * y * z.
Proof. by move=> cc; rewrite -scalerAr -!scalerAl scalerA cc scale1r. Qed.
Lemma refl_minvol x : minvol (refl x) = refl (minvol x).
Proof.
rewrite /refl !minvolE !ginvM -!minvolE minvol_Bi minvol_B inv_minvol; apply: conj_sign.
by rewrite -expr2 sqrr_sign.
Qed.
Lemma conj_B2 (x : C) : (B : C) * ((B : C) * x * Bi) * Bi = x.
Proof.
have E : Bi * Bi = (s * q^-1) *: 1.
  by rewrite {2}BiE -scalerAr BiB.
rewrite !mulrA BB -[_ * Bi * Bi]mulrA E -scalerAr -!scalerAl mul1r mulr1 scalerA.
by rewrite mulrACA ss mulVr // mulr1 scale1r.
Qed.
Lemma reflK x : refl (refl x) = x.
Proof.
have E : inv_ k.+1 (refl x) = refl (inv_ k.+1 x) by rewrite {1 2}/inv_; case: odd; rewrite // refl_minvol.
by rewrite {1}/refl E /refl inv_K conj_B2.
Qed.
(* on vectors *)
Lemma refl_vec u : homog 1 u -> refl u = proj u *+ 2 - u.
Proof.
move=> hu; have hi : minvol u = - u by apply/ffunP => S; rewrite -{1}hu !ffunE; case: eqP => [->|]; rewrite ?mulr0 ?expr1 ?mulN1r // => /eqP ne; rewrite -hu ffunE (negbTE ne) oppr0.
have E : inv_ k.+1 u = (-1) ^+ k.+1 *: u.
  by rewrite /inv_ -signr_odd; case: odd; rewrite ?scale1r // hi expr1 scaleN1r.
rewrite /refl E -(scalerAr ((-1) ^+ k.+1)) (vec_mulr _ hu) minvol_B (extZr two) selZr -scalerBr scalerA exprS.
rewrite -mulrA -expr2 sqrr_sign mulr1 scaleN1r opprB mulrBl -/(proj u).
have -> : (ext u B : C) = (u : C) * (B : C) - lc u B by rewrite (vec_mul g _ hu) addrC addKr.
by rewrite mulrBl -mulrA BBi mulr1 opprB -/(proj u) addrA mulr2n.
Qed.
Lemma refl_homog1 u : homog 1 u -> homog 1 (refl u).
Proof.
move=> hu; rewrite refl_vec // mulr2n; apply: homogB => //.
by apply: homogD; exact: proj_homog.
Qed.
Lemma refl_ext u y : homog 1 u -> refl (ext u y) = ext (refl u) (refl y).
Proof.
move=> hu; rewrite (extE _ hu) (extE _ (refl_homog1 hu)) (linearZ_LR refl_linear) /=; congr (_ *: _).
by rewrite (linearD refl_linear) /= !reflM refl_minvol.
Qed.
Lemma reflW x y : refl (ext x y) = ext (refl x) (refl y).
Proof. exact: (outer_all refl1 refl_ext). Qed.
Lemma refl_gpart r x : refl (gpart r x) = gpart r (refl x).
Proof.
have hv i : homog 1 (refl (bl R [set i])) by apply: refl_homog1; rewrite -(cards1 i); exact: homog_bl.
have E : refl =1 om (fun i => refl (bl R [set i])).
  by apply: (@om_uniq _ two _ _ refl_linear) => //; [exact: refl1|exact: reflW].
by rewrite (E (gpart r x)) (E x) (om_gpart two).
Qed.
Lemma refl_mrev x : mrev (refl x) = refl (mrev x).
Proof.
have hr j y : inv_ j (mrev y) = mrev (inv_ j y).
  rewrite /inv_; case: odd => //; apply/ffunP => S; rewrite !ffunE; exact: mulrCA.
rewrite /refl !mrevM hr mulrA.
have -> : mrev Bi = q^-1 *: B by rewrite /Bi linearZ /= mrevK.
have -> : mrev B = q *: Bi by rewrite /Bi scalerA divrr // scale1r.
by rewrite -(scalerAr q) -!(scalerAl q^-1) scalerA divrr // scale1r.
Qed.
Lemma refl_scalar x : refl x set0 = x set0.
Proof.
rewrite /refl scalar_swap mulrA BiB mul1r /inv_; case: odd => //.
by rewrite ffunE cards0 expr0 mul1r.
Qed.
End Span.
End BladeLaws.
