(* Ga_Proof_Mul.v -- the geometric product of the code is the product of the
   Clifford algebra *)
From mathcomp Require Import all_ssreflect all_algebra.
From Verif Require Import NatTac AlgTactics Exterior Clifford Blades.
From Verif Require Import Spec_Index PyBase Ga_Model Ga_Proof_Tables Ga_Proof_Sort Ga_Proof_Sem Ga_Proof_Reduce Ga_Sem Ga_Proof_Rep Ga_Proof_Conv.
Set Implicit Arguments.
Unset Strict Implicit.
Unset Printing Implicit Defensive.
Import GRing.Theory.
Local Open Scope ring_scope.

Section OrthoValue.
Variables (R : comUnitRingType) (two : (2%:R : R) \is a GRing.unit) (a : ga R).
Hypotheses (wf : wf_ga a) (ort : is_ortho a).
Notation n := (ga_n a).
Variables (A : algType R) (e : nat -> A).
Hypothesis rel : forall i j, e i * e j + e j * e i = (geff a i j *+ 2)%:A.
Implicit Types (I J K : seq nat) (i j : nat).

Lemma ortho_geff i j : i != j -> geff a i j = 0.
Proof.
rewrite /geff neq_ltn => ij; have mm : (minn i j < maxn i j)%N.
  by rewrite /minn /maxn; case: ltngtP ij.
have [nm|mn] := leqP n (maxn i j); first by rewrite gij_out // nm orbT.
have := allP ort (minn i j); rewrite mem_iota add0n (ltn_trans mm mn) => /(_ isT).
by move/allP/(_ (maxn i j)); rewrite mem_iota add0n mn mm => /(_ isT)/eqP.
Qed.
Lemma anticomm i j : i != j -> e i * e j = - (e j * e i).
Proof.
move=> ij; have := rel i j; rewrite ortho_geff // mul0rn scale0r => /eqP.
by rewrite addr_eq0 => /eqP.
Qed.
Lemma ortho_blade I : uniq I -> blade_of e I = base_of e I.
Proof.
elim: I => //= i I IH /andP[iI uI]; rewrite -/(base_of e I) IH //.
suff -> : base_of e I * e i = (-1) ^+ size I *: (e i * base_of e I).
  by rewrite scalerA -signr_odd -expr2 sqrr_sign scale1r halfV.
elim: I iI {uI IH} => [|j I IH] /=; first by rewrite mulr1 mul1r scale1r.
rewrite inE negb_or -/(base_of e I) => /andP[ij iI].
rewrite -mulrA IH // -scalerAr !mulrA (anticomm ij) exprS mulN1r scaleNr mulNr.
by rewrite scalerN opprK.
Qed.
Lemma gen_pass i K : i \notin K -> e i * base_of e K = (-1) ^+ size K *: (base_of e K * e i).
Proof.
elim: K => [|j K IH] /=; first by rewrite mulr1 mul1r scale1r.
rewrite inE negb_or -/(base_of e K) => /andP[ij iK].
by rewrite mulrA (anticomm ij) mulNr -mulrA IH // -scalerAr exprS mulN1r scaleNr mulrA.
Qed.
Lemma sorted_lt_split i K : sorted ltn K ->
  K = [seq k <- K | (k < i)%N] ++ [seq k <- K | (i <= k)%N].
Proof.
elim: K => //= k K IH so; have so' := path_sorted so.
case: (ltnP k i) => ki /=; first by rewrite {1}(IH so').
have al : all (fun k => i <= k)%N K.
  apply/allP => j; move: so; rewrite path_sortedE; last exact: ltn_trans.
  by case/andP=> /allP h _ /h kj; apply: leq_trans ki (ltnW kj).
rewrite (all_filterP al); suff -> : [seq k0 <- K | (k0 < i)%N] = [::] by [].
apply/eqP; rewrite -(negbK (_ == _)) -has_filter; apply/hasPn => j /(allP al).
by rewrite -leqNgt.
Qed.
Lemma gen_mul_base i K : wfI n K -> (i < n)%N ->
  e i * base_of e K = ((-1) ^+ count (fun k => k < i)%N K * (if i \in K then gij a i i else 1))
     *: base_of e (symdiff n [:: i] K).
Proof.
move=> wK ni; have /andP[sK aK] := wK.
set K1 := [seq k <- K | (k < i)%N]; set K2 := [seq k <- K | (i <= k)%N].
have EK : K = K1 ++ K2 by exact: sorted_lt_split.
have iK1 : i \notin K1 by rewrite mem_filter ltnn.
have cnt : count (fun k => k < i)%N K = size K1 by rewrite size_filter.
have pw : pairwise ltn (K1 ++ K2) by rewrite -EK -(sorted_pairwise ltn_trans).
rewrite cnt {1}EK base_of_cat mulrA gen_pass // -scalerAl -mulrA -scalerA; congr (_ *: _).
have wi : wfI n [:: i] by rewrite /wfI /= ni.
case: ifP => iK.
  have [K2' E2] : exists K2', K2 = i :: K2'.
    have iK2 : i \in K2 by rewrite mem_filter leqnn.
    have al2 : all (fun k => i <= k)%N K2 by apply: filter_all.
    move: iK2 al2 pw; case: (K2) => // k K3; rewrite inE pairwise_cat /=.
    case: (i =P k) => [->|ne] /=; first by exists K3.
    move=> iK3 /andP[ik _] /and3P[_ _ /andP[/allP h _]].
    by have := h _ iK3; rewrite /ltn /= ltnNge ik.
  have -> : symdiff n [:: i] K = K1 ++ K2'.
    apply: (irr_sorted_eq ltn_trans ltnn); first by have /andP[] := symdiff_wf n [:: i] K.
      rewrite (sorted_pairwise ltn_trans); move: pw; rewrite E2 !pairwise_cat allrel_consr /=.
      by case/and3P=> /andP[_ ->] -> /andP[_ ->].
    have iK2' : i \notin K2'.
      move: pw; rewrite E2 pairwise_cat /= => /and3P[_ _ /andP[/allP h _]].
      by apply/negP => /h; rewrite /ltn /= ltnn.
    move=> k; rewrite mem_symdiff // inE EK E2 !mem_cat inE.
    case: (k =P i) => [->|ne] //=.
    by rewrite (negbTE iK1) (negbTE iK2').
  rewrite E2 base_of_cat /= -/(base_of e K2') [e i * (_ * _)]mulrA (gen_sq two rel).
  by rewrite -scalerAl mul1r -scalerAr.
have -> : symdiff n [:: i] K = K1 ++ i :: K2.
  apply: (irr_sorted_eq ltn_trans ltnn); first by have /andP[] := symdiff_wf n [:: i] K.
    rewrite (sorted_pairwise ltn_trans); move: pw; rewrite !pairwise_cat allrel_consr /=.
    case/and3P=> -> -> ->; rewrite !andbT; apply/andP; split.
      by apply/allP => k; rewrite mem_filter => /andP[].
    apply/allP => k; rewrite mem_filter => /andP[ik kK]; rewrite ltn_neqAle ik andbT.
    by apply/eqP => E; rewrite E kK in iK.
  move=> k; rewrite mem_symdiff // inE mem_cat inE EK mem_cat.
  case: (k =P i) => [->|ne] //=; first by rewrite -mem_cat -EK iK orbT.
by rewrite scale1r base_of_cat.
Qed.

Lemma symdiff_cons i I J : wfI n (i :: I) -> wfI n J ->
  symdiff n [:: i] (symdiff n I J) = symdiff n (i :: I) J.
Proof.
move=> wI wJ; have [ni wI' aI] := wfI_cons wI.
have wi : wfI n [:: i] by rewrite /wfI /= ni.
apply: wfI_eq; try exact: symdiff_wf.
have iI : i \notin I by apply/negP => /(allP aI); rewrite ltnn.
move=> k; rewrite !mem_symdiff ?symdiff_wf // !inE.
by case: (k =P i) => [->|_] //; rewrite (negbTE iI).
Qed.

Lemma ortho_mul I J : wfI n I -> wfI n J ->
  base_of e I * base_of e J =
  ((-1) ^+ crossings I J * \prod_(i <- I | i \in J) gij a i i) *: base_of e (symdiff n I J).
Proof.
move=> + wJ; elim: I => [|i I IH] wI.
  rewrite /crossings !big_nil mulr1 scale1r mul1r; congr (base_of e _).
  by apply: (wfI_eq wJ (symdiff_wf _ _ _)) => k; rewrite mem_symdiff.
have [ni wI' aI] := wfI_cons wI.
rewrite /= -/(base_of e I) -mulrA IH // -scalerAr gen_mul_base ?symdiff_wf //.
rewrite symdiff_cons // scalerA; congr (_ *: _).
rewrite crossings_cons big_cons exprD.
have iI : i \notin I by apply/negP => /(allP aI); rewrite ltnn.
have -> : (i \in symdiff n I J) = (i \in J) by rewrite mem_symdiff // (negbTE iI).
have -> : count (fun k => k < i)%N (symdiff n I J) = count (fun k => k < i)%N J.
  rewrite -!size_filter; congr size; apply: (irr_sorted_eq ltn_trans ltnn).
  - by apply: sorted_filter; [exact: ltn_trans | have /andP[] := symdiff_wf n I J].
  - by apply: sorted_filter; [exact: ltn_trans | have /andP[] := wJ].
  move=> k; rewrite [LHS]mem_filter [RHS]mem_filter mem_symdiff //; case ki : (k < i)%N => //=.
  suff -> : (k \in I) = false by [].
  by apply/negbTE/negP => /(allP aI); rewrite ltnNge ltnW.
set P := \prod_(i0 <- I | _) _; set s1 := _ ^+ crossings I J; set s2 := _ ^+ count _ J.
by move: {IH} s1 s2 P (gij a i i) => s1 s2 P q; case: ifP => _; cring.
Qed.
End OrthoValue.

Section Mul.
Variables (R : comUnitRingType) (two : (2%:R : R) \is a GRing.unit) (a : ga R).
Hypothesis wf : wf_ga a.
Notation n := (ga_n a).
Implicit Types (x y v : expr R) (w : word) (I J : seq nat).

Definition relA (A : algType R) (e : nat -> A) :=
  forall i j, e i * e j + e j * e i = (geff a i j *+ 2)%:A.

Lemma mul_bb_ortho I J : is_ortho a -> wfI n I -> wfI n J ->
  exists2 v, mul_bb a (mk_blade I) (mk_blade J) = Some v & blade_expr n v /\
    (forall (A : algType R) (e : nat -> A), relA e -> ev e v = blade_of e I * blade_of e J).
Proof.
move=> ort wI wJ; rewrite /mul_bb ort mul_ortho_spec //; eexists; [reflexivity|split].
  by rewrite /blade_expr /= andbT mk_blade_in // symdiff_wf.
have u K : wfI n K -> uniq K by case/andP=> /(sorted_uniq ltn_trans ltnn).
move=> A e rel; rewrite ev_cons ev_nil addr0 ev_mk_blade /=.
rewrite !(ortho_blade two wf ort rel) ?u ?symdiff_wf //.
by rewrite (ortho_mul two wf ort rel).
Qed.
Lemma mul_bb_nonortho w1 w2 : is_ortho a = false ->
  (w1 \in blades_flat n) || (w1 \in bases_flat n) ->
  (w2 \in blades_flat n) || (w2 \in bases_flat n) ->
  exists2 v, mul_bb a w1 w2 = Some v & blade_expr n v /\
    (forall (A : algType R) (e : nat -> A), relA e -> ev e v = ev_word e w1 * ev_word e w2).
Proof.
move=> no h1 h2; rewrite /mul_bb no.
have m1 : mix_expr a [:: (1 : R, w1)] by rewrite /mix_expr /= h1.
have m2 : mix_expr a [:: (1 : R, w2)] by rewrite /mix_expr /= h2.
have [x1 -> [b1 c1 e1]] := blade_to_base_nonortho two no m1.
have [x2 -> [b2 c2 e2]] := blade_to_base_nonortho two no m2; rewrite /=.
have [x12 -> [b12 e12]] := basic_mulP two b1 b2; rewrite /=.
have [y -> [b3 c3 e3]] := base_to_blade_nonortho two wf no (base_mix b12).
exists y => //; split=> // A e rel; rewrite e3 // e12 // e1 // e2 // !ev_cons !ev_nil.
by rewrite !addr0 !scale1r.
Qed.

(* the words on which the algebra's product is defined *)
Definition okw w := if is_ortho a then w \in blades_flat n
                    else (w \in blades_flat n) || (w \in bases_flat n).
Definition ok_expr x := all okw (words x).
Lemma okw1 : okw [::].
Proof. by rewrite /okw (@mk_blade_in n [::]) //; case: ifP. Qed.
Lemma okw_blade w : w \in blades_flat n -> okw w.
Proof. by rewrite /okw => ->; case: ifP. Qed.
Lemma blade_ok x : blade_expr n x -> ok_expr x.
Proof. by apply: sub_all => w; exact: okw_blade. Qed.
Lemma okw_size w : okw w -> (size w <= 1)%N.
Proof.
rewrite /okw; case: ifP => _; first by case/bladeP=> I _ ->; exact: mk_blade_size.
by case/orP=> [/bladeP|/baseP] [I _ ->]; rewrite ?mk_blade_size ?mk_base_size.
Qed.

Lemma mul_bbP w1 w2 : okw w1 -> okw w2 ->
  exists2 v, mul_bb a w1 w2 = Some v & blade_expr n v /\
    (forall (A : algType R) (e : nat -> A), relA e -> ev e v = ev_word e w1 * ev_word e w2).
Proof.
rewrite /okw; case: ifP => ort; last exact: mul_bb_nonortho.
move=> /bladeP [I wI ->] /bladeP [J wJ ->].
have [v E [bv h]] := mul_bb_ortho ort wI wJ; exists v => //; split=> // A e rel.
by rewrite h // !ev_mk_blade.
Qed.
End Mul.

(* bilinear extension of a product table *)
Section Subst.
Variables (R : comUnitRingType) (P Q : pred word).
Implicit Types (x y v : expr R) (w : word).
Hypotheses (P0 : P [::]) (Ps : forall w, P w -> (size w <= 1)%N).
Variable tab : word -> word -> option (expr R).
Hypothesis tot : forall w1 w2, P w1 -> P w2 ->
  exists2 v, tab w1 w2 = Some v & all Q (words v).

Lemma linear_expand_words x : all P (words x) -> all P (words (linear_expand x)).
Proof.
move=> h; have hc := all_words_canon h; rewrite /linear_expand.
case: (canon x) hc => [|t y] hc; first by rewrite /= P0.
apply/allP => w; rewrite words_merge => /mapP [_ /mapP [u uy ->] ->] /=.
have Pu : P u.2 by apply: (allP hc); apply: map_f.
by have := Ps Pu; case: u.2 Pu => [|s [|s' ww]].
Qed.

Lemma uasP x y : all P (words x) -> all P (words y) ->
  exists2 z, update_and_substitute x y tab = Some z & [/\ all Q (words z), canonical z &
   forall (A : algType R) (e : nat -> A) (op : A -> A -> A),
     (forall c (u v z : A), op (c *: u + v) z = c *: op u z + op v z) ->
     (forall c (u v z : A), op z (c *: u + v) = c *: op z u + op z v) ->
     (forall w1 w2 v, P w1 -> P w2 -> tab w1 w2 = Some v ->
        ev e v = op (ev_word e w1) (ev_word e w2)) ->
     ev e z = op (ev e x) (ev e y)].
Proof.
move=> hx hy.
have sx : all (fun w => size w <= 1)%N (words x) by apply: sub_all hx.
have sy : all (fun w => size w <= 1)%N (words y) by apply: sub_all hy.
have {}hx := linear_expand_words hx; have {}hy := linear_expand_words hy.
rewrite /update_and_substitute; set f := fun p : (R * word) * (R * word) => _.
set l := [seq _ | _ <- _, _ <- _].
pose h (p : (R * word) * (R * word)) := odflt [::] (f p).
have memL p : p \in l -> P p.1.2 /\ P p.2.2.
  case/allpairsP=> -[t u] [/= tx uy ->] /=.
  by split; [apply: (allP hx) | apply: (allP hy)]; apply: map_f.
have E : omapM f l = Some [seq h p | p <- l].
  apply: omapM_some => p /memL [P1 P2]; rewrite /h /f.
  by have [v -> _] := tot P1 P2.
rewrite E /=; eexists; [reflexivity|split].
- apply: all_words_canon; rewrite all_words_flatten all_map; apply/allP => p /memL [P1 P2] /=.
  by rewrite /h /f; have [v -> Qv] := tot P1 P2; rewrite /= words_escale.
- exact: canonical_canon.
move=> A e op opl opr val.
have op0l z : op 0 z = 0 by have := opl (-1) 0 0 z; rewrite scaler0 addr0 scaleN1r addNr.
have op0r z : op z 0 = 0 by have := opr (-1) 0 0 z; rewrite scaler0 addr0 scaleN1r addNr.
rewrite ev_canon ev_flatten big_map.
rewrite -(ev_linear_expand e sx) -(ev_linear_expand e sy) /l.
rewrite big_allpairs_dep /=; rewrite {2}/ev.
elim: (linear_expand x) hx => [|t z IH] hz; first by rewrite !big_nil op0l.
rewrite !big_cons opl; move: hz => /= /andP[Pt hz]; rewrite IH //; congr (_ + _).
elim: (linear_expand y) hy => [|u z' IH'] hz'; first by rewrite big_nil ev_nil op0r scaler0.
rewrite big_cons ev_cons opr; move: hz' => /= /andP[Pu hz']; rewrite IH' // scalerDr scalerA.
congr (_ + _); rewrite /h /f /=; have [v Ev _] := tot Pt Pu.
by rewrite Ev /= ev_escale (val _ _ _ Pt Pu Ev).
Qed.
End Subst.

Section Mul2.
Variables (R : comUnitRingType) (two : (2%:R : R) \is a GRing.unit) (a : ga R).
Hypothesis wf : wf_ga a.
Notation n := (ga_n a).
Implicit Types (x y v : expr R) (w : word) (I J : seq nat).

Lemma ga_mulP x y : ok_expr a x -> ok_expr a y ->
  exists2 z, ga_mul a x y = Some z & [/\ blade_expr n z, canonical z &
    forall (A : algType R) (e : nat -> A), relA a e -> ev e z = ev e x * ev e y].
Proof.
move=> ox oy; rewrite /ga_mul.
have tot w1 w2 : okw a w1 -> okw a w2 ->
    exists2 v, mul_bb a w1 w2 = Some v & all (mem (blades_flat n)) (words v).
  by move=> o1 o2; have [v E [bv _]] := mul_bbP two wf o1 o2; exists v.
have [z -> [bz cz ez]] := uasP (okw1 a) (@okw_size _ a) tot ox oy.
exists z => //; split=> // A e rel; rewrite (ez _ _ (fun u v : A => u * v)) //.
- by move=> c u v z'; rewrite mulrDl scalerAl.
- by move=> c u v z'; rewrite mulrDr scalerAr.
move=> w1 w2 v o1 o2 E; have [v' E' [_ h]] := mul_bbP two wf o1 o2.
by move: E; rewrite E' => -[<-]; apply: h.
Qed.
End Mul2.
