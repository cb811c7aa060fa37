(* Ga_Proof_Wedge.v -- the outer product of the model *)
From mathcomp Require Import all_ssreflect all_algebra.
From Verif Require Import NatTac AlgTactics Exterior Clifford Blades Spec_Grade Grades.
From Verif Require Import Spec_Index PyBase Ga_Model Ga_Proof_Tables Ga_Proof_Sort Ga_Proof_Sem Ga_Proof_Reduce.
From Verif Require Import Ga_Sem Ga_Proof_Rep Ga_Proof_Conv Ga_Proof_Mul Spec_Clifford Clifford_Unique Spec_Mv Ga_Proof_Den.
Set Implicit Arguments.
Unset Strict Implicit.
Unset Printing Implicit Defensive.
Import GRing.Theory.
Local Open Scope ring_scope.

Section ExtLin.
Variables (R : comUnitRingType) (n : nat).
Implicit Types (x y z : mval R n).
Lemma ext_linl c x y z : ext (c *: x + y) z = c *: ext x z + ext y z.
Proof.
rewrite /ext scaler_sumr -big_split; apply: eq_bigr => S _ /=.
rewrite scaler_sumr -big_split; apply: eq_bigr => T _ /=.
by rewrite !ffunE mulrDl scalerDl scalerA mulrA.
Qed.
Lemma ext_linr c x y z : ext z (c *: x + y) = c *: ext z x + ext z y.
Proof.
rewrite /ext scaler_sumr -big_split; apply: eq_bigr => S _ /=.
rewrite scaler_sumr -big_split; apply: eq_bigr => T _ /=.
by rewrite !ffunE mulrDr scalerDl scalerA mulrCA.
Qed.
Lemma ext_bl (S T : {set 'I_n}) : ext (bl R S) (bl R T) = extb R S T.
Proof.
rewrite /ext (bigD1 S) //= (bigD1 T) //= !bl_coef !eqxx mulr1 scale1r !big1 ?addr0 //.
  by move=> S' h; rewrite big1 // => T' _; rewrite bl_coef (negbTE h) mul0r scale0r.
by move=> T' h; rewrite !bl_coef (negbTE h) mulr0 scale0r.
Qed.
Lemma ext_sumr (J : Type) (r : seq J) (P : pred J) (F : J -> mval R n) z :
  ext z (\sum_(i <- r | P i) F i) = \sum_(i <- r | P i) ext z (F i).
Proof.
have e0 : ext z 0 = 0 by have := ext_linr (-1) 0 0 z; rewrite scaler0 addr0 scaleN1r addNr.
elim/big_rec2: _ => // i y x _ <-; by have := ext_linr 1 (F i) x z; rewrite !scale1r.
Qed.
Lemma ext_suml (J : Type) (r : seq J) (P : pred J) (F : J -> mval R n) z :
  ext (\sum_(i <- r | P i) F i) z = \sum_(i <- r | P i) ext (F i) z.
Proof.
have e0 : ext 0 z = 0 by have := ext_linl (-1) 0 0 z; rewrite scaler0 addr0 scaleN1r addNr.
elim/big_rec2: _ => // i y x _ <-; by have := ext_linl 1 (F i) x z; rewrite !scale1r.
Qed.
Lemma ext_scall c x z : ext (c *: x) z = c *: ext x z.
Proof. by have := ext_linl c x 0 z; rewrite /ext !addr0 => ->; rewrite -[RHS]addr0; congr (_ + _); rewrite big1 // => S _; rewrite big1 // => T _; rewrite ffunE mul0r scale0r. Qed.
Lemma ext_scalr c x z : ext z (c *: x) = c *: ext z x.
Proof. by have := ext_linr c x 0 z; rewrite /ext !addr0 => ->; rewrite -[RHS]addr0; congr (_ + _); rewrite big1 // => S _; rewrite big1 // => T _; rewrite ffunE mulr0 scale0r. Qed.
End ExtLin.

Section Lists.
Variables (R : comUnitRingType) (n : nat).
Implicit Types (I J : seq nat).
Lemma cross_crossings I J : wfI n I -> wfI n J -> cross (set_of n I) (set_of n J) = crossings I J.
Proof.
move=> wI wJ; rewrite /cross /crossings.
have uI : uniq I by case/andP: wI => /(sorted_uniq ltn_trans ltnn).
have uJ : uniq J by case/andP: wJ => /(sorted_uniq ltn_trans ltnn).
have cnt (s : nat) : #|[set t in set_of n J | (t < s)%N]| = count (fun y => y < s)%N J.
  rewrite -size_filter cardE -(size_map (@nat_of_ord n)); apply: perm_size; apply: uniq_perm.
  - by rewrite map_inj_uniq ?enum_uniq //; exact: val_inj.
  - exact: filter_uniq.
  move=> k; apply/mapP/idP => [[i]|].
    by rewrite mem_enum !inE mem_filter => /andP[h1 h2] ->; rewrite h1 h2.
  rewrite mem_filter => /andP[ks kJ]; have kn := allP (proj2 (andP wJ)) _ kJ.
  by exists (Ordinal kn); rewrite // mem_enum !inE kJ.
rewrite (eq_bigr (fun s : 'I_n => count (fun y => y < s)%N J)); last by move=> s _; exact: cnt.
rewrite -big_enum /= -(big_map (@nat_of_ord n) xpredT (fun s => count (fun y => y < s)%N J)).
apply: perm_big; rewrite -[X in perm_eq X]/(list_of (set_of n I)) set_ofK //; exact: perm_refl.
Qed.
Lemma disjoint_cat I J : wfI n I -> wfI n J -> uniq (I ++ J) = [disjoint set_of n I & set_of n J].
Proof.
move=> wI wJ; rewrite cat_uniq.
have -> : uniq I by case/andP: wI => /(sorted_uniq ltn_trans ltnn).
have -> : uniq J by case/andP: wJ => /(sorted_uniq ltn_trans ltnn).
rewrite andbT /=; apply/hasPn/idP => [h|d k kJ].
  apply/pred0P => i /=; rewrite !inE; apply/negbTE/negP => /andP[iI iJ].
  by have /negP := h _ iJ; apply.
apply/negP => /= kI; have kn := allP (proj2 (andP wJ)) _ kJ.
by have /pred0P/(_ (Ordinal kn)) := d; rewrite /= !inE kI kJ.
Qed.
End Lists.

Section Wedge.
Variables (R : comUnitRingType) (two : (2%:R : R) \is a GRing.unit) (a : ga R).
Notation n := (ga_n a).
Implicit Types (x y v : expr R) (w : word) (I J : seq nat).

Lemma wedge_bbP I J : wfI n I -> wfI n J ->
  exists2 v, wedge_bb a (mk_blade I) (mk_blade J) = Some v & blade_expr n v /\
    mv_of n v = extb R (set_of n I) (set_of n J).
Proof.
move=> wI wJ; rewrite /wedge_bb !b2i_get //=.
have Z : mv_of n ([::] : expr R) = 0 by apply/ffunP => S; rewrite !ffunE /coefficient big_nil.
case: ltnP => [big|small].
  exists [::] => //; split=> //; rewrite Z /extb ifF //; apply/negbTE/negP => d.
  have := subset_leq_card (subsetT (set_of n I :|: set_of n J)).
  rewrite cardsU disjoint_setI0 // cards0 subn0 !card_set_of // cardsT card_ord.
  by rewrite leqNgt big.
have := blade_reduce_spec (I ++ J); case: blade_reduce => [[sgn l]|]; last first.
  by rewrite (disjoint_cat wI wJ) => d; exists [::] => //; split=> //; rewrite Z /extb (negbTE d).
rewrite (disjoint_cat wI wJ) => -[d so pe ->].
have wl : wfI n l.
  rewrite /wfI so (perm_all _ pe) all_cat.
  by case/andP: wI => _ ->; case/andP: wJ => _ ->.
rewrite i2b_get //=; eexists; [reflexivity|split].
  by rewrite /blade_expr /= andbT mk_blade_in.
rewrite /extb d cross_crossings //.
have -> : set_of n I :|: set_of n J = set_of n l.
  by apply/setP => k; rewrite !inE (perm_mem pe) mem_cat.
rewrite inversions_cat !inversions_sorted ?add0n; last 2 first.
- by case/andP: wJ => + _; apply: sub_sorted => u v /ltnW.
- by case/andP: wI => + _; apply: sub_sorted => u v /ltnW.
apply/ffunP => S; rewrite !ffunE /coefficient big_mkcond big_seq1 /= (inj_eq mk_blade_inj).
rewrite -[idx_list S]/(list_of S) -{1}(set_ofK wl) (inj_eq (@list_of_inj n)) eq_sym.
by rewrite /sgnR -signr_odd; case: eqP => _; rewrite ?mulr0 ?mulr1 //; case: odd.
Qed.

Lemma ga_wedgeP x y : blade_expr n x -> blade_expr n y ->
  exists2 z, ga_wedge a x y = Some z & [/\ blade_expr n z, canonical z &
    value two a z = ext (value two a x) (value two a y)].
Proof.
move=> bx b_y; rewrite /ga_wedge.
have b0 : [::] \in blades_flat n by exact: (@mk_blade_in n [::]).
have bs w : w \in blades_flat n -> (size w <= 1)%N by case/bladeP=> I _ ->; exact: mk_blade_size.
have tot w1 w2 : w1 \in blades_flat n -> w2 \in blades_flat n ->
    exists2 v, wedge_bb a w1 w2 = Some v & all (mem (blades_flat n)) (words v).
  by move=> /bladeP[I wI ->] /bladeP[J wJ ->]; have [v E [bv _]] := wedge_bbP wI wJ; exists v.
have [z -> [bz cz ez]] := uasP b0 bs tot bx b_y.
exists z => //; split=> //; rewrite /value (ez _ _ (fun u v : cl two a => ext u v)) //.
- by move=> c u v z'; exact: ext_linl.
- by move=> c u v z'; exact: ext_linr.
move=> w1 w2 v /bladeP[I wI ->] /bladeP[J wJ ->]; have [v' -> [bv h]] := wedge_bbP wI wJ.
by case=> <-; rewrite !ev_mk_blade !blade_wf // ext_bl -h -(value_mv_of two bv).
Qed.
End Wedge.
