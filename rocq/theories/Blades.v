(* Blades.v -- antisymmetrised products in an arbitrary algebra generated by
   elements with e_i e_j + e_j e_i = 2 g_ij, and the universal property of the
   Clifford algebra of Clifford.v.

   Independent mathematical layer: nothing here mentions the code. *)
From mathcomp Require Import all_ssreflect all_algebra.
From Verif Require Import Exterior AlgTactics Clifford.
Set Implicit Arguments.
Unset Strict Implicit.
Unset Printing Implicit Defensive.
Import GRing.Theory.
Local Open Scope ring_scope.

Section Blade.
Variables (R : comUnitRingType) (two : (2%:R : R) \is a GRing.unit).
Variables (A : algType R) (I : Type) (g : I -> I -> R) (e : I -> A).
Hypothesis rel : forall i j, e i * e j + e j * e i = (g i j *+ 2)%:A.
Implicit Types (i j k : I) (w u v : seq I).

Lemma halfV (V : lmodType R) (v : V) : 2%:R^-1 *: (v + v) = v.
Proof. by rewrite -mulr2n -scaler_nat scalerA mulVr ?scale1r. Qed.

(* the blade e_{i1} ^ ... ^ e_{ik} as an antisymmetrised product *)
Fixpoint blade_of w : A :=
  if w is i :: w' then
    2%:R^-1 *: (e i * blade_of w' + (-1) ^+ size w' *: (blade_of w' * e i))
  else 1.
Notation B := blade_of.
(* the plain product e_{i1} * ... * e_{ik} *)
Definition base_of w : A := foldr (fun i a => e i * a) 1 w.

Lemma blade1 i : B [:: i] = e i.
Proof. by rewrite /= expr0 scale1r mulr1 mul1r halfV. Qed.

Lemma blade_congr i w w' c : size w = size w' -> B w = c *: B w' ->
  B (i :: w) = c *: B (i :: w').
Proof. by move=> hs h /=; rewrite hs h; lalg R. Qed.

Lemma sgnP (m : nat) : (-1) ^+ m = 1 :> R \/ (-1) ^+ m = -1 :> R.
Proof. by rewrite -signr_odd; case: (odd m); [right|left]. Qed.

Lemma blade_swap i j w : B (i :: j :: w) = - B (j :: i :: w).
Proof.
rewrite /= !exprS !mulN1r; set b := B w; set h := 2%:R^-1.
have E : e i * e j = (g i j *+ 2) *: 1 - e j * e i by rewrite -rel addrK.
apply/eqP; rewrite -subr_eq0 opprK; apply/eqP.
transitivity ((h * h) *: ((e i * e j + e j * e i) * b - b * (e i * e j + e j * e i))).
  by case: (sgnP (size w)) => ->; lalg R.
by rewrite rel -!scalerAl -!scalerAr mul1r mulr1 subrr scaler0.
Qed.

Lemma blade_dup i w : B (i :: i :: w) = 0.
Proof.
have h := blade_swap i i w.
by rewrite -[LHS]halfV [X in _ *: (X + _)]h addNr scaler0.
Qed.

Lemma blade_move i w u : B (i :: w ++ u) = (-1) ^+ size w *: B (w ++ i :: u).
Proof.
elim: w => [|j w IH]; first by rewrite scale1r.
rewrite cat_cons blade_swap (blade_congr j (w' := w ++ i :: u) _ IH).
  by rewrite /= exprS mulN1r scaleNr.
by rewrite /= !size_cat /= addnS.
Qed.

Lemma blade_eq0 i w : B w = 0 -> B (i :: w) = 0.
Proof. by move=> h /=; rewrite h mulr0 mul0r scaler0 addr0 scaler0. Qed.

Lemma blade_eq0_cat w u : B u = 0 -> B (w ++ u) = 0.
Proof. by move=> h; elim: w => //= j w IH; apply: blade_eq0. Qed.

Lemma blade_dup2 i w u : B (i :: w ++ i :: u) = 0.
Proof. by rewrite blade_move blade_eq0_cat ?scaler0 // blade_dup. Qed.

(* contraction of e_i into the blade of w, as a formal sum *)
Fixpoint dterms i w : seq (R * seq I) :=
  if w is j :: w' then (g i j, w') :: [seq (- t.1, j :: t.2) | t <- dterms i w']
  else [::].
Definition bsum (ts : seq (R * seq I)) : A := \sum_(t <- ts) t.1 *: B t.2.

Lemma dterms_size i w t : List.In t (dterms i w) -> (size t.2).+1 = size w.
Proof.
elim: w t => [|j w IH] t //= [<- //|].
by rewrite List.in_map_iff => -[u [<- /IH /= ->]].
Qed.

Lemma bsum_cons j (ts : seq (R * seq I)) m : (forall t, List.In t ts -> size t.2 = m) ->
  bsum [seq (- t.1, j :: t.2) | t <- ts]
  = - (2%:R^-1 *: (e j * bsum ts + (-1) ^+ m *: (bsum ts * e j))).
Proof.
rewrite /bsum; elim: ts => [|t ts IH] hm.
  by rewrite !big_nil mulr0 mul0r scaler0 addr0 scaler0 oppr0.
rewrite /= !big_cons {}IH => [|u hu]; last by apply: hm; right.
by rewrite /= (hm t) /=; [lalg R | left].
Qed.

Lemma blade_contr i w :
  2%:R^-1 *: (e i * B w - (-1) ^+ size w *: (B w * e i)) = bsum (dterms i w).
Proof.
elim: w => [|j w IH].
  by rewrite /bsum /= big_nil expr0 scale1r mulr1 mul1r subrr scaler0.
rewrite /= /bsum big_cons /= -/(bsum _).
rewrite (@bsum_cons j _ (size w).-1) => [|t /dterms_size <- //].
case: (posnP (size w)) => [|w0].
  move/size0nil => ->; rewrite /bsum /= big_nil !(expr0, expr1).
  rewrite mulr0 mul0r scaler0 addr0 scaler0 subr0.
  transitivity (2%:R^-1 *: (2%:R^-1 *: ((e i * e j + e j * e i) + (e i * e j + e j * e i)))).
    by lalg R.
  by rewrite halfV rel mulr2n scalerDl halfV.
have -> : (-1) ^+ (size w).-1 = - (-1) ^+ size w :> R.
  by rewrite -[in RHS](prednK w0) exprS mulN1r opprK.
rewrite -{}IH exprS mulN1r; set b := B w; set h := 2%:R^-1.
apply/eqP; rewrite eq_sym subr_eq eq_sym; apply/eqP.
transitivity ((h * h) *: ((e i * e j + e j * e i) * b + b * (e i * e j + e j * e i))).
  by case: (sgnP (size w)) => ->; lalg R.
rewrite rel -!scalerAl -!scalerAr mul1r mulr1 -scalerA halfV mulr2n scalerDl.
by rewrite halfV.
Qed.

Lemma vec_mul_blade i w : e i * B w = B (i :: w) + bsum (dterms i w).
Proof.
rewrite -blade_contr /= -scalerDr -[LHS]halfV; congr (_ *: _); zmod.
Qed.

Lemma blade_mul_vec i w :
  (-1) ^+ size w *: (B w * e i) = B (i :: w) - bsum (dterms i w).
Proof.
rewrite -blade_contr /= -scalerBr -[LHS]halfV; congr (_ *: _); zmod.
Qed.

End Blade.

Section Universal.
Variables (R : comUnitRingType) (n : nat) (g : cmetric R n).
Notation C := (clifford g).
Notation ltI := (fun i j : 'I_n => (i < j)%N).
Implicit Types (i j k : 'I_n) (S T : {set 'I_n}) (w u v : seq 'I_n).

Definition cgen i : C := bl R [set i].

Lemma cgen_mul i (x : C) : cgen i * x = lmul g i x.
Proof. exact: cmul_vec. Qed.
Lemma cgen_mulr i (x : C) : x * cgen i = rmul g i x.
Proof. exact: cmul_vecr. Qed.

Lemma cgen_rel i j : cgen i * cgen j + cgen j * cgen i = (g i j *+ 2)%:A :> C.
Proof.
rewrite -[X in X + _]mulr1 -[X in _ + X]mulr1 -!mulrA !cgen_mul.
exact: (lmul_anti g i j (1 : C)).
Qed.

Definition cblade w : C := blade_of cgen w.

Lemma Op_mul w y : Op g w y = cblade w * y.
Proof.
rewrite /cblade; elim: w y => [|i w IH] y; first by rewrite mul1r.
rewrite /= !IH -!cgen_mul; lalg R.
Qed.

Lemma cblade_wword w : cblade w = wword R w.
Proof. by rewrite -[cblade w]mulr1 -Op_mul -(Op1 g). Qed.

Lemma cblade_enum S : cblade (enum S) = bl R S.
Proof. by rewrite cblade_wword wword_enum. Qed.

Lemma cblade_sorted w : sorted ltI w -> cblade w = bl R [set k in w].
Proof. by move=> h; rewrite cblade_wword wword_sorted. Qed.

Lemma ltI_trans : transitive ltI.
Proof. by move=> a b c; apply: ltn_trans. Qed.
Lemma ltI_irr : irreflexive ltI.
Proof. by move=> a; rewrite ltnn. Qed.

Lemma enum_set_sorted w : sorted ltI w -> enum [set k in w] = w.
Proof.
move=> h; apply: (irr_sorted_eq ltI_trans ltI_irr) => //; first exact: enum_sorted.
by move=> k; rewrite mem_enum inE.
Qed.

Lemma sorted_split i w : sorted ltI w -> i \notin w ->
  exists w1 w2, w = w1 ++ w2 /\ sorted ltI (w1 ++ i :: w2).
Proof.
elim: w => [|j w IH] /=; first by exists [::], [::].
move=> jw; rewrite inE negb_or => /andP[ij iw].
have [lt|ge] := ltnP i j.
  by exists [::], (j :: w); split=> //=; rewrite lt.
have {ge} ltj : (j < i)%N by rewrite ltn_neqAle ge eq_sym val_eqE ij.
have [w1 [w2 [E so]]] := IH (path_sorted jw) iw.
exists (j :: w1), w2; split; first by rewrite E.
move: jw; rewrite /= !path_sortedE; try exact: ltI_trans.
move=> /andP[al _]; rewrite so andbT.
move: al; rewrite E !all_cat /= ltj => /andP[-> ->] //.
Qed.

Variables (A : algType R) (e : 'I_n -> A).
Hypothesis rel : forall i j, e i * e j + e j * e i = (g i j *+ 2)%:A.

(* the algebra map determined by e_i |-> e i *)
Definition cl_map (x : C) : A := \sum_(S : {set 'I_n}) x S *: blade_of e (enum S).

Lemma cl_map_is_linear : linear cl_map.
Proof.
move=> a x y; rewrite /cl_map scaler_sumr -big_split; apply: eq_bigr => S _ /=.
by rewrite !ffunE scalerDl scalerA.
Qed.
Canonical cl_map_additive := Additive cl_map_is_linear.
Canonical cl_map_linear := Linear cl_map_is_linear.

Lemma cl_map_bl S : cl_map (bl R S) = blade_of e (enum S).
Proof.
rewrite /cl_map (bigD1 S) //= big1 ?addr0 ?ffunE ?eqxx ?scale1r //.
by move=> T nTS; rewrite ffunE (negbTE nTS) scale0r.
Qed.

Lemma cl_map_sorted w : sorted ltI w -> cl_map (cblade w) = blade_of e w.
Proof. by move=> h; rewrite cblade_sorted // cl_map_bl enum_set_sorted. Qed.

Lemma cl_map_cons i w : sorted ltI w -> cl_map (cblade (i :: w)) = blade_of e (i :: w).
Proof.
move=> sw; have [iw|iw] := boolP (i \in w).
  case/splitPr: iw => w1 w2; rewrite /cblade.
  by rewrite (blade_dup2 (two_unit g) cgen_rel) (blade_dup2 (two_unit g) rel) raddf0.
have [w1 [w2 [-> so]]] := sorted_split sw iw; rewrite /cblade.
rewrite (blade_move cgen_rel) (blade_move rel) linearZ /=.
by rewrite -/(cblade _) cl_map_sorted.
Qed.

Lemma dterms_sorted i w t : sorted ltI w -> List.In t (dterms g i w) ->
  sorted ltI t.2 /\ {subset t.2 <= w}.
Proof.
elim: w t => [|j w IH] t //= jw [<-|] /=.
  by split; [exact: path_sorted jw | move=> k; rewrite inE orbC => ->].
rewrite List.in_map_iff => -[u [<- hu]] /=.
have [so su] := IH u (path_sorted jw) hu; split.
  move: jw; rewrite !path_sortedE; try exact: ltI_trans.
  by case/andP => al _; rewrite so andbT; apply/allP => k /su; move/allP: al; apply.
by move=> k; rewrite !inE => /orP[->//|/su ->]; rewrite orbT.
Qed.

Lemma cl_map_bsum i w : sorted ltI w ->
  cl_map (bsum cgen (dterms g i w)) = bsum e (dterms g i w).
Proof.
move=> sw; have h := fun t => @dterms_sorted i w t sw.
rewrite /bsum; elim: (dterms g i w) h => [|t ts IH] h; first by rewrite !big_nil raddf0.
rewrite !big_cons raddfD /= linearZ /= -/(cblade _) cl_map_sorted; last first.
  by case: (h t); [left | ].
by rewrite IH // => u hu; apply: h; right.
Qed.

Lemma cl_map_gen i (x : C) : cl_map (cgen i * x) = e i * cl_map x.
Proof.
rewrite (mval_decomp x) mulr_sumr !raddf_sum mulr_sumr; apply: eq_bigr => S _ /=.
rewrite -scalerAr !linearZ /= -scalerAr; congr (_ *: _).
rewrite -cblade_enum /cblade (vec_mul_blade (two_unit g) cgen_rel) raddfD /=.
rewrite -/(cblade _) cl_map_cons ?enum_sorted // cl_map_bsum ?enum_sorted //.
by rewrite -(vec_mul_blade (two_unit g) rel) cl_map_sorted ?enum_sorted.
Qed.

Lemma cl_map_blade w (x : C) : cl_map (cblade w * x) = blade_of e w * cl_map x.
Proof.
rewrite /cblade; elim: w x => [|i w IH] x /=; first by rewrite !mul1r.
rewrite -scalerAl mulrDl -scalerAl linearZ /= raddfD /= linearZ /=.
rewrite -!mulrA IH !cl_map_gen IH; lalg R.
Qed.

Lemma cl_map1 : cl_map 1 = 1.
Proof. by rewrite cl_map_bl enum_set0. Qed.

Theorem cl_mapM (x y : C) : cl_map (x * y) = cl_map x * cl_map y.
Proof.
rewrite (mval_decomp x) mulr_suml !raddf_sum mulr_suml; apply: eq_bigr => S _ /=.
rewrite -scalerAl !linearZ /= -scalerAl; congr (_ *: _).
by rewrite -cblade_enum cl_map_blade cl_map_sorted ?enum_sorted.
Qed.

Lemma cl_map_of_gen i : cl_map (cgen i) = e i.
Proof. by rewrite -[cgen i]mulr1 cl_map_gen cl_map1 mulr1. Qed.

End Universal.
