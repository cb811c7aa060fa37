(* Det.v -- determinants in the exterior and the Clifford algebra:
   the outer product of n combinations of the basis vectors is the determinant
   times the pseudoscalar; multiplication by the pseudoscalar; its square; the
   square of an outer product of vectors (Gram determinant); reciprocal vectors.

   Independent mathematical layer: nothing here mentions the code. *)
From mathcomp Require Import all_ssreflect all_fingroup all_algebra.
From Verif Require Import NatTac AlgTactics Exterior Clifford Blades Spec_Grade Grades GradeLaws.
Set Implicit Arguments.
Unset Strict Implicit.
Unset Printing Implicit Defensive.
Import GRing.Theory.
Local Open Scope ring_scope.

(* anticommuting operators *)
Section Anti.
Variables (R : comUnitRingType) (n : nat) (V : lmodType R) (f : 'I_n -> {linear V -> V}).
Hypothesis anti : forall i j x, f i (f j x) = - f j (f i x).
Hypothesis sq0 : forall i x, f i (f i x) = 0.
Implicit Types (x : V) (w u : seq 'I_n) (S : {set 'I_n}).
Definition word_op w x : V := foldr (fun i y => f i y) x w.

Lemma word_op_cat w u x : word_op (w ++ u) x = word_op w (word_op u x).
Proof. by rewrite /word_op foldr_cat. Qed.
Lemma word_op_lin w : linear (word_op w).
Proof. by elim: w => [|i w IH] c x y //=; rewrite IH linearP. Qed.
Lemma word_opZ w (c : R) x : word_op w (c *: x) = c *: word_op w x.
Proof. by elim: w => //= i w ->; rewrite linearZ. Qed.
Lemma word_op0 w : word_op w 0 = 0.
Proof. by elim: w => //= i w ->; rewrite raddf0. Qed.
Lemma word_move i w x : word_op w (f i x) = (-1) ^+ size w *: f i (word_op w x).
Proof.
elim: w => [|j w IH] /=; first by rewrite scale1r.
by rewrite IH linearZ /= anti exprS mulN1r scaleNr scalerN.
Qed.
Lemma word_dup i w u x : word_op (i :: w ++ i :: u) x = 0.
Proof. by rewrite /= word_op_cat /= word_move linearZ /= sq0 scaler0. Qed.
Lemma word_dup' p i w u x : word_op (p ++ i :: w ++ i :: u) x = 0.
Proof. by rewrite word_op_cat word_dup word_op0. Qed.
Lemma word_rep w x : ~~ uniq w -> word_op w x = 0.
Proof.
elim: w => //= i w IH; rewrite negb_and negbK => /orP[|/IH ->]; last by rewrite raddf0.
case/splitPr => w1 w2; exact: word_dup.
Qed.
Lemma word_swap p i w j u x :
  word_op (p ++ i :: w ++ j :: u) x = - word_op (p ++ j :: w ++ i :: u) x.
Proof.
rewrite !word_op_cat /= -[RHS]scaleN1r -word_opZ; congr (word_op p _).
by rewrite !word_op_cat /= !word_move !linearZ /= anti scaleN1r.
Qed.

(* the map y |-> y acting on x, e_S acting as the product of f over S *)
Definition act x (y : mval R n) : V := \sum_S y S *: word_op (enum S) x.
Lemma act_is_linear x : linear (act x).
Proof.
move=> c y z; rewrite /act scaler_sumr -big_split; apply: eq_bigr => S _ /=.
by rewrite !ffunE scalerDl scalerA.
Qed.
Canonical act_additive x := Additive (act_is_linear x).
Canonical act_linear x := Linear (act_is_linear x).
Lemma act_bl x S : act x (bl R S) = word_op (enum S) x.
Proof.
rewrite /act (bigD1 S) //= big1 ?addr0 ?ffunE ?eqxx ?scale1r //.
by move=> T nTS; rewrite ffunE (negbTE nTS) scale0r.
Qed.
Lemma act_wedge x i (y : mval R n) : act x (wedge_op i y) = f i (act x y).
Proof.
move: y; apply: (@linear_ext _ _ _ [linear of act x \o @wedge_op R n i] [linear of f i \o act x]) => S /=.
rewrite wedge_op_bl /Wb act_bl; case: ifP => iS.
  have := @word_rep (i :: enum S) x; rewrite /= mem_enum iS raddf0 => -> //.
have iS' : i \notin enum S by rewrite mem_enum iS.
have [w1 [w2 [E so]]] := sorted_split (enum_sorted S) iS'.
rewrite linearZ /= act_bl.
have E2 : enum (i |: S) = w1 ++ i :: w2.
  apply: (irr_sorted_eq (@ltI_trans n) (@ltI_irr n)) => //; first exact: enum_sorted.
  move=> k; rewrite mem_enum !inE -mem_enum E !mem_cat inE.
  by case: (k == i); rewrite ?orbT ?orbF.
rewrite E2 E; have -> : nlt i S = size w1.
  rewrite /nlt; have hm k : k \in w1 -> (k < i)%N.
    move=> kw; move: so; rewrite (sorted_pairwise (@ltI_trans n)) pairwise_cat => /andP[/allrelP h _].
    by apply: h => //; rewrite inE eqxx.
  have hm2 k : k \in w2 -> (i < k)%N.
    move=> kw; move: so; rewrite (sorted_pairwise (@ltI_trans n)) pairwise_cat.
    by case/and3P => _ _ /= /andP[/allP h _]; apply: h.
  have uw : uniq w1.
    by have := enum_uniq (mem S); rewrite E cat_uniq => /andP[].
  rewrite -(card_uniqP uw); apply: eq_card => k; rewrite !inE -mem_enum E mem_cat.
  apply/andP/idP => [[/orP[//|/hm2 h1] h2]|kw]; last by rewrite kw hm.
  by move: h1; rewrite ltnNge ltnW.
by rewrite word_op_cat /= word_move -[f i (word_op (w1 ++ w2) x)]scale1r scalerA -exprMn mulrNN mulr1 expr1n word_op_cat.
Qed.
End Anti.

Section Det.
Variables (R : comUnitRingType) (two : (2%:R : R) \is a GRing.unit) (n : nat).
Notation M := (mval R n).
Notation E := (clifford (g0 n two)).
Implicit Types (x y z u v : M) (S T : {set 'I_n}) (i j : 'I_n) (w : seq 'I_n).

Lemma half0 (V : lmodType R) (v : V) : v = - v -> v = 0.
Proof. by move=> h; rewrite -(halfV two v) {2}h subrr scaler0. Qed.

Lemma wedge_sq0 i x : wedge_op i (wedge_op i x) = 0.
Proof. by apply: half0; exact: wedge_anti. Qed.
Lemma contr_sq0 i x : contr_op i (contr_op i x) = 0.
Proof. by apply: half0; exact: contr_anti. Qed.

Definition wop := word_op (@wedge_op_linear R n).
Lemma wopE w : wop w (bl R set0) = wword R w. Proof. by []. Qed.

Lemma tperm_word (h : 'I_n -> 'I_n) i j w x : i != j -> uniq w -> i \in w -> j \in w ->
  wop [seq h (tperm i j k) | k <- w] x = - wop [seq h k | k <- w] x.
Proof.
have main i' j' w' : i' != j' -> uniq w' ->
    forall p q r, w' = p ++ i' :: q ++ j' :: r ->
    wop [seq h (tperm i' j' k) | k <- w'] x = - wop [seq h k | k <- w'] x.
  move=> nij uw p q r E; move: uw; rewrite E.
  rewrite cat_uniq /= cat_uniq /= mem_cat inE !negb_or has_cat /= !negb_or.
  case/and3P=> _ /and4P[ip _ jp _] /and3P[/and3P[iq _ ir] _ /and3P[/andP[jq _] jr _]].
  have fix_ l : i' \notin l -> j' \notin l -> [seq h (tperm i' j' k) | k <- l] = [seq h k | k <- l].
    move=> il jl; apply/eq_in_map => k kl; rewrite tpermD //; [by apply: contraNneq il => ->|by apply: contraNneq jl => ->].
  rewrite !map_cat /= !map_cat /= tpermL tpermR !fix_ //.
  by rewrite /wop (word_swap (@wedge_anti R n)).
move=> nij uw iw jw; case/splitPr: iw uw jw => p q uw.
rewrite mem_cat inE eq_sym (negbTE nij) /= => /orP[|].
  move=> jp; case/splitPr: jp uw => p1 p2 uw.
  rewrite tpermC; apply: (main j i _ _ uw p1 p2 q); rewrite 1?eq_sym //.
  by rewrite -catA.
move=> jq; case/splitPr: jq uw => p1 p2 uw; exact: (main i j _ nij uw p p1 p2).
Qed.

Lemma wop_perm (s : 'S_n) x : wop [seq s k | k <- enum 'I_n] x = (-1) ^+ s *: wop (enum 'I_n) x.
Proof.
have [ts -> ] := prod_tpermP s; elim: ts => [|t ts IH] /=; first move=> _.
  by rewrite big_nil odd_perm1 scale1r; congr (wop _ _); rewrite (eq_map (@perm1 _)) map_id.
case/andP => dt /IH; rewrite !big_cons odd_permM odd_tperm dt addTb signrN scaleNr => <-.
rewrite -(@tperm_word _ t.1 t.2) ?mem_enum ?enum_uniq //.
by congr (wop _ _); apply: eq_map => k; rewrite permM.
Qed.

Lemma wop_setT : wop (enum 'I_n) (bl R set0) = bl R setT.
Proof. by rewrite wopE -(wword_enum R (setT : {set 'I_n})) enum_setT enumT. Qed.

(* e_f(1) ... e_f(k), as an element of the exterior algebra *)
Lemma prod_wop (f : 'I_n -> 'I_n) w : \prod_(i <- w) (bl R [set f i] : E) = wop [seq f i | i <- w] (bl R set0).
Proof.
elim: w => [|i w IH]; first by rewrite big_nil.
by rewrite big_cons IH /= (wedge_opE two) (extE two).
Qed.

Lemma index_ord : index_enum [finType of 'I_n] = enum 'I_n.
Proof. by rewrite enumT /index_enum unlock. Qed.
Theorem prod_det (A : 'M[R]_n) :
  \prod_(i < n) (\sum_j A i j *: (bl R [set j] : E)) = \det A *: (bl R setT : E).
Proof.
rewrite bigA_distr_bigA /=.
rewrite (bigID (fun f : {ffun 'I_n -> 'I_n} => injectiveb f)) /= addrC big1 ?add0r => [|f Uf]; last first.
  rewrite scaler_prod [X in _ *: X](_ : _ = 0) ?scaler0 // index_ord prod_wop.
  by rewrite /wop (word_rep (@wedge_anti R n) wedge_sq0).
rewrite /determinant scaler_suml (reindex (@pval _)) /=; last first.
  pose in_Sn := insubd (1%g : 'S_n).
  by exists in_Sn => /= f Uf; first apply: val_inj; apply: insubdK.
apply: eq_big => /= [s | s _]; rewrite ?(valP s) //.
rewrite scaler_prod index_ord prod_wop.
rewrite (eq_map (_ : _ =1 s)); last by move=> k; rewrite pvalE.
rewrite wop_perm wop_setT (@scalerA _ [lmodType R of mval R n]) mulrC.
by congr ((_ * _) *: _); apply: eq_bigr => i _; rewrite pvalE.
Qed.

(* the outer product of a list of vectors, and of the rows of a matrix *)
Definition wedges (l : seq M) : M := foldr (@ext R n) (bl R set0) l.
Theorem wedges_det (A : 'M[R]_n) :
  wedges [seq (\sum_j A i j *: bl R [set j]) | i <- enum 'I_n] = \det A *: bl R setT.
Proof.
transitivity (\prod_(i <- enum 'I_n) (\sum_j A i j *: (bl R [set j] : E))); last first.
  rewrite -[RHS]prod_det; pose F i : E := \sum_j A i j *: (bl R [set j] : E).
  by rewrite -[LHS]/(\prod_(i <- enum 'I_n) F i) -[RHS]/(\prod_(i < n) F i) [in RHS]index_ord.
elim: (enum 'I_n) => [|i w IH]; first by rewrite big_nil.
by rewrite big_cons /= IH (extE two).
Qed.
End Det.

(* ---- the pseudoscalar ---- *)
Section Ps.
Variables (R : comUnitRingType) (n : nat) (g : cmetric R n).
Notation two := (two_unit g).
Notation M := (mval R n).
Notation C := (clifford g).
Notation ltI := (fun i j : 'I_n => (i < j)%N).
Implicit Types (x y z u v : M) (S T : {set 'I_n}) (i j : 'I_n) (w : seq 'I_n).
Definition ps : M := bl R setT.

Lemma wedge_ps i : wedge_op i ps = 0.
Proof. by rewrite wedge_op_bl /Wb inE. Qed.
Lemma ginv_ps : ginv ps = (-1) ^+ n *: ps.
Proof. by rewrite ginv_bl cardsT card_ord. Qed.
Lemma gen_ps i : cgen g i * (ps : C) = gcontr g i ps.
Proof. by rewrite cgen_mul /lmul wedge_ps add0r. Qed.
Lemma ps_gen i : (ps : C) * cgen g i = (-1) ^+ n.+1 *: (cgen g i * (ps : C)).
Proof.
rewrite gen_ps cgen_mulr /rmul ginv_ps [wedge_op i (_ *: _)]linearZ [gcontr g i (_ *: _)]linearZ /=.
by rewrite wedge_ps scaler0 sub0r exprS mulN1r scaleNr.
Qed.
Lemma gen_ps_comm i : cgen g i * (ps : C) = (-1) ^+ n.+1 *: ((ps : C) * cgen g i).
Proof. by rewrite ps_gen scalerA -exprMn mulrNN mulr1 expr1n scale1r. Qed.

(* multiplying the pseudoscalar by a blade contracts it *)
Definition gcw w : M := foldr (gcontr g) ps w.
Lemma ginv_gcw w : ginv (gcw w) = (-1) ^+ (n + size w) *: gcw w.
Proof.
elim: w => [|i w IH] /=; first by rewrite addn0 ginv_ps.
by rewrite ginv_gcontr IH linearZ /= addnS exprS mulN1r scaleNr.
Qed.
Lemma blade_ps w : cblade g w * (ps : C) = gcw w.
Proof.
rewrite /cblade; elim: w => [|i w IH] /=; first by rewrite mul1r.
rewrite -scalerAl mulrDl -scalerAl -!mulrA IH gen_ps_comm -scalerAr mulrA IH.
rewrite cgen_mul cgen_mulr /lmul /rmul ginv_gcw [wedge_op i (_ *: _)]linearZ [gcontr g i (_ *: _)]linearZ /=.
rewrite -[RHS](halfV two); congr (_ *: _).
move: (wedge_op i _) (gcontr g i _) => a b; rewrite exprS !exprD.
have : (-1) ^+ n * (-1) ^+ n = 1 :> R by rewrite -exprMn mulrNN mulr1 expr1n.
have : (-1) ^+ size w * (-1) ^+ size w = 1 :> R by rewrite -exprMn mulrNN mulr1 expr1n.
move: ((-1) ^+ n) ((-1) ^+ size w) => s t ht hs.
have -> : t *: (-1 * s *: (s * t *: a - s * t *: b)) = (- ((s * s) * (t * t))) *: (a - b) by lmod R.
by rewrite hs ht mulr1; lmod R.
Qed.

Lemma homog_sum r x : homog r x -> x = \sum_(S : {set 'I_n} | #|S| == r) x S *: bl R S.
Proof.
move=> h; rewrite {1}[x]mval_decomp (bigID (fun S : {set 'I_n} => #|S| == r)) /= [X in _ + X]big1 ?addr0 // => S nS.
by rewrite -h ffunE (negbTE nS) scale0r.
Qed.
Lemma homog0 r : homog r (0 : M). Proof. by rewrite /homog raddf0. Qed.
Lemma homogZ r c x : homog r x -> homog r (c *: x).
Proof. by move=> h; rewrite /homog [LHS]linearZ /= h. Qed.
Lemma homogD r x y : homog r x -> homog r y -> homog r (x + y).
Proof. by move=> hx hy; rewrite /homog raddfD /= hx hy. Qed.
Lemma homogN r x : homog r x -> homog r (- x).
Proof. by move=> hx; rewrite /homog raddfN /= hx. Qed.
Lemma homogB r x y : homog r x -> homog r y -> homog r (x - y).
Proof. by move=> hx hy; apply: homogD => //; apply: homogN. Qed.
Lemma homog_big r (J : Type) (l : seq J) (P : pred J) (F : J -> M) :
  (forall k, P k -> homog r (F k)) -> homog r (\sum_(k <- l | P k) F k).
Proof. by move=> h; apply: big_ind => //; [exact: homog0|exact: homogD]. Qed.
Lemma homog_bl S : homog #|S| (bl R S).
Proof. by rewrite /homog gpart_bl eqxx. Qed.
Lemma homog_gcontr r i x : homog r.+1 x -> homog r (gcontr g i x).
Proof.
move=> h; rewrite (homog_sum h) linear_sum; apply: homog_big => S /eqP cS; rewrite linearZ; apply: homogZ.
by have := @gpart_low_gcontr _ _ g i S; rewrite cS subn1; apply.
Qed.
Lemma gcontr_homog0 i x : homog 0 x -> gcontr g i x = 0.
Proof.
move=> h; rewrite (homog_sum h) linear_sum big1 // => S; rewrite cards_eq0 => /eqP ->.
by rewrite [LHS]linearZ /= gcontr1 scaler0.
Qed.
Lemma homog_ps : homog n ps.
Proof. by have := homog_bl [set: 'I_n]; rewrite cardsT card_ord. Qed.
Lemma homog_gcw w : (size w <= n)%N -> homog (n - size w) (gcw w).
Proof.
elim: w => [|i w IH] /= h; first by rewrite subn0; exact: homog_ps.
apply: homog_gcontr; rewrite -subSn // subSS; apply: IH; exact: ltnW.
Qed.

(* the square *)
Lemma contr_words w : sorted ltI w ->
  foldr (@contr_op R n) (bl R [set k in w]) w = (-1) ^+ (size w * (size w - 1))./2 *: bl R set0.
Proof.
elim: w => [|i w IH] so /=.
  by rewrite scale1r; congr bl; apply/setP => k; rewrite !inE.
have /= := so; rewrite path_sortedE; last exact: ltI_trans.
case/andP=> /allP iw so'.
have ni : i \notin w by apply/negP => /iw; rewrite ltnn.
have -> : bl R [set k in i :: w] = wedge_op i (bl R [set k in w]).
  rewrite wedge_op_bl /Wb inE (negbTE ni) (_ : nlt i _ = 0%N).
    by rewrite scale1r; congr bl; apply/setP => k; rewrite !inE.
  by apply: eq_card0 => k; rewrite !inE; apply/negP => /andP[/iw]; rewrite ltnNge => /negP h /ltnW.
have mv (u : seq 'I_n) x : i \notin u -> foldr (@contr_op R n) (wedge_op i x) u = (-1) ^+ size u *: wedge_op i (foldr (@contr_op R n) x u).
  elim: u => [|k u IHu] /=; first by rewrite scale1r.
  rewrite inE negb_or => /andP[ik /IHu ->]; rewrite linearZ /=.
  have := wedge_contr i k (foldr (@contr_op R n) x u); rewrite (negbTE ik) scale0r => /eqP.
  by rewrite addrC addr_eq0 => /eqP->; rewrite exprS mulN1r scaleNr scalerN.
rewrite mv // IH // [wedge_op i _]linearZ /= scalerA [contr_op i _]linearZ /= wedge1 contr_op_bl /Cb inE eqxx.
have -> : nlt i [set i] = 0%N.
  by apply: eq_card0 => k; rewrite !inE; case: eqP => // ->; rewrite ltnn.
rewrite scale1r (_ : [set i] :\ i = set0); last by apply/setP => k; rewrite !inE; case: eqP.
congr (_ *: _); rewrite -exprD; apply: sgn_eq.
by rewrite oddD subSS subn0 half_step addbC.
Qed.

Definition gmx : 'M[R]_n := \matrix_(i, j) g i j.

Theorem ps_sq : (ps : C) * (ps : C) = ((-1) ^+ (n * (n - 1))./2 * \det gmx) *: (bl R set0 : C).
Proof.
rewrite -{1}[ps](cblade_enum g setT) blade_ps /gcw enum_setT -enumT.
pose P := act (@contr_op_linear R n) ps.
have H (w : seq 'I_n) : foldr (gcontr g) ps w = P (wedges [seq (\sum_j gmx i j *: bl R [set j]) | i <- w]).
  elim: w => [|i w IH] /=.
    by rewrite /P act_bl enum_set0.
  rewrite IH gcontrE (ext_suml two) [RHS]raddf_sum; apply: eq_bigr => j _ /=.
  rewrite (extZl two) -(wedge_opE two) linearZ /= mxE /P (act_wedge (@contr_anti R n)) //.
  by move=> k x; exact: (contr_sq0 two).
rewrite H (wedges_det two) /P linearZ /= act_bl enum_setT -enumT.
have := @contr_words (enum 'I_n); rewrite size_enum_ord.
have -> : [set k in enum 'I_n] = setT by apply/setP => k; rewrite !inE mem_enum.
have so : sorted ltI (enum 'I_n) by have := enum_sorted (setT : {set 'I_n}); rewrite enum_setT -enumT.
by move=> /(_ so) E; rewrite /word_op E (@scalerA _ [lmodType R of mval R n]) mulrC.
Qed.

Lemma homog_mul_ps S : homog (n - #|S|) ((bl R S : C) * (ps : C)).
Proof.
rewrite -(cblade_enum g) blade_ps; have := @homog_gcw (enum S); rewrite -cardE; apply.
by have := max_card (mem S); rewrite card_ord.
Qed.

(* ---- reciprocal vectors, up to the factor ps^2 ---- *)
Definition recip i : M := (-1) ^+ i *: ((bl R (setT :\ i) : C) * (ps : C)).
Lemma card_compl i : #|[set: 'I_n] :\ i| = n.-1.
Proof. by have := cardsD1 i [set: 'I_n]; rewrite cardsT card_ord inE => /(congr1 predn) /= <-. Qed.
Lemma homog_recip i : homog 1 (recip i).
Proof.
apply: homogZ; have := homog_mul_ps (setT :\ i); rewrite card_compl.
by have n0 : (0 < n)%N := leq_ltn_trans (leq0n i) (ltn_ord i); rewrite -subn1 subKn.
Qed.
Lemma anti_wedge i S : cgen g i * (bl R S : C) + (-1) ^+ #|S| *: ((bl R S : C) * cgen g i) =
  wedge_op i (bl R S) *+ 2.
Proof.
have := cblade_wword g (i :: enum S); rewrite /= wword_enum /cblade /= -cardE.
rewrite -[blade_of _ _]/(cblade g (enum S)) cblade_enum => <-.
by rewrite -scaler_nat scalerA mulrV ?(two_unit g) // scale1r.
Qed.
Lemma recip_gen i j : cgen g j * (recip i : C) + (recip i : C) * cgen g j =
  ((j == i)%:R *+ 2) *: ((ps : C) * (ps : C)).
Proof.
have n0 : (0 < n)%N := leq_ltn_trans (leq0n i) (ltn_ord i).
rewrite /recip -scalerAr -scalerAl -mulrA ps_gen -scalerAr -scalerDr.
rewrite [X in _ + X](_ : _ = (-1) ^+ #|[set: 'I_n] :\ i| *: ((bl R ([set: 'I_n] :\ i) : C) * cgen g j) * (ps : C)).
  rewrite mulrA -mulrDl anti_wedge wedge_op_bl /Wb !inE andbT.
  case: (j =P i) => [->|_] /=; last by rewrite !mul0rn mul0r scaler0 scale0r.
  have -> : nlt i ([set: 'I_n] :\ i) = i.
    rewrite /nlt -sum1_card (eq_bigl (fun k : 'I_n => (k < i)%N)).
      by rewrite (big_ord_narrow (ltnW (ltn_ord i))) /= sum1_card card_ord.
    by move=> k; rewrite !inE andbT; case: eqP => //= ->; rewrite ltnn.
  rewrite setD1K ?inE // -scaler_nat -scalerAl scalerA -scalerAl !scalerA; congr (_ *: _).
  by rewrite mulrAC -exprMn mulrNN mulr1 expr1n mul1r.
rewrite -scalerAl mulrA; congr (_ *: _); apply: sgn_eq; rewrite card_compl.
by case: (n) n0 => // m _; rewrite /= negbK.
Qed.
End Ps.

(* ---- arbitrary vectors ---- *)
Lemma scale_anti (R : comUnitRingType) (A : algType R) (c d s : R) (e b : A) :
  (c *: e) * (d *: b) + s *: ((d *: b) * (c *: e)) = c *: (d *: (e * b + s *: (b * e))).
Proof. lalg R. Qed.
Section Vectors.
Variables (R : comUnitRingType) (n : nat) (g : cmetric R n).
Notation two := (two_unit g).
Notation M := (mval R n).
Notation C := (clifford g).
Implicit Types (x y z u v : M) (S T : {set 'I_n}) (i j : 'I_n).

Lemma vec_anti r u y : homog 1 u -> homog r y ->
  (u : C) * (y : C) + (-1) ^+ r *: ((y : C) * (u : C)) = ext u y *+ 2.
Proof.
move=> hu hy; rewrite (vec_decomp hu) (homog_sum hy).
rewrite mulr_suml mulr_sumr scaler_sumr -big_split (ext_suml two) -sumrMnl; apply: eq_bigr => i _ /=.
rewrite mulr_sumr mulr_suml scaler_sumr -big_split (ext_sumr two) -sumrMnl; apply: eq_bigr => S /eqP cS /=.
rewrite !(extZl two) !(extZr two) -(wedge_opE two).
have := anti_wedge g i S; rewrite cS /cgen => E.
rewrite !scalerMnr -E; exact: (@scale_anti R [algType R of C]).
Qed.

Lemma gform_sym u v : gform g u v = gform g v u.
Proof.
rewrite /gform exchange_big; apply: eq_bigr => i _; apply: eq_bigr => j _ /=.
by rewrite (gram_sym g) [v _ * _]mulrC.
Qed.
Lemma vec_rel u v : homog 1 u -> homog 1 v ->
  (u : C) * (v : C) + (v : C) * (u : C) = (gform g u v *+ 2) *: (1 : C).
Proof.
move=> hu hv; rewrite (vec_mul g v hu) (vec_mul g u hv).
rewrite -(hestenes_left g hu hv) // -(hestenes_left g hv hu) // !vec_dot //.
rewrite (gform_sym v u) (ext_swap hv hu) expr1 scaleN1r.
rewrite addrACA subrr addr0 -scalerDl mulr2n //.
Qed.
End Vectors.

Section OneInj.
Variables (R : comUnitRingType) (n : nat).
Lemma one_inj (c d : R) : c *: bl R (set0 : {set 'I_n}) = d *: bl R set0 -> c = d.
Proof. by move=> /(congr1 (fun z : mval R n => z set0)); rewrite !scale_coef bl_coef eqxx !mulr1. Qed.
End OneInj.
Arguments one_inj {R} n.

Section Gram.
Variables (R : comUnitRingType) (n : nat) (g : cmetric R n).
Notation two := (two_unit g).
Notation M := (mval R n).
Notation C := (clifford g).
(* k vectors generate the Clifford algebra of their Gram matrix *)
Variables (k : nat) (v : 'I_k -> M).
Hypothesis hv : forall i, homog 1 (v i).
Definition gram_metric : cmetric R k :=
  @CMetric R k (fun i j => gform g (v i) (v j)) (fun i j => gform_sym g (v i) (v j)) two.
Notation G := (clifford gram_metric).
Definition vmap : G -> C := @cl_map R k gram_metric [algType R of C] v.
Let rel i j : (v i : C) * (v j : C) + (v j : C) * (v i : C) = (gram_metric i j *+ 2)%:A.
Proof. exact: vec_rel. Qed.

Lemma wedges_homog (w : seq 'I_k) : homog (size w) (wedges [seq v i | i <- w]).
Proof.
elim: w => [|i w IH] /=; first by have := @homog_bl R n set0; rewrite cards0.
by rewrite -add1n; apply: (homog_ext two).
Qed.
Lemma blade_wedges (w : seq 'I_k) : @blade_of R [algType R of C] _ v w = wedges [seq v i | i <- w].
Proof.
elim: w => [|i w IH] //=; rewrite IH.
rewrite (vec_anti g (hv i) (wedges_homog w)) -scaler_nat scalerA mulVr ?scale1r //; exact: two_unit g.
Qed.
Lemma vmapM (x y : G) : vmap (x * y) = vmap x * vmap y.
Proof. exact: cl_mapM rel x y. Qed.
Lemma vmap_lin (c : R) (x y : G) : vmap (c *: x + y) = c *: vmap x + vmap y.
Proof. exact: (@cl_map_is_linear R k gram_metric [algType R of C] v). Qed.
Lemma vmapZ (c : R) (x : G) : vmap (c *: x) = c *: vmap x.
Proof. by rewrite /vmap [LHS]linearZ. Qed.
Lemma vmapD (x y : G) : vmap (x + y) = vmap x + vmap y.
Proof. exact: (@raddfD _ _ (@cl_map_additive R k gram_metric [algType R of C] v)). Qed.
Lemma vmap_bl (S : {set 'I_k}) : vmap (bl R S) = wedges [seq v i | i <- enum S].
Proof. by rewrite -blade_wedges; exact: cl_map_bl. Qed.
Lemma vmap_gen i : vmap (cgen gram_metric i) = v i.
Proof. by rewrite /cgen vmap_bl enum_set1 /= (ext1r two). Qed.
Lemma vmap_vec (x : G) : homog 1 x -> homog 1 (vmap x).
Proof.
move=> hx; rewrite (vec_decomp hx) /vmap linear_sum; apply: homog_big => i _; rewrite /= [X in homog _ X]linearZ; apply: homogZ.
by rewrite -[X in homog _ X]/(vmap (cgen gram_metric i)) vmap_gen.
Qed.

Definition vps : M := wedges [seq v i | i <- enum 'I_k].
Lemma vmap_ps : vmap (ps R k) = vps.
Proof. by rewrite /ps vmap_bl enum_setT -enumT. Qed.

(* the square of an outer product of vectors is the Gram determinant *)
Theorem gram_sq : (vps : C) * (vps : C) =
  ((-1) ^+ (k * (k - 1))./2 * \det (\matrix_(i, j) gform g (v i) (v j))) *: (1 : C).
Proof.
rewrite -vmap_ps -vmapM ps_sq vmapZ; congr (_ *: _).
by rewrite vmap_bl enum_set0.
Qed.

(* reciprocal vectors, up to the square of the pseudoscalar *)
Definition vrecip (i : 'I_k) : M :=
  (-1) ^+ i *: ((wedges [seq v j | j <- enum ([set: 'I_k] :\ i)] : C) * (vps : C)).
Lemma vrecipE i : vrecip i = vmap (recip gram_metric i).
Proof. by rewrite /recip vmapZ vmapM vmap_ps vmap_bl. Qed.
Lemma vrecip_vec i : homog 1 (vrecip i).
Proof. by rewrite vrecipE; apply: vmap_vec; exact: homog_recip. Qed.
Theorem vrecip_dot i j s : (vps : C) * (vps : C) = s *: (1 : C) ->
  gform g (v j) (vrecip i) = (j == i)%:R * s.
Proof.
move=> Es; have := vec_rel g (hv j) (vrecip_vec i).
have -> : (v j : C) * (vrecip i : C) + (vrecip i : C) * (v j : C) = ((j == i)%:R * s *+ 2) *: (1 : C).
  rewrite vrecipE -(vmap_gen j) -!vmapM -vmapD recip_gen vmapZ vmapM vmap_ps Es scalerA.
  by rewrite mulrnAl.
move=> /esym/(one_inj n); rewrite -[X in X = _]mulr_natl -[X in _ = X]mulr_natl => /(mulrI (two_unit g)).
exact.
Qed.
End Gram.
