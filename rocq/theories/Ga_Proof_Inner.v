(* Ga_Proof_Inner.v -- the grade-selecting products of the model: the bubble
   code path for orthogonal metrics and the general one *)
From mathcomp Require Import all_ssreflect all_algebra.
From Verif Require Import NatTac AlgTactics Exterior Clifford Blades Spec_Grade Grades.
From Verif Require Import Spec_Index PyBase Ga_Model Ga_Proof_Tables Ga_Proof_Sort Ga_Proof_Sem Ga_Proof_Reduce.
From Verif Require Import Ga_Sem Ga_Proof_Rep Ga_Proof_Conv Ga_Proof_Mul Spec_Clifford Clifford_Unique Spec_Mv Ga_Proof_Den Ga_Proof_Wedge.
Set Implicit Arguments.
Unset Strict Implicit.
Unset Printing Implicit Defensive.
Import GRing.Theory.
Local Open Scope ring_scope.

(* ---- the bubble passes, on index lists tagged with their origin: true for
   the left factor, false for the right one ---- *)
Section Bubble.
Variables (R : comUnitRingType) (two : (2%:R : R) \is a GRing.unit) (a : ga R).
Hypotheses (wf : wf_ga a) (ort : is_ortho a).
Notation n := (ga_n a).
Notation g := (gen two a).
Notation tag := (bool * nat)%type.
Implicit Types (t u : bool * nat) (tl lft rgt : seq (bool * nat)) (sgn ord : bool) (res : R).
Notation vals tl := [seq t.2 | t <- (tl : seq (bool * nat))].
Let rel := gen_rel two wf.

Definition trel t u : bool := (t.2 < u.2)%N || (t.1 && ~~ u.1).
Definition c1 tl := count (fun t => t.1) tl.
Definition c0 tl := count (fun t => ~~ t.1) tl.
Definition V sgn res tl : cl two a := (sgnR R sgn * res) *: base_of g (vals tl).

Lemma c_size tl : (c1 tl + c0 tl)%N = size tl.
Proof. exact: count_predC. Qed.

Lemma V_swap sgn res p t u q : t.2 != u.2 ->
  V (~~ sgn) res (p ++ u :: t :: q) = V sgn res (p ++ t :: u :: q).
Proof.
move=> tu; rewrite /V !map_cat /= !base_of_cat /= -!/(base_of g _).
rewrite !mulrA -[base_of g _ * g u.2 * _]mulrA -[base_of g _ * g t.2 * _]mulrA.
rewrite (anticomm wf ort rel (i := t.2)) // mulrN mulNr scalerN -scaleNr.
by congr (_ *: _); rewrite /sgnR; case: sgn; rewrite ?mulN1r ?mul1r ?opprK.
Qed.
Lemma V_contract sgn res p t u q : t.2 = u.2 ->
  V sgn (res * gij a t.2 t.2) (p ++ q) = V sgn res (p ++ t :: u :: q).
Proof.
move=> tu; rewrite /V !map_cat /= !base_of_cat /= -!/(base_of g _) -tu.
rewrite [g _ * (g _ * _)]mulrA (gen_sq two rel) -scalerAl mul1r -scalerAr scalerA.
by rewrite mulrA.
Qed.
Lemma low_V sgn res tl m : (size tl < m)%N -> low m (V sgn res tl).
Proof.
move=> h; apply: low_scale; apply: (@low_leq _ _ (size tl).+1) => // {h m}.
elim: tl => [|t tl IH] /=; last exact: low_gen.
by move=> T; rewrite bl_coef; case: eqP => [->|//]; rewrite cards0.
Qed.

Lemma vals_cat p q : vals (p ++ q) = vals p ++ vals q. Proof. exact: map_cat. Qed.

Lemma sorted_rcons2 (l : seq nat) x : sorted ltn l -> all (fun y => y < x)%N l -> sorted ltn (rcons l x).
Proof.
rewrite !(sorted_pairwise ltn_trans) -cats1 pairwise_cat => -> h /=.
by rewrite !andbT allrel1r.
Qed.

Definition pass_post grade lft rgt sgn res ord (r : option (seq nat * bool * R * bool)) : Prop :=
  match r with
  | None => exists sgn' res' tl', (size tl' < grade)%N /\ V sgn' res' tl' = V sgn res (rev lft ++ rgt)
  | Some (l', sgn', res', ord') => exists tl',
      [/\ l' = vals tl', pairwise trel tl', {subset vals tl' <= vals (rev lft ++ rgt)},
          V sgn' res' tl' = V sgn res (rev lft ++ rgt) &
          [/\ (c1 tl' + c0 (rev lft ++ rgt) = c1 (rev lft ++ rgt) + c0 tl')%N,
              ((grade <= size (rev lft ++ rgt)) -> grade <= size tl')%N,
              (inversions l' + (ord && ~~ ord') <= inversions (vals (rev lft ++ rgt)))%N &
              ord' -> ord /\ sorted ltn l']]
  end.

Lemma bpassP m grade lft rgt sgn res ord : (size rgt <= m)%N -> lft != [::] ->
  pairwise trel (rev lft ++ rgt) -> (ord -> sorted ltn (vals (rev lft))) ->
  pass_post grade lft rgt sgn res ord (bpass a grade (vals lft) (vals rgt) sgn res ord).
Proof.
elim: m lft rgt sgn res ord => [|m IH] lft [|u rgt] sgn res ord // sz.
- move=> _ pw so; exists (rev lft); rewrite cats0 -map_rev; split=> //; first by rewrite cats0 in pw.
  by split=> //; rewrite ?addn0 ?[(ord && _)%N]andbN ?addn0 //; move=> o; split=> //; apply: so.
- move=> _ pw so; exists (rev lft); rewrite cats0 -map_rev; split=> //; first by rewrite cats0 in pw.
  by split=> //; rewrite ?andbN ?addn0 //; move=> o; split=> //; apply: so.
case: lft => [|t lft] // _; rewrite rev_cons cat_rcons => pw so.
have Etu : rev (t :: lft) ++ u :: rgt = rev lft ++ t :: u :: rgt by rewrite rev_cons cat_rcons.
rewrite [bpass _ _ _ _ _ _ _]/=.
have [pwL [pwR pwLR]] : pairwise trel (rev lft) /\ pairwise trel (t :: u :: rgt) /\
   allrel trel (rev lft) (t :: u :: rgt) by move: pw; rewrite pairwise_cat => /and3P[].
have so' : ord -> sorted ltn (vals (rev lft)) /\ all (fun y => y < t.2)%N (vals (rev lft)).
  move=> /so; rewrite map_rcons !(sorted_pairwise ltn_trans) -cats1 pairwise_cat.
  by rewrite allrel1r => /and3P[].
case: eqP => [tu|/eqP tu].
  (* contraction *)
  have trTu : t.1 /\ ~~ u.1.
    by move: pwR => /= /andP[/andP[+ _] _]; rewrite /trel tu ltnn /= => /andP.
  rewrite !size_map; case: ltnP => [small|large].
    exists sgn, (res * gij a t.2 t.2), (rev lft ++ rgt).
    by rewrite size_cat size_rev; split=> //; rewrite Etu (V_contract _ _ _ _ tu).
  have pw' : pairwise trel (rev lft ++ rgt).
    by apply: subseq_pairwise pw; rewrite subseq_cat2l; apply: subseq_trans (subseq_cons _ _) (subseq_cons _ _).
  have cc : (c1 (rev lft ++ rgt) + c0 (rev lft ++ t :: u :: rgt) = c1 (rev lft ++ t :: u :: rgt) + c0 (rev lft ++ rgt))%N.
    case: trTu => t1 /negbTE u1.
    by rewrite /c1 /c0 !count_cat /= t1 u1 /= -!/(c1 _) -!/(c0 _); nlia.
  have inv' : (inversions (vals (rev lft ++ rgt)) <= inversions (vals (rev lft ++ t :: u :: rgt)))%N.
    by rewrite !vals_cat; apply: inversions_sub.
  have sub' : {subset vals (rev lft ++ rgt) <= vals (rev lft ++ t :: u :: rgt)}.
    by move=> k; rewrite !vals_cat !mem_cat /= !inE => /orP[->//|->]; rewrite !orbT.
  case: rgt sz pw pwR pwLR pw' cc inv' sub' large Etu => [|z rgt] sz pw pwR pwLR pw' cc inv' sub' large Etu /=.
    exists (rev lft); rewrite cats0 -map_rev in pw' cc inv' sub' *; rewrite Etu; split=> //.
      by rewrite -(V_contract _ _ _ _ tu) cats0.
    split=> //.
    - by move=> _; rewrite size_rev; move: large; rewrite addn0.
    - by rewrite andbN addn0.
    - by move=> o; split=> //; have [] := so' o.
  have sz' : (size rgt <= m)%N by move: sz => /=; nlia.
  have := IH (z :: lft) rgt sgn (res * gij a t.2 t.2) ord sz' isT.
  rewrite rev_cons cat_rcons => /(_ pw').
  have soz : ord -> sorted ltn (vals (rcons (rev lft) z)).
    move=> o; have [s1 s2] := so' o; rewrite map_rcons; apply: sorted_rcons2 => //.
    apply/allP => k /(allP s2) kt; apply: ltn_trans kt _; rewrite tu.
    move: pwR => /= /and3P[_ /andP[+ _] _]; rewrite /trel.
    by case: trTu => _ /negbTE ->; rewrite orbF.
  move=> /(_ soz); rewrite /pass_post rev_cons cat_rcons Etu.
  case: bpass => [[[[l' s'] r'] o']|]; last first.
    case=> s' [r' [tl' [h E]]]; exists s', r', tl'; split=> //; by rewrite E (V_contract _ _ _ _ tu).
  case=> tl' [-> p1 p2 p3 [p4 p5 p6 p7]]; exists tl'; split=> //.
  - by move=> k /p2/sub'.
  - by rewrite p3 (V_contract _ _ _ _ tu).
  split=> //.
  - by move: p4 cc; nlia.
  - move=> _; apply: p5; move: large; rewrite !size_cat size_rev /=; nlia.
  - by apply: leq_trans p6 inv'.
case: ltnP => ut.
  (* swap *)
  have trTu : t.1 /\ ~~ u.1.
    move: pwR => /= /andP[/andP[+ _] _]; rewrite /trel ltnNge (ltnW ut) /= => /andP //.
  have pw' : pairwise trel (rev lft ++ u :: t :: rgt).
    move: pwR => /= /and3P[/andP[_ h1] h2 h3].
    rewrite pairwise_cat pwL /= h2 h1 h3 /trel ut /= andbT.
    by move: pwLR; rewrite !allrel_consr => /and3P[-> -> ->].
  have := IH (t :: u :: lft) rgt (~~ sgn) res false sz isT.
  rewrite !rev_cons !cat_rcons => /(_ pw' (fun x => False_ind _ (notF x))).
  rewrite /pass_post !rev_cons !cat_rcons.
  have ne : t.2 != u.2 by rewrite neq_ltn ut orbT.
  case: bpass => [[[[l' s'] r'] o']|]; last first.
    case=> s' [r' [tl' [h E]]]; exists s', r', tl'; split=> //; by rewrite E V_swap.
  have cE : c1 (rev lft ++ u :: t :: rgt) = c1 (rev lft ++ t :: u :: rgt) /\
            c0 (rev lft ++ u :: t :: rgt) = c0 (rev lft ++ t :: u :: rgt).
    by rewrite /c1 /c0 !count_cat /=; split; nlia.
  have sE : size (rev lft ++ u :: t :: rgt) = size (rev lft ++ t :: u :: rgt) by rewrite !size_cat.
  case=> tl' [-> p1 p2 p3 [p4 p5 p6 p7]]; exists tl'; split=> //.
  - move=> k /p2; rewrite !vals_cat !mem_cat /= !inE => /orP[->//|]; rewrite orbCA => ->.
    by rewrite orbT.
  - by rewrite p3 V_swap.
  split=> //.
  - by move: p4; rewrite (proj1 cE) (proj2 cE).
  - by rewrite -sE.
  - have := inversions_swap (vals (rev lft)) (vals rgt) ut; move: p6; rewrite !vals_cat /= => p6.
    rewrite addn0 in p6; case: (ord && _); nlia.
  - by move=> /p7 [].
(* in order *)
have {}ut : (t.2 < u.2)%N by rewrite ltn_neqAle tu ut.
have := IH (u :: t :: lft) rgt sgn res ord sz isT.
rewrite !rev_cons !cat_rcons => /(_ pw).
have so2 : ord -> sorted ltn (vals (rcons (rcons (rev lft) t) u)).
  move=> o; rewrite map_rcons; apply: sorted_rcons2; first by apply: so.
  rewrite map_rcons all_rcons ut /=; have [_] := so' o; apply: sub_all => k kt.
  exact: ltn_trans kt ut.
by move=> /(_ so2); rewrite /pass_post !rev_cons !cat_rcons.
Qed.

Definition bubble_post grade tl sgn res (r : bres R) : Prop :=
  match r with
  | BZero => exists sgn' res' tl', (size tl' < grade)%N /\ V sgn' res' tl' = V sgn res tl
  | BStuck => False
  | BOk l' sgn' res' => exists tl',
      [/\ l' = vals tl', pairwise trel tl', {subset vals tl' <= vals tl},
          V sgn' res' tl' = V sgn res tl &
          [/\ (c1 tl' + c0 tl = c1 tl + c0 tl')%N, (grade <= size tl')%N &
              (grade < size tl')%N -> sorted ltn l']]
  end.
Lemma bubbleP fuel grade tl sgn res : (inversions (vals tl) < fuel)%N ->
  pairwise trel tl -> (grade <= size tl)%N ->
  bubble_post grade tl sgn res (bubble a fuel grade (vals tl) sgn res).
Proof.
elim: fuel tl sgn res => // fuel IH tl sgn res hf pw gs.
rewrite [bubble _ _ _ _ _ _]/= size_map; case: ltnP => gt; last first.
  exists tl; split=> //; split=> //.
  by move=> h; move: (leq_trans h gt); rewrite ltnn.
case: tl hf pw gs gt => // t tl hf pw gs gt.
have -> : take 1 (vals (t :: tl)) = vals [:: t] by rewrite /= take0.
have -> : drop 1 (vals (t :: tl)) = vals tl by rewrite /= drop0.
have := @bpassP (size tl) grade [:: t] tl sgn res true (leqnn _) isT pw (fun _ => isT).
rewrite /pass_post (_ : rev [:: t] ++ tl = t :: tl) //.
case: bpass => [[[[l' s'] r'] o']|] //; case=> tl' [-> p1 p2 p3 [p4 p5 p6 p7]].
case: o' p6 p7 => /= p6 p7.
  have [_ so] := p7 isT; exists tl'; split=> //; split=> //; first exact: p5.
have := IH tl' s' r'; rewrite addn1 in p6.
have lt : (inversions (vals tl') < fuel)%N by apply: leq_trans p6 _; rewrite -ltnS.
move=> /(_ lt p1 (p5 gs)); case: bubble => [||l'' s'' r''] //.
  by case=> s'' [r'' [tl'' [h E]]]; exists s'', r'', tl''; rewrite E.
case=> tl'' [-> q1 q2 q3 [q4 q5 q6]]; exists tl''; split=> //; last 1 first.
  split=> //; move: p4 q4; rewrite /=; nlia.
- by move=> k /q2/p2.
- by rewrite q3.
Qed.

(* a basis product of increasing indices is a basis blade *)
Lemma V_sorted sgn res tl : wfI n (vals tl) ->
  V sgn res tl = (sgnR R sgn * res) *: bl R (set_of n (vals tl)).
Proof.
move=> wI; rewrite /V -(ortho_blade two wf ort rel) ?blade_wf //.
by case/andP: wI => /(sorted_uniq ltn_trans ltnn).
Qed.

Lemma single_orthoP k I J : wfI n I -> wfI n J -> (k = WedgeK -> False) ->
  exists2 v, single_ortho a k (mk_blade I) (mk_blade J) = Some v &
    blade_expr n v /\
    value two a v = if result_grade n k (size I) (size J) is Some gr
       then gpart gr ((bl R (set_of n I) : cl two a) * (bl R (set_of n J) : cl two a)) else 0.
Proof.
move=> wI wJ nw; rewrite /single_ortho !b2i_get //; lazy beta iota zeta delta [obnd].
case D: (result_grade _ _ _ _) => [gr|]; last first.
  by exists [::] => //; split=> //; rewrite /value ev_nil.
pose tl := [seq (true, i) | i <- I] ++ [seq (false, j) | j <- J].
have vt : vals tl = I ++ J by rewrite /tl map_cat -!map_comp !map_id_in.
have [sI aI] := andP wI; have [sJ aJ] := andP wJ.
have pw : pairwise trel tl.
  rewrite pairwise_cat !pairwise_map /=; apply/and3P; split.
  - by apply/allrelP => t u /mapP[i _ ->] /mapP[j _ ->]; rewrite /trel orbT.
  - by move: sI; rewrite (sorted_pairwise ltn_trans); apply: sub_pairwise => i j h; rewrite /trel /= h.
  - by move: sJ; rewrite (sorted_pairwise ltn_trans); apply: sub_pairwise => i j h; rewrite /trel /= h.
have E1 : c1 tl = size I.
  rewrite /c1 /tl count_cat !count_map /= (eq_count (a2 := xpredT)) // count_predT.
  by rewrite (eq_count (a2 := pred0)) // count_pred0 addn0.
have E0 : c0 tl = size J.
  rewrite /c0 /tl count_cat !count_map /= (eq_count (a2 := pred0)) // count_pred0.
  by rewrite (eq_count (a2 := xpredT)) // count_predT.
have sz : size tl = (size I + size J)%N by rewrite size_cat !size_map.
have gs : (gr <= size tl)%N.
  rewrite sz; move: D; case: (k) nw => //=.
  - by move=> _; case: ifP => // _ [<-]; case: ifP => _; nlia.
  - by move=> _ [<-].
  - by move=> _; case: ifP => // _ [<-]; nlia.
  - by move=> _; case: ifP => // _ [<-]; nlia.
(* at the required length only one of the factors has indices left *)
have one tl' : (c1 tl' + c0 tl = c1 tl + c0 tl')%N -> size tl' = gr -> c0 tl' = 0%N \/ c1 tl' = 0%N.
  rewrite E1 E0 -c_size; move: D; case: (k) nw => //=.
  - move=> _; case: ifP => // _ [<-]; case: ifP; nlia.
  - by move=> _ [<-]; nlia.
  - by move=> _; case: ifP => // _ [<-]; nlia.
  - by move=> _; case: ifP => // _ [<-]; nlia.
have fuel : (inversions (vals tl) < (size (I ++ J) * size (I ++ J)).+1)%N.
  by rewrite ltnS vt inversions_le.
have := bubbleP false 1 fuel pw gs; rewrite vt.
move: (size (I ++ J) * size (I ++ J)).+1 => fl.
have VE : V false 1 tl = (bl R (set_of n I) : cl two a) * (bl R (set_of n J) : cl two a).
  rewrite /V vt /= mulr1 scale1r base_of_cat -!(ortho_blade two wf ort rel) ?blade_wf //.
  - by apply: (sorted_uniq ltn_trans ltnn).
  - by apply: (sorted_uniq ltn_trans ltnn).
case: bubble => [||l' s' r'] //=.
  case=> s' [r' [tl' [h E]]]; exists [::] => //; split=> //; rewrite /value ev_nil -VE -E.
  by rewrite (@gpart_low _ _ gr) //; apply: low_V.
case=> tl' [-> q1 q2 q3 [q4 q5 q6]].
have al : all (fun i => i < n)%N (vals tl').
  apply/allP => i /q2; rewrite vt mem_cat => /orP[/(allP aI)|/(allP aJ)] //.
rewrite -VE -q3 size_map; case: ltnP => h.
  exists [::] => //; split=> //; rewrite /value ev_nil V_sorted ?linearZ /=; last by rewrite /wfI q6.
  rewrite gpart_bl card_set_of; last by rewrite /wfI q6.
  by rewrite size_map gtn_eqF // scaler0.
have {h q5}Es : size tl' = gr by apply/eqP; rewrite eqn_leq h q5.
have so : sorted ltn (vals tl').
  rewrite (sorted_pairwise ltn_trans) pairwise_map; have [z|z] := one tl' q4 Es.
    move: z => /eqP; rewrite -leqn0 leqNgt -has_count -all_predC => /allP z.
    apply: sub_in_pairwise (allss tl') q1 => t u _ /z /=.
    by rewrite negbK /trel => ->; rewrite andbF orbF.
  move: z => /eqP; rewrite -leqn0 leqNgt -has_count -all_predC => /allP z.
  apply: sub_in_pairwise (allss tl') q1 => t u /z /= + _.
  by rewrite /trel => /negbTE ->; rewrite orbF.
have wl : wfI n (vals tl') by rewrite /wfI so.
have -> : gpart gr (V s' r' tl') = (sgnR R s' * r') *: bl R (set_of n (vals tl')).
  by rewrite V_sorted // linearZ /= gpart_bl card_set_of // size_map Es eqxx.
have fin : exists2 v, Some [:: (sgnR R s' * r', mk_blade (vals tl'))] = Some v &
   blade_expr n v /\ value two a v = (sgnR R s' * r') *: bl R (set_of n (vals tl')).
  eexists; [reflexivity|split]; first by rewrite /blade_expr /= mk_blade_in.
  by rewrite /value ev_cons ev_nil addr0 ev_mk_blade blade_wf.
case E: (vals tl') wl fin => [|i l] wl fin //; by rewrite i2b_get.
Qed.
End Bubble.

(* ---- splitting an expression by grades ---- *)
Section Decomposition.
Variables (R : comUnitRingType) (two : (2%:R : R) \is a GRing.unit) (a : ga R).
Notation n := (ga_n a).
Implicit Types (x y v : expr R) (w : word) (I J : seq nat) (d : seq (nat * expr R)).

Lemma blade_grade I : wfI n I ->
  (if mk_blade I is [::] then Some 0%N else dget (blades_to_grades n) (mk_blade I)) = Some (size I).
Proof. by move=> wI; rewrite -(b2g_get wI); case: I wI => [|i I] wI //=; rewrite (@b2g_get n [::]). Qed.

Definition part d k : expr R := odflt [::] (dget d k).
Lemma gd_loopP ts d : blade_expr n ts -> (forall k, blade_expr n (part d k)) ->
  exists2 d', gd_loop n ts d = Some d' &
    forall k, blade_expr n (part d' k) /\
      value two a (part d' k) = value two a (part d k) + gpart k (value two a ts).
Proof.
elim: ts d => [|[c w] ts IH] d.
  by move=> _ h; exists d => // k; split=> //; rewrite /value ev_nil linear0 addr0.
rewrite /blade_expr /= => /andP[/bladeP[I wI ->] bts] bd; rewrite blade_grade //=.
set d1 := if _ is Some v then _ else _.
have E k : part d1 k = part d k ++ (if size I == k then [:: (c, mk_blade I)] else [::]).
  rewrite /d1 /part; case: eqP => [<-|/eqP ne].
    by case: (dget d (size I)) => [v|]; rewrite dget_dset eqxx.
  by case: (dget d (size I)) => [v|]; rewrite dget_dset (negbTE ne) cats0.
have bd1 k : blade_expr n (part d1 k).
  rewrite E /blade_expr words_cat all_cat [all _ _]bd; case: eqP => //= _.
  by rewrite mk_blade_in.
have [d' -> h] := IH d1 bts bd1; exists d' => // k; have [h1 h2] := h k; split=> //.
rewrite h2 E /value ev_cat ev_cons -addrA linearD linearZ /= ev_mk_blade blade_wf //.
rewrite gpart_bl card_set_of // ; congr (_ + (_ + _)); case: eqP => _.
  by rewrite ev_cons ev_nil addr0 ev_mk_blade blade_wf.
by rewrite ev_nil scaler0.
Qed.

Lemma linear_expand_blade x : blade_expr n x -> blade_expr n (linear_expand x).
Proof.
move=> bx; apply: linear_expand_words => //; first exact: (@mk_blade_in n [::]).
by move=> w /= /bladeP[I _ ->]; exact: mk_blade_size.
Qed.
Lemma value_linear_expand x : blade_expr n x -> value two a (linear_expand x) = value two a x.
Proof.
move=> bx; rewrite /value ev_linear_expand //; apply: sub_all bx => w /= /bladeP[I _ ->].
exact: mk_blade_size.
Qed.

Lemma grade_decompositionP x : blade_expr n x ->
  exists2 d, grade_decomposition a x = Some d &
    forall k, blade_expr n (part d k) /\ value two a (part d k) = gpart k (value two a x).
Proof.
move=> bx; have [|d' E h] := gd_loopP (linear_expand_blade bx) (d := [::]); first by [].
exists d' => // k; have [h1 h2] := h k; split=> //.
by rewrite h2 /part /= {1}/value ev_nil add0r value_linear_expand.
Qed.
End Decomposition.

(* ---- the grade-selecting products ---- *)
Section Inner.
Variables (R : comUnitRingType) (two : (2%:R : R) \is a GRing.unit) (a : ga R).
Hypothesis wf : wf_ga a.
Notation n := (ga_n a).
Notation C := (cl two a).
Implicit Types (x y v : expr R) (w : word) (I J : seq nat).

Lemma single_non_orthoP k I J : is_ortho a = false -> wfI n I -> wfI n J ->
  exists2 v, single_non_ortho a k (mk_blade I) (mk_blade J) = Some v &
    blade_expr n v /\
    value two a v = if result_grade n k (size I) (size J) is Some gr
       then gpart gr ((bl R (set_of n I) : C) * (bl R (set_of n J) : C)) else 0.
Proof.
move=> no wI wJ; rewrite /single_non_ortho !b2g_get //=.
case: result_grade => [gr|]; last by exists [::] => //; split=> //; rewrite /value ev_nil.
have rel := wf_rel two wf.
have [bed -> [dom val]] := blade_expansion_dictP two a.
have get K : wfI n K -> exists2 v, dget bed (mk_blade K) = Some v &
    base_expr n v /\ ev (gen two a) v = bl R (set_of n K).
  move=> wK; have := dom K; rewrite mem_indexes_flat => /(_ wK).
  case D: dget => [v|] // _; have [K' [_ /mk_blade_inj E bv _ ev_v]] := val _ _ D.
  by exists v => //; split=> //; rewrite ev_v // ev_mk_blade blade_wf // E.
have [v1 /= -> [b1 e1]] := get _ wI; have [v2 /= -> [b2 e2]] := get _ wJ.
have ok v : base_expr n v -> ok_expr a v.
  by move=> bv; apply: sub_all bv => w; rewrite /okw no /= => ->; rewrite orbT.
have [z /= -> [bz _ ez]] := ga_mulP two wf (ok _ b1) (ok _ b2).
have [y /= -> [b_y _ ey]] := base_to_blade_nonortho two wf no (blade_mix bz).
have [d /= -> h] := grade_decompositionP two b_y.
have [] := h gr; rewrite /part; set p := odflt _ _ => bp vp; exists (canon p).
  by rewrite /p /=; case: (dget d gr) => [v|].
split; first exact: all_words_canon.
by rewrite /value ev_canon -/(value two a p) vp /value ey // ez // e1 e2.
Qed.

Lemma single_bbP k I J : wfI n I -> wfI n J ->
  exists2 v, single_bb a k (mk_blade I) (mk_blade J) = Some v &
    blade_expr n v /\
    value two a v = if result_grade n k (size I) (size J) is Some gr
       then gpart gr ((bl R (set_of n I) : C) * (bl R (set_of n J) : C)) else 0.
Proof.
move=> wI wJ; have [kw|nw] : k = WedgeK \/ (k = WedgeK -> False) by case: k; [right|right|right|right|left].
  rewrite kw /=; have [v Ev [bv h]] := @wedge_bbP _ a _ _ wI wJ; exists v => //; split=> //.
  rewrite (value_mv_of two bv) h /=; case: ltnP => hn.
    rewrite /extb ifF //; apply/negbTE/negP => d.
    have := subset_leq_card (subsetT (set_of n I :|: set_of n J)).
    rewrite cardsU disjoint_setI0 // cards0 subn0 !card_set_of // cardsT card_ord.
    by rewrite leqNgt hn.
  by rewrite -(card_set_of wI) -(card_set_of wJ) -(bl_top two (ga_metric two a)).
have -> : single_bb a k (mk_blade I) (mk_blade J) =
    if is_ortho a then single_ortho a k (mk_blade I) (mk_blade J) else single_non_ortho a k (mk_blade I) (mk_blade J).
  by case: (k) nw => // /(_ erefl).
by case: ifP => ort; [apply: single_orthoP|apply: single_non_orthoP].
Qed.

Section Sel.
Variable f : nat -> nat -> option nat.
Let sel := selprod (fun u v : C => u * v) f.
Lemma selprod_linl c (u v z : C) : sel (c *: u + v) z = c *: sel u z + sel v z.
Proof.
rewrite /sel /selprod scaler_sumr -big_split; apply: eq_bigr => r _.
rewrite scaler_sumr -big_split; apply: eq_bigr => s _.
case: f => [k|] /=; last by rewrite scaler0 addr0.
have -> : ((gpart r (c *: u + v) : C) * (gpart s z : C)) =
   c *: ((gpart r u : C) * (gpart s z : C)) + (gpart r v : C) * (gpart s z : C) :> C.
  by rewrite [gpart r _]linearP mulrDl scalerAl.
by rewrite linearP.
Qed.
Lemma selprod_linr c (u v z : C) : sel z (c *: u + v) = c *: sel z u + sel z v.
Proof.
rewrite /sel /selprod scaler_sumr -big_split; apply: eq_bigr => r _.
rewrite scaler_sumr -big_split; apply: eq_bigr => s _.
case: f => [k|] /=; last by rewrite scaler0 addr0.
have -> : ((gpart r z : C) * (gpart s (c *: u + v) : C)) =
   c *: ((gpart r z : C) * (gpart s u : C)) + (gpart r z : C) * (gpart s v : C) :> C.
  by rewrite [gpart s (_ + _)]linearP mulrDr scalerAr.
by rewrite linearP.
Qed.
Lemma selprod_bl S T : sel (bl R S) (bl R T) =
  if f #|S| #|T| is Some k then gpart k ((bl R S : C) * (bl R T : C)) else 0.
Proof.
have sS (U : {set 'I_n}) : (#|U| < n.+1)%N by rewrite ltnS; apply: leq_trans (max_card _) _; rewrite card_ord.
rewrite /sel /selprod (bigD1 (Ordinal (sS S))) //= [X in _ + X]big1 ?addr0 => [|r nr]; last first.
  rewrite big1 // => s _; case: f => // k; rewrite gpart_bl ifF ?mul0r ?linear0 //.
  by apply: contraNF nr => /eqP E; apply/eqP/val_inj.
rewrite (bigD1 (Ordinal (sS T))) //= [X in _ + X]big1 ?addr0 => [|s ns]; last first.
  case: f => // k; rewrite [gpart s _]gpart_bl ifF ?mulr0 ?linear0 //.
  by apply: contraNF ns => /eqP E; apply/eqP/val_inj.
by case: f => // k; rewrite !gpart_bl !eqxx.
Qed.
End Sel.

(* the textbook rule for each product *)
Definition rule_of k : nat -> nat -> option nat :=
  match k with
  | Hestenes => hestenes_grade | ScalarProd => scalar_grade
  | LeftC => left_grade | RightC => right_grade | WedgeK => outer_grade
  end.
Lemma rule_ofE k r s (z : C) : 
  (if result_grade n k r s is Some gr then gpart gr z else 0) =
  (if rule_of k r s is Some gr then gpart gr z else 0).
Proof.
case: k => //=.
- by rewrite /hestenes_grade; case: ifP => // _; case: leqP.
- by rewrite /left_grade; case: ltnP.
- by rewrite /right_grade; case: ltnP.
- by case: ltnP => // h; rewrite gpart_out.
Qed.

Lemma ga_singleP k x y : blade_expr n x -> blade_expr n y ->
  exists2 z, ga_single a k x y = Some z & [/\ blade_expr n z, canonical z &
    value two a z = selprod (fun u v : C => u * v) (rule_of k) (value two a x) (value two a y)].
Proof.
move=> bx b_y; rewrite /ga_single.
have b0 : [::] \in blades_flat n by exact: (@mk_blade_in n [::]).
have bs w : w \in blades_flat n -> (size w <= 1)%N by case/bladeP=> I _ ->; exact: mk_blade_size.
have tot w1 w2 : w1 \in blades_flat n -> w2 \in blades_flat n ->
    exists2 v, single_bb a k w1 w2 = Some v & all (mem (blades_flat n)) (words v).
  by move=> /bladeP[I wI ->] /bladeP[J wJ ->]; have [v E [bv _]] := single_bbP k wI wJ; exists v.
have [z -> [bz cz ez]] := uasP b0 bs tot bx b_y.
exists z => //; split=> //; rewrite /value (ez _ _ (fun x y : C => selprod (fun u v : C => u * v) (rule_of k) x y : C)) //.
- by move=> c u v z'; exact: selprod_linl.
- by move=> c u v z'; exact: selprod_linr.
move=> w1 w2 v /bladeP[I wI ->] /bladeP[J wJ ->]; have [v' -> [bv h]] := single_bbP k wI wJ.
case=> <-; rewrite !ev_mk_blade !blade_wf // selprod_bl -rule_ofE !card_set_of //.
Qed.
End Inner.
