(* Ga_Proof_Sort.v -- proofs about the index-sorting loops (blade_reduce, the
   orthogonal geometric product) *)
From mathcomp Require Import all_ssreflect all_algebra.
From Verif Require Import Spec_Index NatTac PyBase Ga_Model Ga_Proof_Tables.
Set Implicit Arguments.
Unset Strict Implicit.
Unset Printing Implicit Defensive.

Lemma inversions_cat l m : inversions (l ++ m) = inversions l + inversions m + crossings l m.
Proof.
elim: l => [|x l IH] /=; first by rewrite /crossings big_nil addn0.
rewrite IH count_cat /crossings big_cons.
nlia.
Qed.

Lemma crossings_cat l l' m : crossings (l ++ l') m = crossings l m + crossings l' m.
Proof. by rewrite /crossings big_cat. Qed.
Lemma crossings_catr l m m' : crossings l (m ++ m') = crossings l m + crossings l m'.
Proof. by rewrite /crossings -big_split; apply: eq_bigr => x _; rewrite count_cat. Qed.
Lemma crossings_cons x l m : crossings (x :: l) m = count (fun y => y < x) m + crossings l m.
Proof. by rewrite /crossings big_cons. Qed.
Lemma crossings0 l m : (forall x y, x \in l -> y \in m -> x <= y) -> crossings l m = 0.
Proof.
move=> h; rewrite /crossings big_seq big1 // => x xl; apply/eqP.
rewrite -leqn0 leqNgt -has_count; apply/hasPn => y ym; rewrite -leqNgt; exact: h.
Qed.

Lemma inversions_move p1 p2 x q : all (fun y => x < y) p2 ->
  inversions (p1 ++ p2 ++ x :: q) = inversions (p1 ++ x :: p2 ++ q) + size p2.
Proof.
move=> h; rewrite !inversions_cat.
have -> : crossings p1 (p2 ++ x :: q) = crossings p1 (x :: p2 ++ q).
  rewrite /crossings; apply: eq_bigr => y _; rewrite /= !count_cat /=.
  by rewrite addnCA.
rewrite /= inversions_cat /= count_cat.
have -> : crossings p2 (x :: q) = crossings p2 q + size p2.
  rewrite /crossings; elim: p2 h => [|y p2 IH] /=; first by rewrite !big_nil.
  by case/andP=> xy /IH; rewrite !big_cons => -> /=; rewrite xy; nlia.
have -> : count (fun y => y < x) p2 = 0.
  apply/eqP; rewrite -leqn0 leqNgt -has_count; apply/hasPn => y /(allP h).
  by rewrite -leqNgt => /ltnW.
nlia.
Qed.

Lemma inversions_sorted l : sorted leq l -> inversions l = 0.
Proof.
elim: l => //= x l IH; rewrite path_sortedE; last exact: leq_trans.
case/andP=> /allP h /IH ->; rewrite addn0; apply/eqP.
rewrite -leqn0 leqNgt -has_count; apply/hasPn => y /h.
by rewrite -leqNgt.
Qed.

(* the inner while loop *)
Lemma shiftP p x q save s : exists p1 p2 l',
  [/\ p = p1 ++ p2, all (fun y => save < y) p2,
      (p1 == [::]) || (last 0 p1 <= save),
      shift (p ++ x :: q) save (size p) s = (l', size p1, s (+) odd (size p2)) &
      set_nth 0 l' (size p1) save = p1 ++ save :: p2 ++ q].
Proof.
elim/last_ind: p x q s => [|p y IH] x q s.
  by exists [::], [::], (x :: q); split=> //=; rewrite addbF.
rewrite size_rcons /= nth_cat size_rcons ltnS leqnn nth_rcons ltnn eqxx.
case: ifP => ys; last first.
  exists (rcons p y), [::], (rcons p y ++ x :: q); split=> //=.
  - by rewrite cats0.
  - by rewrite last_rcons leqNgt ys orbT.
  - by rewrite size_rcons addbF.
  - rewrite -[in LHS](cats0 (rcons p y)) cats0.
    by elim: (rcons p y) => //= z r ->.
have -> : set_nth 0 (rcons p y ++ x :: q) (size p).+1 y = p ++ y :: y :: q.
  by elim: p {IH} => //= z p ->.
have [p1 [p2 [l' [Ep al la -> E2]]]] := IH y (y :: q) (~~ s).
exists p1, (rcons p2 y), l'; split=> //.
- by rewrite -rcons_cat -Ep.
- by rewrite all_rcons ys.
- by rewrite size_rcons /= addNb addbN.
- by rewrite E2 cat_rcons.
Qed.

Lemma sorted_insert p1 p2 x : sorted leq (p1 ++ p2) -> all (fun y => x < y) p2 ->
  (p1 == [::]) || (last 0 p1 <= x) -> sorted leq (p1 ++ x :: p2).
Proof.
rewrite !(sorted_pairwise leq_trans) !pairwise_cat => /and3P[c s1 s2] al la.
rewrite s1 /= s2 !andbT; apply/andP; split.
  rewrite allrel_consr c andbT; apply/allP => y yp1.
  case/orP: la => [/eqP e|la]; first by rewrite e in yp1.
  case/lastP: p1 yp1 la s1 {c} => // r z; rewrite mem_rcons inE last_rcons pairwise_rcons.
  case/orP=> [/eqP -> //|yr] zx /andP[/allP h _]; exact: leq_trans (h _ yr) zx.
by apply/allP => y /(allP al) /ltnW.
Qed.

(* one step of either sorting loop, on a sorted prefix *)
Lemma insert_step p x q s : p != [::] -> sorted leq p ->
  exists p' l' j s', [/\ shift (p ++ x :: q) x (size p) s = (l', j, s'),
    set_nth 0 l' j x = p' ++ q,
    sorted leq p', perm_eq p' (rcons p x) &
    s' = s (+) odd (inversions (p ++ x :: q)) (+) odd (inversions (p' ++ q))] /\
    [/\ nth 0 (p' ++ q) j = x, size p' = (size p).+1 &
    (x == pyprev (p' ++ q) j) = (x \in p) || [&& ~~ has (fun y => y <= x) p, q != [::] & last 0 q == x]].
Proof.
move=> pn so; have [p1 [p2 [l' [Ep al la -> E]]]] := shiftP p x q x s.
exists (p1 ++ x :: p2), l', (size p1), (s (+) odd (size p2)); split; split=> //.
- by rewrite E -catA.
- by apply: sorted_insert => //; rewrite -Ep.
- by rewrite Ep -cats1 -catA perm_cat2l cats1 perm_sym perm_rcons.
- rewrite Ep -!catA inversions_move // oddD; move: (odd _) (odd _) => a b.
  by case: s a b => -[] [].
- by rewrite -catA nth_cat ltnn subnn.
- by rewrite Ep !size_cat /= addnS.
have xp2 : x \notin p2 by apply/negP => /(allP al); rewrite ltnn.
have xp : (x \in p) = (x \in p1) by rewrite Ep mem_cat (negbTE xp2) orbF.
case/lastP E1: p1 => [|r z].
  have p2n : p2 != [::] by move: pn; rewrite Ep E1.
  rewrite xp E1 in_nil /=; have -> : has (fun y => y <= x) p = false.
    apply/negbTE/hasPn => y; rewrite Ep E1 => /(allP al); by rewrite -ltnNge.
  case: q {E} => [|y q] /=.
    rewrite cats0; case: p2 p2n al {xp2 Ep} => // y p2 _ al /=.
    apply/negbTE/eqP => e; have: last y p2 \in y :: p2 by rewrite mem_last.
    by rewrite -e => /(allP al); rewrite ltnn.
  by rewrite last_cat /= eq_sym.
have -> : has (fun y => y <= x) p.
  apply/hasP; exists z; first by rewrite Ep E1 mem_cat mem_rcons inE eqxx.
  by move: la; rewrite E1 last_rcons; case: (r).
rewrite orbF size_rcons /pyprev -catA nth_cat size_rcons ltnS leqnn nth_rcons ltnn eqxx.
rewrite xp E1 mem_rcons inE; case: (x =P z) => //= xz; symmetry; apply/negbTE/negP => xr.
move: so la; rewrite Ep E1 (sorted_pairwise leq_trans) pairwise_cat pairwise_rcons last_rcons.
case/and3P=> _ /andP[/allP h _] _ /orP[/eqP|zx]; first by case: (r).
by case: xz; apply/eqP; rewrite eqn_leq zx h.
Qed.

Lemma not_uniq_mem (p q : seq nat) x : x \in p -> ~~ uniq (p ++ x :: q).
Proof.
by move=> xp; rewrite cat_uniq /= xp /= negb_and orbC.
Qed.

Lemma blade_reduce_loopP q p s : p != [::] -> sorted ltn p ->
  match blade_reduce_loop (iota (size p) (size q)) (p ++ q) s with
  | None => ~~ uniq (p ++ q)
  | Some (s', l') => [/\ uniq (p ++ q), sorted ltn l', perm_eq l' (p ++ q)
                       & s' = s (+) odd (inversions (p ++ q))]
  end.
Proof.
elim: q p s => [|x q IH] p s pn so /=.
  have so' : sorted leq p by apply: sub_sorted so => a b /ltnW.
  rewrite cats0; split=> //; first exact: (sorted_uniq ltn_trans ltnn).
  by rewrite inversions_sorted // addbF.
have so' : sorted leq p by apply: sub_sorted so => a b /ltnW.
rewrite nth_cat ltnn subnn /=.
have [p' [l' [j [s' [[-> -> so1 pe Es] [E1 sz ch]]]]]] := insert_step x q s pn so'.
rewrite E1 ch; case: ifP.
  case/orP=> [xp|/and3P[_ qn /eqP lq]]; first exact: not_uniq_mem.
  rewrite cat_uniq /=; suff -> : x \in q by rewrite !andbF.
  by rewrite -lq; case: (q) qn => // y r _; rewrite /= mem_last.
move/negbT; rewrite negb_or => /andP[xp _].
have p'n : p' != [::] by case: (p') sz.
have so2 : sorted ltn p'.
  rewrite ltn_sorted_uniq_leq so1 andbT (perm_uniq pe) rcons_uniq xp.
  exact: (sorted_uniq ltn_trans ltnn).
have pe2 : perm_eq (p' ++ q) (p ++ x :: q).
  by rewrite -cat_rcons perm_cat2r.
rewrite -sz; have := IH p' s' p'n so2.
case: blade_reduce_loop => [[s2 l2]|]; last by rewrite (perm_uniq pe2).
case=> u so3 pe3 ->; split=> //; first by rewrite -(perm_uniq pe2).
  exact: perm_trans pe3 pe2.
by rewrite Es addbK.
Qed.

(* C03 *)
Theorem blade_reduce_spec l :
  match blade_reduce l with
  | None => ~~ uniq l
  | Some (sgn, l') => [/\ uniq l, sorted ltn l', perm_eq l' l & sgn = odd (inversions l)]
  end.
Proof.
rewrite /blade_reduce; case: l => [|x l] //.
exact: (@blade_reduce_loopP l [:: x] false isT isT).
Qed.

Lemma ortho_sort_cat ks ks' l rep s :
  ortho_sort (ks ++ ks') l rep s =
  let: (l1, rep1, s1) := ortho_sort ks l rep s in ortho_sort ks' l1 rep1 s1.
Proof.
elim: ks l rep s => //= i ks IH l rep s.
by case: shift => [[l1 j] s1]; rewrite IH.
Qed.

Lemma ortho_sort_sorted q p r rep s : p != [::] -> sorted ltn (p ++ q) ->
  ortho_sort (iota (size p) (size q)) (p ++ q ++ r) rep s = (p ++ q ++ r, rep, s).
Proof.
elim: q p => [|x q IH] p pn so //=.
rewrite nth_cat ltnn subnn /=.
have so' : sorted leq p.
  by apply: sub_sorted (cat_sorted2 so).1 => a b /ltnW.
have [p' [l' [j [s' [[-> -> so1 pe Es] [E1 sz ch]]]]]] := insert_step x (q ++ r) s pn so'.
have so2 : sorted ltn (rcons p x).
  by rewrite -cats1; move: so; rewrite -cat1s catA => /cat_sorted2 [].
have Ep' : p' = rcons p x.
  apply: (sorted_eq leq_trans anti_leq) => //.
  by apply: sub_sorted so2 => a b /ltnW.
have al : all (fun y => y < x) p.
  move: so2; rewrite (sorted_pairwise ltn_trans) pairwise_rcons => /andP[al _].
  by apply: sub_all al.
have xp : x \notin p by apply/negP => /(allP al); rewrite ltnn.
have hp : has (fun y => y <= x) p.
  by case: p pn al {so so' Es sz ch so2 Ep' pe xp IH} => //= y p _ /andP[/ltnW -> _].
rewrite E1 ch (negbTE xp) hp /= Es Ep' -cat_rcons.
have -> : s (+) odd (inversions (rcons p x ++ q ++ r)) (+) odd (inversions (rcons p x ++ q ++ r)) = s.
  by rewrite addbK.
rewrite -(size_rcons p x); apply: IH; first by case: (p).
by rewrite cat_rcons.
Qed.

Lemma ortho_sort_merge q p rep s : p != [::] -> sorted leq p -> uniq q ->
  exists2 l', [/\ sorted leq l', perm_eq l' (p ++ q) & True] &
  ortho_sort (iota (size p) (size q)) (p ++ q) rep s =
   (l', rep ++ [seq x <- q | x \in p], s (+) odd (inversions (p ++ q))).
Proof.
elim: q p rep s => [|x q IH] p rep s pn so /=.
  by move=> _; exists p; rewrite !cats0 // inversions_sorted // addbF.
move=> /andP[xq uq]; rewrite nth_cat ltnn subnn /=.
have [p' [l' [j [s' [[-> -> so1 pe Es] [E1 sz ch]]]]]] := insert_step x q s pn so.
have lq : (q != [::]) && (last 0 q == x) = false.
  case: q xq {IH uq Es E1 ch} => // y q; apply: contraNF => /= /eqP <-.
  by rewrite mem_last.
rewrite E1 ch lq andbF orbF.
have p'n : p' != [::] by case: (p') sz.
have [l2 [so2 pe2 _] E2] := IH p' (if x \in p then rcons rep x else rep) s' p'n so1 uq.
have pe3 : perm_eq (p' ++ q) (p ++ x :: q) by rewrite -cat_rcons perm_cat2r.
exists l2; first by split=> //; exact: perm_trans pe2 pe3.
rewrite -sz E2; congr (_, _, _).
  have -> : [seq x0 <- q | x0 \in p'] = [seq x0 <- q | x0 \in p].
    apply: eq_in_filter => y yq; rewrite (perm_mem pe) mem_rcons inE.
    by case: (y =P x) => // e; rewrite -e yq in xq.
  by case: (x \in p); rewrite ?cat_rcons.
by rewrite Es addbK.
Qed.

Lemma ortho_sort_spec I J : sorted ltn I -> sorted ltn J ->
  exists2 l', sorted leq l' /\ perm_eq l' (I ++ J) &
  ortho_sort (iota 1 (size (I ++ J)).-1) (I ++ J) [::] false =
   (l', [seq x <- J | x \in I], odd (crossings I J)).
Proof.
move=> sI sJ.
have sI' : sorted leq I by apply: sub_sorted sI => a b /ltnW.
have sJ' : sorted leq J by apply: sub_sorted sJ => a b /ltnW.
have uJ := sorted_uniq ltn_trans ltnn sJ.
have inv : inversions (I ++ J) = crossings I J.
  by rewrite inversions_cat !inversions_sorted.
case: I sI sI' inv => [|x I] sI sI' inv.
  rewrite /= in inv *; have h := @ortho_sort_sorted (behead J) (take 1 J) [::] [::] false.
  exists J; first by split.
  rewrite -inv inversions_sorted //.
  have -> : [seq x <- J | x \in [::]] = [::] by elim: (J) => //= y J' ->.
  case: J sJ {sJ' uJ inv} h => //= y J sJ.
  by rewrite take0 cats0 /=; apply.
rewrite [size _]/= [_.-1]/= size_cat iotaD ortho_sort_cat.
have := @ortho_sort_sorted I [:: x] J [::] false isT sI; rewrite /= => ->.
have [l' [so pe _] E] := @ortho_sort_merge J (x :: I) [::] false isT sI' uJ.
exists l' => //; by move: E => /= ->; rewrite -inv.
Qed.

Section Ortho.
Import GRing.Theory.
Local Open Scope ring_scope.
Variable R : comUnitRingType.
Implicit Types (a : ga R) (I J : seq nat).

Lemma rem2_filter (l : seq nat) x : count_mem x l = 2%N ->
  rem x (rem x l) = [seq y <- l | y != x].
Proof.
have r1 (m : seq nat) : count_mem x m = 1%N -> rem x m = [seq y <- m | y != x].
  elim: m => //= y m IH; case: (y =P x) => [->|_] /=.
    move=> [h]; symmetry; apply/all_filterP/allP => z zm; apply/eqP => e.
    by move: zm; rewrite e; apply/negP/count_memPn.
  by move/IH => ->.
elim: l => //= y l IH; case: (y =P x) => [->|yx] /=; first by case=> /r1.
by move/IH; case: (y =P x) => //= _ ->.
Qed.

Lemma remove_repeatsP a rep l r : uniq rep -> (forall x, x \in rep -> count_mem x l = 2%N) ->
  remove_repeats a rep l r =
  Some ([seq y <- l | y \notin rep], r * \prod_(i <- rep) gij a i i).
Proof.
elim: rep l r => [|x rep IH] l r /=.
  by move=> _ _; rewrite big_nil mulr1; congr (Some (_, _)); elim: l => //= y l <-.
case/andP=> xr ur h; have c2 := h x (mem_head _ _).
have xl : x \in l by rewrite -has_pred1 has_count c2.
have c1 : count_mem x (rem x l) = 1%N.
  have := perm_to_rem xl => /permP /(_ (pred1 x)) /=; rewrite c2 eqxx add1n.
  by case.
have xl2 : x \in rem x l by rewrite -has_pred1 has_count c1.
rewrite /pyremove xl /= xl2 /= IH //.
  rewrite rem2_filter // -filter_predI big_cons mulrA; congr (Some (_, _)).
  by apply: eq_filter => y /=; rewrite inE negb_or andbC.
move=> y yr; rewrite rem2_filter // count_filter.
rewrite -(h y); last by rewrite inE yr orbT.
apply: eq_count => z /=; case: (z =P y) => //= ->.
by apply/eqP => e; rewrite -e yr in xr.
Qed.

Lemma symdiff_wf n I J : wfI n (symdiff n I J).
Proof.
rewrite /wfI /symdiff sorted_filter ?iota_ltn_sorted //=; last exact: ltn_trans.
by apply/allP => k; rewrite mem_filter mem_iota add0n => /andP[_].
Qed.
Lemma mem_symdiff n I J k : wfI n I -> wfI n J ->
  (k \in symdiff n I J) = (k \in I) (+) (k \in J).
Proof.
move=> /andP[_ /allP aI] /andP[_ /allP aJ]; rewrite mem_filter mem_iota add0n /=.
case kI : (k \in I); first by rewrite aI // andbT.
by case kJ : (k \in J) => /=; rewrite ?aJ.
Qed.

Lemma wfI_eq n I J : wfI n I -> wfI n J -> I =i J -> I = J.
Proof.
move=> /andP[sI _] /andP[sJ _]; exact: (irr_sorted_eq ltn_trans ltnn).
Qed.

Lemma sgnRE b : sgnR R b = (-1) ^+ b.
Proof. by case: b. Qed.

(* C04, basis blades *)
Lemma mul_ortho_spec a I J : wfI (ga_n a) I -> wfI (ga_n a) J ->
  mul_ortho a (mk_blade I) (mk_blade J) =
  Some [:: ((-1) ^+ crossings I J * \prod_(i <- I | i \in J) gij a i i,
            mk_blade (symdiff (ga_n a) I J))].
Proof.
move=> wI wJ; rewrite /mul_ortho !b2i_get //=.
have [sI aI] := andP wI; have [sJ aJ] := andP wJ.
have uI := sorted_uniq ltn_trans ltnn sI; have uJ := sorted_uniq ltn_trans ltnn sJ.
have [l' [so pe] ->] := ortho_sort_spec sI sJ.
rewrite remove_repeatsP; first last.
- move=> x; rewrite mem_filter => /andP[xI xJ].
  by rewrite (permP pe) count_cat !count_uniq_mem // xI xJ.
- exact: filter_uniq.
set l2 := [seq y <- l' | _]; set c := _ * _.
have El2 : l2 = symdiff (ga_n a) I J.
  apply: (irr_sorted_eq ltn_trans ltnn).
  - rewrite ltn_sorted_uniq_leq sorted_filter ?andbT //; last exact: leq_trans.
    rewrite (perm_uniq (perm_filter _ pe)) filter_cat cat_uniq !filter_uniq // andbT /=.
    apply/hasPn => k; rewrite !mem_filter => /andP[]; rewrite negb_and.
    by rewrite inE mem_filter; case: (k \in I); case: (k \in J); rewrite ?andbF.
  - by have /andP[] := symdiff_wf (ga_n a) I J.
  - move=> k; rewrite mem_symdiff // mem_filter (perm_mem pe) mem_cat mem_filter.
    by case: (k \in I); case: (k \in J).
have Ec : c = (-1) ^+ crossings I J * \prod_(i <- I | i \in J) gij a i i.
  rewrite /c sgnRE signr_odd; congr (_ * _).
  rewrite big_filter -[RHS]big_filter -big_filter; apply: perm_big.
  apply: uniq_perm; rewrite ?filter_uniq // => k.
  by rewrite !mem_filter andbC.
rewrite /= Ec El2; case: ifP => [_|/negbT]; first by rewrite i2b_get ?symdiff_wf.
by rewrite -leqNgt leqn0 => /nilP ->.
Qed.

End Ortho.
