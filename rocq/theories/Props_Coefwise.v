(* Props_Coefwise.v -- property C61: functions that work on the coefficients *)
From mathcomp Require Import all_ssreflect all_algebra.
From Verif Require Import NatTac AlgTactics Exterior Clifford Blades Spec_Grade Grades MapCoef.
From Verif Require Import Spec_Index PyBase Ga_Model Ga_Proof_Tables Ga_Proof_Sort Ga_Proof_Sem Ga_Proof_Reduce.
From Verif Require Import Ga_Sem Ga_Proof_Rep Ga_Proof_Conv Ga_Proof_Mul Spec_Clifford Clifford_Unique Spec_Mv Ga_Proof_Den Ga_Proof_Wedge Ga_Proof_Inner.
From Verif Require Import Ga_Proof_Grade Mv_Model Mv_Proof Mv_Expr Mv_Proof_Expr Props_Mv Coef_Model Coef_Proof Lt_Model Lt_Proof Coefwise_Model Spec_Coefwise.
Set Implicit Arguments.
Unset Strict Implicit.
Unset Printing Implicit Defensive.
Import GRing.Theory.
Local Open Scope ring_scope.
Open Scope py_scope.

(* ---- linear_expand and collect ---- *)
Section Lists.
Variable R : comUnitRingType.
Implicit Types (ts : expr R) (w : word).
Lemma coef_zip_set (cs : seq R) (bs : seq word) (b : word) c w : size cs = size bs -> b \in bs -> uniq bs ->
  coef (zip (set_nth 0 cs (index b bs) (nth 0 cs (index b bs) + c)) bs) w = coef (zip cs bs) w + (if b == w then c else 0).
Proof.
elim: cs bs => [|d cs IH] [|b' bs] //= [sz]; rewrite inE => + /andP[nb ub].
case: eqP => [->|/eqP ne] /=.
  rewrite eqxx /= !coef_cons /= => _; case: eqP => _; rewrite ?addr0 ?add0r //.
  by rewrite -!addrA; congr (_ + _); rewrite addrC.
rewrite eq_sym (negbTE ne) /= => hb; by rewrite !coef_cons /= IH // addrA.
Qed.
Lemma coef_zip_rcons (cs : seq R) (bs : seq word) c b w : size cs = size bs ->
  coef (zip (rcons cs c) (rcons bs b)) w = coef (zip cs bs) w + (if b == w then c else 0).
Proof. by move=> sz; rewrite zip_rcons // -cats1 coef_cat coef_cons coef_nil addr0. Qed.
Lemma lin_loop ts (cs : seq R) (bs : seq word) : size cs = size bs -> uniq bs -> all (fun t => size t.2 <= 1)%N ts ->
  let r := foldl (@lin_step R) (cs, bs) ts in
  [/\ size r.1 = size r.2, uniq r.2, forall w, coef (zip r.1 r.2) w = coef (zip cs bs) w + coef ts w &
      r.2 =i bs ++ words ts].
Proof.
elim: ts cs bs => [|[c v] ts IH] cs bs sz ub /=.
  by move=> _; split=> // w; rewrite ?coef_nil ?addr0 // cats0.
case/andP=> sv al; have fv : first_sym v = v by case: v sv => [|s [|]].
have -> : lin_step (cs, bs) (c, v) = if v \in bs then
    (set_nth 0 cs (index v bs) (nth 0 cs (index v bs) + c), bs) else (rcons cs c, rcons bs v) by rewrite /lin_step /= fv.
case: ifP => vb.
  have sz' : size (set_nth 0 cs (index v bs) (nth 0 cs (index v bs) + c)) = size bs.
    by rewrite size_set_nth sz; apply/maxn_idPr; rewrite index_mem.
  have [h1 h2 h3 h4] := IH _ _ sz' ub al; split=> // w.
    by rewrite h3 coef_zip_set // coef_cons addrA.
  by rewrite h4 !mem_cat inE; case: (w =P v) => [->|//]; rewrite vb.
have sz' : size (rcons cs c) = size (rcons bs v) by rewrite !size_rcons sz.
have [|h1 h2 h3 h4] := IH _ _ sz' _ al; first by rewrite rcons_uniq vb.
split=> // w; first by rewrite h3 coef_zip_rcons // coef_cons addrA.
by rewrite h4 !mem_cat mem_rcons !inE orbA; congr (_ || _); rewrite orbC.
Qed.
(* linear_expand returns lists of equal length; no symbol is repeated; the coefficient of every symbol is
   its total coefficient; the symbols are those that occur (the scalar 1 for the empty sum) *)
Theorem C61_linear_expand ts cs bs : all (fun t => size t.2 <= 1)%N ts -> linear_expand_lists ts = (cs, bs) ->
  [/\ size cs = size bs, uniq bs, forall w, coefficient (zip cs bs) w = coefficient ts w &
      bs =i if ts is [::] then [:: [::]] else [seq t.2 | t <- ts]].
Proof.
rewrite /linear_expand_lists; case: ts => [|t ts] al.
  by case=> <- <-; split=> // w; rewrite /coefficient /= big_cons /= big_nil; case: ifP; rewrite ?addr0.
have [] := @lin_loop (t :: ts) [::] [::] erefl isT al; case: foldl => c b h1 h2 h3 h4 [<- <-]; split=> // w.
by have := h3 w; rewrite coef_nil add0r.
Qed.
Lemma coef_pop (cs : seq R) (bs : seq word) (x w : word) : size cs = size bs -> x \in bs ->
  coef (zip (pop (index x bs) cs) (pop (index x bs) bs)) w + (if x == w then nth 0 cs (index x bs) else 0) = coef (zip cs bs) w.
Proof.
move=> sz xb; have li : (index x bs < size cs)%N by rewrite sz index_mem.
have h (T : Type) (l : seq T) (x0 : T) : (index x bs < size l)%N -> l = take (index x bs) l ++ nth x0 l (index x bs) :: drop (index x bs).+1 l.
  by move=> lt; rewrite -drop_nth // cat_take_drop.
rewrite /pop; set k := index x bs; have -> : coef (zip cs bs) w =
    coef (zip (take k cs ++ nth 0 cs k :: drop k.+1 cs) (take k bs ++ nth [::] bs k :: drop k.+1 bs)) w.
  by rewrite -h // -h // index_mem.
rewrite nth_index //.
have st : size (take k cs) = size (take k bs) by rewrite !size_take sz.
rewrite !zip_cat // !coef_cat /= coef_cons /= -!addrA; congr (_ + _); by rewrite addrC.
Qed.
Lemma pop_perm (T : eqType) (l : seq T) x : x \in l -> perm_eq l (x :: pop (index x l) l).
Proof.
move=> xl; rewrite -{1}(cat_take_drop (index x l) l) (drop_nth x) ?index_mem // nth_index // /pop.
by rewrite -cat1s perm_catCA.
Qed.
Lemma collect_loop (nc : seq word) (cs : seq R) (bs : seq word) (C : expr R) : size cs = size bs ->
  let r := foldl (@collect_step R) (cs, bs, C) nc in
  [/\ size r.1.1 = size r.1.2, perm_eq (words r.2 ++ r.1.2) (words C ++ bs) &
      forall w, coef (r.2 ++ zip r.1.1 r.1.2) w = coef (C ++ zip cs bs) w].
Proof.
elim: nc cs bs C => [|x nc IH] cs bs C sz //=.
case: ifP => xb; last exact: IH.
have li : (index x bs < size cs)%N by rewrite sz index_mem.
have sz' : size (pop (index x bs) cs) = size (pop (index x bs) bs).
  by rewrite !size_cat !size_take !size_drop sz.
have [h1 h2 h3] := IH _ _ (rcons C (nth 0 cs (index x bs), x)) sz'; split=> //.
  apply: (perm_trans h2); rewrite /words map_rcons -/(words C) -cats1 -catA perm_cat2l perm_sym.
  exact: pop_perm.
by move=> w; rewrite h3 -cats1 -catA !coef_cat coef_cons coef_nil addr0 -(coef_pop w sz xb); congr (_ + _); rewrite addrC.
Qed.
(* metric.collect: the same sum; every symbol occurs once *)
Theorem C61_collect ts nc : all (fun t => size t.2 <= 1)%N ts ->
  uniq [seq t.2 | t <- collect ts nc] /\ forall w, coefficient (collect ts nc) w = coefficient ts w.
Proof.
move=> al; rewrite /collect; case E: linear_expand_lists => [cs bs].
have [sz ub cE _] := C61_linear_expand al E.
have [] := collect_loop nc [::] sz; case: foldl => [[cs' bs'] C] /= h1 h2 h3; split=> [|w]; last by rewrite -[LHS]/(coef _ _) h3 -cE.
have -> : [seq t.2 | t <- C ++ zip cs' bs'] = words C ++ bs' by rewrite map_cat -[X in _ ++ X]/(unzip2 (zip cs' bs')) unzip2_zip // h1.
by rewrite (perm_uniq h2).
Qed.
End Lists.

Section Props.
Variables (R : comUnitRingType) (two : (2%:R : R) \is a GRing.unit) (a : ga R).
Hypothesis wf : wf_ga a.
Notation n := (ga_n a).
Notation C := (cl two a).
Notation mvv := (mvv two a).
Implicit Types (X Y : mv R) (p q : py R) (w : word).

(* a function of the coefficients keeps the representation *)
Lemma map_rep (f : R -> R) X : mv_ok a X -> in_rep a (brep X) [seq (f t.1, t.2) | t <- linear_expand (obj X)].
Proof.
move=> oX; have vX : mv_valid a X by rewrite mv_validE.
rewrite (valid_expand vX); have := ok_rep oX; case: (obj X) => [|t l]; first by rewrite in_rep_const.
by rewrite /in_rep /blade_expr /base_expr /words -map_comp.
Qed.
Lemma map_ok (f : R -> R) X : mv_ok a X -> mv_ok a (mk_mv a [seq (f t.1, t.2) | t <- linear_expand (obj X)]) /\
  (bladed a X -> bladed a (mk_mv a [seq (f t.1, t.2) | t <- linear_expand (obj X)])).
Proof. by move=> oX; have [_ [<-] [? _ h]] := in_rep_mk (map_rep f oX) (erefl (value two a _)); split. Qed.
Lemma coef_map (f : R -> R) X w : mv_ok a X -> obj X <> [::] ->
  coef [seq (f t.1, t.2) | t <- linear_expand (obj X)] w = if coef (obj X) w == 0 then 0 else f (coef (obj X) w).
Proof.
move=> oX ne; have vX : mv_valid a X by rewrite mv_validE.
rewrite (valid_expand vX); have -> : (if obj X is [::] then [:: (0, [::])] else obj X) = obj X by case: (obj X) ne.
have /andP[/andP[u nz] _] := oX; case: (boolP (w \in words (obj X))) => [|h]; last first.
  by rewrite (coef_notin h) eqxx coef_notin // /words -map_comp.
case/mapP=> t tx ->; rewrite (coef_uniq u tx) (negbTE (allP nz t tx)).
rewrite -[t.2]/((f t.1, t.2).2) coef_uniq //; last exact: (map_f (fun t => (f t.1, t.2))).
by rewrite /words -map_comp.
Qed.
(* Mv.func: the function is applied to the coefficients of the blades that occur; it is applied to 0 only
   for the multivector 0 *)
Theorem C61_func (f : R -> R) X : mv_valid a X -> mv_valid a (mv_func a f X) /\
  forall w, coefficient (obj (mv_func a f X)) w =
    if obj X is [::] then (if w == [::] then f 0 else 0)
    else if coefficient (obj X) w == 0 then 0 else f (coefficient (obj X) w).
Proof.
move=> vX; have oX : mv_ok a X by rewrite -mv_validE.
rewrite mv_validE; split=> [|w]; first by case: (map_ok f oX).
rewrite -![coefficient _ _]/(coef _ _) /mv_func /= coef_canon; case E: (obj X) => [|t l].
  by rewrite /linear_expand /= coef_cons coef_nil addr0 eq_sym.
by rewrite -E; apply: coef_map => //; rewrite E.
Qed.
Lemma mk_eq x y : coef x =1 coef y -> perm_eq (obj (mk_mv a x)) (obj (mk_mv a y)).
Proof. by move=> h; exact/canon_perm. Qed.
Lemma eq_coef X Y : mv_ok a X -> mv_ok a Y -> coef (obj X) =1 coef (obj Y) -> run_eq a X Y = Some true.
Proof.
move=> oX oY h; rewrite /run_eq /= (mv_eqP two wf oX oY); congr Some; apply/eqP.
by rewrite /Mv_Proof.mvv -value_canon -[RHS]value_canon; rewrite /value /ev; apply: perm_big; exact/canon_perm.
Qed.
(* Mv.collect() and metric.collect only regroup *)
Notation swapped := (map (fun kv : word * R => (kv.2, kv.1))).
Lemma coef_dset d k v w : coef (swapped (dset d k v)) w =
  coef (swapped d) w + (if k == w then (if dget d k is Some c then v - c else v) else 0).
Proof.
elim: d => [|[k' c] d IH] /=; first by rewrite coef_cons coef_nil addr0 add0r.
case: (k' =P k) => [->|_]; rewrite /= !coef_cons /= ?IH ?addrA //.
by case: (k =P w) => [_|_]; rewrite ?addr0 ?add0r //; zmod.
Qed.
Lemma coef_dict ts w : coef (swapped (collect_dict ts)) w = coef ts w.
Proof.
rewrite /collect_dict -[RHS]add0r -(coef_nil R w) -[[::] in RHS]/(swapped [::]).
elim: ts [::] => [|t ts IH] d; first by rewrite coef_nil addr0.
rewrite [foldl _ _ _]/= IH coef_cons addrA; congr (_ + _).
case E: (dget d t.2) => [c|]; rewrite coef_dset E //.
by rewrite addrAC subrr add0r.
Qed.
Lemma words_dset d k v : {subset words (swapped (dset d k v)) <= k :: words (swapped d)}.
Proof.
elim: d => [|[k' c] d IH] //= w; case: eqP => [->|_] /=; first by rewrite !inE => ->; rewrite orbT.
by rewrite !inE => /orP[->|/IH]; rewrite ?orbT // inE => /orP[->|->]; rewrite ?orbT.
Qed.
Lemma words_dict ts : {subset words (swapped (collect_dict ts)) <= words ts}.
Proof.
rewrite /collect_dict; suff h d : {subset words (swapped (foldl (fun d (t : R * word) => if dget d t.2 is Some c then dset d t.2 (c + t.1)
    else dset d t.2 t.1) d ts)) <= words (swapped d) ++ words ts} by move=> w /h.
elim: ts d => [|t ts IH] d w /=; first by rewrite cats0.
move/IH; rewrite !mem_cat inE => /orP[|->]; last by rewrite !orbT.
by case: dget => [c|] /words_dset; rewrite inE => /orP[->|->]; rewrite ?orbT.
Qed.
Theorem C61_mv_collect X : mv_valid a X ->
  exists Z, [/\ mv_collect a false X = Some Z, mv_valid a Z & run_eq a Z X = Some true].
Proof.
move=> vX; have oX : mv_ok a X by rewrite -mv_validE.
have cE w : coef (linear_expand (obj X)) w = coef (obj X) w.
  rewrite (valid_expand vX); case: (obj X) => // ; by rewrite coef_cons coef_nil /= addr0 if_same.
have ir : in_rep a (brep X) (swapped (collect_dict (linear_expand (obj X)))).
  have := ok_rep oX; rewrite /in_rep /blade_expr /base_expr; have sub := @words_dict (linear_expand (obj X)).
  have := map_rep id oX; rewrite /in_rep /blade_expr /base_expr /words -map_comp -![map _ _]/(words _).
  by case: ifP => _ /allP h _; apply/allP => w /sub/h.
have [Z [E] [oZ _ _]] := in_rep_mk ir (erefl (value two a _)).
exists Z; split; [by rewrite /mv_collect /= E | by rewrite mv_validE |].
by apply: eq_coef => // w; rewrite -E /= coef_canon coef_dict cE.
Qed.
(* with deep=True it always raises *)
Theorem C61_collect_deep_refuted X : mv_valid a X -> mv_collect a true X = None.
Proof.
move=> vX; rewrite /mv_collect (valid_expand vX) /=; case: (obj X) => [|t l] //=.
rewrite /collect_dict /=; set h := fun _ => _.
suff nn d : ~~ nilp d -> ~~ nilp (foldl h d l) by case: ifP => //; rewrite nn.
by elim: l d => //= t' l IH d nd; apply: IH; rewrite /h; case: dget => [c|]; case: d nd => //= -[k v] d _; case: eqP.
Qed.
(* Mv.simplify(modes) applies the modes in turn *)
Theorem C61_simplify (modes : seq (R -> R)) X : mv_valid a X -> all (fun m : R -> R => m 0 == 0) modes ->
  mv_valid a (mv_simplify a modes X) /\
  forall w, coefficient (obj (mv_simplify a modes X)) w = foldl (fun c m => m c) (coefficient (obj X) w) modes.
Proof.
move=> vX m0; have f0 : foldl (fun (c : R) (m : R -> R) => m c) 0 modes = 0.
  by elim: modes m0 => //= m ms IH /andP[/eqP->].
have [vZ h] := C61_func (fun c => foldl (fun c m => m c) c modes) vX; split=> // w; rewrite [LHS]h.
case E: (obj X) => [|t l]; last by rewrite -E; case: eqP => [->|].
by rewrite f0 if_same -[coefficient _ _]/(coef _ _) coef_nil f0.
Qed.
(* modes that do not change the value of a scalar do not change the multivector *)
Theorem C61_simplify_value (modes : seq (R -> R)) X : mv_valid a X -> (forall m, List.In m modes -> forall c, m c = c) ->
  mv_valid a (mv_simplify a modes X) /\ run_eq a (mv_simplify a modes X) X = Some true.
Proof.
move=> vX hm; have fi c : foldl (fun (c : R) (m : R -> R) => m c) c modes = c.
  by elim: modes c hm => //= m ms IH c hm; rewrite (hm m) ?IH //; [move=> m' hm'; apply: hm; right | left].
have a0 : all (fun m : R -> R => m 0 == 0) modes.
  elim: modes hm {fi} => //= m ms IH hm; rewrite (hm m) ?eqxx /=; last by left.
  by apply: IH => m' h; apply: hm; right.
have [vZ h] := C61_simplify vX a0; split=> //; apply: eq_coef; rewrite -?mv_validE // => w.
by rewrite -[LHS]/(coefficient _ _) h fi.
Qed.

(* ---- Mv.subs ---- *)
Variable f : {rmorphism R -> R}.
Hypothesis fg : forall i j, f (gij a i j) = gij a i j.
Notation cm := (cmul (ga_metric two a)).
Notation Hc := (clifford_product_exists (ga_metric two a)).
Lemma fgeff i j : f (ga_metric two a i j) = ga_metric two a i j. Proof. exact: fg. Qed.
Notation mc := (@mapc R n f).
Lemma mc_mul (x y : mval R n) : mc (cm x y) = cm (mc x) (mc y). Proof. exact: (mapc_mul fgeff). Qed.
Lemma mc_word w : mc (den_word cm w) = den_word cm w.
Proof.
have h (l : seq (mval R n)) : (forall x, x \in l -> mc x = x) -> mc (prodl cm l) = prodl cm l.
  rewrite /prodl; elim: l => [|x l IH] hl /=; first exact: mapc_bl.
  by rewrite mc_mul hl ?mem_head // IH // => y yl; apply: hl; rewrite inE yl orbT.
apply: (h) => _ /mapP[[b l] _ ->]; rewrite /den_sym /=; case: b; last exact: mapc_bl.
by apply: h => _ /mapP[k _ ->]; rewrite /bvec; case: insub => [i|]; rewrite ?mapc_bl ?mapc0.
Qed.
Lemma sem_subs X : mv_ok a X -> den cm (obj (mv_subs a f X)) = mc (den cm (obj X)).
Proof.
move=> oX; have [oZ _] := map_ok f oX; have vX : mv_valid a X by rewrite mv_validE.
rewrite (den_ok two Hc oZ) /Mv_Proof.mvv /= value_canon -(denE two Hc); last first.
  have := map_rep f oX; rewrite /in_rep; case: ifP => [_|/norP[_ no]] h; first exact: blade_ok.
  by apply: sub_all h => w /=; rewrite /okw (negbTE no) => ->; rewrite orbT.
rewrite /den mapc_sum (valid_expand vX).
case E: (obj X) => [|t l]; first by rewrite /= big_cons big_nil /= big_nil rmorph0 scale0r addr0.
by rewrite -E big_map; apply: eq_bigr => u _; rewrite mapcZ mc_word.
Qed.
Notation rp := (replaced (mv_subs a f) f).
Lemma replaced_blade p : legal a p -> inblade a p -> inblade a (rp p).
Proof.
elim: p => //=.
- by move=> X; rewrite mv_validE => oX; case: (map_ok f oX).
- by move=> p IHp q IHq /andP[/IHp lp /IHq lq] /orP[/lp->|/lq->]; rewrite ?orbT.
- by move=> p IHp q IHq /andP[/IHp lp /IHq lq] /orP[/lp->|/lq->]; rewrite ?orbT.
- by move=> p _ q IHq /andP[_ /IHq].
- by move=> p _ q IHq /andP[_ /IHq].
- by move=> p IHp q IHq /andP[/IHp lp /IHq lq] /andP[/lp-> /lq->].
- by move=> p IHp q IHq /andP[/IHp lp /IHq lq] /andP[/lp-> /lq->].
Qed.
Lemma replaced_legal p : legal a p -> legal a (rp p).
Proof.
elim: p => //=; try by move=> p IHp q IHq /andP[/IHp-> /IHq->].
- by move=> X; rewrite !mv_validE => oX; case: (map_ok f oX).
- by move=> p IH r /andP[lp bp]; rewrite IH // replaced_blade.
- by move=> p IH /andP[lp bp]; rewrite IH // replaced_blade.
- by move=> p IH /andP[lp bp]; rewrite IH // replaced_blade.
- by move=> p IH /andP[lp bp]; rewrite IH // replaced_blade.
- by move=> p IH /andP[lp bp]; rewrite IH // replaced_blade.
Qed.
Lemma mc_num c : mc (num a c) = num a (f c).
Proof. by rewrite /num mapcZ mapc_bl. Qed.
Lemma mc_sel h (x y : mval R n) : mc (selprod cm h x y) = selprod cm h (mc x) (mc y).
Proof. exact: (mapc_sel fgeff). Qed.
Lemma mc_half : f 2%:R^-1 = 2%:R^-1. Proof. exact: (mapc_half f (ga_metric two a)). Qed.
Lemma sem_replaced p : legal a p -> sem cm (rp p) = mc (sem cm p).
Proof.
elim: p => //=.
- by move=> X; rewrite mv_validE => oX; exact: sem_subs.
- by move=> c _; rewrite mc_num.
- by move=> p IH /IH ->; rewrite mapcN.
- by move=> p IHp q IHq /andP[/IHp-> /IHq->]; rewrite mapcD.
- by move=> p IHp q IHq /andP[/IHp-> /IHq->]; rewrite mapcD mapcN.
- by move=> p IH c /IH->; rewrite mapcD mc_num.
- by move=> p IH c /IH->; rewrite mapcD mapcN mc_num.
- by move=> c p IH /IH->; rewrite mapcD mapcN mc_num.
- by move=> c p IH /IH->; rewrite mapcZ.
- by move=> p IHp q IHq /andP[/IHp-> /IHq->]; rewrite mc_mul.
- by move=> p IHp q IHq /andP[/IHp-> /IHq->]; rewrite mapc_ext.
- by move=> p IHp q IHq /andP[/IHp-> /IHq->]; rewrite mc_sel.
- by move=> p IHp q IHq /andP[/IHp-> /IHq->]; rewrite mc_sel.
- by move=> p IHp q IHq /andP[/IHp-> /IHq->]; rewrite mc_sel.
- move=> p IH k /IH->; elim: k => [|k IHk] /=; first by rewrite mc_num rmorph1.
  by rewrite IHk mc_mul.
- by move=> p IHp q IHq /andP[/IHp-> /IHq->]; rewrite mapcZ mc_half mapcD mapcN !mc_mul.
- by move=> p IHp q IHq /andP[/IHp-> /IHq->]; rewrite mapcZ mc_half mapcD !mc_mul.
- by move=> p IH r /andP[/IH-> _]; rewrite mapc_gpart.
- by move=> p IH /andP[/IH-> _]; rewrite mapc_even.
- by move=> p IH /andP[/IH-> _]; rewrite mapc_odd.
- by move=> p IH /andP[/IH-> _]; rewrite mapc_invol.
- by move=> p IH /IH->; rewrite mapc_rev.
- by move=> p IH /andP[/IH-> _]; rewrite mapc_rev mapc_invol.
Qed.
(* Mv.subs: substituting in the result of a program gives the result of the program on the substituted objects
   and scalars, if the substitution does not touch the metric *)
Theorem C61_subs p : legal a p ->
  exists Z, run a p = Some Z /\ run_eq a (Val (mv_subs a f Z)) (rp p) = Some true.
Proof.
move=> lp; have [Z E [oZ vZ _]] := run_yields two wf Hc lp; exists Z; split=> //.
apply: (run_law two wf Hc); [|exact: replaced_legal|].
  by rewrite /= mv_validE; case: (map_ok f oZ).
by rewrite sem_replaced //= sem_subs // (den_ok two Hc oZ) vZ.
Qed.
End Props.

Section Split.
Variables (R : comUnitRingType) (a : ga R).
(* Ga.split_multivector: the scalar part and the rest *)
Theorem C61_split (X : mv R) : let: (s, r) := split_multivector X in
  [/\ forall w, coefficient s w = if w == [::] then coefficient (obj X) [::] else 0,
      forall w, coefficient r w = if w == [::] then 0 else coefficient (obj X) w & perm_eq (s ++ r) (obj X)].
Proof.
rewrite /=; split; last exact/permPl/perm_filterC.
  move=> w; rewrite /coefficient big_filter_cond; case: (w =P [::]) => [->|ne].
    by apply: eq_bigl => t; case: t.2.
  by rewrite big_pred0 // => t; case: t.2 ne => //=; case: w.
move=> w; rewrite /coefficient big_filter_cond; case: (w =P [::]) => [->|ne].
  by rewrite big_pred0 // => t; case: t.2.
by apply: eq_bigl => t; case: t.2 ne => //=; case: w.
Qed.
End Split.

Section Metric.
Variables (R : comUnitRingType) (two : (2%:R : R) \is a GRing.unit) (a : ga R).
Hypothesis wf : wf_ga a.
Notation n := (ga_n a).
Notation mvv := (mvv two a).
(* the scalar part of a multivector in blade form after subs *)
Lemma subs_scalar (f : {rmorphism R -> R}) X : mv_ok a X -> bladed a X ->
  (mvv (mv_subs a f X) : mval R n) set0 = f ((mvv X : mval R n) set0).
Proof.
move=> oX bX; have [oZ bZ] := map_ok two f oX; have s0 : set_of n [::] = set0 by apply/setP => i; rewrite !inE.
have cE Y : mv_ok a Y -> bladed a Y -> (mvv Y : mval R n) set0 = coef (obj Y) [::].
  by move=> oY bY; rewrite -s0 -(coef_value two (bladed_blade oY bY)).
rewrite !cE //; last exact: bZ.
rewrite /mv_subs /= coef_canon; case E: (obj X) => [|t l].
  by rewrite /linear_expand /= coef_cons coef_nil addr0 /= rmorph0.
by rewrite -E (coef_map (a := a)) //; [case: eqP => [->|//]; rewrite rmorph0 | rewrite E].
Qed.
(* a substitution that changes the square of a basis vector does not commute with the product *)
Theorem C61_subs_metric_refuted (f : {rmorphism R -> R}) i : (i < n)%N -> f (gij a i i) != gij a i i ->
  let e := mv_basis_vec R i in
  exists Z, run a (e *. e) = Some Z /\
    run_eq a (Val (mv_subs a f Z)) (replaced (mv_subs a f) f (e *. e)) = Some false.
Proof.
move=> li ne e; have [oe be _ ve] := basis_vecP two li.
have [Z E [oZ vZ bZ]] := mv_mulP two wf oe oe; exists Z; split; first by rewrite /= E.
have es : mvv (mv_subs a f e) = mvv e.
  have ve' : mv_valid a e by rewrite mv_validE.
  by rewrite /Mv_Proof.mvv /mv_subs /= value_canon (valid_expand ve') /= rmorph1.
have [os bs] := map_ok two f oe; have [oZ' bZ'] := map_ok two f oZ; rewrite -/(mv_subs a f e) in os bs.
have [Y F [oY vY bY]] := mv_mulP two wf os os.
rewrite /run_eq /= F /= (mv_eqP two wf oZ' oY); congr Some; apply/negbTE/eqP => EE.
have {EE} : (mvv (mv_subs a f Z) : mval R n) set0 = (mvv Y : mval R n) set0 by rewrite -/(mv_subs a f Z) in EE; rewrite EE.
rewrite subs_scalar ?bZ //= ?be // vY es -vZ.
suff -> : (mvv Z : mval R n) set0 = gij a i i by move/eqP; rewrite (negbTE ne).
rewrite vZ ve; case: insubP => [k _ ki|]; last by rewrite li.
have := cgen_rel (ga_metric two a) k k; set u := cgen _ k * _ => h.
have {h} : u set0 *+ 2 = gij a i i *+ 2.
  have := congr1 (fun v : mval R n => v set0) h; rewrite !ffunE eqxx mulr1 -mulr2n => ->.
  by rewrite -ki; congr (_ *+ 2); exact: geffxx.
by move: (u set0 : R) (gij a i i) => x y; rewrite -[x *+ 2]mulr_natl -[y *+ 2]mulr_natl; exact: (mulrI two).
Qed.
End Metric.

(* ---- concrete cases ---- *)
Section Cases.
(* scalars: polynomials in x over the rationals; the substitution x -> x + 1 *)
Notation P := (poly_comUnitRingType rat_idomainType).
Definition shift : {rmorphism P -> P} := [rmorphism of comp_poly ('X + 1)].
Lemma P_two : (2%:R : P) \is a GRing.unit.
Proof. by have -> : (2%:R : P) = (2%:R : rat)%:P by [rewrite rmorph_nat]; rewrite poly_unitE size_polyC coefC. Qed.
(* a plane with the metric [[1, 0], [0, -1]], and one with the metric [[x]] *)
Definition cw_ga : ga P := @Ga P 2 [:: [:: 1; 0]; [:: 0; -1]].
Definition cw_bad : ga P := @Ga P 1 [:: [:: 'X]].
Definition cw_X : mv P := Mv [:: ('X, mk_blade [:: 0%N]); (1, mk_blade [:: 1%N])] true.
Lemma shiftX : shift 'X != 'X.
Proof. by rewrite /= comp_polyX -subr_eq0 addrC addrA addNr add0r oner_eq0. Qed.
Example C61_subs_ex : [/\ wf_ga cw_ga, forall i j, shift (gij cw_ga i j) = gij cw_ga i j,
  legal cw_ga (cw_X *. cw_X +. cw_X) & shift 'X != 'X].
Proof.
split=> //; last exact: shiftX.
  by move=> [|[|i]] [|[|j]] /=; rewrite /gij /= ?nth_nil ?rmorph0 ?rmorphN ?rmorph1.
by rewrite /= /mv_valid /= polyX_eq0 oner_eq0.
Qed.
Example C61_metric_ex : [/\ wf_ga cw_bad, (0 < ga_n cw_bad)%N & shift (gij cw_bad 0 0) != gij cw_bad 0 0].
Proof. by split=> //; exact: shiftX. Qed.
Example C61_func_ex : mv_valid mv_ga mv_X /\ mv_valid mv_ga mv_V.
Proof. by split; vm_compute. Qed.
Example C61_simplify_ex : obj (mv_simplify mv_ga [:: (fun c => c * 2%:R); (fun c => c * c)] mv_V)
  = [:: (4%:R, mk_blade [:: 0%N]); (4%:R, mk_blade [:: 1%N])].
Proof. by apply/eqP; vm_compute. Qed.
(* 2 e_1 + 3 e_0 - e_1 *)
Example C61_collect_ex :
  collect [:: (2%:R : rat, mk_blade [:: 1%N]); (3%:R, mk_blade [:: 0%N]); (-1, mk_blade [:: 1%N])] [:: mk_blade [:: 0%N]]
  == [:: (3%:R, mk_blade [:: 0%N]); (1, mk_blade [:: 1%N])].
Proof. by vm_compute. Qed.
End Cases.
Print Assumptions C61_linear_expand.
Print Assumptions C61_collect.
Print Assumptions C61_func.
Print Assumptions C61_mv_collect.
Print Assumptions C61_collect_deep_refuted.
Print Assumptions C61_simplify.
Print Assumptions C61_simplify_value.
Print Assumptions C61_subs.
Print Assumptions C61_split.
Print Assumptions C61_subs_metric_refuted.
