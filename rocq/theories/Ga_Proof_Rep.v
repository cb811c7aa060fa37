(* Ga_Proof_Rep.v -- the base product (basic_mul) and the conversion tables
   between the blade and base representations *)
From mathcomp Require Import all_ssreflect all_algebra.
From Verif Require Import NatTac AlgTactics Exterior Clifford Blades.
From Verif Require Import Spec_Index PyBase Ga_Model Ga_Proof_Tables Ga_Proof_Sort Ga_Proof_Sem Ga_Proof_Reduce Ga_Sem.
Set Implicit Arguments.
Unset Strict Implicit.
Unset Printing Implicit Defensive.
Import GRing.Theory.
Local Open Scope ring_scope.

(* expressions all of whose words are basis blades / basis products *)
Definition blade_expr (R : comUnitRingType) n (x : expr R) := all (mem (blades_flat n)) (words x).
Definition base_expr (R : comUnitRingType) n (x : expr R) := all (mem (bases_flat n)) (words x).

Lemma bladeP n w : reflect (exists2 I, wfI n I & w = mk_blade I) (w \in blades_flat n).
Proof.
rewrite blades_flatE; apply: (iffP mapP) => -[I wI ->]; exists I => //.
  by rewrite -mem_indexes_flat.
by rewrite mem_indexes_flat.
Qed.
Lemma baseP n w : reflect (exists2 I, wfI n I & w = mk_base I) (w \in bases_flat n).
Proof.
apply: (iffP mapP) => -[I wI ->]; exists I => //; first by rewrite -mem_indexes_flat.
by rewrite mem_indexes_flat.
Qed.
Lemma mk_blade_in n I : wfI n I -> mk_blade I \in blades_flat n.
Proof. by move=> wI; apply/bladeP; exists I. Qed.
Lemma mk_base_in n I : wfI n I -> mk_base I \in bases_flat n.
Proof. by move=> wI; apply/baseP; exists I. Qed.
Lemma blade_in_inv n I : mk_blade I \in blades_flat n -> wfI n I.
Proof. by case/bladeP=> J wJ /mk_blade_inj ->. Qed.
Lemma base_in_inv n I : mk_base I \in bases_flat n -> wfI n I.
Proof. by case/baseP=> J wJ /mk_base_inj ->. Qed.
Lemma mk_blade_size I : (size (mk_blade I) <= 1)%N. Proof. by case: I. Qed.
Lemma mk_base_size I : (size (mk_base I) <= 1)%N. Proof. by case: I => [|? []]. Qed.
Lemma blade_base_small I : (size I <= 1)%N -> mk_blade I = mk_base I.
Proof. by case: I => [|? []]. Qed.
Lemma blade_neq_base I J : (1 < size I)%N -> mk_blade I != mk_base J.
Proof. by case: I => [|? [|? ?]] //= _; apply/eqP; case: J => [|? [|? ?]]. Qed.

Section Words.
Variable R : comUnitRingType.
Implicit Types (x y : expr R) (P : pred word).
Lemma all_words_canon P x : all P (words x) -> all P (words (canon x)).
Proof. by move/allP=> h; apply/allP => w /words_canon /h. Qed.
Lemma all_words_flatten P (l : seq (expr R)) :
  all P (words (flatten l)) = all (fun x => all P (words x)) l.
Proof. by elim: l => //= x l IH; rewrite words_cat all_cat IH. Qed.
Lemma all_words_nc_subs P x d :
  (forall t, t \in x -> t.2 != [::] ->
     if dget d t.2 is Some v then all P (words v) else P t.2) ->
  ([::] \in words x -> P [::]) ->
  all P (words (nc_subs x d)).
Proof.
move=> h h0; apply: all_words_canon; rewrite all_words_flatten all_map.
apply/allP => t tx /=; case E: t.2 => [|s w] /=.
  by rewrite E andbT; apply: h0; rewrite -E; apply: map_f.
have := h t tx; rewrite E => /(_ isT); case: dget => [v|]; first by rewrite words_escale.
by rewrite /= E andbT.
Qed.
End Words.

Lemma omapM_some (S : eqType) (T : Type) (f : S -> option T) (h : S -> T) l :
  (forall x, x \in l -> f x = Some (h x)) -> omapM f l = Some (map h l).
Proof.
elim: l => //= x l IH H; rewrite H ?mem_head //=.
by rewrite IH // => y hy; apply: H; rewrite inE hy orbT.
Qed.
Lemma omapM_total (S : eqType) (T : Type) (f : S -> option T) l :
  (forall x, x \in l -> isSome (f x)) -> isSome (omapM f l).
Proof.
elim: l => //= x l IH H; have := H x (mem_head _ _); case: (f x) => //= y _.
have: isSome (omapM f l) by apply: IH => z zl; apply: H; rewrite inE zl orbT.
by case: (omapM f l).
Qed.
Lemma omapM_in (S : eqType) (T : Type) (f : S -> option T) l r y :
  omapM f l = Some r -> List.In y r -> exists2 x, x \in l & f x = Some y.
Proof.
elim: l r => [|x l IH] r /=; first by case=> <-.
case E: (f x) => [z|] //=; case: (omapM f l) IH => [r'|] //= IH [<-] [<-|/(IH _ erefl) [u ul fu]].
  by exists x; rewrite ?mem_head.
by exists u; rewrite // inE ul orbT.
Qed.
Lemma omapM_map (S : Type) (T U : Type) (f : S -> option T) (p : T -> U) (q : S -> U) l r :
  (forall x y, f x = Some y -> p y = q x) -> omapM f l = Some r -> map p r = map q l.
Proof.
move=> H; elim: l r => [|x l IH] r /=; first by case=> <-.
case E: (f x) => [z|] //=; case: (omapM f l) IH => [r'|] //= IH [<-] /=.
by rewrite (H _ _ E) (IH _ erefl).
Qed.

Lemma indexes_flat_pairwise n : pairwise (fun I J : seq nat => size I <= size J)%N (indexes_flat n).
Proof.
rewrite /indexes_flat /indexes.
have h k I : I \in combinations (iota 0 n) k -> size I = k.
  by rewrite mem_comb_iota => /andP[_ /eqP].
have: sorted leq (iota 0 n.+1) by exact: iota_sorted.
elim: (iota 0 n.+1) => //= k L IH; rewrite path_sortedE; last exact: leq_trans.
case/andP=> /allP kL /IH pL; rewrite pairwise_cat pL andbT; apply/andP; split.
  apply/allrelP => I J /h -> /flattenP [_ /mapP [k' k'L ->]] /h ->; exact: kL.
have: forall I, I \in combinations (iota 0 n) k -> size I = k by exact: h.
elim: (combinations _ _) => //= I l IHl hl; rewrite IHl ?andbT.
  by apply/allP => J Jl; rewrite !hl ?mem_head // inE Jl orbT.
by move=> J Jl; apply: hl; rewrite inE Jl orbT.
Qed.
Lemma indexes_flat_order n pre I post J : indexes_flat n = pre ++ I :: post ->
  wfI n J -> (size J < size I)%N -> J \in pre.
Proof.
move=> E wJ lt; have := indexes_flat_pairwise n; rewrite E pairwise_cat /=.
case/and3P=> _ _ /andP[/allP h _]; move: wJ; rewrite -mem_indexes_flat E mem_cat inE.
case/or3P=> // [/eqP EJ|/h]; last by rewrite leqNgt lt.
by rewrite EJ ltnn in lt.
Qed.

Definition canonical (R : comUnitRingType) (v : expr R) : bool :=
  uniq (words v) && all (fun t : R * word => t.1 != 0) v.
Lemma canonical_canon (R : comUnitRingType) (x : expr R) : canonical (canon x).
Proof. by rewrite /canonical uniq_canon; apply/allP => t /canon_neq0. Qed.

Lemma foldl_prefix_inv (T S : Type) (P : seq T -> S -> Prop) (step : S -> T -> S) l s0 :
  P [::] s0 ->
  (forall pre x post s, l = pre ++ x :: post -> P pre s -> P (rcons pre x) (step s x)) ->
  P l (foldl step s0 l).
Proof.
move=> h0 hs; suff h : forall post pre s, l = pre ++ post -> P pre s -> P l (foldl step s post).
  by apply: (h l [::]).
elim=> [|x post IH] pre s E /=; first by rewrite E cats0.
by move=> h; apply: (IH (rcons pre x)); rewrite ?cat_rcons //; apply: hs E h.
Qed.

Section Rep.
Variables (R : comUnitRingType) (two : (2%:R : R) \is a GRing.unit) (a : ga R).
Hypothesis wf : wf_ga a.
Notation n := (ga_n a).
Implicit Types (x y v : expr R) (w : word) (I J : seq nat).

(* "same value in every algebra satisfying the metric relations" *)
Definition ev_eqw v w := forall (A : algType R) (e : nat -> A),
  (forall i j, e i * e j + e j * e i = (geff a i j *+ 2)%:A) -> ev e v = ev_word e w.

Lemma of_basis_basesP I J : wfI n I -> wfI n J ->
  exists2 v, of_basis_bases a (mk_base I) (mk_base J) = Some v &
    base_expr n v /\ ev_eqw v (mk_base I ++ mk_base J).
Proof.
move=> wI wJ; rewrite /of_basis_bases !s2i_get //=.
have [r Er [ur sr wr]] := reduce_basis_total a (I ++ J); rewrite Er /=.
have al : all (fun i => i < n)%N (I ++ J).
  by rewrite all_cat; have [/andP[_ ->] /andP[_ ->]] := (wI, wJ).
have {}wr := wr _ al.
rewrite (@omapM_some _ _ _ (fun t : R * seq nat => (t.1, mk_base t.2))); last first.
  by move=> t /(allP wr) wt; rewrite i2s_get.
exists (canon [seq (t.1, mk_base t.2) | t <- r]) => //; split.
  apply: all_words_canon; rewrite /words -map_comp all_map; apply/allP => t /(allP wr) wt.
  exact: mk_base_in.
move=> A e rel; rewrite ev_canon ev_word_cat !ev_mk_base // -base_of_cat.
rewrite -(reduce_basis_val two rel Er) /ev big_map; apply: eq_bigr => t _ /=.
by rewrite ev_mk_base.
Qed.

Lemma basic_tableP : exists2 d, basic_table a = Some d &
  (forall I J, wfI n I -> wfI n J -> isSome (dget d (mk_base I ++ mk_base J))) /\
  (forall w v, dget d w = Some v -> base_expr n v /\ ev_eqw v w).
Proof.
rewrite /basic_table; set f := fun p : word * word => _; set l := [seq _ | _ <- _, _ <- _].
have memL I J : wfI n I -> wfI n J -> (mk_base I, mk_base J) \in l.
  by move=> wI wJ; apply/allpairsP; exists (mk_base I, mk_base J); rewrite !mk_base_in.
have memL' p : p \in l -> exists I J, [/\ wfI n I, wfI n J & p = (mk_base I, mk_base J)].
  by case/allpairsP=> -[b1 b2] [/= /baseP [I wI ->] /baseP [J wJ ->] ->]; exists I, J.
have tot : isSome (omapM f l).
  apply: omapM_total => p /memL' [I [J [wI wJ ->]]]; rewrite /f /=.
  by have [v -> _] := of_basis_basesP wI wJ.
case E: (omapM f l) tot => [items|] //= _; exists (dict_of items) => //; split.
  move=> I J wI wJ; rewrite dict_of_dom.
  rewrite (omapM_map (q := fun p : word * word => p.1 ++ p.2) _ E); last first.
    by move=> p y; rewrite /f; case: of_basis_bases => //= v [<-].
  by apply/mapP; exists (mk_base I, mk_base J); rewrite ?memL.
move=> w v D; have h := dict_of_in (dget_in D); have [p pl fp] := omapM_in E h.
move: fp; have [I [J [wI wJ ->]]] := memL' _ pl.
by rewrite /f /=; have [v' -> h'] := of_basis_basesP wI wJ => -[<- <-].
Qed.

Lemma base_expr_emul x y : base_expr n x -> base_expr n y ->
  forall w, w \in words (emul x y) ->
  exists I J, [/\ wfI n I, wfI n J & w = mk_base I ++ mk_base J].
Proof.
move=> /allP hx /allP hy w /mapP [t]; rewrite /emul => /flattenP [_ /mapP [u ux ->]].
case/mapP=> v vy -> ->.
have /baseP [I wI EI] := hx _ (map_f snd ux); have /baseP [J wJ EJ] := hy _ (map_f snd vy).
by exists I, J; rewrite EI EJ.
Qed.

Lemma basic_mulP x y : base_expr n x -> base_expr n y ->
  exists2 z, basic_mul a x y = Some z & base_expr n z /\
  (forall (A : algType R) (e : nat -> A),
    (forall i j, e i * e j + e j * e i = (geff a i j *+ 2)%:A) -> ev e z = ev e x * ev e y).
Proof.
move=> bx by_; rewrite /basic_mul; have [d -> [dom snd_]] := basic_tableP.
exists (canon (nc_subs (canon (emul x y)) d)) => //; split.
  apply/all_words_canon/all_words_nc_subs.
    move=> t tx _; have tw : t.2 \in words (emul x y) by apply/words_canon/map_f.
    have [I [J [wI wJ Et]]] := base_expr_emul bx by_ tw.
    have := dom I J wI wJ; rewrite -Et; case D: dget => [v|] // _.
    by have [] := snd_ _ _ D.
  by move=> _; exact: (@mk_base_in n [::]).
move=> A e rel; rewrite ev_canon ev_nc_subs ?ev_canon ?ev_emul // => w v /snd_ [_ ->] //.
Qed.

Definition bed_ok (pre : seq (seq nat)) (d : seq (word * expr R)) :=
  (forall I, I \in pre -> isSome (dget d (mk_blade I))) /\
  (forall w v, dget d w = Some v -> exists I, [/\ I \in pre, w = mk_blade I, base_expr n v,
     canonical v & ev_eqw v w]).

Lemma bed_stepP pre I post d : indexes_flat n = pre ++ I :: post -> bed_ok pre d ->
  exists2 d', bed_step a (Some d) I = Some d' & bed_ok (rcons pre I) d'.
Proof.
move=> Efl [dom val].
have wI : wfI n I by rewrite -mem_indexes_flat Efl mem_cat mem_head orbT.
have fin v : base_expr n v -> canonical v -> ev_eqw v (mk_blade I) ->
    bed_ok (rcons pre I) (dset d (mk_blade I) v).
  move=> bv cv ev_; split=> [J|w u].
    rewrite mem_rcons inE dget_dset; case: (J =P I) => [->|_ /= /dom]; first by rewrite eqxx.
    by case: ifP.
  rewrite dget_dset; case: eqP => [<- [<-]|_ /val [J [Jp -> h1 h2 h3]]].
    by exists I; rewrite mem_rcons mem_head.
  by exists J; rewrite mem_rcons inE Jp orbT.
rewrite /bed_step /=; case: ifP => sI.
  eexists; [reflexivity|apply: fin].
  - by rewrite /base_expr /= andbT blade_base_small // mk_base_in.
  - by rewrite /canonical /= oner_neq0.
  - by move=> A e rel; rewrite ev_cons ev_nil addr0 scale1r.
case: I wI sI Efl fin => [|i J] //= wI sI Efl fin; rewrite take0 drop0.
have wi : wfI n [:: i].
  by move: wI; rewrite /wfI /= => /andP[_ /andP[-> _]].
have wJ : wfI n J.
  by move: wI; rewrite /wfI /= => /andP[/path_sorted -> /andP[_ ->]].
rewrite !i2b_get //=; have Jpre : J \in pre by apply: (indexes_flat_order Efl).
have := dom J Jpre; case D: dget => [vJ|] //= _.
have [J' [_ _ bJ cJ eJ]] := val _ _ D.
have bi : base_expr n [:: (1 : R, [:: (false, [:: i])])].
  by rewrite /base_expr /= andbT; apply: (@mk_base_in n [:: i]).
have [p -> [bp ep]] := basic_mulP bi bJ; have [q -> [bq eq]] := basic_mulP bJ bi.
rewrite /=; eexists; [reflexivity|apply: fin].
- by apply: all_words_canon; rewrite words_escale words_cat words_escale all_cat; apply/andP.
- exact: canonical_canon.
move=> A e rel; rewrite ev_canon ev_escale ev_cat ev_escale (ep _ _ rel) (eq _ _ rel).
rewrite (eJ _ _ rel) ev_cons ev_nil addr0 scale1r -!/(mk_blade _) ev_mk_blade.
rewrite -[[:: (false, [:: i])]]/(mk_blade [:: i]) !ev_mk_blade blade1 //=.
by rewrite exprS mulN1r opprK -[[:: (false, i :: J)]]/(mk_blade (i :: J)) ev_mk_blade.
Qed.

Lemma blade_expansion_dictP : exists2 d, blade_expansion_dict a = Some d &
  bed_ok (indexes_flat n) d.
Proof.
rewrite /blade_expansion_dict.
pose P pre od := exists2 d, od = Some d & bed_ok pre d.
apply: (@foldl_prefix_inv _ _ P) => [|pre I post s E [d -> ok]].
  by exists [::] => //; split.
exact: bed_stepP E ok.
Qed.
End Rep.
