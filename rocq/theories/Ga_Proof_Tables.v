(* Ga_Proof_Tables.v -- proofs about the basis enumeration and dictionaries *)
From mathcomp Require Import all_ssreflect all_algebra.
From Verif Require Import Spec_Index PyBase Ga_Model.
Set Implicit Arguments.
Unset Strict Implicit.
Unset Printing Implicit Defensive.

Section Dict.
Variables (K : eqType) (V : Type).
Implicit Types (d items : seq (K * V)) (k : K) (v : V).

Lemma dget_dset d k v k' : dget (dset d k v) k' = if k == k' then Some v else dget d k'.
Proof.
elim: d => [|[k1 v1] d IH] /=; first by case: eqP.
case: (k1 =P k) => [->|n1] /=; first by case: (k =P k').
by rewrite IH; case: (k1 =P k') => [<-|//]; case: (k =P k1) => // /esym/n1.
Qed.

Lemma dkeys_dset d k v :
  [seq p.1 | p <- dset d k v] =
  if k \in [seq p.1 | p <- d] then [seq p.1 | p <- d] else rcons [seq p.1 | p <- d] k.
Proof.
elim: d => [|[k1 v1] d IH] //=; rewrite inE eq_sym.
case: (k =P k1) => [->|_] //=.
by rewrite IH /=; case: ifP.
Qed.

Lemma dget_in d k v : dget d k = Some v -> List.In (k, v) d.
Proof.
elim: d => [|[k1 v1] d IH] //=; case: eqP => [-> [->]|_ /IH]; [by left|by right].
Qed.

Lemma dget_mem d k : (k \in [seq p.1 | p <- d]) = isSome (dget d k).
Proof.
elim: d => [|[k1 v1] d IH] //=; rewrite inE eq_sym.
by case: eqP => //= _.
Qed.

Lemma dget_cat d d' k : dget (d ++ d') k = if dget d k is Some v then Some v else dget d' k.
Proof. by elim: d => [|[k1 v1] d IH] //=; case: eqP. Qed.

Lemma dset_new d k v : k \notin [seq p.1 | p <- d] -> dset d k v = d ++ [:: (k, v)].
Proof.
elim: d => [|[k1 v1] d IH] //=; rewrite inE negb_or eq_sym => /andP[/negbTE -> /IH ->] //.
Qed.

Lemma dict_of_uniq_aux d items : uniq [seq p.1 | p <- d ++ items] ->
  foldl (fun d0 kv => dset d0 kv.1 kv.2) d items = d ++ items.
Proof.
elim: items d => [|[k v] items IH] d /=; first by rewrite cats0.
move=> u; rewrite dset_new.
  by rewrite IH -catA.
move: u; rewrite map_cat cat_uniq /= negb_or -!andbA.
by case/and4P=> _ ->.
Qed.

Lemma dict_of_uniq items : uniq [seq p.1 | p <- items] -> dict_of items = items.
Proof. by move=> u; rewrite /dict_of dict_of_uniq_aux. Qed.

Lemma dict_of_in items k v : List.In (k, v) (dict_of items) -> List.In (k, v) items.
Proof.
rewrite /dict_of.
have: forall d, List.In (k, v) (foldl (fun d0 kv => dset d0 kv.1 kv.2) d items) ->
   List.In (k, v) d \/ List.In (k, v) items.
  elim: items => [|[k1 v1] items IH] d /=; first by left.
  move/IH => [|]; last by right; right.
  move=> h; suff: List.In (k, v) d \/ (k, v) = (k1, v1) by case=> [?|->]; [left|right; left].
  elim: d h => [|[k2 v2] d IHd] /=; first by case=> // ->; right.
  case: eqP => [->|_] /=.
    by case=> [->|?]; [right|left; right].
  by case=> [->|/IHd [?|?]]; [left; left|left; right|right].
by move=> h /h [].
Qed.

Lemma dict_of_dom items k : isSome (dget (dict_of items) k) = (k \in [seq p.1 | p <- items]).
Proof.
rewrite /dict_of.
suff: forall d, isSome (dget (foldl (fun d0 kv => dset d0 kv.1 kv.2) d items) k) =
   isSome (dget d k) || (k \in [seq p.1 | p <- items]).
  by move=> ->.
elim: items => [|[k1 v1] items IH] d /=; first by rewrite orbF.
by rewrite IH dget_dset inE eq_sym; case: eqP => _ //=; rewrite orbT.
Qed.

End Dict.

Lemma dget_map_eq (T K : eqType) (V : Type) (f : T -> K) (h : T -> V) (l : seq T) x :
  injective f -> x \in l -> dget [seq (f y, h y) | y <- l] (f x) = Some (h x).
Proof.
move=> inj; elim: l => //= y l IH; rewrite inE eq_sym (inj_eq inj).
by case: eqP => [-> //|_] /=.
Qed.

Lemma dget_map_none (T K : eqType) (V : Type) (f : T -> K) (h : T -> V) (l : seq T) k :
  k \notin map f l -> dget [seq (f y, h y) | y <- l] k = None.
Proof.
by elim: l => //= y l IH; rewrite inE negb_or eq_sym => /andP[/negbTE -> /IH].
Qed.

Lemma dget_map_some (T K : eqType) (V : Type) (f : T -> K) (h : T -> V) (l : seq T) k v :
  dget [seq (f y, h y) | y <- l] k = Some v -> exists2 x, x \in l & k = f x /\ v = h x.
Proof.
elim: l => //= y l IH; case: eqP => [<- [<-]|_ /IH [x xl e]].
  by exists y; rewrite ?inE ?eqxx.
by exists x => //; rewrite inE xl orbT.
Qed.

(* ------------------------------------------------------------------ *)
Section Comb.
Variable T : eqType.
Implicit Types (l c : seq T).

Lemma comb0 l : combinations l 0 = [:: [::]].
Proof. by case: l. Qed.

Lemma mem_comb l k c : (c \in combinations l k) = subseq c l && (size c == k) \/ ~~ uniq l.
Proof.
have [u|] := boolP (uniq l); last by right.
left; elim: l k c u => [|x l IH] [|k] c /=.
- by move=> _; rewrite inE; case: c.
- by move=> _; case: c.
- by move=> _; rewrite inE; case: c => //= y c; case: ifP => _; rewrite andbF.
case/andP=> xl u; rewrite mem_cat IH //.
case: c => [|y c]; first by rewrite /= !andbF orbF; apply/mapP => -[].
have [->|ne] := y =P x.
  rewrite /= mem_map; last by move=> ? ? [].
  rewrite IH // eqSS; case: (subseq c l && _) => //=.
  apply/andP => -[s _]; move: xl; rewrite (mem_subseq s) ?inE ?eqxx //.
rewrite orb_idl //; case/mapP => c' _ [e]; case: ne; exact: e.
Qed.

Lemma comb_uniq l k : uniq l -> uniq (combinations l k).
Proof.
elim: l k => [|x l IH] [|k] //= /andP[xl u].
rewrite cat_uniq map_inj_uniq ?IH //; last by move=> ? ? [].
rewrite andbT; apply/hasPn => c; case: (mem_comb l k.+1 c); last by rewrite u.
move=> -> /andP[s _]; apply/mapP => -[c' _ e]; move: xl.
by rewrite (mem_subseq s) // e inE eqxx.
Qed.

Lemma comb_size l k : size (combinations l k) = 'C(size l, k).
Proof.
elim: l k => [|x l IH] [|k] //=.
by rewrite size_cat size_map !IH binS addnC.
Qed.
End Comb.

Lemma mem_comb_iota n k I :
  (I \in combinations (iota 0 n) k) = wfI n I && (size I == k).
Proof.
case: (mem_comb (iota 0 n) k I) => [->|]; last by rewrite iota_uniq.
congr (_ && _); apply/idP/idP.
  move=> s; apply/andP; split.
    by apply: (subseq_sorted ltn_trans s); exact: iota_ltn_sorted.
  by apply/allP => i /(mem_subseq s); rewrite mem_iota.
case/andP=> so /allP al; apply/subseqP.
exists (map (fun i => i \in I) (iota 0 n)); first by rewrite size_map.
rewrite -filter_mask; apply: (irr_sorted_eq ltn_trans ltnn so).
  by apply: sorted_filter; [exact: ltn_trans | exact: iota_ltn_sorted].
by move=> i; rewrite mem_filter mem_iota; case iI: (i \in I) => //=; rewrite al.
Qed.

(* C01: lexicographic order *)
Lemma comb_lex l k : sorted ltn l -> pairwise lexlt (combinations l k).
Proof.
elim: l k => [|x l IH] [|k] //= xl.
rewrite pairwise_cat; apply/and3P; split; last exact: IH (path_sorted xl).
- apply/allrelP => _ c /mapP [c' _ ->].
  have u : uniq l by apply: (sorted_uniq ltn_trans ltnn); exact: path_sorted xl.
  case: (mem_comb l k.+1 c); last by rewrite u.
  move=> -> /andP[s /eqP sz]; case: c s sz => // y c s _ /=.
  suff -> : x < y by [].
  move: xl; rewrite path_sortedE; last exact: ltn_trans.
  by case/andP=> /allP al _; apply: al; apply: (mem_subseq s); rewrite inE eqxx.
- rewrite pairwise_map; apply: sub_pairwise (IH k (path_sorted xl)) => a b /=.
  by rewrite eqxx => ->; rewrite orbT.
Qed.

Lemma wfI_size n I : wfI n I -> size I <= n.
Proof.
move=> w; have: I \in combinations (iota 0 n) (size I) by rewrite mem_comb_iota w eqxx.
case: (mem_comb (iota 0 n) (size I) I) => [->|]; last by rewrite iota_uniq.
by case/andP=> /size_subseq; rewrite size_iota.
Qed.

Lemma mem_indexes_flat n I : (I \in indexes_flat n) = wfI n I.
Proof.
apply/flattenP/idP => [[l /mapP [k _ ->]]|w].
  by rewrite mem_comb_iota => /andP[].
exists (combinations (iota 0 n) (size I)); last by rewrite mem_comb_iota w /=.
by apply: map_f; rewrite mem_iota /= add0n ltnS wfI_size.
Qed.

Lemma flatten_uniq_key (T : eqType) (key : T -> nat) (L : seq nat) (f : nat -> seq T) :
  uniq L -> (forall k, k \in L -> uniq (f k)) ->
  (forall k x, k \in L -> x \in f k -> key x = k) -> uniq (flatten [seq f k | k <- L]).
Proof.
elim: L => //= k L IH /andP[kL u] hu hk; rewrite cat_uniq hu ?inE ?eqxx //= IH //.
- rewrite andbT; apply/hasPn => x /flattenP [l /mapP [k' k'L ->] xl].
  apply/negP => xk; move: kL; rewrite -(hk k x) ?inE ?eqxx // (hk k' x) ?k'L //.
  by rewrite inE k'L orbT.
- by move=> k' k'L; apply: hu; rewrite inE k'L orbT.
- by move=> k' x k'L; apply: hk; rewrite inE k'L orbT.
Qed.

Lemma indexes_flat_uniq n : uniq (indexes_flat n).
Proof.
apply: (@flatten_uniq_key _ size); first exact: iota_uniq.
- by move=> k _; apply: comb_uniq; exact: iota_uniq.
- by move=> k I _; rewrite mem_comb_iota => /andP[_ /eqP].
Qed.

Lemma indexes_nth n k : k <= n -> nth [::] (indexes n) k = combinations (iota 0 n) k.
Proof. by move=> kn; rewrite (nth_map 0) ?size_iota ?ltnS // nth_iota ?ltnS. Qed.

Lemma indexes_flat_size n : size (indexes_flat n) = 2 ^ n.
Proof.
rewrite size_flatten /shape -map_comp sumnE big_map.
rewrite (eq_bigr (fun k => 'C(n, k) * (1 ^ (n - k) * 1 ^ k))); last first.
  by move=> k _ /=; rewrite comb_size size_iota !exp1n !muln1.
rewrite -[in LHS](subn0 n.+1) -/(index_iota 0 n.+1) big_mkord.
by have := expnDn 1 1 n => <-.
Qed.

Lemma mk_blade_inj : injective mk_blade.
Proof. by case=> [|x a] [|y b] //= [-> ->]. Qed.
Lemma mk_base_inj : injective mk_base.
Proof. by case=> [|x [|x2 a]] [|y [|y2 b]] //= [] // -> // -> ->. Qed.

Lemma blades_flatE n : blades_flat n = [seq mk_blade I | I <- indexes_flat n].
Proof. by rewrite /blades_flat /blades /indexes_flat map_flatten. Qed.

Lemma zip_map2 (S T U : Type) (f : S -> T) (h : S -> U) l :
  zip (map f l) (map h l) = [seq (f x, h x) | x <- l].
Proof. by elim: l => //= x l ->. Qed.

Lemma indexes_to_bladesE n :
  indexes_to_blades n = [seq (I, mk_blade I) | I <- indexes_flat n].
Proof.
rewrite /indexes_to_blades blades_flatE -[in zip _](map_id (indexes_flat n)) map_id.
rewrite -{1}[indexes_flat n]map_id zip_map2 dict_of_uniq //.
by rewrite -map_comp map_id indexes_flat_uniq.
Qed.
Lemma blades_to_indexesE n :
  blades_to_indexes n = [seq (mk_blade I, I) | I <- indexes_flat n].
Proof.
rewrite /blades_to_indexes blades_flatE.
rewrite -{1}[indexes_flat n]map_id zip_map2 -map_comp dict_of_uniq //.
by rewrite -map_comp map_inj_uniq ?indexes_flat_uniq //; exact: mk_blade_inj.
Qed.
Lemma indexes_to_basesE n :
  indexes_to_bases n = [seq (I, mk_base I) | I <- indexes_flat n].
Proof.
rewrite /indexes_to_bases /bases_flat.
rewrite -{1}[indexes_flat n]map_id zip_map2 dict_of_uniq //.
by rewrite -map_comp map_id indexes_flat_uniq.
Qed.
Lemma bases_to_indexesE n :
  bases_to_indexes n = [seq (mk_base I, I) | I <- indexes_flat n].
Proof.
rewrite /bases_to_indexes /bases_flat.
rewrite -{1}[indexes_flat n]map_id zip_map2 -map_comp dict_of_uniq //.
by rewrite -map_comp map_inj_uniq ?indexes_flat_uniq //; exact: mk_base_inj.
Qed.

Lemma blades_to_gradesE n :
  blades_to_grades n = [seq (mk_blade I, size I) | I <- indexes_flat n].
Proof.
have E : flatten [seq [seq (b, k) | b <- nth [::] (blades n) k] | k <- iota 0 (size (blades n))]
   = [seq (mk_blade I, size I) | I <- indexes_flat n].
  rewrite /indexes_flat map_flatten; congr flatten.
  rewrite /blades !size_map size_iota [in RHS]/indexes -map_comp.
  apply/eq_in_map => k; rewrite mem_iota /= add0n ltnS => kn.
  rewrite -[X in nth _ X]/(blades n) (nth_map [::]) ?size_map ?size_iota ?ltnS // indexes_nth // -map_comp.
  by apply/eq_in_map => I; rewrite mem_comb_iota /= => /andP[_ /eqP ->].
rewrite /blades_to_grades E dict_of_uniq //.
by rewrite -map_comp map_inj_uniq ?indexes_flat_uniq //; exact: mk_blade_inj.
Qed.

Lemma i2b_get n I : wfI n I -> dget (indexes_to_blades n) I = Some (mk_blade I).
Proof.
by move=> w; rewrite indexes_to_bladesE (@dget_map_eq _ _ _ id) // mem_indexes_flat.
Qed.
Lemma b2i_get n I : wfI n I -> dget (blades_to_indexes n) (mk_blade I) = Some I.
Proof.
move=> w; rewrite blades_to_indexesE dget_map_eq ?mem_indexes_flat //; exact: mk_blade_inj.
Qed.
Lemma i2s_get n I : wfI n I -> dget (indexes_to_bases n) I = Some (mk_base I).
Proof.
by move=> w; rewrite indexes_to_basesE (@dget_map_eq _ _ _ id) // mem_indexes_flat.
Qed.
Lemma s2i_get n I : wfI n I -> dget (bases_to_indexes n) (mk_base I) = Some I.
Proof.
move=> w; rewrite bases_to_indexesE dget_map_eq ?mem_indexes_flat //; exact: mk_base_inj.
Qed.
Lemma b2g_get n I : wfI n I -> dget (blades_to_grades n) (mk_blade I) = Some (size I).
Proof.
move=> w; rewrite blades_to_gradesE dget_map_eq ?mem_indexes_flat //; exact: mk_blade_inj.
Qed.
Lemma b2g_some n w k : dget (blades_to_grades n) w = Some k ->
  exists I, [/\ wfI n I, w = mk_blade I & k = size I].
Proof.
rewrite blades_to_gradesE => /(@dget_map_some _ _ _ mk_blade size) [I]; rewrite mem_indexes_flat => h [-> ->].
by exists I.
Qed.
Lemma b2i_some n w I : dget (blades_to_indexes n) w = Some I ->
  wfI n I /\ w = mk_blade I.
Proof.
by rewrite blades_to_indexesE => /(@dget_map_some _ _ _ mk_blade id) [J]; rewrite mem_indexes_flat => h [-> ->].
Qed.

Lemma i2b_some n I w : dget (indexes_to_blades n) I = Some w -> wfI n I /\ w = mk_blade I.
Proof.
rewrite indexes_to_bladesE => /(@dget_map_some _ _ _ id mk_blade) [J].
by rewrite mem_indexes_flat => h [-> ->].
Qed.
Lemma i2s_some n I w : dget (indexes_to_bases n) I = Some w -> wfI n I /\ w = mk_base I.
Proof.
rewrite indexes_to_basesE => /(@dget_map_some _ _ _ id mk_base) [J].
by rewrite mem_indexes_flat => h [-> ->].
Qed.
Lemma s2i_some n w I : dget (bases_to_indexes n) w = Some I -> wfI n I /\ w = mk_base I.
Proof.
rewrite bases_to_indexesE => /(@dget_map_some _ _ _ mk_base id) [J].
by rewrite mem_indexes_flat => h [-> ->].
Qed.

Lemma lookup_bijection n I w :
  (dget (indexes_to_blades n) I = Some w) <-> (dget (blades_to_indexes n) w = Some I).
Proof.
by split=> [/i2b_some|/b2i_some] [wI ->]; rewrite ?b2i_get ?i2b_get.
Qed.
Lemma lookup_bijection_bases n I w :
  (dget (indexes_to_bases n) I = Some w) <-> (dget (bases_to_indexes n) w = Some I).
Proof.
by split=> [/i2s_some|/s2i_some] [wI ->]; rewrite ?s2i_get ?i2s_get.
Qed.
Lemma lookup_total n :
  (forall I, isSome (dget (indexes_to_blades n) I) = wfI n I) /\
  (forall w, isSome (dget (blades_to_indexes n) w) = (w \in blades_flat n)).
Proof.
split=> [I|w].
  case wI : (wfI n I); first by rewrite i2b_get.
  by case E: dget => [w|] //; have [] := i2b_some E; rewrite wI.
rewrite blades_flatE; case E: dget => [I|] /=.
  by have [wI ->] := b2i_some E; rewrite map_f // mem_indexes_flat.
symmetry; apply/negbTE/mapP => -[I]; rewrite mem_indexes_flat => wI Ew.
by rewrite Ew b2i_get in E.
Qed.
Lemma lookup_grade n I w : dget (indexes_to_blades n) I = Some w ->
  dget (blades_to_grades n) w = Some (size I).
Proof. by move=> /i2b_some [wI ->]; rewrite b2g_get. Qed.
