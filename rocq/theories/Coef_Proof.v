(* Coef_Proof.v -- lemmas about expansion into coefficients and bases *)
From Coq Require Import String Ascii.
From mathcomp Require Import all_ssreflect all_algebra.
From Verif Require Import NatTac AlgTactics Exterior Clifford Blades Spec_Grade Grades GradeLaws.
From Verif Require Import Spec_Index PyBase PyStr Ga_Model Ga_Proof_Tables Ga_Proof_Sort Ga_Proof_Sem Ga_Proof_Reduce.
From Verif Require Import Ga_Sem Ga_Proof_Rep Ga_Proof_Conv Ga_Proof_Mul Spec_Clifford Clifford_Unique Spec_Mv Ga_Proof_Den Ga_Proof_Wedge Ga_Proof_Inner.
From Verif Require Import Ga_Proof_Grade Mv_Model Mv_Proof Mv_Expr Mv_Proof_Expr Names_Model Names_Proof Coef_Model.
Set Implicit Arguments.
Unset Strict Implicit.
Unset Printing Implicit Defensive.
Import GRing.Theory.
Local Open Scope ring_scope.

Section Expand.
Variable R : comUnitRingType.
Implicit Types (x y : expr R) (t : R * word) (w : word).

Lemma addterm_new x c w : w \notin words x -> addterm x c w = x ++ [:: (c, w)].
Proof.
elim: x => //= -[d v] x IH; rewrite in_cons negb_or eq_sym => /andP[/negPf -> /IH->] //.
Qed.
Lemma merge_uniq x : uniq (words x) -> merge_terms x = x.
Proof.
move=> u; suff h acc : uniq (words (acc ++ x)) -> foldl (fun acc t => addterm acc t.1 t.2) acc x = acc ++ x.
  by rewrite /merge_terms h.
elim: x acc {u} => [|t x IH] acc /=; first by rewrite cats0.
move=> u; rewrite addterm_new.
  by rewrite IH -catA /= -?surjective_pairing.
move: u; rewrite words_cat cat_uniq => /and3P[_ + _].
by apply: contra => h; apply/hasP; exists t.2 => //; exact: mem_head.
Qed.
Lemma canon_id x : canonical x -> canon x = x.
Proof. by case/andP=> u nz; rewrite /canon merge_uniq //; apply/all_filterP. Qed.
Lemma first_sym_id w : (size w <= 1)%N -> first_sym w = w.
Proof. by case: w => [|s [|]]. Qed.
Lemma linear_expand_id x : canonical x -> all (fun w => size w <= 1)%N (words x) ->
  linear_expand x = if x is [::] then [:: (0, [::])] else x.
Proof.
move=> cx sx; rewrite /linear_expand canon_id //; case: x cx sx => // t x cx sx.
have -> : [seq (t0.1, first_sym t0.2) | t0 <- t :: x] = t :: x.
  rewrite -[RHS]map_id; apply/eq_in_map => u ux /=; rewrite first_sym_id -?surjective_pairing //.
  by apply: (allP sx); apply: map_f.
by apply: merge_uniq; case/andP: cx.
Qed.
Lemma linear_expand_uniq x : uniq (words (linear_expand x)).
Proof. by rewrite /linear_expand; case: (canon x) => [//|t y]; exact: uniq_merge. Qed.
Lemma linear_expand_coef x w : all (fun v => size v <= 1)%N (words x) ->
  coef (linear_expand x) w = coef x w.
Proof.
move=> sx; rewrite /linear_expand; have := coef_canon x w.
have := @words_canon _ x; case: (canon x) => [|t y] sub <-.
  by rewrite coef_cons coef_nil addr0; case: ifP.
rewrite coef_merge; congr (coef _ w); rewrite -[RHS]map_id; apply/eq_in_map => u ux.
rewrite first_sym_id -?surjective_pairing //; apply: (allP sx); apply: sub; exact: map_f.
Qed.
Lemma coef_mem x t : uniq (words x) -> t \in x -> t = (coef x t.2, t.2).
Proof. by move=> u tx; rewrite (coef_uniq u tx) -surjective_pairing. Qed.
Lemma coef_index x w : uniq (words x) ->
  (if w \in words x then nth 0 [seq t.1 | t <- x] (index w (words x)) else 0) = coef x w.
Proof.
move=> u; case: ifPn => h; last by rewrite coef_notin.
have hs : (index w (words x) < size x)%N by rewrite -(size_map snd) index_mem.
have tx := mem_nth (0, [::]) hs.
rewrite (nth_map (0, [::])) // -(coef_uniq u tx); congr (coef _ _).
by rewrite -(nth_map _ [::] snd) // -/(words x) nth_index.
Qed.
End Expand.

Section Valid.
Variables (R : comUnitRingType) (two : (2%:R : R) \is a GRing.unit) (a : ga R).
Hypothesis wf : wf_ga a.
Notation n := (ga_n a).
Implicit Types (X Y : mv R).

Lemma valid_canonical X : mv_valid a X -> canonical (obj X).
Proof. by case/and3P=> u nz _; rewrite /canonical /words u nz. Qed.
Lemma valid_size X : mv_valid a X -> all (fun w : word => size w <= 1)%N (words (obj X)).
Proof. by rewrite mv_validE => /ok_rep/rep_size. Qed.
Lemma valid_expand X : mv_valid a X ->
  linear_expand (obj X) = if obj X is [::] then [:: (0, [::])] else obj X.
Proof. by move=> h; rewrite linear_expand_id ?valid_canonical ?valid_size. Qed.
Lemma valid_coef X w : mv_valid a X -> (w \in words (obj X)) = (coef (obj X) w != 0).
Proof.
move=> /valid_canonical/andP[u nz]; apply/idP/idP => [/mapP[t tx ->]|]; last first.
  by apply: contraR => /coef_notin ->.
by rewrite (coef_uniq u tx); exact: (allP nz).
Qed.
Lemma valid_blades X : mv_valid a X -> brep X || is_ortho a -> {subset words (obj X) <= blades_flat n}.
Proof. by case/and3P=> _ _ /allP h b w /mapP[t tx ->]; have := h t tx; rewrite b. Qed.
End Valid.

(* sorting by position in a list without repetitions *)
Lemma sort_index (T : eqType) (bf s : seq T) : uniq bf -> uniq s -> {subset s <= bf} ->
  sort (fun u v => index u bf <= index v bf)%N s = [seq b <- bf | b \in s].
Proof.
move=> ub us sub; set le := fun u v : T => _.
have le_tr : transitive le by move=> y x z; exact: leq_trans.
have le_tot : total le by move=> x y; exact: leq_total.
have anti x y : x \in bf -> y \in bf -> le x y -> le y x -> x = y.
  move=> bx by_ h1 h2; rewrite -(nth_index x bx) -[RHS](nth_index x by_).
  by congr nth; apply/eqP; rewrite eqn_leq; apply/andP.
have sorted_bf : sorted le bf.
  rewrite -[sorted le bf]/(sorted (relpre (fun u => index u bf) leq) bf) -sorted_map.
  have -> : [seq index u bf | u <- bf] = iota 0 (size bf); last exact: iota_sorted.
  case: bf ub {sub anti le_tr le_tot} @le => // b bf ub _.
  apply: (@eq_from_nth _ 0%N) => [|i]; first by rewrite size_map size_iota.
  by rewrite size_map => hi; rewrite (nth_map b) // index_uniq // nth_iota.
apply: (@sorted_eq_in _ le).
- by move=> x y z _ _ _; exact: le_tr.
- by move=> x y; rewrite !mem_sort => /sub bx /sub by_ /andP[]; exact: anti.
- exact: sort_sorted.
- exact: sorted_filter.
rewrite perm_sort; apply: uniq_perm => //; first exact: filter_uniq.
by move=> x; rewrite mem_filter; case: (boolP (x \in s)) => //= /sub ->.
Qed.
