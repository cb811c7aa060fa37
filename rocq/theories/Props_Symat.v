(* Props_Symat.v -- property C48: generic matrices. *)
From Coq Require Import String Ascii ZArith.
From mathcomp Require Import all_ssreflect.
From Verif Require Import PyBase PyStr Ga_Model Dual_Model Names_Model Names_Proof Symat_Model.
Set Implicit Arguments.
Unset Strict Implicit.
Unset Printing Implicit Defensive.
Local Open Scope string_scope.

(* the loop over i and j is one loop over the pairs *)
Definition pairs (lo : nat -> nat) (n : nat) : seq (nat * nat) :=
  flatten [seq [seq (i, j) | j <- span (lo i) n] | i <- span 0 n].
Lemma foldl_pairs (S : Type) (F : S -> nat -> nat -> S) lo n s :
  foldl (fun st i => foldl (fun st j => F st i j) st (span (lo i) n)) s (span 0 n) =
  foldl (fun st p => F st p.1 p.2) s (pairs lo n).
Proof.
rewrite /pairs; elim: (span 0 n) s => [|i l IH] s //=; rewrite IH foldl_cat; congr foldl.
by elim: (span (lo i) n) s => [|j js IH'] s //=.
Qed.
Lemma mem_span lo n j : (j \in span lo n) = (lo <= j < n)%N.
Proof.
rewrite /span mem_iota; case: (leqP lo n) => h; first by rewrite subnKC.
have /eqP -> : (n - lo == 0)%N by rewrite subn_eq0 ltnW.
rewrite addn0; apply/idP/idP => /andP[h1 h2]; first by move: (leq_ltn_trans h1 h2); rewrite ltnn.
by move: (leq_ltn_trans h1 (ltn_trans h2 h)); rewrite ltnn.
Qed.
Lemma mem_pairs lo n p : (p \in pairs lo n) = [&& (p.1 < n)%N, (lo p.1 <= p.2)%N & (p.2 < n)%N].
Proof.
case: p => i j; apply/flatten_mapP/idP => [[k]|/and3P[h1 h2 h3]] /=.
  by rewrite mem_span => /andP[_ lk] /mapP[l]; rewrite mem_span => /andP[h1 h2] [-> ->]; rewrite lk h1 h2.
by exists i; [rewrite mem_span | apply/mapP; exists j; rewrite // mem_span h2].
Qed.
Lemma uniq_pairs lo n : uniq (pairs lo n).
Proof.
rewrite /pairs; elim: (span 0 n) (iota_uniq 0 (n - 0) : uniq (span 0 n)) => [|i l IH] //= /andP[ni ul].
rewrite cat_uniq IH // andbT map_inj_uniq ?iota_uniq => [|x y [] //].
apply/hasPn => -[k j] /flatten_mapP [i' il /mapP [j' _ [-> _]]].
by apply/mapP => -[j'' _ [e _]]; move: ni; rewrite -e il.
Qed.
(* number of pairs *)
Lemma size_pairs lo n : size (pairs lo n) = sumn [seq n - lo i | i <- iota 0 n].
Proof.
rewrite /pairs size_flatten /shape -map_comp /span subn0; congr sumn; apply: eq_map => i /=.
by rewrite size_map size_iota.
Qed.
Lemma sum_sub n : sumn [seq n - i | i <- iota 0 n] = (n * n.+1)./2.
Proof.
rewrite sumnE big_map -[n in iota 0 n]subn0 -/(index_iota 0 n) big_nat_rev /= add0n.
have -> : (n * n.+1)./2 = 'C(n.+1, 2) by rewrite bin2 mulnC.
rewrite -triangular_sum big_nat_recl //= add0n !big_nat; apply: eq_bigr => i /andP[_ li].
by rewrite subKn.
Qed.
Lemma sum_sub1 n : sumn [seq n - i.+1 | i <- iota 0 n] = (n * n.-1)./2.
Proof.
rewrite sumnE big_map -[n in iota 0 n]subn0 -/(index_iota 0 n) big_nat_rev /= add0n.
rewrite -bin2 -triangular_sum !big_nat; apply: eq_bigr => i /andP[_ li].
by rewrite subnSK // subKn // ltnW.
Qed.
(* popping from the end *)
Lemma pop_rev (l : seq entry) x : py_pop (rev (x :: l)) = Some (x, rev l).
Proof.
rewrite rev_cons; case: (rev l) => [|y s] //=; rewrite last_rcons; congr (Some (_, _)).
by elim: s y => [|z s IH] y //=; rewrite IH.
Qed.
Section Loop.
Variable neg : entry -> entry.
Let step (st : option (smat * seq entry)) (i j : nat) : option (smat * seq entry) :=
  LET st := st IN LET p := py_pop st.2 IN Some (put (put st.1 i j p.1) j i (neg p.1), p.2).
(* the k-th pair gets the k-th name; the loop does not run out of names *)
Lemma loopP (ps : seq (nat * nat)) (es : seq entry) M : uniq ps -> size es = size ps ->
  all (fun p => p.1 <= p.2)%N ps ->
  exists2 M', foldl (fun st p => step st p.1 p.2) (Some (M, rev es)) ps = Some (M', [::]) &
    forall i j, M' i j = if (i, j) \in ps then (if i == j then neg (nth EZero es (index (i, j) ps)) else nth EZero es (index (i, j) ps))
                         else if (j, i) \in ps then neg (nth EZero es (index (j, i) ps)) else M i j.
Proof.
elim: ps es M => [|[i0 j0] ps IH] [|e es] M //=; first by exists M.
case/andP=> ni up [sz] /andP[le al]; rewrite pop_rev /=.
have [M' -> ME] := IH es (put (put M i0 j0 e) j0 i0 (neg e)) up sz al; exists M' => // i j; rewrite ME !inE.
have lt k l : (k, l) \in ps -> (k <= l)%N by move/(allP al).
rewrite ![(i0, j0) == _]eq_sym; case: ((i, j) =P (i0, j0)) => [[ei ej]|ne] /=.
  rewrite ei ej (negbTE ni) /=; case: (i0 =P j0) => [eij|ne] /=.
    by move: ni le; rewrite eij => ni _; rewrite (negbTE ni) /put !eqxx.
  case ji: ((j0, i0) \in ps); first by case: ne; apply/eqP; rewrite eqn_leq le (lt _ _ ji).
  rewrite /put !eqxx /=; case: eqP => [e'|_] //=; by case: ne.
case ij: ((i, j) \in ps) => //.
rewrite -[(j, i) == (i0, j0)]/((j == i0) && (i == j0)).
case: (boolP ((j == i0) && (i == j0))) => [/andP[/eqP ej /eqP ei]|ne'] /=.
  by rewrite ej ei (negbTE ni) /put !eqxx.
case: ifP => // _; rewrite /put andbC (negbTE ne'); case: ifP => // /andP[/eqP ei /eqP ej].
by case: ne; rewrite ei ej.
Qed.
End Loop.

Section C48.
Variables (kernel : string) (coords : seq string) (f : bool).
Notation n := (size coords).
Notation symbol k := (ESym f false (kernel +++ "_" +++ str_nat k)).
Lemma indexedE m : indexed kernel f m = rev [seq symbol k | k <- iota 1 m].
Proof. by rewrite /indexed /span subSS subn0 map_rev. Qed.
Lemma symbol_inj : injective (fun k => symbol k).
Proof. by move=> k l [/app_injl [/str_nat_inj]]. Qed.
Lemma nth_symbol m k : (k < m)%N -> nth EZero [seq symbol k | k <- iota 1 m] k = symbol k.+1.
Proof. by move=> lk; rewrite (nth_map 0%N) ?size_iota // nth_iota. Qed.
Lemma half_bound lo p : (forall i, i <= lo i)%N -> p \in pairs lo n -> (p.1 <= p.2)%N.
Proof. by move=> h; rewrite mem_pairs => /and3P[_ l _]; exact: leq_trans l. Qed.

(* mode 's': symmetric, and the entries on and above the diagonal are different symbols *)
Theorem C48_symmetric : exists2 M, Symbolic_Matrix kernel coords f "s" = Some M &
  [/\ forall i j, (i < n)%N -> (j < n)%N -> M i j = M j i,
      forall i j, (i <= j)%N -> (j < n)%N -> exists2 k, (0 < k <= (n * n.+1)./2)%N & M i j = symbol k &
      forall i j k l, (i <= j)%N -> (j < n)%N -> (k <= l)%N -> (l < n)%N -> M i j = M k l -> i = k /\ j = l].
Proof.
rewrite /Symbolic_Matrix /= /symmetric_matrix foldl_pairs indexedE.
have sz : size [seq symbol k | k <- iota 1 (n * n.+1)./2] = size (pairs id n).
  by rewrite size_map size_iota size_pairs sum_sub.
have al : all (fun p => p.1 <= p.2)%N (pairs id n) by apply/allP => p; exact: half_bound.
have [M -> ME] := @loopP id _ _ zeros (uniq_pairs id n) sz al; exists M => //.
have idx i j : (i <= j)%N -> (j < n)%N -> (index (i, j) (pairs id n) < (n * n.+1)./2)%N /\ M i j = symbol (index (i, j) (pairs id n)).+1.
  move=> le lj; have ip : (i, j) \in pairs id n by rewrite mem_pairs /= le lj (leq_ltn_trans le lj).
  have li : (index (i, j) (pairs id n) < (n * n.+1)./2)%N by rewrite -sum_sub -(size_pairs id) index_mem.
  by rewrite ME ip nth_symbol // if_same.
have up i j : (j < i)%N -> (i < n)%N -> M i j = M j i.
  move=> lt li; rewrite !ME; have -> : (i, j) \in pairs id n = false by rewrite mem_pairs /= [(i <= j)%N]leqNgt lt andbF.
  have -> : (j, i) \in pairs id n by rewrite mem_pairs /= (ltnW lt) li (ltn_trans lt li).
  by rewrite if_same.
split=> [i j li lj|i j le lj|i j k l le lj le' ll].
- by case: (ltngtP i j) => [lt|lt|-> //]; [rewrite (up j i) | rewrite (up i j)].
- by have [lt ->] := idx i j le lj; eexists; last reflexivity.
have [l1 ->] := idx i j le lj; have [l2 ->] := idx k l le' ll => /symbol_inj [e].
have ip : (i, j) \in pairs id n by rewrite mem_pairs /= le lj (leq_ltn_trans le lj).
have kp : (k, l) \in pairs id n by rewrite mem_pairs /= le' ll (leq_ltn_trans le' ll).
by have := nth_index (0, 0)%N ip; rewrite e nth_index // => -[-> ->].
Qed.
(* mode 'a': antisymmetric, zero diagonal, and the entries above the diagonal are different symbols *)
Theorem C48_antisymmetric : exists2 M, Symbolic_Matrix kernel coords f "a" = Some M &
  [/\ forall i, (i < n)%N -> M i i = EZero, forall i j, (i < n)%N -> (j < n)%N -> M j i = entry_neg (M i j),
      forall i j, (i < j)%N -> (j < n)%N -> exists2 k, (0 < k <= (n * n.-1)./2)%N & M i j = symbol k &
      forall i j k l, (i < j)%N -> (j < n)%N -> (k < l)%N -> (l < n)%N -> M i j = M k l -> i = k /\ j = l].
Proof.
rewrite /Symbolic_Matrix /= /antisymmetric_matrix foldl_pairs indexedE.
have sz : size [seq symbol k | k <- iota 1 (n * n.-1)./2] = size (pairs S n).
  by rewrite size_map size_iota size_pairs sum_sub1.
have al : all (fun p => p.1 <= p.2)%N (pairs S n) by apply/allP => p; apply: half_bound.
have [M -> ME] := @loopP entry_neg _ _ zeros (uniq_pairs S n) sz al; exists M => //.
have idx i j : (i < j)%N -> (j < n)%N -> (index (i, j) (pairs S n) < (n * n.-1)./2)%N /\ M i j = symbol (index (i, j) (pairs S n)).+1.
  move=> le lj; have ip : (i, j) \in pairs S n by rewrite mem_pairs /= le lj (ltn_trans le lj).
  have li : (index (i, j) (pairs S n) < (n * n.-1)./2)%N by rewrite -sum_sub1 -(size_pairs S) index_mem.
  by rewrite ME ip nth_symbol // ltn_eqF.
have dn i : M i i = EZero by rewrite ME mem_pairs /= ltnn andbF.
have up i j : (i < j)%N -> (j < n)%N -> M j i = entry_neg (M i j).
  move=> lt lj; rewrite !ME; have -> : (j, i) \in pairs S n = false by rewrite mem_pairs /= [(j < i)%N]ltnNge (ltnW lt) andbF.
  have -> : (i, j) \in pairs S n by rewrite mem_pairs /= lt lj (ltn_trans lt lj).
  by rewrite (ltn_eqF lt).
split=> [i li|i j li lj|i j le lj|i j k l le lj le' ll] //.
- case: (ltngtP i j) => [lt|lt|->]; [by rewrite up | | by rewrite dn].
  by rewrite (up j i) //; case: (M j i) => //= b c x; rewrite negbK.
- by have [lt ->] := idx i j le lj; eexists; last reflexivity.
have [l1 ->] := idx i j le lj; have [l2 ->] := idx k l le' ll => /symbol_inj [e].
have ip : (i, j) \in pairs S n by rewrite mem_pairs /= le lj (ltn_trans le lj).
have kp : (k, l) \in pairs S n by rewrite mem_pairs /= le' ll (ltn_trans le' ll).
by have := nth_index (0, 0)%N ip; rewrite e nth_index // => -[-> ->].
Qed.
(* mode 'g': all entries are different symbols, for different coordinate names *)
Lemma put_loop (ps : seq (nat * nat)) (e : nat -> nat -> entry) M i j : foldl (fun G p => put G p.1 p.2 (e p.1 p.2)) M ps i j =
  if (i, j) \in ps then e i j else M i j.
Proof.
elim: ps M => [|[i0 j0] ps IH] M //=; rewrite IH inE /put -[(i, j) == (i0, j0)]/((i == i0) && (j == j0)).
by case: ifP => [|_]; rewrite ?orbT // orbF; case: andP => [[/eqP -> /eqP ->]|].
Qed.
Lemma app_brace x y x' y' : ~~ has_char "}" x -> ~~ has_char "}" x' ->
  x +++ ("}_" +++ y) = x' +++ ("}_" +++ y') -> x = x' /\ y = y'.
Proof.
elim: x x' => [|c x IH] [|c' x'] //=; first by move=> _ _ [].
- by move=> _ + [e _]; rewrite -e eqxx.
- by move=> + _ [e _]; rewrite e eqxx.
by rewrite !negb_or => /andP[_ nx] /andP[_ nx'] [-> /(IH _ nx nx') [-> ->]].
Qed.
Theorem C48_general : uniq coords -> all (fun x => ~~ has_char "}" x) coords ->
  exists2 M, Symbolic_Matrix kernel coords f "g" = Some M &
   (forall i j, (i < n)%N -> (j < n)%N -> exists x, M i j = ESym f false x) /\
   forall i j k l, (i < n)%N -> (j < n)%N -> (k < n)%N -> (l < n)%N -> M i j = M k l -> i = k /\ j = l.
Proof.
move=> un nb; exists (general_matrix kernel coords f) => //.
have ME i j : (i < n)%N -> (j < n)%N -> general_matrix kernel coords f i j = ESym f false (general_name kernel coords i j).
  move=> li lj; rewrite /general_matrix (foldl_pairs (fun G i j => put G i j (ESym f false (general_name kernel coords i j))) (fun=> 0%N)).
  by rewrite (put_loop _ (fun i j => ESym f false (general_name kernel coords i j))) mem_pairs /= li lj.
split=> [i j li lj|i j k l li lj lk ll]; first by rewrite ME //; eexists.
rewrite !ME // => -[e]; move: (app_injl e) => /=; rewrite -[String "_" (String "_" _)]/("__" +++ _).
have nbi q : (q < n)%N -> ~~ has_char "}" (nth EmptyString coords q) by move=> lq; exact: (all_nthP _ nb).
move=> [/(app_brace (nbi _ li) (nbi _ lk)) [e1 e2]].
split; apply/eqP; first by rewrite -(nth_uniq EmptyString li lk un) e1.
by rewrite -(nth_uniq EmptyString lj ll un) e2.
Qed.
(* any other mode raises *)
Theorem C48_raises mode : mode <> "g" -> mode <> "s" -> mode <> "a" -> Symbolic_Matrix kernel coords f mode = None.
Proof.
move=> /eqP h1 /eqP h2 /eqP h3; rewrite /Symbolic_Matrix /=.
by rewrite -![String.eqb _ _]/(mode == _) (negbTE h1) (negbTE h2) (negbTE h3).
Qed.
End C48.
Example C48_case : uniq [:: "x"; "y"; "z"] && all (fun x => ~~ has_char "}" x) [:: "x"; "y"; "z"].
Proof. by []. Qed.
Example C48_case_entries : omap (fun M => [:: M 0 1; M 1 0; M 1 2; M 2 2]%N) (Symbolic_Matrix "a" [:: "x"; "y"; "z"] false "s") =
  Some [:: ESym false false "a_2"; ESym false false "a_2"; ESym false false "a_5"; ESym false false "a_6"].
Proof. by vm_compute. Qed.
Print Assumptions C48_symmetric.
Print Assumptions C48_antisymmetric.
Print Assumptions C48_general.
Print Assumptions C48_raises.
