(* Ga_Proof_Sem.v -- denotation of expressions in an algebra with generators
   satisfying the metric relations, and soundness of the expression helpers
   (sums, substitution, expansion) and of reduce_basis. *)
From mathcomp Require Import all_ssreflect all_algebra.
From Verif Require Import NatTac AlgTactics Exterior Clifford Blades.
From Verif Require Import Spec_Index PyBase Ga_Model Ga_Proof_Tables Ga_Proof_Sort.
Set Implicit Arguments.
Unset Strict Implicit.
Unset Printing Implicit Defensive.
Import GRing.Theory.
Local Open Scope ring_scope.

(* ------------------------------------------------------------------ *)
Section Coef.
Variable R : comUnitRingType.
Implicit Types (x y : expr R) (w : word) (c : R).

(* total coefficient of a word in an expression *)
Definition coef x w : R := \sum_(t <- x | t.2 == w) t.1.

Lemma coef_nil w : coef [::] w = 0. Proof. by rewrite /coef big_nil. Qed.
Lemma coef_cons t x w : coef (t :: x) w = (if t.2 == w then t.1 else 0) + coef x w.
Proof. by rewrite /coef big_cons; case: ifP; rewrite ?add0r. Qed.
Lemma coef_cat x y w : coef (x ++ y) w = coef x w + coef y w.
Proof. by rewrite /coef big_cat. Qed.
Lemma coef_addterm x c w v : coef (addterm x c w) v = coef x v + (if w == v then c else 0).
Proof.
elim: x => [|[c' w'] x IH] /=; first by rewrite coef_cons /= !coef_nil addrC.
case: (w' =P w) => [->|ne]; rewrite !coef_cons /=.
  by case: ifP => _; rewrite ?add0r ?addr0 // addrAC.
by rewrite IH addrA.
Qed.
Lemma coef_merge x w : coef (merge_terms x) w = coef x w.
Proof.
rewrite /merge_terms -[RHS]add0r -(coef_nil w); elim: x [::] => [|t x IH] acc /=.
  by rewrite coef_nil addr0.
by rewrite IH coef_addterm coef_cons addrA.
Qed.
Lemma coef_filter0 x w : coef [seq t <- x | t.1 != 0] w = coef x w.
Proof.
elim: x => //= t x IH; rewrite coef_cons; case: (t.1 =P 0) => [->|_] /=.
  by rewrite IH if_same add0r.
by rewrite coef_cons IH.
Qed.
Lemma coef_canon x w : coef (canon x) w = coef x w.
Proof. by rewrite /canon coef_filter0 coef_merge. Qed.
Lemma coef_escale c x w : coef (escale c x) w = c * coef x w.
Proof.
rewrite /escale; elim: x => [|t x IH] /=; first by rewrite !coef_nil mulr0.
by rewrite !coef_cons IH mulrDr /=; case: ifP; rewrite ?mulr0.
Qed.
Lemma coef_eneg x w : coef (eneg x) w = - coef x w.
Proof.
rewrite /eneg; elim: x => [|t x IH] /=; first by rewrite !coef_nil oppr0.
by rewrite !coef_cons IH opprD /=; case: ifP; rewrite ?oppr0.
Qed.

(* words of an expression *)
Definition words x : seq word := [seq t.2 | t <- x].
Lemma words_addterm x c w v :
  (v \in words (addterm x c w)) = (v \in words x) || (v == w).
Proof.
elim: x => [|[c' w'] x IH] /=; first by rewrite /words /= inE.
case: (w' =P w) => [->|_]; rewrite /words /= !inE.
  by rewrite -/(words x); case: (v == w); rewrite ?orbT ?orbF.
by rewrite -/(words _) IH orbA.
Qed.
Lemma words_merge x v : (v \in words (merge_terms x)) = (v \in words x).
Proof.
suff h acc : (v \in words (foldl (fun acc t => addterm acc t.1 t.2) acc x)) =
              (v \in words acc) || (v \in words x) by rewrite /merge_terms h.
elim: x acc => [|t x IH] acc /=; first by rewrite orbF.
by rewrite IH words_addterm inE orbA.
Qed.
Lemma uniq_addterm x c w : uniq (words x) -> uniq (words (addterm x c w)).
Proof.
elim: x => [|[c' w'] x IH] //=; case: (w' =P w) => //= ne /andP[nin u].
by rewrite -/(words _) words_addterm negb_or nin IH // andbT; apply/eqP.
Qed.
Lemma uniq_merge x : uniq (words (merge_terms x)).
Proof.
rewrite /merge_terms; have: uniq (words [::]) by [].
elim: x [::] => [|t x IH] acc u //=; exact/IH/uniq_addterm.
Qed.
Lemma words_filter (P : pred (R * word)) x : subseq (words (filter P x)) (words x).
Proof. exact: map_subseq (filter_subseq _ _). Qed.
Lemma uniq_canon x : uniq (words (canon x)).
Proof. exact: subseq_uniq (words_filter _ _) (uniq_merge x). Qed.
Lemma words_canon x : {subset words (canon x) <= words x}.
Proof. by move=> v /(mem_subseq (words_filter _ _)); rewrite words_merge. Qed.
Lemma canon_neq0 x t : t \in canon x -> t.1 != 0.
Proof. by rewrite mem_filter => /andP[]. Qed.

Lemma coef_notin x w : w \notin words x -> coef x w = 0.
Proof.
elim: x => [|t x IH] /=; first by rewrite coef_nil.
rewrite inE negb_or coef_cons => /andP[/negbTE n /IH ->].
by rewrite eq_sym n addr0.
Qed.
Lemma coef_uniq x t : uniq (words x) -> t \in x -> coef x t.2 = t.1.
Proof.
elim: x => //= u x IH /andP[nin un]; rewrite inE coef_cons.
case/predU1P=> [->|tx]; first by rewrite eqxx coef_notin // addr0.
case: (u.2 =P t.2) => [E|_]; last by rewrite add0r IH.
by rewrite E (map_f snd tx) in nin.
Qed.

(* the terms of a canonical expression are the nonzero coefficients *)
Lemma mem_canon x t : (t \in canon x) = (t.1 != 0) && (coef x t.2 == t.1).
Proof.
apply/idP/andP => [tc|[n0 /eqP E]].
  by split; [exact: canon_neq0 tc | rewrite -coef_canon coef_uniq ?uniq_canon].
have: t.2 \in words (canon x).
  by apply: contraR n0 => /coef_notin; rewrite coef_canon E => ->.
case/mapP=> u uc Eu; have := coef_uniq (uniq_canon x) uc.
by rewrite -Eu coef_canon E => e; case: t u e Eu uc {n0 E} => c w [c' w'] /= -> ->.
Qed.
Lemma canon_perm x y : (coef x =1 coef y) <-> perm_eq (canon x) (canon y).
Proof.
have un (z : expr R) : uniq (canon z) by have := uniq_canon z; apply: map_uniq.
split=> [h|h w]; first by apply: uniq_perm => // t; rewrite !mem_canon h.
rewrite -(coef_canon x) -(coef_canon y) /coef; exact: perm_big.
Qed.
Lemma canon_nil x : (canon x == [::]) = all (fun w => coef x w == 0) (words x).
Proof.
apply/eqP/allP => [E w _|h]; first by rewrite -coef_canon E coef_nil.
case E: (canon x) => [|t s] //; have tc : t \in canon x by rewrite E mem_head.
have := canon_neq0 tc; move: (tc); rewrite mem_canon => /andP[_ /eqP <-].
by rewrite h // words_canon // map_f.
Qed.

Lemma words_cat x y : words (x ++ y) = words x ++ words y.
Proof. by rewrite /words map_cat. Qed.
Lemma words_escale c x : words (escale c x) = words x.
Proof. by rewrite /words /escale -map_comp. Qed.
Lemma words_eneg x : words (eneg x) = words x.
Proof. by rewrite /words /eneg -map_comp. Qed.
End Coef.

(* ------------------------------------------------------------------ *)
Section Ev.
Variables (R : comUnitRingType) (A : algType R) (e : nat -> A).
Implicit Types (x y : expr R) (w : word) (c : R).

Definition ev_sym (s : bool * seq nat) : A :=
  if s.1 then base_of e s.2 else blade_of e s.2.
Definition ev_word w : A := \prod_(s <- w) ev_sym s.
Definition ev x : A := \sum_(t <- x) t.1 *: ev_word t.2.

Lemma ev_nil : ev [::] = 0. Proof. by rewrite /ev big_nil. Qed.
Lemma ev_cons t x : ev (t :: x) = t.1 *: ev_word t.2 + ev x.
Proof. by rewrite /ev big_cons. Qed.
Lemma ev_cat x y : ev (x ++ y) = ev x + ev y.
Proof. by rewrite /ev big_cat. Qed.
Lemma ev_flatten (l : seq (expr R)) : ev (flatten l) = \sum_(x <- l) ev x.
Proof. by elim: l => [|x l IH]; rewrite ?big_nil ?ev_nil //= ev_cat IH big_cons. Qed.
Lemma ev_addterm x c w : ev (addterm x c w) = ev x + c *: ev_word w.
Proof.
elim: x => [|[c' w'] x IH] /=; first by rewrite ev_cons ev_nil addrC.
case: (w' =P w) => [->|_]; rewrite !ev_cons /=.
  by rewrite scalerDl addrAC.
by rewrite IH addrA.
Qed.
Lemma ev_merge x : ev (merge_terms x) = ev x.
Proof.
rewrite /merge_terms -[RHS]add0r -ev_nil; elim: x [::] => [|t x IH] acc /=.
  by rewrite ev_nil addr0.
by rewrite IH ev_addterm ev_cons addrA.
Qed.
Lemma ev_canon x : ev (canon x) = ev x.
Proof.
rewrite -[RHS]ev_merge /canon; elim: (merge_terms x) => //= t y IH.
rewrite ev_cons; case: (t.1 =P 0) => [->|_] /=; last by rewrite ev_cons IH.
by rewrite scale0r add0r.
Qed.
Lemma ev_escale c x : ev (escale c x) = c *: ev x.
Proof.
rewrite /ev /escale big_map scaler_sumr; apply: eq_bigr => t _.
by rewrite scalerA.
Qed.
Lemma ev_eneg x : ev (eneg x) = - ev x.
Proof.
rewrite /ev /eneg big_map -sumrN; apply: eq_bigr => t _; by rewrite scaleNr.
Qed.
Lemma ev_word_cat w v : ev_word (w ++ v) = ev_word w * ev_word v.
Proof. by rewrite /ev_word big_cat. Qed.
Lemma ev_emul x y : ev (emul x y) = ev x * ev y.
Proof.
rewrite /emul ev_flatten big_map {2}/ev mulr_suml; apply: eq_bigr => t _.
rewrite /ev big_map mulr_sumr; apply: eq_bigr => u _ /=.
by rewrite ev_word_cat -scalerAl -scalerAr scalerA.
Qed.
Lemma ev_nc_subs x d :
  (forall w v, dget d w = Some v -> ev v = ev_word w) -> ev (nc_subs x d) = ev x.
Proof.
move=> h; rewrite /nc_subs ev_canon ev_flatten big_map; apply: eq_bigr => t _.
case E: t.2 => [|s w]; first by rewrite ev_cons ev_nil addr0 E.
by case D: dget => [v|]; rewrite ?ev_escale ?(h _ _ D) // ev_cons ev_nil addr0 E.
Qed.
Lemma ev_linear_expand x : all (fun w => size w <= 1)%N (words x) ->
  ev (linear_expand x) = ev x.
Proof.
move=> h; rewrite /linear_expand -(ev_canon x).
have: all (fun w => size w <= 1)%N (words (canon x)).
  by apply/allP => w /words_canon /(allP h).
case: (canon x) => [|t y] hy; first by rewrite ev_cons ev_nil scale0r addr0.
rewrite ev_merge /ev big_map; elim: (t :: y) hy => [|u z IH] /=; first by rewrite !big_nil.
by case/andP=> s1 /IH; rewrite !big_cons => ->; case: u.2 s1 => [|? []].
Qed.
Lemma ev_mk_blade I : ev_word (mk_blade I) = blade_of e I.
Proof. by case: I => [|i I]; rewrite /ev_word ?big_nil //= big_seq1. Qed.
Lemma ev_mk_base (two : (2%:R : R) \is a GRing.unit) I : ev_word (mk_base I) = base_of e I.
Proof.
case: I => [|i [|j I]]; rewrite /ev_word ?big_nil //= big_seq1 //.
by rewrite /ev_sym blade1 // /= mulr1.
Qed.

(* value of a coefficient function: ev x = sum over distinct words *)
Lemma ev_coef x (ws : seq word) : uniq ws -> {subset words x <= ws} ->
  ev x = \sum_(w <- ws) coef x w *: ev_word w.
Proof.
move=> u sub; rewrite /coef.
rewrite (eq_bigr (fun w => \sum_(t <- x | t.2 == w) t.1 *: ev_word t.2)); last first.
  by move=> w _; rewrite scaler_suml; apply: eq_bigr => t /eqP ->.
rewrite (exchange_big_dep xpredT) //= /ev big_seq [RHS]big_seq.
apply: eq_bigr => t tx; have tw : t.2 \in ws by apply: sub; apply: map_f.
rewrite (eq_bigl (pred1 t.2)); last by move=> w; rewrite /= eq_sym.
by rewrite -big_filter filter_pred1_uniq // big_seq1.
Qed.
End Ev.
