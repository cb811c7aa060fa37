(* Ga_Proof_Reduce.v -- reduce_basis: termination, shape and value *)
From mathcomp Require Import all_ssreflect all_algebra.
From Verif Require Import NatTac AlgTactics Exterior Clifford Blades.
From Verif Require Import Spec_Index PyBase Ga_Model Ga_Proof_Tables Ga_Proof_Sort Ga_Proof_Sem.
Set Implicit Arguments.
Unset Strict Implicit.
Unset Printing Implicit Defensive.
Import GRing.Theory.
Local Open Scope ring_scope.

(* the metric actually used by the code: upper triangle *)
Definition geff (R : comUnitRingType) (a : ga R) (i j : nat) : R := gij a (minn i j) (maxn i j).
Lemma geffC R (a : ga R) i j : geff a i j = geff a j i.
Proof. by rewrite /geff minnC maxnC. Qed.
Lemma geffxx R (a : ga R) i : geff a i i = gij a i i.
Proof. by rewrite /geff minnn maxnn. Qed.
Lemma geff_lt R (a : ga R) i j : (i < j)%N -> geff a j i = gij a i j.
Proof. by move=> h; rewrite /geff (minn_idPr _) ?(maxn_idPl _) //; apply: ltnW. Qed.

Section Shape.
Variables (R : comUnitRingType) (a : ga R).
Implicit Types (l pre rest : seq nat).

Lemma inversions_sub p x y q : (inversions (p ++ q) <= inversions (p ++ x :: y :: q))%N.
Proof.
rewrite !inversions_cat /=.
have : (crossings p q <= crossings p [:: x, y & q])%N.
  rewrite /crossings; elim: p => [|z p IH]; first by rewrite !big_nil.
  rewrite !big_cons; apply: leq_add => //=; nlia.
nlia.
Qed.
Lemma inversions_swap p x y q : (y < x)%N ->
  inversions (p ++ x :: y :: q) = (inversions (p ++ y :: x :: q)).+1.
Proof.
move=> yx; rewrite !inversions_cat /= yx.
have -> : (x < y)%N = false by apply/negbTE; rewrite -leqNgt ltnW.
have -> : crossings p [:: x, y & q] = crossings p [:: y, x & q].
  by rewrite /crossings; apply: eq_bigr => z _ /=; rewrite addnCA.
nlia.
Qed.

(* outcome of one call of reduce_basis_loop *)
Inductive rbl_spec l : rbl_res R -> Prop :=
| RblDone : sorted ltn l -> rbl_spec l (RDone R)
| RblContract p x q (f : bool) : l = p ++ x :: x :: q -> (f -> sorted ltn (p ++ q)) ->
    rbl_spec l (RContract (gij a x x) (p ++ q) f)
| RblRevise p x y q (f : bool) : l = p ++ x :: y :: q -> (y < x)%N -> (f -> sorted ltn (p ++ q)) ->
    rbl_spec l (RRevise (2%:R * gij a y x) (p ++ q) f (p ++ y :: x :: q)).

Lemma sorted_le1 l : (size l <= 1)%N -> sorted ltn l.
Proof. by case: l => [|x []]. Qed.

Lemma rbl_scanP pre x rest : sorted ltn (rcons pre x) ->
  rbl_spec (pre ++ x :: rest) (rbl_scan a pre x rest).
Proof.
elim: rest pre x => [|y rest IH] pre x so /=; first by constructor; rewrite cats1.
case: (x =P y) => [<-|ne].
  apply: RblContract => // /orP[/sorted_le1 //|/nilP ->].
  by move: so; rewrite cats0 -cats1 => /cat_sorted2 [].
case: ifP => yx; first by apply: RblRevise => //; apply: sorted_le1.
rewrite -cat_rcons; apply: IH.
move: so; rewrite !(sorted_pairwise ltn_trans) !pairwise_rcons all_rcons => /andP[al ->].
have xy : (x < y)%N by rewrite ltn_neqAle leqNgt yx andbT; apply/eqP.
rewrite al !andbT xy /=; apply: sub_all al => z /= zx; exact: ltn_trans xy.
Qed.
Lemma reduce_basis_loopP l : rbl_spec l (reduce_basis_loop a l).
Proof. by case: l => [|x l] /=; [constructor | exact: (@rbl_scanP [::])]. Qed.

Implicit Type (t : rterm R).
Definition rb_weight t : nat := if t.2 then 0%N else (inversions t.1.2 + size t.1.2).+1.
(* generic invariant on the lists: strictly increasing once flagged, and any
   property P closed under the three list edits *)
Definition rb_ok t := t.2 ==> sorted ltn t.1.2.

Lemma rb_step_weight t m : (rb_weight t <= m.+1)%N ->
  (rb_weight (rb_step a t).1 <= m)%N && all (fun u => rb_weight u <= m)%N (rb_step a t).2.
Proof.
case: t => [[c l] [|]]; rewrite /rb_weight //= => h.
case: (reduce_basis_loopP l) h => [so|p x q f El _|p x y q f El yx _] h /=.
- by rewrite /rb_weight.
- rewrite /rb_weight andbT /=; case: f => //.
  have := inversions_sub p x x q; rewrite El size_cat /= in h; rewrite size_cat.
  by move: h; nlia.
- rewrite /rb_weight andbT /=; apply/andP; split.
    rewrite El inversions_swap // !size_cat /= in h; rewrite size_cat /=.
    by move: h; nlia.
  case: f => //.
  have := inversions_sub p x y q; rewrite El size_cat /= in h; rewrite size_cat.
  by move: h; nlia.
Qed.

Lemma rb_loop_total m (ts : seq (rterm R)) : all (fun t => rb_weight t <= m)%N ts ->
  exists2 ts', rb_loop a m ts = Some ts' & all (fun t : rterm R => t.2) ts'.
Proof.
elim: m ts => [|m IH] ts h /=.
  have al : all (fun t : rterm R => t.2) ts.
    by apply: sub_all h => t; rewrite /rb_weight; case: t.2.
  by rewrite al; exists ts.
case: ifP => al; first by exists ts.
apply: IH; rewrite /rb_pass all_cat all_map; apply/andP; split.
  by apply/allP => t /(allP h) /rb_step_weight /andP[].
elim: ts h {al} => //= t ts IH /andP[/rb_step_weight /andP[_ ht] /IH hs].
by rewrite all_cat ht.
Qed.

(* invariants of all terms *)
Lemma rb_loop_inv (P : rterm R -> bool) :
  (forall t, P t -> P (rb_step a t).1 && all P (rb_step a t).2) ->
  forall m ts ts', all P ts -> rb_loop a m ts = Some ts' -> all P ts'.
Proof.
move=> step; elim=> [|m IH] ts ts' h /=; case: ifP => // _; try by case=> <-.
apply: IH; rewrite /rb_pass all_cat all_map; apply/andP; split.
  by apply/allP => t /(allP h) /step /andP[].
elim: ts h => //= t ts IH' /andP[/step /andP[_ ht] /IH' hs].
by rewrite all_cat ht.
Qed.
Lemma rb_step_ok t : rb_ok t -> rb_ok (rb_step a t).1 && all rb_ok (rb_step a t).2.
Proof.
case: t => [[c l] [|]] //= h; first by rewrite andbT.
case: (reduce_basis_loopP l) => [so|p x q f El hf|p x y q f El yx hf] /=;
  rewrite /rb_ok ?andbT //=; by [exact/implyP | rewrite implybF].
Qed.
Definition rb_in (n : nat) t := all (fun i => i < n)%N t.1.2.
Lemma rb_step_in n t : rb_in n t -> rb_in n (rb_step a t).1 && all (rb_in n) (rb_step a t).2.
Proof.
case: t => [[c l] [|]] /=; rewrite /rb_in /=; first by move=> ->.
case: (reduce_basis_loopP l) => [so ->|p x q f El hf|p x y q f El yx hf] //=;
  rewrite El !all_cat /= ?andbT => /and4P[-> h1 h2 ->] //=; by rewrite h1 h2.
Qed.

Definition rb_merge (ts : seq (rterm R)) (acc : seq (R * seq nat)) :=
  foldl (fun acc (t : rterm R) => rb_add acc t.1.1 t.1.2) acc ts.
Lemma rb_add_keys (acc : seq (R * seq nat)) c l v :
  (v \in [seq t.2 | t <- rb_add acc c l]) = (v \in [seq t.2 | t <- acc]) || (v == l).
Proof.
elim: acc => [|[c' l'] acc IH] /=; first by rewrite inE.
case: (l' =P l) => [->|_] /=; rewrite !inE; last by rewrite IH orbA.
by case: (v == l); rewrite ?orbT ?orbF.
Qed.
Lemma rb_add_uniq (acc : seq (R * seq nat)) c l : uniq [seq t.2 | t <- acc] -> uniq [seq t.2 | t <- rb_add acc c l].
Proof.
elim: acc => [|[c' l'] acc IH] //=; case: (l' =P l) => //= ne /andP[nin u].
by rewrite rb_add_keys negb_or nin IH // andbT; apply/eqP.
Qed.
Lemma rb_merge_keys (ts : seq (rterm R)) acc v : (v \in [seq t.2 | t <- rb_merge ts acc]) =
  (v \in [seq t.2 | t <- acc]) || (v \in [seq t.1.2 | t <- ts]).
Proof.
elim: ts acc => [|t ts IH] acc /=; first by rewrite orbF.
by rewrite IH rb_add_keys inE orbA.
Qed.
Lemma rb_merge_uniq (ts : seq (rterm R)) acc : uniq [seq t.2 | t <- acc] ->
  uniq [seq t.2 | t <- rb_merge ts acc].
Proof. by elim: ts acc => //= t ts IH acc u; apply: IH; apply: rb_add_uniq. Qed.

Lemma inversions_le l : (inversions l <= size l * size l)%N.
Proof.
elim: l => //= x l IH; have := count_size (fun y => y < x)%N l; nlia.
Qed.

Lemma reduce_basis_total l : exists2 r, reduce_basis a l = Some r &
  [/\ uniq [seq t.2 | t <- r], all (fun t : R * seq nat => sorted ltn t.2) r &
      forall n, all (fun i => i < n)%N l -> all (fun t : R * seq nat => wfI n t.2) r].
Proof.
rewrite /reduce_basis; case: l => [|x0 l0]; first by exists [:: (1, [::])].
set l := x0 :: l0.
have w0 : all (fun t => rb_weight t <= rb_fuel l)%N [:: (1 : R, l, false)].
  rewrite /= andbT /rb_weight /rb_fuel.
  by rewrite -[X in (X <= _)%N]/((inversions l + size l).+1) ltnS leq_add2r inversions_le.
have [ts Ets al] := rb_loop_total w0; rewrite Ets /=; exists (rb_merge ts [::]) => //.
have so : forall t, t \in ts -> sorted ltn t.1.2.
  have h := rb_loop_inv rb_step_ok (erefl : all rb_ok [:: (1, l, false)]) Ets.
  by move=> t tt; have := allP h _ tt; rewrite /rb_ok (allP al _ tt).
have K (t : R * seq nat) : t \in rb_merge ts [::] -> exists2 u, u \in ts & t.2 = u.1.2.
  move=> tm; have := map_f (fun t : R * seq nat => t.2) tm; rewrite rb_merge_keys /=.
  by case/mapP=> u uts ->; exists u.
split.
- exact: rb_merge_uniq.
- by apply/allP => t /K [u uts ->]; apply: so.
- move=> n ln; apply/allP => t /K [u uts ->]; rewrite /wfI so //=.
  have i0 : all (rb_in n) [:: (1, l, false)] by rewrite /= andbT.
  exact: (allP (rb_loop_inv (@rb_step_in n) i0 Ets) _ uts).
Qed.
End Shape.

Section Value.
Variables (R : comUnitRingType) (two : (2%:R : R) \is a GRing.unit).
Variables (a : ga R) (A : algType R) (e : nat -> A).
Hypothesis rel : forall i j, e i * e j + e j * e i = (geff a i j *+ 2)%:A.

Lemma base_of_cat l m : base_of e (l ++ m) = base_of e l * base_of e m.
Proof. by elim: l => [|i l IH]; rewrite /= ?mul1r // -/(base_of e _) IH mulrA. Qed.
Lemma gen_sq i : e i * e i = (gij a i i)%:A.
Proof.
by rewrite -[LHS](halfV two) rel geffxx mulr2n scalerDl halfV.
Qed.
Lemma gen_swap i j : (i < j)%N -> e j * e i = - (e i * e j) + (2%:R * gij a i j)%:A.
Proof.
move=> ij; have := rel j i; rewrite geff_lt // => E.
by rewrite mulr_natl -E addrCA addNr addr0.
Qed.

Definition rb_val (ts : seq (rterm R)) : A := \sum_(t <- ts) t.1.1 *: base_of e t.1.2.

Lemma rb_step_val t : rb_val ((rb_step a t).1 :: (rb_step a t).2) = rb_val [:: t].
Proof.
case: t => [[c l] [|]] //=.
rewrite /rb_val; case: (reduce_basis_loopP a l) => [so|p x q f El hf|p x y q f El yx hf] /=;
  rewrite ?big_cons ?big_nil //= ?addr0 El !base_of_cat /= !mulrA.
  by rewrite -[_ * e x * e x]mulrA gen_sq; lalg R.
by rewrite -[_ * e x * e y]mulrA gen_swap //; lalg R.
Qed.
Lemma rb_pass_val ts : rb_val (rb_pass a ts) = rb_val ts.
Proof.
rewrite /rb_pass; elim: ts => [|t ts IH] //=.
have -> (h : rterm R) H s S : rb_val ((h :: H) ++ s ++ S) = rb_val (h :: s) + rb_val (H ++ S).
  by rewrite /rb_val !(big_cat, big_cons) /=; zmod.
rewrite rb_step_val IH /rb_val !big_cons big_nil; zmod.
Qed.
Lemma rb_loop_val m ts ts' : rb_loop a m ts = Some ts' -> rb_val ts' = rb_val ts.
Proof.
elim: m ts => [|m IH] ts /=; case: ifP => // _; try by case=> ->.
by move/IH; rewrite rb_pass_val.
Qed.
Lemma rb_merge_val ts acc : \sum_(t <- rb_merge ts acc) t.1 *: base_of e t.2 =
  \sum_(t <- acc) t.1 *: base_of e t.2 + rb_val ts.
Proof.
have add : forall (acc : seq (R * seq nat)) c l,
    \sum_(t <- rb_add acc c l) t.1 *: base_of e t.2 =
    \sum_(t <- acc) t.1 *: base_of e t.2 + c *: base_of e l.
  elim=> [|[c' l'] ac IH] c l /=; first by rewrite big_cons !big_nil addrC.
  case: (l' =P l) => [->|_]; rewrite !big_cons /=; first by rewrite scalerDl addrAC.
  by rewrite IH addrA.
elim: ts acc => [|t ts IH] acc /=; first by rewrite /rb_val big_nil addr0.
by rewrite IH add /rb_val big_cons addrA.
Qed.

Lemma reduce_basis_val l r : reduce_basis a l = Some r ->
  \sum_(t <- r) t.1 *: base_of e t.2 = base_of e l.
Proof.
rewrite /reduce_basis; case: l => [|x0 l0].
  by case=> <-; rewrite big_cons big_nil addr0 scale1r.
case E: rb_loop => [ts|] //= [<-].
rewrite -/(rb_merge ts [::]) rb_merge_val big_nil add0r (rb_loop_val E).
by rewrite /rb_val big_cons big_nil addr0 scale1r.
Qed.
End Value.
