(* Ga_Proof_Grade.v -- the grade functions of the model: grades, reverse,
   get_grade, even_odd, scalar_part *)
From mathcomp Require Import all_ssreflect all_algebra.
From Verif Require Import NatTac AlgTactics Exterior Clifford Blades Spec_Grade Grades.
From Verif Require Import Spec_Index PyBase Ga_Model Ga_Proof_Tables Ga_Proof_Sort Ga_Proof_Sem Ga_Proof_Reduce.
From Verif Require Import Ga_Sem Ga_Proof_Rep Ga_Proof_Conv Ga_Proof_Mul Spec_Clifford Clifford_Unique Spec_Mv Ga_Proof_Den Ga_Proof_Wedge Ga_Proof_Inner.
Set Implicit Arguments.
Unset Strict Implicit.
Unset Printing Implicit Defensive.
Import GRing.Theory.
Local Open Scope ring_scope.

Section Grade.
Variables (R : comUnitRingType) (two : (2%:R : R) \is a GRing.unit) (a : ga R).
Hypothesis wf : wf_ga a.
Notation n := (ga_n a).
Notation C := (cl two a).
Implicit Types (x y v : expr R) (w : word) (I J : seq nat) (t : R * word).

Lemma value_nil : value two a [::] = 0. Proof. exact: ev_nil. Qed.
Lemma value_canon x : value two a (canon x) = value two a x. Proof. exact: ev_canon. Qed.
Lemma value_cat x y : value two a (x ++ y) = value two a x + value two a y. Proof. exact: ev_cat. Qed.
Lemma value_eneg x : value two a (eneg x) = - value two a x. Proof. exact: ev_eneg. Qed.
Lemma value_escale c x : value two a (escale c x) = c *: value two a x. Proof. exact: ev_escale. Qed.
Lemma value_term c I : wfI n I -> value two a [:: (c, mk_blade I)] = c *: bl R (set_of n I).
Proof. by move=> wI; rewrite /value ev_cons ev_nil addr0 ev_mk_blade blade_wf. Qed.
Lemma value_const c : value two a [:: (c, [::])] = c *: bl R set0.
Proof.
rewrite (@value_term c [::]) //; congr (_ *: bl R _); apply/setP => i; by rewrite !inE.
Qed.

Lemma blade_canon x : blade_expr n x -> blade_expr n (canon x).
Proof. exact: all_words_canon. Qed.
Lemma blade_cat x y : blade_expr n (x ++ y) = blade_expr n x && blade_expr n y.
Proof. by rewrite /blade_expr words_cat all_cat. Qed.
Lemma base_cat x y : base_expr n (x ++ y) = base_expr n x && base_expr n y.
Proof. by rewrite /base_expr words_cat all_cat. Qed.
Lemma blade_mem x t : blade_expr n x -> t \in x -> exists2 I, wfI n I & t.2 = mk_blade I.
Proof. by move=> /allP h tx; apply/bladeP; apply: h; apply: map_f. Qed.

(* a term-wise linear map *)
Lemma value_flatten_map (F : {linear mval R n -> mval R n}) (h : R * word -> expr R) x :
  blade_expr n x ->
  (forall c I, wfI n I -> (c, mk_blade I) \in x ->
     blade_expr n (h (c, mk_blade I)) /\ value two a (h (c, mk_blade I)) = c *: F (bl R (set_of n I))) ->
  blade_expr n (flatten (map h x)) /\ value two a (flatten (map h x)) = F (value two a x).
Proof.
elim: x => [|[c w] x IH] bx H; first by split=> //; rewrite value_nil linear0.
have bx' : blade_expr n x by case/andP: bx.
have [|b1 v1] := IH bx'; first by move=> d I wI dx; apply: H => //; rewrite inE dx orbT.
have [I wI E] := blade_mem bx (mem_head _ _); rewrite /= in E.
have [|b2 v2] := H c I wI; first by rewrite E mem_head.
rewrite E /= blade_cat b2 b1; split=> //; rewrite value_cat v1 v2 /value ev_cons linearP /=.
by rewrite ev_mk_blade blade_wf.
Qed.

Lemma blade_first I : first_sym (mk_blade I) = mk_blade I.
Proof. by case: I. Qed.
Lemma value_blade0 x : blade_expr n x -> (canon x == [::]) = (value two a x == 0).
Proof.
move=> bx; apply/eqP/eqP => [E|E]; first by rewrite -value_canon E value_nil.
have := @value_perm _ two a x [::] bx isT; rewrite value_nil => /(_ E).
by move=> /perm_nilP.
Qed.

(* ---- get_grade ---- *)
Lemma ga_get_gradeP x r : blade_expr n x ->
  exists2 z, ga_get_grade a x r = Some z & [/\ blade_expr n z, canonical z &
     value two a z = gpart r (value two a x)].
Proof.
move=> bx; rewrite /ga_get_grade.
pose h t := if odflt 0%N (dget (blades_to_grades n) t.2) == r then [:: t] else [::].
have bl_ := linear_expand_blade bx.
rewrite (@omapM_some _ _ _ h); last first.
  by move=> t tx; have [I wI E] := blade_mem bl_ tx; rewrite /h E b2g_get.
have [|b1 v1] := @value_flatten_map [linear of @gpart R n r] h _ bl_.
  move=> c I wI _; rewrite /h b2g_get //= gpart_bl card_set_of //; case: eqP => _.
    by rewrite /blade_expr /= mk_blade_in // value_term.
  by rewrite value_nil scaler0.
eexists; [reflexivity|split].
- exact: blade_canon.
- exact: canonical_canon.
- by rewrite value_canon v1 value_linear_expand.
Qed.

(* ---- even_odd ---- *)
Definition parity_part (even : bool) : {linear mval R n -> mval R n} :=
  if even then [linear of @meven R n] else [linear of @modd R n].
Lemma ga_even_oddP x even : blade_expr n x ->
  exists2 z, ga_even_odd a x even = Some z & [/\ blade_expr n z, canonical z &
     value two a z = parity_part even (value two a x)].
Proof.
move=> bx; rewrite /ga_even_odd.
pose h t := if odd (odflt 0%N (dget (blades_to_grades n) t.2)) == ~~ even then [:: t] else [::].
have bl_ := blade_canon bx.
have par I : parity_part even (bl R (set_of n I)) =
    if odd #|set_of n I| == ~~ even then bl R (set_of n I) else 0.
  by rewrite /parity_part; case: even {h} => /=; apply/ffunP => S; rewrite ffunE bl_coef;
   case: (S =P set_of n I) => [->|/eqP/negbTE ne]; rewrite ?if_same;
   case: (odd #|set_of n I|); rewrite /= ?bl_coef ?eqxx ?ne ?ffunE.
rewrite (@omapM_some _ _ _ h); last first.
  move=> [c w] tx; have [I wI /= ->] := blade_mem bl_ tx; rewrite /h [(_, _).2]/= b2g_get //.
  by case: I wI => [|i I] wI; [case: even {h par}|rewrite -/(mk_blade (i :: I)) /= -/(mk_blade (i :: I)) b2g_get].
have [|b1 v1] := @value_flatten_map (parity_part even) h _ bl_.
  move=> c I wI _; rewrite /h b2g_get //= par card_set_of //; case: eqP => _.
    by rewrite /blade_expr /= mk_blade_in // value_term.
  by rewrite value_nil scaler0.
eexists; [reflexivity|split].
- exact: blade_canon.
- exact: canonical_canon.
- by rewrite value_canon v1 value_canon.
Qed.

(* ---- reverse ---- *)
Implicit Types (d : seq (nat * expr R)).
Definition dsum d : C := \sum_(kv <- d) value two a kv.2.
Definition dgood d := forall k v, List.In (k, v) d -> blade_expr n v /\ homog k (value two a v).
Lemma dset_step d k t : t.2 \in blades_flat n -> homog k (value two a [:: t]) -> dgood d ->
  let d' := if dget d k is Some v then dset d k (v ++ [:: t]) else dset d k [:: t] in
  dgood d' /\ dsum d' = dsum d + value two a [:: t].
Proof.
move=> bt ht; elim: d => [|[k' v'] d IH] gd /=.
  split; last by rewrite /dsum big_seq1 big_nil add0r.
  by move=> k0 v0 [[<- <-]|//]; split=> //; rewrite /blade_expr /= bt.
case: eqP => [E|ne].
  split; last by rewrite /dsum !big_cons /= value_cat addrAC.
  move=> k0 v0 /= [[<- <-]|h]; last by apply: gd; right.
  have [|b1 h1] := gd k' v'; first by left.
  rewrite blade_cat b1 /blade_expr /= bt; split=> //.
  by rewrite /homog value_cat linearD /= h1 E ht.
have [|g1 s1] := IH; first by move=> k0 v0 h; apply: gd; right.
have -> : (if dget d k is Some v then (k', v') :: dset d k (v ++ [:: t]) else (k', v') :: dset d k [:: t]) =
  (k', v') :: (if dget d k is Some v then dset d k (v ++ [:: t]) else dset d k [:: t]) by case: dget.
split; last by rewrite /dsum !big_cons /= -!/(dsum _) s1 addrA.
by move=> k0 v0 /= [[<- <-]|h]; [apply: gd; left|apply: g1].
Qed.
Lemma rev_loopP ts d : blade_expr n ts -> dgood d ->
  exists2 d', rev_loop n ts d = Some d' & dgood d' /\ dsum d' = dsum d + value two a ts.
Proof.
elim: ts d => [|[c w] ts IH] d bts gd; first by exists d => //; rewrite value_nil addr0.
have [I wI E] := blade_mem bts (mem_head _ _); rewrite /= in E.
have bts' : blade_expr n ts by case/andP: bts.
rewrite /= E; have -> : (if mk_blade I is [::] then Some 0%N else dget (blades_to_grades n) (first_sym (mk_blade I))) = Some (size I).
  by rewrite blade_first -(blade_grade wI).
rewrite /=.
have [||g1 s1] := @dset_step d (size I) (c, mk_blade I) _ _ gd.
- by rewrite /= mk_blade_in.
- by rewrite /homog value_term // linearZ /= gpart_bl card_set_of // eqxx.
have [d' -> [g2 s2]] := IH _ bts' g1; exists d' => //; split=> //.
by rewrite s2 s1 -addrA /value ev_cons ev_cons ev_nil addr0.
Qed.

Lemma ga_reverseP x : blade_expr n x ->
  exists2 z, ga_reverse a x = Some z & [/\ blade_expr n z, canonical z &
     value two a z = mrev (value two a x)].
Proof.
move=> bx; rewrite /ga_reverse; have [|d -> [gd sd]] := @rev_loopP (canon x) [::] (blade_canon bx).
  by [].
rewrite /=; set ls := [seq _ | _ <- _]; exists (canon (flatten ls)) => //.
have : blade_expr n (flatten ls) /\ value two a (flatten ls) = mrev (dsum d).
  rewrite {}/ls; elim: d {sd} gd => [|[k v] d IH] gd /=.
    by split=> //; rewrite value_nil /dsum big_nil linear0.
  have [|b1 v1] := IH; first by move=> k0 v0 h; apply: gd; right.
  have [|b2 h2] := gd k v; first by left.
  rewrite blade_cat b1 andbT value_cat v1 /dsum big_cons linearD /= -!/(dsum d) modn2 eqb0.
  have -> : mrev (value two a v) = (-1) ^+ odd ((k * (k - 1))./2) *: value two a v :> mval R n.
    by rewrite -{1}h2 mrev_gpart h2 signr_odd.
  case: odd; rewrite /= ?expr1 ?scaleN1r ?expr0 ?scale1r; split=> //.
    by rewrite /blade_expr words_eneg.
  by rewrite value_eneg.
case=> b1 v1; split; first exact: blade_canon.
  exact: canonical_canon.
by rewrite value_canon v1 sd /dsum big_nil add0r value_canon.
Qed.

(* ---- scalar_part ---- *)
Lemma scalar_partP x : blade_expr n x -> scalar_part x = (value two a x : mval R n) set0.
Proof.
move=> bx; have := @coef_value _ two a x [::] bx isT.
have -> : set_of n [::] = set0 by apply/setP => i; rewrite !inE.
move=> <-; rewrite -coef_canon /scalar_part /coef; elim: (canon x) => [|t l IH] /=.
  by rewrite big_nil.
by rewrite big_cons IH; case: t.2.
Qed.

(* ---- grades ---- *)
Definition grade_list (v : mval R n) : seq nat :=
  if v == 0 then [:: 0%N] else [seq k <- iota 0 n.+1 | gpart k v != 0].
Lemma ga_gradesP x : ok_expr a x -> ga_grades a x = Some (grade_list (value two a x)).
Proof.
move=> ox; rewrite /ga_grades.
have [y -> [b_y vy]] : exists2 y, base_to_blade_rep a x = Some y & blade_expr n y /\ value two a y = value two a x.
  case ort: (is_ortho a).
    exists x; rewrite ?/base_to_blade_rep ?ort //; split=> //.
    by apply: sub_all ox => w; rewrite /okw ort.
  have mx : mix_expr a x by apply: sub_all ox => w; rewrite /okw ort.
  have [y E [b_y _ vy]] := base_to_blade_nonortho two wf ort mx.
  by exists y => //; split=> //; rewrite /value vy //; exact: gen_rel.
rewrite -vy /grade_list -value_blade0 // [LET _ := _ IN _]/= {x ox vy}; have bc := blade_canon b_y.
case: eqP => [->|/eqP ne]; first by rewrite /= (@b2g_get n [::]).
have -> : (if canon y is [::] then [:: (0, [::])] else canon y) = canon y by case: (canon y) ne.
rewrite (@omapM_some _ _ _ (fun t => odflt 0%N (dget (blades_to_grades n) t.2))); last first.
  by move=> t tx; have [I wI ->] := blade_mem bc tx; rewrite blade_first b2g_get.
set gs := [seq _ | t <- _]; congr Some.
apply: (sorted_eq leq_trans anti_leq).
- exact: (sort_sorted leq_total).
- by apply: (sorted_filter leq_trans); exact: iota_sorted.
rewrite perm_sort; apply: uniq_perm; rewrite ?undup_uniq ?filter_uniq ?iota_uniq // => k.
rewrite mem_undup mem_filter mem_iota /= add0n.
have gp S : gpart k (value two a y) S = if #|S| == k then (value two a y : mval R n) S else 0 by rewrite ffunE.
apply/mapP/andP => [[t tx ->]|[/eqP nz kn]].
  have [I wI E] := blade_mem bc tx; rewrite E b2g_get //=.
  have sI : (size I < n.+1)%N by rewrite ltnS; apply: wfI_size.
  split=> //; apply/eqP => /ffunP/(_ (set_of n I)); rewrite !ffunE card_set_of // eqxx.
  rewrite -(@coef_value _ two a) // -coef_canon -E coef_uniq ?uniq_canon //.
  by move: (canon_neq0 tx) => /eqP.
have [S nzS] : exists S, gpart k (value two a y) S != 0.
  apply/existsP; apply: contraT; rewrite negb_exists => /forallP h; case: nz.
  by apply/ffunP => S; rewrite [RHS]ffunE; apply/eqP; have := h S; rewrite negbK.
move: nzS; rewrite gp; case: (#|S| =P k) => [kS|_]; last by rewrite eqxx.
rewrite -(list_ofK S) -(@coef_value _ two a) ?list_of_wf // -coef_canon => cn.
have : mk_blade (list_of S) \in words (canon y).
  by apply: contraNT cn => h; rewrite coef_notin.
by case/mapP=> t tx E; exists t => //; rewrite -E b2g_get ?list_of_wf //= size_list_of.
Qed.
Lemma mset0_scalar (v : mval R n) : (grade_list v == [:: 0%N]) = (gpart 0 v == v).
Proof.
rewrite /grade_list; case: (v =P 0) => [->|/eqP nz]; first by rewrite linear0 !eqxx.
apply/eqP/eqP => [E|E].
  rewrite [RHS]gpart_sum (bigD1 ord0) //= [X in _ = _ + X]big1 ?addr0 // => r nr.
  apply/eqP; apply: contraNT nr => h.
  have : val r \in [seq k <- iota 0 n.+1 | gpart k v != 0] by rewrite mem_filter h mem_iota /= add0n ltn_ord.
  by rewrite E inE => /eqP h'; apply/eqP/val_inj.
rewrite /= E nz (_ : filter _ _ = [::]) //; apply/eqP; rewrite -[_ == _]negbK -has_filter; apply/hasPn => k.
rewrite mem_iota => /andP[k0 _]; rewrite negbK -E gpart_gpart (gtn_eqF k0) eqxx //.
Qed.
Lemma mset1_vector (v : mval R n) : (grade_list v == [:: 1%N]) = (v != 0) && (gpart 1 v == v).
Proof.
rewrite /grade_list; case: (v =P 0) => [->|/eqP nz] //=.
apply/eqP/eqP => [E|E].
  rewrite [RHS]gpart_sum.
  have n1 : (1 < n.+1)%N.
    have : 1%N \in (if gpart 0 v != 0 then 0%N :: [seq k <- iota 1 n | gpart k v != 0] else [seq k <- iota 1 n | gpart k v != 0]).
      by rewrite E inE.
    by rewrite (_ : (if _ then _ else _) = [seq k <- iota 0 n.+1 | gpart k v != 0]) // mem_filter mem_iota => /andP[_].
  rewrite (bigD1 (Ordinal n1)) //= [X in _ = _ + X]big1 ?addr0 // => r nr.
  apply/eqP; apply: contraNT nr => h.
  have : val r \in [seq k <- iota 0 n.+1 | gpart k v != 0] by rewrite mem_filter h mem_iota /= add0n ltn_ord.
  by rewrite /= E inE => /eqP h'; apply/eqP/val_inj.
have n0 : (0 < n)%N.
  rewrite lt0n; apply: contraNneq nz => n0; rewrite -E; apply/eqP; apply: gpart_out; by rewrite n0.
have h0 : gpart 0 v = 0 by rewrite -E gpart_gpart.
rewrite h0 eqxx /= (_ : iota 1 n = 1%N :: iota 2 n.-1) /=; last by rewrite -[in LHS](prednK n0).
rewrite E nz (_ : filter _ _ = [::]) //.
apply/eqP; rewrite -[_ == _]negbK -has_filter; apply/hasPn => k.
by rewrite mem_iota => /andP[k0 _]; rewrite negbK -E gpart_gpart (gtn_eqF k0).
Qed.
End Grade.
