(* Ga_Proof_Conv.v -- conversion from the base to the blade representation:
   triangularity of basis products over basis blades, base_expansion_dict *)
From mathcomp Require Import all_ssreflect all_algebra.
From Verif Require Import NatTac AlgTactics Exterior Clifford Blades Spec_Grade Grades.
From Verif Require Import Spec_Index PyBase Ga_Model Ga_Proof_Tables Ga_Proof_Sort Ga_Proof_Sem Ga_Proof_Reduce Ga_Sem Ga_Proof_Rep.
Set Implicit Arguments.
Unset Strict Implicit.
Unset Printing Implicit Defensive.
Import GRing.Theory.
Local Open Scope ring_scope.

Section Tri.
Variables (R : comUnitRingType) (two : (2%:R : R) \is a GRing.unit) (a : ga R).
Hypothesis wf : wf_ga a.
Notation n := (ga_n a).
Notation g := (gen two a).
Implicit Types (x y v : expr R) (w : word) (I J : seq nat).

Lemma wfI_cons (i : nat) J : wfI n (i :: J) -> [/\ (i < n)%N, wfI n J & all (fun j => i < j)%N J].
Proof.
rewrite /wfI /= path_sortedE; last exact: ltn_trans.
by case/andP=> /andP[aJ ->] /andP[-> ->].
Qed.
Lemma low_gen m i (x : mval R n) : low m x -> low m.+1 (g i * (x : cl two a) : mval R n).
Proof.
move=> h; rewrite /gen; case: insubP => [k _ _|_]; last by rewrite mul0r => T _; rewrite ffunE.
rewrite cgen_mul /lmul; apply: low_add; first exact: low_wedge.
apply/(@low_leq _ _ m)/low_gcontr => //; exact: low_leq h.
Qed.

Lemma base_tri I : wfI n I ->
  exists2 y : mval R n, base_of g I = bl R (set_of n I) + y & low (size I) y.
Proof.
elim: I => [|i J IH] wI.
  exists 0; last by move=> T _; rewrite ffunE.
  by rewrite addr0; congr (bl R _); apply/setP => k; rewrite !inE.
have [ni wJ aJ] := wfI_cons wI; have [y Ey ly] := IH wJ.
pose i' := Ordinal ni.
exists (gcontr (ga_metric two a) i' (bl R (set_of n J)) + (g i * (y : cl two a) : mval R n)).
  rewrite /= -/(base_of g J) Ey mulrDr addrA; congr (_ + _).
  have -> : g i = cgen _ i' by rewrite -gen_ord.
  rewrite cgen_mul /lmul; congr (_ + _); rewrite wedge_op_bl /Wb inE /=.
  have iJ : (i \in J) = false by apply/negbTE/negP => /(allP aJ); rewrite ltnn.
  rewrite iJ; have -> : nlt i' (set_of n J) = 0%N.
    apply/eqP; rewrite cards_eq0; apply/eqP/setP => k; rewrite !inE /=.
    by apply/negbTE/negP => /andP[/(allP aJ) h1]; rewrite ltnNge ltnW.
  by rewrite scale1r; congr (bl R _); apply/setP => k; rewrite !inE.
apply: low_add; last exact: low_gen.
apply/(@low_leq _ _ (size J))/low_gcontr; first exact: leqnSn.
by rewrite -(card_set_of wJ); exact: low_bl.
Qed.

Lemma base_coef I J : wfI n I -> wfI n J -> (size I <= size J)%N ->
  base_of g I (set_of n J) = (I == J)%:R.
Proof.
move=> wI wJ h; have [y -> ly] := base_tri wI.
rewrite ffunE bl_coef ly ?card_set_of // addr0; congr (_%:R).
by congr nat_of_bool; apply/eqP/eqP => [/(set_of_inj wJ wI) ->|->].
Qed.

(* a canonical combination of basis products that equals the blade e_I has
   leading term e_I with coefficient 1 and otherwise shorter products *)
Lemma tri_extract v I : base_expr n v -> canonical v -> wfI n I ->
  ev g v = bl R (set_of n I) ->
  coef v (mk_base I) = 1 /\
  (forall J, mk_base J \in words v -> J = I \/ (size J < size I)%N).
Proof.
move=> /allP bv /andP[uv /allP nz] wI Ev.
have at_ T : ev g v T = \sum_(t <- v) t.1 * (ev_word g t.2 : mval R n) T.
  by rewrite /ev sum_coef; apply: eq_bigr => t _; rewrite scale_coef.
have coefT J : wfI n J -> (forall K, mk_base K \in words v -> K = J \/ (size K <= size J)%N) ->
    ev g v (set_of n J) = coef v (mk_base J).
  move=> wJ hK; rewrite at_ /coef [RHS]big_mkcond big_seq [RHS]big_seq; apply: eq_bigr => t tv.
  have /baseP [K wK EK] := bv _ (map_f snd tv).
  have {}hK : (size K <= size J)%N.
    by have [|->|//] := hK K; rewrite ?leqnn // -EK; apply: (map_f snd tv).
  rewrite EK ev_mk_base // base_coef // (inj_eq mk_base_inj).
  by case: ifP; rewrite ?mulr1 ?mulr0.
have key d J : mk_base J \in words v -> (size I <= size J)%N -> J <> I ->
    (n - size J < d)%N -> False.
  elim: d J => // d IH J Jv IJ JI nd.
  have wJ : wfI n J by apply: base_in_inv; apply: bv.
  have hK K : mk_base K \in words v -> K = J \/ (size K <= size J)%N.
    move=> Kv; have [|lt] := leqP (size K) (size J); first by right.
    exfalso; apply: (IH K Kv).
    - exact: leq_trans IJ (ltnW lt).
    - by move=> E; move: lt; rewrite E ltnNge IJ.
    - have wK : wfI n K by apply: base_in_inv; apply: bv.
      have := wfI_size wK; move: nd lt; nlia.
  have := coefT J wJ hK; rewrite Ev bl_coef; case: eqP => [E|_].
    by case: JI; apply: set_of_inj E.
  case/mapP: Jv => t tv Et; rewrite Et coef_uniq // => E.
  by have := nz _ tv; rewrite -E eqxx.
have part2 J : mk_base J \in words v -> J = I \/ (size J < size I)%N.
  move=> Jv; case: (J =P I) => [->|ne]; first by left.
  by right; rewrite ltnNge; apply/negP => IJ; apply: (key (n - size J).+1 J).
split=> //; rewrite -coefT //; first by rewrite Ev bl_coef eqxx.
by move=> K /part2 [->|/ltnW]; [left|right].
Qed.

Lemma ev_nc_subs_gen (A : algType R) (e : nat -> A) x d :
  ev e (nc_subs x d) = \sum_(t <- x) t.1 *:
    (if t.2 is [::] then 1 else if dget d t.2 is Some v then ev e v else ev_word e t.2).
Proof.
rewrite /nc_subs ev_canon ev_flatten big_map; apply: eq_bigr => t _.
case E: t.2 => [|s w]; first by rewrite ev_cons ev_nil addr0 E /ev_word big_nil.
by case D: dget => [v|]; rewrite ?ev_escale // ev_cons ev_nil addr0 E.
Qed.

Definition bsd_ok (pre : seq (seq nat)) (d : seq (word * expr R)) :=
  (forall I, I \in pre -> isSome (dget d (mk_base I))) /\
  (forall w v, dget d w = Some v -> exists I, [/\ I \in pre, w = mk_base I, blade_expr n v,
     canonical v & ev_eqw a v w]).

Lemma bsd_stepP bed pre I post d : bed_ok a (indexes_flat n) bed ->
  indexes_flat n = pre ++ I :: post -> bsd_ok pre d ->
  exists2 d', bsd_step a bed (Some d) I = Some d' & bsd_ok (rcons pre I) d'.
Proof.
move=> [bdom bval] Efl [dom val].
have Iin : I \in indexes_flat n by rewrite Efl mem_cat mem_head orbT.
have wI : wfI n I by rewrite -mem_indexes_flat.
have fin v : blade_expr n v -> canonical v -> ev_eqw a v (mk_base I) ->
    bsd_ok (rcons pre I) (dset d (mk_base I) v).
  move=> bv cv ev_; split=> [J|w u].
    rewrite mem_rcons inE dget_dset; case: (J =P I) => [->|_ /= /dom]; first by rewrite eqxx.
    by case: ifP.
  rewrite dget_dset; case: eqP => [<- [<-]|_ /val [J [Jp -> h1 h2 h3]]].
    by exists I; rewrite mem_rcons mem_head.
  by exists J; rewrite mem_rcons inE Jp orbT.
rewrite /bsd_step /=; case: ifP => sI.
  eexists; [reflexivity|apply: fin].
  - by rewrite /blade_expr /= andbT -blade_base_small // mk_blade_in.
  - by rewrite /canonical /= oner_neq0.
  - by move=> A e rel; rewrite ev_cons ev_nil addr0 scale1r.
have {}sI : (1 < size I)%N by rewrite ltnNge sI.
have := bdom I Iin; case D: dget => [tmp|] //= _.
have [I' [_ _ bt ct et]] := bval _ _ D.
have [c1 lowt] := tri_extract bt ct wI (etrans (et _ _ (gen_rel two wf))
   (etrans (ev_mk_blade _ _) (blade_wf two wI))).
set tmp1 := nc_subs tmp _; set tmp2 := nc_subs tmp1 d.
(* words of tmp1: the blade itself, or shorter basis products *)
have w1 w : w \in words tmp1 -> w = mk_blade I \/
    exists2 J, (size J < size I)%N & wfI n J /\ w = mk_base J.
  move: w; have: all (fun w => (w == mk_blade I) || [exists k : 'I_(size (indexes_flat n)),
      (size (nth [::] (indexes_flat n) k) < size I)%N && (w == mk_base (nth [::] (indexes_flat n) k))])
      (words tmp1).
    have sh J : (size J < size I)%N -> wfI n J ->
        [exists k : 'I_(size (indexes_flat n)), (size (nth [::] (indexes_flat n) k) < size I)%N &&
          (mk_base J == mk_base (nth [::] (indexes_flat n) k))].
      move=> lt wJ; have Jin : J \in indexes_flat n by rewrite mem_indexes_flat.
      have ix := Jin; rewrite -index_mem in ix.
      by apply/existsP; exists (Ordinal ix); rewrite /= nth_index // lt eqxx.
    apply: all_words_nc_subs => [t tt _|_].
      have /baseP [J wJ EJ] := allP bt _ (map_f snd tt).
      have tw := map_f snd tt; rewrite EJ in tw.
      rewrite /= EJ (inj_eq mk_base_inj) eq_sym; case: (J =P I) => [_|ne] /=.
        by rewrite eqxx.
      by have [//|lt] := lowt _ tw; rewrite sh ?orbT.
    by rewrite (sh [::]) ?orbT // ltnW.
  move/allP => h w /h /orP [/eqP ->|]; first by left.
  case/existsP=> k /andP[lt /eqP ->]; right; eexists; first exact: lt.
  by split=> //; rewrite -mem_indexes_flat mem_nth.
eexists; [reflexivity|apply: fin].
- apply: all_words_canon; rewrite words_eneg; apply: all_words_nc_subs => [t tt _|_]; last first.
    exact: (@mk_blade_in n [::]).
  have tw := map_f snd tt; case: (w1 _ tw) => [->|[J lt [wJ ->]]].
    case D2: dget => [v|]; last exact: mk_blade_in.
    by have [J [_ E _ _ _]] := val _ _ D2; have := blade_neq_base J sI; rewrite E eqxx.
  have := dom J (indexes_flat_order Efl wJ lt); case D2: dget => [v|] // _.
  by have [J' []] := val _ _ D2.
- exact: canonical_canon.
move=> A e rel; rewrite ev_canon ev_eneg ev_nc_subs; last first.
  by move=> w v /val [J [_ _ _ _ ->]].
rewrite ev_nc_subs_gen.
have base_nil : mk_base I != [::] by case: (I) sI => [|? []].
have -> : \sum_(t <- tmp) t.1 *: (if t.2 is [::] then 1 else
    if dget [:: (mk_base I, [:: (-1, mk_blade I)])] t.2 is Some v then ev e v else ev_word e t.2) =
  \sum_(t <- tmp) (t.1 *: ev_word e t.2
    + (if t.2 == mk_base I then t.1 else 0) *: (- ev_word e (mk_blade I) - ev_word e (mk_base I))).
  apply: eq_bigr => t _ /=; rewrite (eq_sym t.2); case: eqP => [<-|_] /=.
    case: (mk_base I) base_nil => // s w _.
    by rewrite ev_cons ev_nil /= addr0 scaleN1r; lmod R.
  by rewrite scale0r addr0; case: t.2 => [|s w] //; rewrite /ev_word big_nil.
rewrite big_split /= -scaler_suml -big_mkcond -/(coef tmp (mk_base I)) c1 scale1r.
by rewrite -/(ev e tmp) (et _ _ rel) opprD opprB opprK addrC; zmod.
Qed.

Lemma base_expansion_dictP : exists2 d, base_expansion_dict a = Some d &
  bsd_ok (indexes_flat n) d.
Proof.
rewrite /base_expansion_dict; have [bed -> okb] := blade_expansion_dictP two a.
rewrite /=; pose P pre od := exists2 d, od = Some d & bsd_ok pre d.
apply: (@foldl_prefix_inv _ _ P) => [|pre I post s E [d -> ok]].
  by exists [::] => //; split.
exact: bsd_stepP E ok.
Qed.

(* expressions mixing both kinds of symbols *)
Definition mix_expr x := all (fun w => (w \in blades_flat n) || (w \in bases_flat n)) (words x).
Lemma blade_mix x : blade_expr n x -> mix_expr x.
Proof. by move=> h; apply: sub_all h => w /= ->. Qed.
Lemma base_mix x : base_expr n x -> mix_expr x.
Proof. by move=> h; apply: sub_all h => w /= ->; rewrite orbT. Qed.

Lemma base_to_blade_nonortho x : is_ortho a = false -> mix_expr x ->
  exists2 y, base_to_blade_rep a x = Some y &
   [/\ blade_expr n y, canonical y &
    forall (A : algType R) (e : nat -> A),
    (forall i j, e i * e j + e j * e i = (geff a i j *+ 2)%:A) -> ev e y = ev e x].
Proof.
move=> no mx; rewrite /base_to_blade_rep no; have [d -> [dom val]] := base_expansion_dictP.
exists (nc_subs (canon x) d) => //; split; last first.
- by move=> A e rel; rewrite ev_nc_subs ?ev_canon // => w v /val [J [_ _ _ _ ->]].
- exact: canonical_canon.
apply: all_words_nc_subs => [t tt _|_]; last exact: (@mk_blade_in n [::]).
have := allP mx _ (words_canon (map_f snd tt)) => /orP h.
case D: dget => [v|]; first by have [J []] := val _ _ D.
case: h => // /baseP [J wJ E]; move: (dom J); rewrite mem_indexes_flat => /(_ wJ).
by rewrite -E D.
Qed.
Lemma blade_to_base_nonortho x : is_ortho a = false -> mix_expr x ->
  exists2 y, blade_to_base_rep a x = Some y &
   [/\ base_expr n y, canonical y &
    forall (A : algType R) (e : nat -> A),
    (forall i j, e i * e j + e j * e i = (geff a i j *+ 2)%:A) -> ev e y = ev e x].
Proof.
move=> no mx; rewrite /blade_to_base_rep no; have [d -> [dom val]] := blade_expansion_dictP two a.
exists (nc_subs (canon x) d) => //; split; last first.
- by move=> A e rel; rewrite ev_nc_subs ?ev_canon // => w v /val [J [_ _ _ _ ->]].
- exact: canonical_canon.
apply: all_words_nc_subs => [t tt _|_]; last exact: (@mk_base_in n [::]).
have := allP mx _ (words_canon (map_f snd tt)) => /orP h.
case D: dget => [v|]; first by have [J []] := val _ _ D.
case: h => // /bladeP [J wJ E]; move: (dom J); rewrite mem_indexes_flat => /(_ wJ).
by rewrite -E D.
Qed.
End Tri.
