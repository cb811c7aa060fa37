(* Ga_Proof_Den.v -- the value of expressions in the Clifford algebra and
   their coefficients *)
From mathcomp Require Import all_ssreflect all_algebra.
From Verif Require Import NatTac AlgTactics Exterior Clifford Blades.
From Verif Require Import Spec_Index PyBase Ga_Model Ga_Proof_Tables Ga_Proof_Sort Ga_Proof_Sem Ga_Proof_Reduce.
From Verif Require Import Ga_Sem Ga_Proof_Rep Ga_Proof_Conv Ga_Proof_Mul Spec_Clifford Clifford_Unique Spec_Mv.
Set Implicit Arguments.
Unset Strict Implicit.
Unset Printing Implicit Defensive.
Import GRing.Theory.
Local Open Scope ring_scope.

Section Den.
Variables (R : comUnitRingType) (two : (2%:R : R) \is a GRing.unit) (a : ga R).
Hypothesis wf : wf_ga a.
Notation n := (ga_n a).
Notation g := (gen two a).
Implicit Types (x y v : expr R) (w : word) (I J : seq nat) (S T : {set 'I_n}).

Definition value x : cl two a := ev g x.
Lemma wf_rel : relA a g. Proof. exact: gen_rel. Qed.

Lemma value_mv_of x : blade_expr n x -> value x = mv_of n x.
Proof.
move=> bx; apply/ffunP => S; rewrite ffunE /value /ev sum_coef /coefficient.
rewrite [RHS]big_mkcond big_seq [RHS]big_seq; apply: eq_bigr => t tx.
rewrite scale_coef; have /bladeP [I wI E] := allP bx _ (map_f snd tx).
rewrite E ev_mk_blade blade_wf // bl_coef (inj_eq mk_blade_inj) -[idx_list S]/(list_of S).
rewrite -(inj_eq (@list_of_inj n)) set_ofK // eq_sym.
by case: eqP => _; rewrite ?mulr1 ?mulr0.
Qed.

Lemma coef_value x I : blade_expr n x -> wfI n I -> coef x (mk_blade I) = (value x : mval R n) (set_of n I).
Proof.
move=> bx wI; rewrite value_mv_of // ffunE; congr (coef x (mk_blade _)).
by rewrite -[idx_list _]/(list_of _) set_ofK.
Qed.

Lemma coef_blade_out x w : blade_expr n x -> w \notin blades_flat n -> coef x w = 0.
Proof. by move=> bx h; apply: coef_notin; apply/negP => /(allP bx); apply/negP. Qed.

Lemma value_inj x y : blade_expr n x -> blade_expr n y -> value x = value y ->
  coef x =1 coef y.
Proof.
move=> bx b_y E w; case: (boolP (w \in blades_flat n)) => [/bladeP [I wI ->]|h].
  by rewrite !coef_value // E.
by rewrite !coef_blade_out.
Qed.

Lemma value_perm x y : blade_expr n x -> blade_expr n y -> value x = value y ->
  perm_eq (canon x) (canon y).
Proof. by move=> bx b_y E; apply/canon_perm; exact: value_inj. Qed.

(* base symbols are independent too *)
Lemma base_ev0 v : base_expr n v -> canonical v -> value v = 0 -> v = [::].
Proof.
move=> /allP bv /andP[uv /allP nz] Ev.
have at_ T : (value v : mval R n) T = \sum_(t <- v) t.1 * (ev_word g t.2 : mval R n) T.
  by rewrite /value /ev sum_coef; apply: eq_bigr => t _; rewrite scale_coef.
have coefT J : wfI n J -> (forall K, mk_base K \in words v -> (size K <= size J)%N) ->
    (value v : mval R n) (set_of n J) = coef v (mk_base J).
  move=> wJ hK; rewrite at_ /coef [RHS]big_mkcond big_seq [RHS]big_seq; apply: eq_bigr => t tv.
  have /baseP [K wK EK] := bv _ (map_f snd tv).
  have {}hK : (size K <= size J)%N by apply: hK; rewrite -EK; apply: (map_f snd tv).
  rewrite EK ev_mk_base // (base_coef two wK wJ hK) (inj_eq mk_base_inj).
  by case: ifP; rewrite ?mulr1 ?mulr0.
have key d J : mk_base J \in words v -> (n - size J < d)%N -> False.
  elim: d J => // d IH J Jv nd.
  have wJ : wfI n J by apply: base_in_inv; apply: bv.
  have hK K : mk_base K \in words v -> (size K <= size J)%N.
    move=> Kv; rewrite leqNgt; apply/negP => lt; apply: (IH K Kv).
    have wK : wfI n K by apply: base_in_inv; apply: bv.
    have := wfI_size wK; move: nd lt; nlia.
  have := coefT J wJ hK; rewrite Ev ffunE.
  case/mapP: Jv => t tv Et; rewrite Et coef_uniq // => E.
  by have := nz _ tv; rewrite -E eqxx.
case: v bv {uv nz Ev at_ coefT} key => // t v bv key.
have /baseP [J wJ E] : t.2 \in bases_flat n by apply: bv; rewrite inE eqxx.
by case: (key (n - size J).+1 J) => //; rewrite -E inE eqxx.
Qed.

Lemma base_value_perm x y : base_expr n x -> base_expr n y -> value x = value y ->
  perm_eq (canon x) (canon y).
Proof.
move=> bx b_y E; apply/canon_perm => w.
have Z : canon (x ++ eneg y) = [::].
  apply: base_ev0; last by rewrite /value ev_canon ev_cat ev_eneg -!/(value _) E subrr.
    by apply: all_words_canon; rewrite words_cat words_eneg all_cat; apply/andP; split.
  exact: canonical_canon.
have := coef_canon (x ++ eneg y) w; rewrite Z coef_nil coef_cat coef_eneg.
by move=> /esym/eqP; rewrite subr_eq0 => /eqP.
Qed.

(* the meaning of mixed expressions *)
Variable mul : mval R n -> mval R n -> mval R n.
Hypothesis H : is_clifford_product (fun i j : 'I_n => geff a i j) mul.
Lemma mulE (x y : mval R n) : mul x y = (x : cl two a) * (y : cl two a).
Proof. exact: (@clifford_product_unique R n (ga_metric two a) mul H). Qed.

Lemma bvec_gen k : bvec R n k = g k.
Proof. by rewrite /bvec /gen; case: insub. Qed.
Lemma prodl_base (l : seq nat) : prodl mul [seq bvec R n k | k <- l] = base_of g l.
Proof. by elim: l => //= k l <-; rewrite bvec_gen mulE. Qed.
Lemma den_wordE w : okw a w -> den_word mul w = ev_word g w.
Proof.
move=> ok; have h : (w \in blades_flat n) || (w \in bases_flat n).
  by move: ok; rewrite /okw; case: ifP => // _ ->.
have bE I : wfI n I -> den_word mul (mk_blade I) = ev_word g (mk_blade I).
  move=> wI; rewrite ev_mk_blade blade_wf //; case: I wI => [|i I] wI.
    rewrite /den_word /=; congr (bl R _); apply/setP => i; by rewrite !inE.
  by rewrite /den_word /prodl /= mulE [LHS]mulr1.
case/orP: h => [/bladeP|/baseP] [I wI ->]; first exact: bE.
case: I wI => [|i [|j I]] wI; [exact: (bE [::]) | exact: (bE [:: i]) | ].
rewrite ev_mk_base // -prodl_base /den_word {1}/prodl /=.
by rewrite mulE [LHS]mulr1.
Qed.
Lemma denE x : ok_expr a x -> den mul x = value x.
Proof.
move=> ok; rewrite /den /value /ev big_seq [RHS]big_seq; apply: eq_bigr => t tx.
by rewrite den_wordE //; apply: (allP ok); apply: map_f.
Qed.
End Den.
