(* Clifford_Unique.v -- existence and uniqueness of the Clifford product *)
From mathcomp Require Import all_ssreflect all_algebra.
From Verif Require Import AlgTactics Exterior Clifford Blades Spec_Clifford.
Set Implicit Arguments.
Unset Strict Implicit.
Unset Printing Implicit Defensive.
Import GRing.Theory.
Local Open Scope ring_scope.

Section Exists.
Variables (R : comUnitRingType) (n : nat) (g : cmetric R n).
Notation ltI := (fun i j : 'I_n => (i < j)%N).

Lemma enum_cons (i : 'I_n) (S : {set 'I_n}) : (forall j, j \in S -> (i < j)%N) ->
  enum (i |: S) = i :: enum S.
Proof.
move=> h; have so : sorted ltI (i :: enum S).
  rewrite /= path_sortedE; last exact: ltI_trans.
  by rewrite enum_sorted andbT; apply/allP => j; rewrite mem_enum => /h.
rewrite -(enum_set_sorted so); suff -> : [set k in i :: enum S] = i |: S by [].
by apply/setP => j; rewrite !inE mem_enum.
Qed.

Theorem clifford_product_exists : is_clifford_product g (cmul g).
Proof.
pose C := [algType R of clifford g].
split.
- by move=> c x y z; apply: (cmul_linl g z c x y).
- by move=> c x y z; apply: (cmul_linr g z c x y).
- exact: (cmulA g).
- exact: (cmul1x g).
- exact: (cmulx1 g).
- exact: cgen_rel.
move=> i S h; have := cblade_enum g (i |: S); rewrite enum_cons // => <-.
by rewrite /cblade /= -!/(cblade _ _) cblade_enum -cardE.
Qed.
End Exists.

Section Algebra.
Variables (R : comUnitRingType) (n : nat) (g : cmetric R n).
Variable mul : mval R n -> mval R n -> mval R n.
Hypothesis H : is_clifford_product g mul.

Definition clp of is_clifford_product g mul := mval R n.
Local Notation A := (clp H).
Canonical clp_eqType := Eval hnf in [eqType of A].
Canonical clp_choiceType := Eval hnf in [choiceType of A].
Canonical clp_zmodType := Eval hnf in [zmodType of A].
Lemma clp_Dl : left_distributive mul +%R.
Proof. by move=> x y z; have := cl_linl H 1 x y z; rewrite !scale1r. Qed.
Lemma clp_Dr : right_distributive mul +%R.
Proof. by move=> x y z; have := cl_linr H 1 y z x; rewrite !scale1r. Qed.
Definition clp_ringMixin :=
  @RingMixin [zmodType of A] (bl R set0) mul (cl_assoc H) (cl_1l H) (cl_1r H)
   clp_Dl clp_Dr (one_neq0 R n).
Canonical clp_ringType := Eval hnf in RingType A clp_ringMixin.
Canonical clp_lmodType := Eval hnf in [lmodType R of A].
Lemma clp_scall (c : R) (x y : A) : c *: (x * y) = c *: x * y.
Proof.
have h0 : mul 0 y = 0 by exact: (mul0r (y : clp_ringType)).
by have := cl_linl H c x 0 y; rewrite addr0 h0 addr0 => E; symmetry; exact: E.
Qed.
Canonical clp_lalgType := Eval hnf in LalgType R A clp_scall.
Lemma clp_scalr (c : R) (x y : A) : c *: (x * y) = x * (c *: y).
Proof.
have h0 : mul x 0 = 0 by exact: (mulr0 (x : clp_ringType)).
by have := cl_linr H c y 0 x; rewrite addr0 h0 addr0 => E; symmetry; exact: E.
Qed.
Canonical clp_algType := Eval hnf in AlgType R A clp_scalr.

Definition clp_gen (i : 'I_n) : A := bl R [set i].
Lemma clp_rel i j : clp_gen i * clp_gen j + clp_gen j * clp_gen i = (g i j *+ 2)%:A.
Proof. exact: cl_vec H i j. Qed.

Lemma clp_blade (w : seq 'I_n) : sorted (fun i j : 'I_n => (i < j)%N) w ->
  blade_of clp_gen w = bl R [set k in w].
Proof.
elim: w => [|i w IH] so; first by congr (bl R _); apply/setP => k; rewrite !inE.
have so' := path_sorted so.
have al : forall j, j \in [set k in w] -> (i < j)%N.
  move=> j; rewrite inE => jw; move: so; rewrite /= path_sortedE; last exact: ltI_trans.
  by case/andP=> /allP h _; apply: h.
rewrite /= IH //; have -> : [set k in i :: w] = i |: [set k in w].
  by apply/setP => k; rewrite !inE.
rewrite (cl_blade H al); congr (_ *: (_ + _ *: _)); congr (_ ^+ _).
by rewrite -(enum_set_sorted so') -cardE enum_set_sorted.
Qed.

Lemma clp_map_id (x : clifford g) : cl_map clp_gen x = x.
Proof.
rewrite /cl_map [RHS]mval_decomp; apply: eq_bigr => S _; congr (_ *: _).
rewrite clp_blade ?enum_sorted //; congr (bl R _); apply/setP => k.
by rewrite inE mem_enum.
Qed.

Theorem clifford_product_unique x y : mul x y = cmul g x y.
Proof.
have h := cl_mapM clp_rel (x : clifford g) (y : clifford g).
rewrite !clp_map_id in h; symmetry; exact: h.
Qed.
End Algebra.
