(* Props_Index.v -- properties C01-C04: basis enumeration, lookup tables,
   index reordering, the orthogonal product of basis blades. *)
From mathcomp Require Import all_ssreflect all_algebra.
From Verif Require Import Spec_Index PyBase Ga_Model Ga_Proof_Tables Ga_Proof_Sort.
Set Implicit Arguments.
Unset Strict Implicit.
Unset Printing Implicit Defensive.
Import GRing.Theory.
Local Open Scope ring_scope.

(* ---- C01 ---- *)
(* grade k of ga.indexes lists exactly the strictly increasing k-tuples *)
Theorem C01_indexes_grade_k n k I : (k <= n)%N ->
  (I \in nth [::] (indexes n) k) = wfI n I && (size I == k).
Proof. by move=> kn; rewrite indexes_nth // mem_comb_iota. Qed.
Print Assumptions C01_indexes_grade_k.

(* ... in lexicographic order (hence without repetition), C(n,k) of them,
   and there are grades 0..n only *)
Theorem C01_indexes_grade_k_order n k : (k <= n)%N ->
  [/\ pairwise lexlt (nth [::] (indexes n) k), uniq (nth [::] (indexes n) k),
      size (nth [::] (indexes n) k) = 'C(n, k) & size (indexes n) = n.+1].
Proof.
move=> kn; rewrite indexes_nth //; split.
- by apply: comb_lex; apply: iota_ltn_sorted.
- by apply: comb_uniq; apply: iota_uniq.
- by rewrite comb_size size_iota.
- by rewrite size_map size_iota.
Qed.
Print Assumptions C01_indexes_grade_k_order.

(* ga.blades has the same shape, with one symbol for every tuple, and the
   flat list has 2^n distinct entries *)
Theorem C01_blades n :
  [/\ blades_flat n = [seq mk_blade I | I <- indexes_flat n],
      injective mk_blade, uniq (blades_flat n), size (blades_flat n) = (2 ^ n)%N
    & forall I, (I \in indexes_flat n) = wfI n I].
Proof.
split; first exact: blades_flatE.
- exact: mk_blade_inj.
- by rewrite blades_flatE map_inj_uniq ?indexes_flat_uniq //; exact: mk_blade_inj.
- by rewrite blades_flatE size_map indexes_flat_size.
- exact: mem_indexes_flat.
Qed.
Print Assumptions C01_blades.

Theorem C01_blades_grade n k : (k <= n)%N ->
  nth [::] (blades n) k = [seq mk_blade I | I <- nth [::] (indexes n) k].
Proof. by move=> kn; rewrite (nth_map [::]) // size_map size_iota. Qed.
Print Assumptions C01_blades_grade.

Example C01_ex : nth [::] (indexes 4) 2 =
  [:: [:: 0; 1]; [:: 0; 2]; [:: 0; 3]; [:: 1; 2]; [:: 1; 3]; [:: 2; 3]]%N.
Proof. by []. Qed.

(* ---- C02 ---- *)
Theorem C02_lookup_bijection n I w :
  (dget (indexes_to_blades n) I = Some w) <-> (dget (blades_to_indexes n) w = Some I).
Proof. exact: lookup_bijection. Qed.
Print Assumptions C02_lookup_bijection.

Theorem C02_lookup_total n :
  (forall I, isSome (dget (indexes_to_blades n) I) = wfI n I) /\
  (forall w, isSome (dget (blades_to_indexes n) w) = (w \in blades_flat n)).
Proof. exact: lookup_total. Qed.
Print Assumptions C02_lookup_total.

Theorem C02_grade_is_length n I w : dget (indexes_to_blades n) I = Some w ->
  dget (blades_to_grades n) w = Some (size I).
Proof. exact: lookup_grade. Qed.
Print Assumptions C02_grade_is_length.

(* the same for the geometric-product symbols of non-orthogonal algebras *)
Theorem C02_lookup_bijection_bases n I w :
  (dget (indexes_to_bases n) I = Some w) <-> (dget (bases_to_indexes n) w = Some I).
Proof. exact: lookup_bijection_bases. Qed.
Print Assumptions C02_lookup_bijection_bases.

Example C02_ex : dget (blades_to_indexes 3) [:: (false, [:: 0; 2])]%N = Some [:: 0; 2]%N.
Proof. by []. Qed.

(* ---- C03 ---- *)
(* None models the returned pair (0, None); true models the sign -1 *)
Theorem C03_blade_reduce l :
  match blade_reduce l with
  | None => ~~ uniq l
  | Some (minus, l') =>
      [/\ uniq l, sorted ltn l', perm_eq l' l & minus = odd (inversions l)]
  end.
Proof. exact: blade_reduce_spec. Qed.
Print Assumptions C03_blade_reduce.

Example C03_ex : blade_reduce [:: 3; 1; 2]%N = Some (false, [:: 1; 2; 3]%N) /\
  blade_reduce [:: 2; 1; 0]%N = Some (true, [:: 0; 1; 2]%N) /\
  blade_reduce [:: 2; 1; 2]%N = None.
Proof. by []. Qed.

(* ---- C04 ---- *)
Theorem C04_orthogonal_product (R : comUnitRingType) (a : ga R) I J :
  wfI (ga_n a) I -> wfI (ga_n a) J ->
  mul_ortho a (mk_blade I) (mk_blade J) =
  Some [:: ((-1) ^+ crossings I J * \prod_(i <- I | i \in J) gij a i i,
            mk_blade (symdiff (ga_n a) I J))].
Proof. exact: mul_ortho_spec. Qed.
Print Assumptions C04_orthogonal_product.

Example C04_ex : let a := Ga 3 [:: [:: 2%:R; 0; 0]; [:: 0; 3%:R; 0]; [:: 0; 0; 5%:R]] : ga rat_comUnitRing in
  wfI (ga_n a) [:: 0; 2]%N && wfI (ga_n a) [:: 1; 2]%N &&
  (mul_ortho a (mk_blade [:: 0; 2]%N) (mk_blade [:: 1; 2]%N)
     == Some [:: (- 5%:R, mk_blade [:: 0; 1]%N)]).
Proof. by vm_compute. Qed.
