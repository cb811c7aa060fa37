(* Props_Product.v -- properties C05, C06, C09: reduction of basis-vector
   words, the geometric product of expressions, and the two representations.

   [geff a i j] is the entry of the metric the code reads for the pair i, j:
   the one on or above the diagonal (metric.py requires symmetric input).
   [two] says that 1/2 is a scalar. *)
From mathcomp Require Import all_ssreflect all_algebra.
From Verif Require Import Exterior Clifford Blades Spec_Index PyBase Ga_Model.
From Verif Require Import Ga_Proof_Tables Ga_Proof_Sem Ga_Proof_Reduce Ga_Sem Ga_Proof_Rep Ga_Proof_Conv Ga_Proof_Mul.
From Verif Require Import Spec_Clifford Clifford_Unique Spec_Mv Ga_Proof_Den.
Set Implicit Arguments.
Unset Strict Implicit.
Unset Printing Implicit Defensive.
Import GRing.Theory.
Local Open Scope ring_scope.

(* ---- there is exactly one Clifford product for each metric ---- *)
Theorem C06_product_exists_unique (R : comUnitRingType) (n : nat) (g : 'I_n -> 'I_n -> R) :
  (2%:R : R) \is a GRing.unit -> (forall i j, g i j = g j i) ->
  exists mul, is_clifford_product g mul /\
    (forall mul', is_clifford_product g mul' -> forall x y, mul' x y = mul x y).
Proof.
move=> two sym; exists (cmul (CMetric sym two)); split.
  exact: (clifford_product_exists (CMetric sym two)).
by move=> mul' h x y; apply: (@clifford_product_unique R n (CMetric sym two) mul' h).
Qed.
Print Assumptions C06_product_exists_unique.

Section Props.
Variables (R : comUnitRingType) (two : (2%:R : R) \is a GRing.unit) (a : ga R).
Notation n := (ga_n a).
Implicit Types (x y : expr R).

(* ---- C05: reduction of words of basis vectors ---- *)
(* It terminates (the result is not None), the resulting index lists are
   distinct and strictly increasing and stay in range ... *)
Theorem C05_reduce_basis_total (l : seq nat) :
  exists r, [/\ reduce_basis a l = Some r, uniq [seq t.2 | t <- r],
              all (fun t => sorted ltn t.2) r &
              all (fun i => i < n)%N l -> all (fun t => wfI n t.2) r].
Proof.
have [r E [u so w]] := reduce_basis_total a l.
by exists r; split=> // h; apply: w.
Qed.
(* ... and the value is kept in every algebra satisfying the metric relations *)
Theorem C05_reduce_basis_value (A : algType R) (e : nat -> A) (l : seq nat) r :
  (forall i j, e i * e j + e j * e i = (geff a i j *+ 2)%:A) ->
  reduce_basis a l = Some r ->
  \prod_(i <- l) e i = \sum_(t <- r) t.1 *: \prod_(i <- t.2) e i.
Proof.
have P (w : seq nat) : \prod_(i <- w) e i = base_of e w.
  by elim: w => [|i w IH]; rewrite ?big_nil // big_cons IH.
move=> rel E; rewrite P -(reduce_basis_val two rel E).
by apply: eq_bigr => t _; rewrite P.
Qed.

(* ---- C06: Ga.mul computes the Clifford product ---- *)
Theorem C06_geometric_product (mul : mval R n -> mval R n -> mval R n) x y :
  wf_ga a -> is_clifford_product (fun i j : 'I_n => geff a i j) mul ->
  ok_expr a x -> ok_expr a y ->
  exists z, [/\ ga_mul a x y = Some z, blade_expr n z &
              mv_of n z = mul (den mul x) (den mul y)].
Proof.
move=> wf H ox oy; have [z E [bz _ vz]] := ga_mulP two wf ox oy.
exists z; split=> //; rewrite -(value_mv_of two bz) (mulE two H) !(denE two H) //.
by rewrite /value vz //; exact: gen_rel.
Qed.
(* on blade representations the meaning is just the coefficients *)
Theorem C06_meaning_of_blade_expr (mul : mval R n -> mval R n -> mval R n) x :
  is_clifford_product (fun i j : 'I_n => geff a i j) mul ->
  blade_expr n x -> ok_expr a x /\ den mul x = mv_of n x.
Proof.
move=> H bx; have ok := blade_ok bx; split=> //.
by rewrite (denE two H) // value_mv_of.
Qed.

(* ---- C09: base and blade representation ---- *)
Theorem C09_base_to_blade (mul : mval R n -> mval R n -> mval R n) x :
  wf_ga a -> is_clifford_product (fun i j : 'I_n => geff a i j) mul ->
  is_ortho a = false -> base_expr n x ->
  exists y z, [/\ base_to_blade_rep a x = Some y, blade_expr n y,
     mv_of n y = den mul x, blade_to_base_rep a y = Some z & perm_eq (canon z) (canon x)].
Proof.
move=> wf H no bx; have rel := gen_rel two wf.
have [y Ey [b_y _ vy]] := base_to_blade_nonortho two wf no (base_mix bx).
have [z Ez [bz _ vz]] := blade_to_base_nonortho two no (blade_mix b_y).
have ok : ok_expr a x by apply: sub_all bx => w; rewrite /okw no /= => ->; rewrite orbT.
exists y, z; split=> //.
  by rewrite -(value_mv_of two b_y) (denE two H) // /value vy.
by apply: (@base_value_perm _ two a) => //; rewrite /value vz // vy.
Qed.
Theorem C09_blade_to_base (mul : mval R n -> mval R n -> mval R n) x :
  wf_ga a -> is_clifford_product (fun i j : 'I_n => geff a i j) mul ->
  is_ortho a = false -> blade_expr n x ->
  exists y z, [/\ blade_to_base_rep a x = Some y, base_expr n y,
     den mul y = mv_of n x, base_to_blade_rep a y = Some z & perm_eq (canon z) (canon x)].
Proof.
move=> wf H no bx; have rel := gen_rel two wf.
have [y Ey [b_y _ vy]] := blade_to_base_nonortho two no (blade_mix bx).
have [z Ez [bz _ vz]] := base_to_blade_nonortho two wf no (base_mix b_y).
have ok : ok_expr a y by apply: sub_all b_y => w; rewrite /okw no /= => ->; rewrite orbT.
exists y, z; split=> //.
  by rewrite -(value_mv_of two bx) (denE two H) // /value vy.
by apply: (@value_perm _ two a) => //; rewrite /value vz // vy.
Qed.
End Props.
Print Assumptions C05_reduce_basis_total.
Print Assumptions C05_reduce_basis_value.
Print Assumptions C06_geometric_product.
Print Assumptions C06_meaning_of_blade_expr.
Print Assumptions C09_base_to_blade.
Print Assumptions C09_blade_to_base.

(* ---- the hypotheses are met, and the functions compute: the plane with
   e_0.e_0 = 1, e_0.e_1 = 3, e_1.e_1 = 2 over the rationals ---- *)
Definition ex_ga : ga rat_comUnitRing := @Ga rat_comUnitRing 2 [:: [:: 1; 3%:R]; [:: 3%:R; 2%:R]].
Example ex_two : (2%:R : rat) \is a GRing.unit. Proof. by []. Qed.
Example ex_wf : wf_ga ex_ga. Proof. by []. Qed.
Example ex_not_ortho : is_ortho ex_ga = false. Proof. by vm_compute. Qed.
Example C05_ex : reduce_basis ex_ga [:: 1; 0; 1]%N =
  Some [:: (- (2%:R : rat), [:: 0%N]); (6%:R : rat, [:: 1%N])].
Proof. by vm_compute. Qed.
(* e_1 * (e_0 ^ e_1) *)
Example C06_ex : exists z, ga_mul ex_ga [:: (1, [:: (false, [:: 1%N])])]
                                        [:: (1, [:: (false, [:: 0%N; 1%N])])] = Some z /\
  z = [:: (- (2%:R : rat), [:: (false, [:: 0%N])]); (3%:R : rat, [:: (false, [:: 1%N])])].
Proof. by eexists; split; vm_compute. Qed.
Example C09_ex : blade_expr 2 [:: (1 : rat, [:: (false, [:: 0; 1]%N)])] /\
  blade_to_base_rep ex_ga [:: (1 : rat, [:: (false, [:: 0; 1]%N)])] =
  Some [:: (1 : rat, [:: (true, [:: 0; 1]%N)]); (- (3%:R : rat), [::])].
Proof. by split; vm_compute. Qed.
