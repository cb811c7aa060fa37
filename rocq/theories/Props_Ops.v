(* Props_Ops.v -- property C68: a number as an operand of a binary operator.

   [operate a op x y] is Python's x op y, with the dispatch on numbers and the reflected
   methods (Ops_Model.v); [OMv X] is a multivector and [ONum c] a number.  [meaning] is
   the mathematical operation on the values, where a number c stands for the multivector
   c1.  [same_outcome r s]: both raise an exception, or both return and == is True. *)
From mathcomp Require Import all_ssreflect all_algebra.
From Verif Require Import NatTac AlgTactics Exterior Clifford Blades Spec_Grade Grades GradeLaws.
From Verif Require Import Spec_Index PyBase Ga_Model Ga_Proof_Tables Ga_Proof_Sort Ga_Proof_Sem Ga_Proof_Reduce.
From Verif Require Import Ga_Sem Ga_Proof_Rep Ga_Proof_Conv Ga_Proof_Mul Spec_Clifford Clifford_Unique Spec_Mv Ga_Proof_Den Ga_Proof_Wedge Ga_Proof_Inner.
From Verif Require Import Ga_Proof_Grade Mv_Model Mv_Proof Mv_Expr Mv_Proof_Expr Props_Mv Ops_Model.
Set Implicit Arguments.
Unset Strict Implicit.
Unset Printing Implicit Defensive.
Import GRing.Theory.
Local Open Scope ring_scope.

Section Spec.
Variables (R : comUnitRingType) (a : ga R).
Notation n := (ga_n a).
Variable mul : mval R n -> mval R n -> mval R n.
Definition meaning (op : binop) (x y : mval R n) : mval R n :=
  match op with
  | OAdd => x + y
  | OSub => x - y
  | OMul => mul x y
  | OWedge => ext x y
  | ODot => selprod mul hestenes_grade x y
  | OLt => selprod mul left_grade x y
  | OGt => selprod mul right_grade x y
  | OLsh => 2%:R^-1 *: (mul x y + mul y x)
  | ORsh => 2%:R^-1 *: (mul x y - mul y x)
  | ODiv => 0 (* see C68_division *)
  end.
Definition stands_for (x : operand R) : mval R n :=
  match x with OMv X => den mul (obj X) | ONum c => c *: bl R set0 end.
Definition same_outcome (r s : option (mv R)) : Prop :=
  match r, s with
  | Some X, Some Y => mv_eq a X Y = Some true
  | None, None => True
  | _, _ => False
  end.
Definition operand_ok (x : operand R) : bool := if x is OMv X then mv_valid a X else true.
(* the multivector contracted on to a number by < and > is in blade representation *)
Definition contracts_blades (op : binop) (x y : operand R) : bool :=
  match op, x, y with
  | OLt, OMv X, ONum _ | OGt, ONum _, OMv X => blade_form a X
  | _, _, _ => true
  end.
Definition some_mv (x y : operand R) : bool := match x, y with ONum _, ONum _ => false | _, _ => true end.
End Spec.

Section Ops.
Variables (R : comUnitRingType) (two : (2%:R : R) \is a GRing.unit) (a : ga R).
Hypothesis wf : wf_ga a.
Notation n := (ga_n a).
Notation C := (cl two a).
Implicit Types (X Y Z : mv R) (c : R).
Let cm : mval R n -> mval R n -> mval R n := cmul (ga_metric two a).
Notation num c := (c *: bl R (set0 : {set 'I_n})).

Lemma gpart_num (r : nat) c : gpart r (num c) = if r == 0%N then num c else 0 :> mval R n.
Proof. by rewrite linearZ /= gpart_bl cards0 eq_sym; case: eqP => //; rewrite scaler0. Qed.
Lemma selprod_numr mul f c (x : mval R n) :
  (forall z, mul z (num c) = c *: z) -> (forall z, mul z 0 = 0) ->
  selprod mul f x (num c) = \sum_(r < n.+1) (if f r 0%N is Some k then c *: gpart k (gpart r x) else 0).
Proof.
move=> mc m0; apply: eq_bigr => r _; rewrite (bigD1 ord0) //= big1 ?addr0 => [|s ns].
  by rewrite gpart_num /=; case: (f r 0%N) => // k; rewrite mc linearZ.
have /negbTE s0 : (s : nat) != 0%N by [].
by rewrite gpart_num s0 m0; case: (f r s) => // k; rewrite raddf0.
Qed.
Lemma selprod_numl mul f c (y : mval R n) :
  (forall z, mul (num c) z = c *: z) -> (forall z, mul 0 z = 0) ->
  selprod mul f (num c) y = \sum_(s < n.+1) (if f 0%N s is Some k then c *: gpart k (gpart s y) else 0).
Proof.
move=> mc m0; rewrite /selprod exchange_big; apply: eq_bigr => s _; rewrite (bigD1 ord0) //= big1 ?addr0 => [|r nr].
  by rewrite gpart_num /=; case: (f 0%N s) => // k; rewrite mc linearZ.
have /negbTE r0 : (r : nat) != 0%N by [].
by rewrite gpart_num r0 m0; case: (f r s) => // k; rewrite raddf0.
Qed.

Lemma sum_all c (x : mval R n) : \sum_(r < n.+1) c *: gpart r (gpart r x) = c *: x.
Proof. by rewrite {2}[x]gpart_sum scaler_sumr; apply: eq_bigr => r _; rewrite gpart_gpart eqxx. Qed.
Lemma num_meaning mul op c (x : mval R n) :
  is_clifford_product (fun i j : 'I_n => geff a i j) mul ->
  (meaning mul op x (num c) = match op with
     OAdd => x + num c | OSub => x - num c | OMul | OWedge | OGt | OLsh => c *: x
   | ODot | ORsh | ODiv => 0 | OLt => num (c * x set0) end) /\
  (meaning mul op (num c) x = match op with
     OAdd => x + num c | OSub => num c - x | OMul | OWedge | OLt | OLsh => c *: x
   | ODot | ORsh | ODiv => 0 | OGt => num (c * x set0) end).
Proof.
move=> H.
have m0r z : mul z 0 = 0 by have := cl_linr H (-1) 0 0 z; rewrite scaler0 addr0 scaleN1r addNr.
have m0l z : mul 0 z = 0 by have := cl_linl H (-1) 0 0 z; rewrite scaler0 addr0 scaleN1r addNr.
have mr z : mul z (num c) = c *: z by have := cl_linr H c (bl R set0) 0 z; rewrite addr0 m0r addr0 (cl_1r H).
have ml z : mul (num c) z = c *: z by have := cl_linl H c (bl R set0) 0 z; rewrite addr0 m0l addr0 (cl_1l H).
have h2 (z : mval R n) : 2%:R^-1 *: (z + z) = z by rewrite -mulr2n -scaler_nat scalerA mulVr // scale1r.
have only0 : \sum_(r < n.+1) (if (r <= 0)%N then c *: gpart (0 - r) (gpart r x) else 0) = num (c * x set0).
  rewrite (bigD1 ord0) //= big1 ?addr0 => [|[[|r] hr] //].
  by rewrite gpart_gpart eqxx scal_gpart scalerA.
case: op => /=; split=> //.
- by rewrite addrC.
- by rewrite (extZr two) (ext1r two).
- by rewrite (extZl two) (ext1l two).
- by rewrite (selprod_numr _ _ mr m0r) big1 // => r _; rewrite /hestenes_grade orbT.
- by rewrite (selprod_numl _ _ ml m0l) big1.
- rewrite (selprod_numr _ _ mr m0r) -only0; apply: eq_bigr => r _; rewrite /left_grade.
  by case: (leqP r 0) => //.
- rewrite (selprod_numl _ _ ml m0l) -sum_all; apply: eq_bigr => r _; by rewrite /left_grade /= subn0.
- rewrite (selprod_numr _ _ mr m0r) -sum_all; apply: eq_bigr => r _; by rewrite /right_grade /= subn0.
- rewrite (selprod_numl _ _ ml m0l) -only0; apply: eq_bigr => r _; rewrite /right_grade.
  by case: (leqP r 0) => //.
- by rewrite mr ml h2.
- by rewrite mr ml h2.
- by rewrite mr ml subrr scaler0.
- by rewrite mr ml subrr scaler0.
Qed.

(* ---- C68: every operator but / means the same with a number as with c1 ---- *)
Theorem C68_meaning mul op (x y : operand R) :
  is_clifford_product (fun i j : 'I_n => geff a i j) mul ->
  operand_ok a x -> operand_ok a y -> some_mv x y -> contracts_blades a op x y -> op <> ODiv ->
  exists Z, [/\ operate a op x y = Some Z, mv_valid a Z &
                den mul (obj Z) = meaning mul op (stands_for mul x) (stands_for mul y)].
Proof.
move=> H.
have go (p : py R) r v : legal a p -> run a p = r -> sem mul p = v ->
    exists Z, [/\ r = Some Z, mv_valid a Z & den mul (obj Z) = v].
  move=> lp <- <-; have [X E [oX vX _]] := run_yields two wf H lp; exists X; split=> //; first by rewrite mv_validE.
  by rewrite -vX (den_ok two H).
have sc X : mv_valid a X -> blade_form a X -> mv_scalar X = (den mul (obj X)) set0.
  by rewrite mv_validE => oX bX; rewrite (mv_scalarP two oX bX) (den_ok two H).
case: x y => [X|c] [Y|d] //= hX hY _ cb nd.
- case: op cb nd => // _ _ /=.
  + by apply: (go (Add X Y)); rewrite //= hX.
  + by apply: (go (Sub X Y)); rewrite //= hX.
  + by apply: (go (Mul X Y)); rewrite //= hX.
  + by apply: (go (Wedge X Y)); rewrite //= hX.
  + by apply: (go (Dot X Y)); rewrite //= hX.
  + by apply: (go (LC X Y)); rewrite //= hX.
  + by apply: (go (RC X Y)); rewrite //= hX.
  + by apply: (go (Anticom X Y)); rewrite //= hX.
  + by apply: (go (Com X Y)); rewrite //= hX.
- rewrite (proj1 (num_meaning op d (den mul (obj X)) H)); case: op cb nd => //= cb _.
  + exact: (go (AddC X d)).
  + exact: (go (SubC X d)).
  + exact: (go (Scale d X)).
  + exact: (go (Scale d X)).
  + by apply: (go (Num 0)) => //=; rewrite /Mv_Expr.num scale0r.
  + by apply: (go (Num (d * mv_scalar X))) => //=; rewrite sc.
  + exact: (go (Scale d X)).
  + apply: (go (Scale (half R) (Add (Scale d X) (Scale d X)))) => //=; first by rewrite hX.
    by rewrite -mulr2n -scaler_nat scalerA mulVr // scale1r.
  + apply: (go (Scale (half R) (Sub (Scale d X) (Scale d X)))) => //=; first by rewrite hX.
    by rewrite subrr scaler0.
- rewrite (proj2 (num_meaning op c (den mul (obj Y)) H)); case: op cb nd => //= cb _.
  + exact: (go (AddC Y c)).
  + exact: (go (RSubC c Y)).
  + exact: (go (Scale c Y)).
  + exact: (go (Scale c Y)).
  + by apply: (go (Num 0)) => //=; rewrite /Mv_Expr.num scale0r.
  + exact: (go (Scale c Y)).
  + by apply: (go (Num (c * mv_scalar Y))) => //=; rewrite sc.
  + apply: (go (Scale (half R) (Add (Scale c Y) (Scale c Y)))) => //=; first by rewrite hY.
    by rewrite -mulr2n -scaler_nat scalerA mulVr // scale1r.
  + apply: (go (Scale (half R) (Sub (Scale c Y) (Scale c Y)))) => //=; first by rewrite hY.
    by rewrite subrr scaler0.
Qed.

(* ---- C68: / with a number ---- *)
Theorem C68_division X c : mv_valid a X ->
  same_outcome a (operate a ODiv (OMv X) (ONum c)) (operate a ODiv (OMv X) (OMv (mv_const a c))) /\
  same_outcome a (operate a ODiv (ONum c) (OMv X)) (operate a ODiv (OMv (mv_const a c)) (OMv X)).
Proof.
rewrite mv_validE => oX /=; split; last first.
  have [oc _ _] := const_ok two a c.
  rewrite /mv_rdivc /mv_div; case E: (mv_inv a X) => [I|] //=.
  have [oI _] := mv_inv_sound two wf oX E; have [Z -> [oZ _ _]] := mv_mulP two wf oc oI.
  by rewrite /= (mv_eqP two wf oZ oZ) eqxx.
have [oc vc bc] := const_ok two a c.
rewrite /mv_divc /mv_div /mv_inv (is_scalarP two wf oc) vc gpart_scal eqxx /= (mv_scalarP two oc bc) vc.
have -> : (scal a c : mval R n) set0 = c by rewrite !ffunE eqxx; exact: mulr1.
case: (sinv c) => [d|] //=; have [od vd _] := const_ok two a d.
have [Z -> [oZ vZ _]] := mv_mulP two wf oX od; have [W [eW] [oW vW _]] := mv_scaleP two d oX.
by rewrite /= eW (mv_eqP two wf oW oZ) vZ vW vd mul_scalr eqxx.
Qed.

(* ---- C68: a number may be replaced by the multivector ga.mv(c) ---- *)
Theorem C68_same op X c : mv_valid a X ->
  (contracts_blades a op (OMv X) (ONum c) ->
   same_outcome a (operate a op (OMv X) (ONum c)) (operate a op (OMv X) (OMv (mv_const a c)))) /\
  (contracts_blades a op (ONum c) (OMv X) ->
   same_outcome a (operate a op (ONum c) (OMv X)) (operate a op (OMv (mv_const a c)) (OMv X))).
Proof.
move=> hX; have [hd1 hd2] := C68_division c hX.
have Hc : is_clifford_product (fun i j : 'I_n => geff a i j) cm := clifford_product_exists (ga_metric two a).
have [oc vc bc] := const_ok two a c.
have hc : mv_valid a (mv_const a c) by rewrite mv_validE.
have sc : stands_for cm (OMv (mv_const a c)) = stands_for cm (@ONum R c) by rewrite /stands_for (den_ok two Hc oc).
have agree o o' (v : mval R n) : (exists Z, [/\ o = Some Z, mv_valid a Z & den cm (obj Z) = v]) ->
    (exists Z, [/\ o' = Some Z, mv_valid a Z & den cm (obj Z) = v]) -> same_outcome a o o'.
  move=> [Z [-> + e]] [W [-> + f]] /=; rewrite !mv_validE => oZ oW.
  by rewrite (mv_eqP two wf oZ oW) -!(den_ok two Hc) // e f eqxx.
have nocb (U W : mv R) : contracts_blades a op (OMv U) (OMv W) by case: (op).
case: (@idP (if op is ODiv then true else false)) => [|nd]; first by case: op nocb hd1 hd2.
have {}nd : op <> ODiv by move=> e; rewrite e in nd.
split=> cb.
  apply: agree; first exact: (C68_meaning Hc (x := OMv X) (y := ONum c)).
  by rewrite -sc; apply: (C68_meaning Hc (x := OMv X) (y := OMv _)).
apply: agree; first exact: (C68_meaning Hc (x := ONum c) (y := OMv X)).
by rewrite -sc; apply: (C68_meaning Hc (x := OMv _) (y := OMv X)).
Qed.
End Ops.

(* finding: X < c with X in base representation of a non-orthogonal algebra uses the
   coefficient of 1 of that representation instead of the scalar part (mv.py:862-863 calls
   scalar(), which does not convert).  Here X = e0*e1 with e0.e1 = 3 and X < 1 is 0. *)
Theorem C68_contraction_refuted : exists (a : ga rat_comUnitRing) X (c : rat),
  [/\ wf_ga a, mv_valid a X,
      omap (fun Z => obj Z == [::]) (operate a OLt (OMv X) (ONum c)) = Some true &
      omap (fun Z => obj Z == [:: (3%:R : rat, [::])]) (operate a OLt (OMv X) (OMv (mv_const a c))) = Some true].
Proof. by exists mv_ga, mv_B, 1; split; vm_compute. Qed.

(* X = e0 + 3 e0^e1 in a non-orthogonal algebra; the hypotheses hold for every operator *)
Example C68_ex : wf_ga mv_ga /\
  all (fun op => operand_ok mv_ga (OMv mv_X) && contracts_blades mv_ga op (OMv mv_X) (ONum (2%:R : rat)) &&
                 contracts_blades mv_ga op (ONum (2%:R : rat)) (OMv mv_X))
    [:: OAdd; OSub; OMul; OWedge; ODot; OLt; OGt; OLsh; ORsh; ODiv].
Proof. by split; vm_compute. Qed.
(* 2 - X, Y < 5, 5 < Y with Y = 2 + e1 *)
Example C68_ex_sub : omap (fun Z => obj Z == [:: (2%:R : rat, [::]); (- 1 : rat, mk_blade [:: 0%N]);
     (- (3%:R : rat), mk_blade [:: 0; 1]%N)]) (operate mv_ga OSub (ONum (2%:R : rat)) (OMv mv_X)) = Some true.
Proof. by vm_compute. Qed.
Example C68_ex_lt : omap (fun Z => obj Z == [:: (10%:R : rat, [::])])
    (operate mv_ga OLt (OMv mv_Y) (ONum (5%:R : rat))) = Some true /\
  omap (fun Z => obj Z == [:: (10%:R : rat, [::]); (5%:R : rat, mk_blade [:: 1%N])])
    (operate mv_ga OLt (ONum (5%:R : rat)) (OMv mv_Y)) = Some true.
Proof. by split; vm_compute. Qed.
(* division by zero raises in both forms *)
Example C68_ex_zero : isSome (operate mv_ga ODiv (OMv mv_X) (ONum (0 : rat))) = false /\
  isSome (operate mv_ga ODiv (OMv mv_X) (OMv (mv_const mv_ga (0 : rat)))) = false.
Proof. by split; vm_compute. Qed.

Print Assumptions C68_meaning.
Print Assumptions C68_division.
Print Assumptions C68_same.
Print Assumptions C68_contraction_refuted.
