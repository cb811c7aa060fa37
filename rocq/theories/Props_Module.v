(* Props_Module.v -- property C72: the functions of the module mv. *)
From mathcomp Require Import all_ssreflect all_algebra.
From Coq Require Import String.
From Verif Require Import NatTac AlgTactics Exterior Clifford Blades Spec_Grade Grades GradeLaws ContrLaws.
From Verif Require Import Spec_Index PyBase PyStr Ga_Model Ga_Proof_Tables Ga_Proof_Sort Ga_Proof_Sem Ga_Proof_Reduce.
From Verif Require Import Ga_Sem Ga_Proof_Rep Ga_Proof_Conv Ga_Proof_Mul Spec_Clifford Clifford_Unique Spec_Mv Ga_Proof_Den Ga_Proof_Wedge Ga_Proof_Inner.
From Verif Require Import Ga_Proof_Grade Mv_Model Mv_Proof Mv_Expr Mv_Proof_Expr Props_Mv Det Dual_Model Props_Dual Coef_Model Props_Versor.
From Verif Require Import Names_Model Names_Proof Coef_Proof Props_Coef BladeLaws Blade_Model Props_Blade Exp_Model Spec_Exp Props_Exp.
From Verif Require Import Transfer Create_Model Inverse_Model Props_Inverse Norm_Model Spec_Norm Props_Norm Module_Model.
Set Implicit Arguments.
Unset Strict Implicit.
Unset Printing Implicit Defensive.
Import GRing.Theory Num.Theory.
Local Open Scope ring_scope.
Open Scope py_scope.

(* A is no multivector. *)
Definition not_mv (R : comUnitRingType) (A : pyobj R) : bool := if A is PMv _ then false else true.
(* The call returns a multivector equal (==) to the value of the expression p. *)
Definition returns (R : comUnitRingType) (a : ga R) (o : outcome (mv R)) (p : py R) : Prop :=
  exists2 Y, o = Value Y & mv_valid a Y /\ run_eq a Y p = Some true.

(* Every function but exp refuses an argument A that is no multivector: qform with a
   TypeError, the others with a ValueError; sp also refuses such a right factor. *)
Theorem C72_refuse (R : comUnitRingType) (a : ga R) mode ii quot f (A B : pyobj R) r hint switch : not_mv A ->
  [/\ [/\ m_dual a mode ii A = Raised ValueError, m_undual a mode ii A = Raised ValueError,
          m_even a A = Raised ValueError, m_odd a A = Raised ValueError & m_g_invol a A = Raised ValueError],
      [/\ m_grade a A r = Raised ValueError, m_inv a A = Raised ValueError, m_shirokov_inverse a quot A = Raised ValueError,
          m_hitzer_inverse a A = Raised ValueError & m_qform a A = Raised TypeError],
      [/\ m_proj a B A = Raised ValueError, m_rot a f B A hint = Raised ValueError & m_refl a B A = Raised ValueError] &
      [/\ m_rev a A = Raised ValueError, m_ccon a A = Raised ValueError, m_scalar A = Raised ValueError,
          m_sp a A B switch = Raised ValueError & m_sp a B A switch = Raised ValueError]].
Proof. by case: A => // [?|] _; split; split=> //=; case: B. Qed.
(* The functions with a real value refuse it with a TypeError. *)
Theorem C72_refuse_norm (R : realFieldType) (t : sign_tests R) (a : ga R) (A : pyobj R) hint : not_mv A ->
  [/\ m_norm2 t a A hint = Raised TypeError, m_norm t a A hint = Raised TypeError,
      m_mag2 t a A = Raised TypeError & m_mag t a A = Raised TypeError].
Proof. by case: A. Qed.

Section Module.
Variables (R : comUnitRingType) (two : (2%:R : R) \is a GRing.unit) (a : ga R).
Hypothesis wf : wf_ga a.
Notation n := (ga_n a).
Notation C := (cl two a).
Notation mvv := (mvv two a).
Notation g := (ga_metric two a).
Implicit Types (X Y Z B v : mv R) (c q : R) (p : py R).
Let cm : mval R n -> mval R n -> mval R n := cmul g.
Let Hc : is_clifford_product (fun i j : 'I_n => geff a i j) cm := clifford_product_exists g.
Let VE X : mv_ok a X -> den cm (obj X) = mvv X. Proof. exact: den_ok. Qed.

Lemma returns_gives (o : option (mv R)) p : gives a o p -> returns a (of_method o) p.
Proof. by case=> Y -> h; exists Y. Qed.
Lemma run_returns p : legal a p -> returns a (of_method (run a p)) p.
Proof.
move=> lp; have [Y E [oY vY _]] := run_yields two wf Hc lp; rewrite E; exists Y => //.
have hY : mv_valid a Y by rewrite mv_validE.
by split=> //; apply: (run_law two wf Hc); rewrite /= ?hY // (VE oY) vY.
Qed.
(* even, odd, grade, g_invol, rev and ccon return the values of the methods: g_invol
   negates the odd part, ccon is the reverse of the grade involute. *)
Theorem C72_parts X r : mv_valid a X -> blade_form a X ->
  [/\ returns a (m_even a (PMv X)) (Even X), returns a (m_odd a (PMv X)) (Odd X),
      returns a (m_grade a (PMv X) r) (Grade X r), returns a (m_g_invol a (PMv X)) (Even X -. Odd X) &
      returns a (m_rev a (PMv X)) (Rev X)] /\
  returns a (m_ccon a (PMv X)) (Rev (Even X -. Odd X)).
Proof.
move=> hX bX.
split; first split.
- by apply: (@run_returns (Even X)); rewrite /= hX [_ || _]bX.
- by apply: (@run_returns (Odd X)); rewrite /= hX [_ || _]bX.
- by apply: (@run_returns (Grade X r)); rewrite /= hX [_ || _]bX.
- by apply: (@run_returns (Invol X)); rewrite /= hX [_ || _]bX.
- by apply: (@run_returns (Rev X)); rewrite /= hX.
by apply: (@run_returns (Ccon X)); rewrite /= hX [_ || _]bX.
Qed.
(* undual(dual(A)) and dual(undual(A)) return A, for every mode of the dual. *)
Theorem C72_undual_dual sy gsym isq I J mode X :
  det_declared a gsym -> sqrt_correct a sy isq -> ga_i sy gsym isq a = Some (I, J) ->
  set_dual_mode mode = Some mode -> mv_valid a X ->
  (exists2 Y, m_dual a mode (I, J) (PMv X) = Value Y & mv_valid a Y /\ returns a (m_undual a mode (I, J) (PMv Y)) X) /\
  (exists2 Y, m_undual a mode (I, J) (PMv X) = Value Y & mv_valid a Y /\ returns a (m_dual a mode (I, J) (PMv Y)) X).
Proof.
move=> dd sq E sm hX; have [hI hJ _ _ _] := C17_unit_pseudoscalar two wf dd sq E.
have [e1 e2] := C18_undual_dual two wf dd sq E sm hX.
have ld p : legal a p -> legal a (dual_prog mode (I, J) p).
  by move=> lp; rewrite /dual_prog; case: ifP => _ /=; case: str_in; rewrite /= ?hI ?hJ ?lp.
have sd p p' : sem cm p = sem cm p' -> sem cm (dual_prog mode (I, J) p) = sem cm (dual_prog mode (I, J) p').
  by move=> e; rewrite /dual_prog; case: ifP => _ /=; rewrite e.
move: e1 e2; rewrite !(run_eqP two wf Hc) /= ?hX ?hI ?ld //= ?hI ?ld // => -[/eqP e1] -[/eqP e2].
split.
  have [Y EY [oY vY _]] := run_yields two wf Hc (ld X hX); exists Y; first by rewrite /m_dual EY.
  have hY : mv_valid a Y by rewrite mv_validE.
  split=> //; have [|Z EZ [hZ]] := @run_returns (undual_prog mode (I, J) Y); first by rewrite /= hI ld.
  rewrite (run_eqP two wf Hc) /= ?hZ ?hI ?ld // => -[/eqP eZ]; exists Z => //; split=> //.
  apply: (run_law two wf Hc); rewrite /= ?hZ ?hX // eZ (sd Y (dual_prog mode (I, J) X)) //=.
  by rewrite VE // vY.
have [|Y EY [oY vY _]] := @run_yields _ two _ wf _ Hc (undual_prog mode (I, J) X); first by rewrite /= hI ld.
exists Y; first by rewrite -[LHS]/(of_method (run a (undual_prog mode (I, J) X))) EY.
have hY : mv_valid a Y by rewrite mv_validE.
split=> //; have [|Z EZ [hZ]] := @run_returns (dual_prog mode (I, J) Y); first by rewrite ld.
rewrite (run_eqP two wf Hc) /= ?hZ ?ld // => -[/eqP eZ]; exists Z => //; split=> //.
apply: (run_law two wf Hc); rewrite /= ?hZ ?hX // eZ -e2; apply: sd => /=.
by rewrite VE // vY.
Qed.
(* sp(A, B) is the scalar part of A*B, sp(A, B, 'rev') that of rev(A)*B; both are
   symmetric, and qform(A) is sp(A, A, 'rev'). *)
Theorem C72_sp X Y : mv_valid a X -> mv_valid a Y -> blade_form a X -> blade_form a Y ->
  [/\ exists2 s, m_sp a (PMv X) (PMv Y) "" = Value s & run_eq a (Grade (X *. Y) 0) (Num s) = Some true,
      exists2 s, m_sp a (PMv X) (PMv Y) "rev" = Value s & run_eq a (Grade (Rev X *. Y) 0) (Num s) = Some true,
      m_sp a (PMv X) (PMv Y) "" = m_sp a (PMv Y) (PMv X) "",
      m_sp a (PMv X) (PMv Y) "rev" = m_sp a (PMv Y) (PMv X) "rev" &
      m_qform a (PMv X) = m_sp a (PMv X) (PMv X) "rev"].
Proof.
move=> hX hY bX bY; have [oX oY] : mv_ok a X /\ mv_ok a Y by rewrite -!mv_validE.
have g0 (x : mval R n) : gpart 0 x = num a (x set0).
  apply/ffunP => S; rewrite /num scale_coef bl_coef ffunE cards_eq0.
  by rewrite eq_sym; case: eqP => [->|_]; rewrite ?mulr1 ?mulr0.
have sw : ((mrev (mvv X) : C) * mvv Y : mval R n) set0 = ((mrev (mvv Y) : C) * mvv X : mval R n) set0.
  by rewrite -[LHS]mrev_set0 mrevM mrevK.
split=> /=.
- rewrite (mv_spP two wf oX oY bY); eexists; first by [].
  by apply: (run_law two wf Hc); rewrite /= ?hX ?hY ?[_ || _]bY //= g0 !VE.
- rewrite (mv_sprevP two wf oX oY bY); eexists; first by [].
  by apply: (run_law two wf Hc); rewrite /= ?hX ?hY ?[_ || _]bY //= g0 !VE.
- by rewrite (mv_spP two wf oX oY bY) (mv_spP two wf oY oX bX) scalar_swap.
- by rewrite (mv_sprevP two wf oX oY bY) (mv_sprevP two wf oY oX bX) sw.
by rewrite (mv_qformP two wf oX bX) (mv_sprevP two wf oX oX bX).
Qed.
(* scalar(A) is the scalar part of A. *)
Theorem C72_scalar X : mv_valid a X -> blade_form a X ->
  exists2 s, m_scalar (PMv X) = Value s & run_eq a (Grade X 0) (Num s) = Some true.
Proof.
move=> hX bX; have oX : mv_ok a X by rewrite -mv_validE.
exists (mv_scalar X) => //; apply: (run_law two wf Hc); rewrite /= ?hX ?[_ || _]bX //= (mv_scalarP two oX bX) VE //.
by apply/ffunP => S; rewrite /num scale_coef bl_coef ffunE cards_eq0 eq_sym; case: eqP => [->|_]; rewrite ?mulr1 ?mulr0.
Qed.
(* Any other switch raises a ValueError. *)
Theorem C72_sp_switch (A B : pyobj R) switch : switch \notin [:: ""; "rev"]%string ->
  m_sp a A B switch = Raised ValueError.
Proof. by rewrite !inE negb_or => /andP[/negPf s1 /negPf s2]; rewrite /m_sp s1 s2; case: A; case: B. Qed.
(* What inv, hitzer_inverse and (with exact quotients) shirokov_inverse return is a
   two-sided inverse. *)
Definition inverse_of X Y : Prop :=
  [/\ mv_valid a Y, run_eq a (X *. Y) (Num 1) = Some true & run_eq a (Y *. X) (Num 1) = Some true].
Theorem C72_inverse quot X Y : mv_valid a X ->
  [/\ m_inv a (PMv X) = Value Y -> inverse_of X Y,
      rational_ring R -> blade_form a X -> m_hitzer_inverse a (PMv X) = Value Y -> inverse_of X Y &
      rational_ring R -> blade_form a X -> exact_quot quot n -> m_shirokov_inverse a quot (PMv X) = Value Y -> inverse_of X Y].
Proof.
move=> hX; split=> [|ra bX|ra bX eq]; rewrite /m_inv /m_hitzer_inverse /m_shirokov_inverse.
- by case E: mv_inv => [Z|] //= -[<-]; exact: (C19_inverse two wf hX E).
- by case E: mv_hitzer => [Z|] //= -[<-]; exact: (C20_hitzer ra wf hX bX E).
by case E: mv_shirokov => [Z|] //= -[<-]; exact: (C20_shirokov_partial ra wf eq hX bX E).
Qed.

Section One.
Variables (vs : seq (mv R)) (B : mv R) (q : R).
Hypothesis iB : invertible_blade a vs B q.
(* proj(B, A) projects A into the space of B, not B into A: the result of a vector A is
   a linear combination of the vectors of B, and the rest of A is orthogonal to them. *)
Theorem C72_proj X : mv_valid a X -> is_vec a X ->
  exists X' cs, [/\ m_proj a (PMv B) (PMv X) = Value X', mv_valid a X' && is_vec a X', size cs = size vs,
    run_eq a X' (lincomb (zip cs vs)) = Some true &
    all (fun v => run_eq a ((X -. X') ||. v) (Num 0) == Some true) vs].
Proof.
move=> hX vX; have [X' [cs [E h1 h2 h3 h4]]] := C24_project_vector two wf iB hX vX.
by exists X', cs; rewrite /m_proj E.
Qed.
(* refl(B, A) of a vector A is 2 proj(B, A) - A. *)
Theorem C72_refl X : mv_valid a X -> is_vec a X -> blade_form a X ->
  exists2 X', m_proj a (PMv B) (PMv X) = Value X' & returns a (m_refl a (PMv B) (PMv X)) (2%:R ##. X' -. X).
Proof.
move=> hX vX bX; have [X' E h] := C24_reflect_vector two wf iB hX vX bX.
by exists X'; rewrite /m_proj ?E //; exact: returns_gives.
Qed.
(* For A of grade r and a blade of s vectors, refl(B, A)*B is (-1)^(r(s+1)) B*A. *)
Theorem C72_refl_sign X r : mv_valid a X -> blade_form a X -> run_eq a (Grade X r) X = Some true ->
  exists2 X', m_refl a (PMv B) (PMv X) = Value X' &
    mv_valid a X' /\ run_eq a (X' *. B) (((-1) ^+ (r * (size vs).+1) : R) ##. (B *. X)) = Some true.
Proof.
move=> hX bX; have [_ /andP[hB _] _ _ _] := iB; have oB := oB iB; have oX : mv_ok a X by rewrite -mv_validE.
rewrite (run_eqP two wf Hc) /= ?hX ?[_ || _]bX // => -[/eqP gX].
have [X' [E oX' hX' bX' eX]] := reflect_obj two wf iB hX bX; exists X'; first by rewrite /m_refl E.
split=> //; apply: (run_law two wf Hc); rewrite /= ?hX ?hX' ?hB // eX !VE //.
have uq := uq iB; have Bq := Bq two wf iB; rewrite (vB two wf iB).
set bs := [seq _ | v <- vs] in Bq *; have BiB := BiB uq Bq; have sb : size bs = size vs by rewrite size_map.
rewrite VE // in gX; have iE : inv_ (size bs).+1 (mvv X) = (-1) ^+ (r * (size vs).+1) *: mvv X.
  rewrite /inv_ sb -signr_odd oddM; case: (odd (size vs).+1); rewrite ?andbF ?scale1r // andbT -{1}gX minvol_gp gX.
  by rewrite signr_odd.
rewrite -[LHS]/((refl g bs q (mvv X) : C) * (wedges bs : C)) -[cm _ _]/((wedges bs : C) * (mvv X : C)) /refl iE.
by rewrite -(mulrA _ (Bi g bs q)) BiB mulr1 -(scalerAr ((-1) ^+ _)).
Qed.
End One.
End Module.

Section Rot.
Variables (R : fieldType) (two : (2%:R : R) \is a GRing.unit) (a : ga R).
Hypothesis wf : wf_ga a.
Variables (f : elementary R) (i : R).
Hypothesis laws : elementary_laws f i.
Variables (T : mv R) (q : R).
Hypotheses (hT : mv_valid a T) (eT : run_eq a (T *. T) (Num q) = Some true).
(* rot(itheta, A, hint) with itheta*itheta == q: A is fixed if it commutes with itheta,
   and becomes A*exp(itheta, hint) if it anticommutes with it. *)
Theorem C72_rot ex hint X : mv_valid a X ->
  (run_eq a (X *. T) (T *. X) = Some true -> returns a (m_rot a f (PMv T) (PMv X) hint) X) /\
  (run_eq a (X *. T) (Neg (T *. X)) = Some true ->
    exists2 Y, m_exp a f ex (PMv T) hint = Value (PMv Y) & mv_valid a Y /\ returns a (m_rot a f (PMv T) (PMv X) hint) (X *. Y)).
Proof.
move=> hX; split=> e; first by apply: returns_gives; exact: (C24_rotate_fixed two wf laws hT eT hint hX e).
have [Y E [hY h]] := C24_rotate_plane two wf laws hT eT hint hX e.
by exists Y; rewrite /= ?E //; split=> //; exact: returns_gives.
Qed.
(* exp(A, hint) with A*A == q: 1 + A if q is 0, and cos(r) + sin(r)/r*A for every square
   root r of -q otherwise. *)
Theorem C72_exp ex hint :
  (q = 0 -> exists2 Y, m_exp a f ex (PMv T) hint = Value (PMv Y) & mv_valid a Y /\ run_eq a Y (Num 1 +. T) = Some true) /\
  (forall r, q != 0 -> r * r = - q -> exists2 Y, m_exp a f ex (PMv T) hint = Value (PMv Y) &
    mv_valid a Y /\ run_eq a Y (Num (fcos f r) +. (fsin f r / r) ##. T) = Some true).
Proof.
split=> [q0|r q0 er].
  by have := eT; rewrite q0 => e0; have [Y E h] := C21_null two wf laws hint hT e0; exists Y; rewrite //= E.
by have [Y E h] := C21_trig two wf laws hint hT eT q0 er; exists Y; rewrite //= E.
Qed.
(* exp of a number is sympy's exp. *)
Theorem C72_exp_number ex c hint : m_exp a f ex (PNum c) hint = Value (PNum (ex c)).
Proof. by []. Qed.
End Rot.

Section Norms.
Variables (R : realFieldType) (a : ga R) (t : sign_tests R).
Hypothesis wf : wf_ga a.
Hypothesis sym : forall i j, (i < ga_n a)%N -> (j < ga_n a)%N -> gij a i j = gij a j i.
Hypothesis cor : correct a t.
(* norm2 is the absolute value of qform, norm its nonnegative square root, and mag is at
   least norm, with equality if the metric is positive definite, if the hint is true. *)
Theorem C72_norm X hint : mv_valid a X -> blade_form a X ->
  exists2 q, m_qform a (PMv X) = Value q & truthful hint q ->
    exists r m, [/\ m_norm2 t a (PMv X) hint = Value `|q|, m_norm t a (PMv X) hint = Value r, 0 <= r, r ^+ 2 = `|q| &
      [/\ m_mag2 t a (PMv X) = Value (m ^+ 2), m_mag t a (PMv X) = Value m, r <= m & positive_definite a -> r = m]].
Proof.
move=> hX bX; have [q qE n2] := C22_norm2 wf sym cor hint hX bX.
have [q' qE' n1] := C22_norm wf sym cor hint hX bX; move: qE'; rewrite qE => -[qq]; subst q'.
have [q' qE' mg] := C22_mag wf sym cor hint hX bX; move: qE'; rewrite qE => -[qq]; subst q'.
exists q; rewrite /= ?qE // => tq; have [r [m [rE mE rm pd]]] := mg tq; have [r' [rE' r0 r2]] := n1 tq.
move: rE'; rewrite rE => -[rr]; subst r'; exists r, m; rewrite /m_norm2 /m_norm /m_mag2 /m_mag (n2 tq) ?rE ?mE; split=> //; split=> //.
have [qs _ [m2 _]] := C22_mag2 wf sym cor hX bX; move: mE; rewrite /mv_mag m2 /= => -[<-].
by rewrite (root_sqr cor) ?sumr_ge0.
Qed.
End Norms.

(* ---- concrete cases ---- *)
Example C72_case : [/\ wf_ga euclid5, invertible_blade euclid5 [:: e01; e_ 2] bl012 2%:R,
  mv_valid euclid5 x02 && blade_form euclid5 x02, mv_valid euclid5 e01 && is_vec euclid5 e01 &
  run_eq euclid5 (Grade e01 1) e01 = Some true].
Proof. by have [h1 h2] := C24_case; split=> //; vm_compute. Qed.
Example C72_ex : [/\ m_sp euclid5 (PMv e01) (PMv x02) "" = Value (1 : rat), not_mv (PNum (1 : rat)) &
  m_sp euclid5 (PMv e01) (PMv x02) "reverse" = Raised ValueError].
Proof. by split. Qed.
(* finding: the sign in the documentation of refl, (-1)^(s(r+1)), is not the one of the
   code, (-1)^(r(s+1)): a vector in a plane (s = 2, r = 1) is its own reflection, the
   documented formula gives its negative *)
Theorem C72_refl_formula_refuted : exists (a : ga rat_comUnitRing) vs B q (X : mv rat_comUnitRing) r,
  [/\ wf_ga a, invertible_blade a vs B q, run_eq a (Grade X r) X = Some true &
   exists2 Y, m_refl a (PMv B) (PMv X) = Value Y &
     run_eq a Y X = Some true /\ run_eq a (Y *. B) (((-1) ^+ (size vs * r.+1) : rat) ##. (B *. X)) = Some false].
Proof.
have [h1 h2] := C24_case; exists euclid5, [:: e01; e_ 2], bl012, 2%:R, e01, 1%N; split; [exact: h2|exact: h1|by vm_compute|].
have : (if reflect_in_blade euclid5 e01 bl012 is Some Y then
   (run_eq euclid5 Y e01 == Some true) && (run_eq euclid5 (Y *. bl012) (((-1) ^+ (2 * 2) : rat) ##. (bl012 *. e01)) == Some false) else false).
  by vm_compute.
rewrite /m_refl; case: reflect_in_blade => // Y /andP[/eqP e1 /eqP e2]; exists Y => //.
Qed.
Print Assumptions C72_refuse.
Print Assumptions C72_refuse_norm.
Print Assumptions C72_parts.
Print Assumptions C72_undual_dual.
Print Assumptions C72_sp.
Print Assumptions C72_scalar.
Print Assumptions C72_sp_switch.
Print Assumptions C72_inverse.
Print Assumptions C72_proj.
Print Assumptions C72_refl.
Print Assumptions C72_refl_sign.
Print Assumptions C72_rot.
Print Assumptions C72_exp.
Print Assumptions C72_exp_number.
Print Assumptions C72_norm.
Print Assumptions C72_refl_formula_refuted.
