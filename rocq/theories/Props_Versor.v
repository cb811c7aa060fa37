(* Props_Versor.v -- properties C23 (versor and blade tests) and C40 (the cached
   characteristics of a multivector object). *)
From Coq Require Import String Ascii.
From mathcomp Require Import all_ssreflect all_algebra.
From Verif Require Import NatTac AlgTactics Exterior Clifford Blades Spec_Grade Grades GradeLaws.
From Verif Require Import Spec_Index PyBase PyStr Ga_Model Ga_Proof_Tables Ga_Proof_Sort Ga_Proof_Sem Ga_Proof_Reduce.
From Verif Require Import Ga_Sem Ga_Proof_Rep Ga_Proof_Conv Ga_Proof_Mul Spec_Clifford Clifford_Unique Spec_Mv Ga_Proof_Den Ga_Proof_Wedge Ga_Proof_Inner.
From Verif Require Import Ga_Proof_Grade Mv_Model Mv_Proof Mv_Expr Mv_Proof_Expr Names_Model Names_Proof Props_Mv Det ExtDeriv Dual_Model Dual_Proof Props_Dual Coef_Model Coef_Proof Props_Coef.
Set Implicit Arguments.
Unset Strict Implicit.
Unset Printing Implicit Defensive.
Import GRing.Theory.
Local Open Scope ring_scope.
Open Scope py_scope.

Section Versor.
Variables (R : comUnitRingType) (two : (2%:R : R) \is a GRing.unit) (a : ga R).
Hypothesis wf : wf_ga a.
Notation n := (ga_n a).
Notation C := (cl two a).
Notation mvv := (mvv two a).
Implicit Types (X Y Z v : mv R) (c : R) (x : expr R).
Notation g := (ga_metric two a).
Let cm : mval R n -> mval R n -> mval R n := cmul g.
Let Hc : is_clifford_product (fun i j : 'I_n => geff a i j) cm := clifford_product_exists g.
Let cmE (x y : mval R n) : cm x y = (x : C) * (y : C). Proof. by []. Qed.
Let VE X : mv_ok a X -> den cm (obj X) = mvv X. Proof. exact: den_ok. Qed.

Definition vec_blades := [seq mk_blade [:: i] | i <- iota 0 n].
Lemma vec_bladeP I : wfI n I -> (mk_blade I \in vec_blades) = (size I == 1%N).
Proof.
move=> wI; apply/mapP/eqP => [[i _ /mk_blade_inj -> //]|]; case: I wI => [|i [|]] // wI _.
by exists i => //; rewrite mem_iota /= add0n; case/andP: wI => _ /= /andP[].
Qed.
Lemma versor_gradesE x : blade_expr n x ->
  exists2 gs, versor_grades a x = Some gs & (gs == [:: 1%N]) = (x != [::]) && all (fun t => t.2 \in vec_blades) x.
Proof.
move=> bx; case: x bx => [|t0 x0] bx.
  by exists [:: 0%N] => //; rewrite /versor_grades /= (@b2g_get n [::]).
set x := t0 :: x0 in bx *; rewrite /versor_grades.
have [f Ef] : exists f : seq nat, omapM (fun t : R * word => dget (blades_to_grades n) (first_sym t.2)) x = Some f /\
   all (fun t => t.2 \in vec_blades) x = all (pred1 1%N) f /\ size f = size x.
  elim: (x) bx => [|t l IH] /=; first by exists [::].
  rewrite /blade_expr /= => /andP[/bladeP[I wI E] /IH[f [Ef [Af Sf]]]].
  by exists (size I :: f); rewrite E first_sym_id ?mk_blade_size // b2g_get //= Ef vec_bladeP // Af Sf.
case: Ef => -> [-> sf]; exists (sort leq (undup f)) => //; rewrite /=.
have f0 : f != [::] by rewrite -size_eq0 sf.
apply/eqP/idP => [E|Af].
  by apply/allP => k; rewrite -mem_undup -(mem_sort leq) E inE.
suff -> : undup f = [:: 1%N] by [].
have : perm_eq (undup f) [:: 1%N].
  apply: uniq_perm; rewrite ?undup_uniq // => k; rewrite mem_undup inE; apply/idP/eqP => [/(allP Af)/eqP //|->].
  by case: (f) f0 Af => //= k' f' _ /andP[/eqP -> _]; rewrite mem_head.
by move/perm_small_eq; apply.
Qed.
(* image of basis vector number i under the twisted conjugation *)
Definition image (u : C) (i : 'I_n) : C := (minvol u : C) * (bl R [set i] : C) * (mrev u : C).
Lemma basis_vecE i : mv_basis_vec R i = basis_mv R i. Proof. by []. Qed.
Lemma versor_imageP X : mv_ok a X -> blade_expr n (obj X) ->
  exists2 x, versor_image a X = Some x &
   blade_expr n x /\ (x != [::]) && all (fun t => t.2 \in vec_blades) x =
     [forall i, gpart 1 (image (mvv X) i) == image (mvv X) i] && [exists i, image (mvv X) i != 0].
Proof.
move=> oX bX; have mX : mv_valid a X by rewrite mv_validE.
have oX' : mv_ok a (Mv (obj X) true) by case/andP: oX => c _; rewrite /mv_ok c.
have [J EJ [oJ vJ bJ]] := run_yields two wf Hc (p := Invol (Mv (obj X) true)) (introT andP (conj (etrans (mv_validE a _) oX') isT)).
have lp (i : 'I_n) : legal a (J *. mv_basis_vec R i *. Rev X).
  by have [o _ _ _] := basis_ok two i; rewrite /= mX basis_vecE !mv_validE o oJ.
have ex (i : 'I_n) : exists P, [/\ run a (Invol X *. mv_basis_vec R i *. Rev X) = Some P, mv_ok a P,
    mvv P = image (mvv X) i & blade_expr n (obj P)].
  have [P E [oP vP bP]] := run_yields two wf Hc (lp i); exists P; split=> //.
  - by rewrite -E; move: (mv_basis_vec R i) => e; rewrite /= (EJ : mv_invol a X = Some J).
  - have [o vb _ _] := basis_ok two i; rewrite -basis_vecE in o vb.
    move: vP; move: (mv_basis_vec R i) o vb => e o vb ->; rewrite [sem _ _]/= !VE // vb vJ /= -[obj X]/(obj (Mv (obj X) true)) VE //.
  by apply: bladed_blade => //; apply: bP.
rewrite /versor_image.
have [ps [Eps bps nps aps]] : exists ps, [/\ omapM (fun i => LET p := run a (Invol X *. mv_basis_vec R i *. Rev X) IN Some (obj p))
      (map val (enum 'I_n)) = Some ps, blade_expr n (flatten ps),
     (flatten ps != [::]) = has (fun i => image (mvv X) i != 0) (enum 'I_n) &
     all (fun t => t.2 \in vec_blades) (flatten ps) = all (fun i => gpart 1 (image (mvv X) i) == image (mvv X) i) (enum 'I_n)].
  elim: (enum 'I_n) => [|i l [ps [Eps bps nps aps]]]; first by exists [::].
  have [P [EP oP vP bP]] := ex i; exists (obj P :: ps); split.
  - by rewrite [map _ _]/= /omapM -/(omapM _ _) EP /= Eps.
  - by rewrite /= /blade_expr words_cat all_cat [all _ _]bP.
  - rewrite /= -nps -vP -(is_zeroP two oP) /is_zero canon_id; last by case/andP: oP.
    by case: (obj P).
  rewrite /= all_cat aps; congr (_ && _); rewrite -vP; apply/idP/eqP => [vec|h].
    have vP' : is_vec a P by [].
    have oP' : mv_valid a P by rewrite mv_validE.
    by have := vec_homog two oP' vP'; rewrite VE.
  exact: (homog_vec bP oP h).
rewrite -val_enum_ord Eps; exists (flatten ps) => //; split=> //; rewrite nps aps andbC; congr (_ && _).
  by apply/allP/forallP => [h i|h i _]; [apply: h; rewrite mem_enum|apply: h].
by apply/hasP/existsP => [[i _]|[i]] h; exists i; rewrite ?mem_enum.
Qed.
Lemma versor_valueE X : mv_ok a X -> blade_expr n (obj X) -> (0 < n)%N ->
  let u := mvv X in
  versor_value a X = Some [&& gpart 0 (u * (mrev u : C)) == u * (mrev u : C), u * (mrev u : C) != 0,
     [forall i, gpart 1 (image u i) == image u i] & [exists i, image u i != 0]].
Proof.
move=> oX bX n0 u; rewrite /versor_value.
have [Y -> [oY vY bY]] := mv_revP two wf true oX; rewrite /=.
have [P -> [oP vP _]] := mv_mulP two wf oX oY; rewrite /= (is_scalarP two wf oP) /= (is_zeroP two oP) vP vY -/u.
case: (gpart 0 _ == _) => //=; case: (_ * _ != 0) => //=; rewrite -[ga_n a == 0%N]negbK -lt0n n0 /=.
have [x -> [bx Ex]] := versor_imageP oX bX; rewrite /=.
by have [gs -> Egs] := versor_gradesE bx; rewrite /= Egs Ex.
Qed.

(* ---- C23: what passes the versor test ---- *)
(* X*rev(X) is a non-zero scalar, and every vector is mapped to a vector by
   v -> g_invol(X)*v*rev(X) *)
Lemma versor_value_sound X : mv_valid a X -> blade_form a X -> versor_value a X = Some true ->
  (exists2 c, c != 0 & run_eq a (X *. Rev X) (Num c) = Some true) /\
  forall v, mv_valid a v -> is_vec a v ->
    exists w, [/\ run a (Invol X *. v *. Rev X) = Some w, mv_valid a w & is_vec a w].
Proof.
move=> hX bX; have oX : mv_ok a X by rewrite -mv_validE.
have bx := bladed_blade oX bX; case: (posnP n) => [n0|n0].
  rewrite /versor_value; case: (mv_rev a X) => //= r; case: (mv_mul a X r) => //= p.
  by case: (is_scalar a p) => //= s; case: ifP => // _; rewrite n0.
rewrite (versor_valueE oX bx n0) => -[/and4P[/eqP s nz /forallP vec _]]; split.
  exists ((mvv X * (mrev (mvv X) : C) : mval R n) set0).
    by apply: contra nz => /eqP E; rewrite -s scal_gpart E /scal scale0r.
  apply: (run_law two wf Hc); rewrite /= ?hX // !VE // cmE /num -[RHS]/(scal a _) -scal_gpart.
  by rewrite [RHS]s.
move=> v hv vv; have lp : legal a (Invol X *. v *. Rev X) by rewrite /= hX hv [_ || _]bX.
have [w E [ow vw bw]] := run_yields two wf Hc lp; exists w; split=> //; first by rewrite mv_validE.
apply: (homog_vec (bladed_blade ow (bw isT)) ow); rewrite vw /= !cmE.
rewrite !VE ?mv_validE // -?mv_validE //.
have hh : homog 1 (mvv v) by rewrite -VE -?mv_validE //; exact: (vec_homog two hv vv).
rewrite (vec_decomp hh) mulr_sumr mulr_suml; apply: homog_big => i _.
rewrite -scalerAr -scalerAl; apply: homogZ; exact/eqP/vec.
Qed.

(* ---- products of invertible vectors pass it ---- *)
Lemma conj_vec (u x : mval R n) : homog 1 u -> homog 1 x -> homog 1 ((u : C) * (x : C) * (u : C)).
Proof.
move=> hu hx; have E := vec_rel g hx hu; have D := vec_rel g hu hu.
have -> : (u : C) * (x : C) * (u : C) = (gform g x u *+ 2) *: (u : C) - (u : C) * (u : C) * (x : C).
  rewrite -mulrA; have -> : (x : C) * (u : C) = (gform g x u *+ 2) *: (1 : C) - (u : C) * (x : C).
    by apply/eqP; rewrite eq_sym subr_eq eq_sym; exact/eqP.
  by rewrite mulrBr -scalerAr mulr1 mulrA.
apply: homogB; first exact: homogZ.
have -> : (u : C) * (u : C) = gform g u u *: (1 : C).
  by rewrite -[LHS](halfV two) D scalerA -[gform g u u *+ 2]mulr_natl mulrA mulVr // mul1r.
by rewrite -scalerAl mul1r; exact: homogZ.
Qed.
Lemma minvol_gpart r (x : mval R n) : minvol (gpart r x) = (-1) ^+ r *: gpart r x.
Proof. apply/ffunP => S; rewrite !ffunE; case: (#|S| =P r) => [->|_] //; by rewrite !mulr0. Qed.
Lemma invol_vec (u : mval R n) : homog 1 u -> minvol u = - u.
Proof. by move=> hu; rewrite -{1}hu minvol_gpart expr1 scaleN1r hu. Qed.
Lemma rev_vec (u : mval R n) : homog 1 u -> mrev u = u.
Proof. by move=> hu; rewrite -{1}hu mrev_gpart expr0 scale1r hu. Qed.
Lemma mrev1 : mrev (1 : C) = 1 :> C. Proof. by rewrite mrev_bl cards0 expr0 scale1r. Qed.
Lemma minvol1 : minvol (1 : C) = 1 :> C. Proof. by rewrite minvolE ginv_bl cards0 expr0 scale1r. Qed.
Lemma prod_versor (us : seq C) : all (fun u : C => gpart 1 (u : mval R n) == u) us ->
  (forall u : C, u \in us -> exists2 c, c \is a GRing.unit & u * u = c *: 1) ->
  let U := foldr (fun u (p : C) => u * p) 1 us in
  [/\ exists2 c, c \is a GRing.unit & U * (mrev U : C) = c *: 1,
      exists2 c, c \is a GRing.unit & (mrev U : C) * U = c *: 1,
      exists2 W : C, W * (minvol U : C) = 1 & True &
      forall x : mval R n, homog 1 x -> homog 1 ((minvol U : C) * (x : C) * (mrev U : C))].
Proof.
elim: us => [|u us IH] /=.
  move=> _ _; split; [exists 1|exists 1|exists 1|]; rewrite ?mrev1 ?minvol1 ?mulr1 ?mul1r ?scale1r ?unitr1 //.
  by move=> x; rewrite mulr1 mul1r.
move=> /andP[/eqP hu hus] hsq; have [c uc Ec] := hsq u (mem_head _ _).
have [|[d ud Ed] [e ue Ee] [W EW _] hom] := IH hus.
  by move=> v vin; apply: hsq; rewrite in_cons vin orbT.
set U := foldr _ _ us in Ed Ee EW hom * .
rewrite mrevM (rev_vec hu) minvolE ginvM -!minvolE (invol_vec hu).
split.
- exists (c * d); first by rewrite unitrM uc.
  by rewrite mulrA -[u * U * _]mulrA Ed -scalerAr mulr1 -scalerAl Ec scalerA mulrC.
- exists (c * e); first by rewrite unitrM uc.
  by rewrite mulrA -[(mrev U : C) * u * u]mulrA Ec -scalerAr mulr1 -scalerAl Ee scalerA.
- exists (- (c^-1 *: (W * u))) => //.
  rewrite mulNr mulrA mulrN mulNr opprK -scalerAl -[W * u * u]mulrA Ec -scalerAr mulr1 scalerA mulVr // scale1r.
  exact: EW.
move=> x hx; have := conj_vec hu (hom x hx) => h.
have -> : (- u : C) * (minvol U : C) * (x : C) * ((mrev U : C) * u) =
   - (u * ((minvol U : C) * (x : C) * (mrev U : C)) * u) by rewrite !mulNr !mulrA.
exact: homogN.
Qed.

(* a vector whose square is an invertible scalar *)
Definition nonnull_vector v := [/\ mv_valid a v, is_vec a v &
  exists2 c, c \is a GRing.unit & run_eq a (v *. v) (Num c) = Some true].
Lemma legal_mul_all Xs : all (mv_valid a) Xs -> legal a (mul_all Xs).
Proof. by elim: Xs => //= Y Ys IH /andP[-> /IH]. Qed.
Lemma sem_mul_all Xs : sem cm (mul_all Xs) = foldr (fun u (p : C) => u * p) 1 [seq (den cm (obj X) : C) | X <- Xs].
Proof. by elim: Xs => [|Y Ys IH] /=; rewrite ?IH // /num scale1r. Qed.
Lemma inblade_mul_all Xs : inblade a (mul_all Xs).
Proof. by elim: Xs. Qed.

Lemma versor_value_complete Xs : (0 < n)%N -> List.Forall nonnull_vector Xs ->
  exists P, [/\ run a (mul_all Xs) = Some P, mv_valid a P, blade_form a P & versor_value a P = Some true].
Proof.
move=> n0 hXs.
have val : all (mv_valid a) Xs by elim: hXs => //= X l [-> _ _] _ ->.
have [P E [oP vP bP]] := run_yields two wf Hc (legal_mul_all val).
exists P; split=> //; [by rewrite mv_validE|exact: bP (inblade_mul_all Xs)|].
rewrite (versor_valueE oP (bladed_blade oP (bP (inblade_mul_all Xs))) n0) vP sem_mul_all.
set us := map _ Xs.
have hus : all (fun u : C => gpart 1 (u : mval R n) == u) us.
  rewrite /us; elim: hXs => //= X l [hX vX _] _ ->; rewrite andbT; apply/eqP; exact: (vec_homog two hX vX).
have sqs (u : C) : u \in us -> exists2 c, c \is a GRing.unit & u * u = c *: 1.
  rewrite /us; elim: hXs => //= X l [hX vX [c uc Ec]] _ IH; rewrite in_cons => /orP[/eqP ->|/IH //].
  exists c => //; move: Ec; rewrite (run_eqP two wf Hc) /= ?hX //; case=> /eqP; exact.
have [[c uc Ec] [d ud Ed] [W EW _] hom] := prod_versor hus sqs.
set U := foldr _ _ us in Ec Ed EW hom * .
have one_neq0 : (1 : C) != 0.
  apply/negP => /eqP /(congr1 (fun f : mval R n => f set0)); rewrite bl_coef eqxx ffunE.
  by move/eqP; rewrite oner_eq0.
congr Some; apply/and4P; split.
- by rewrite Ec; apply/eqP; apply: homogZ; rewrite /homog gpart_bl cards0.
- rewrite Ec; apply: contra one_neq0 => /eqP /(congr1 ( *:%R c^-1)).
  by rewrite scaler0 scalerA mulVr // scale1r => ->.
- by apply/forallP => i; apply/eqP/hom; have := homog_bl R [set i]; rewrite cards1.
apply/existsP; exists (Ordinal n0); apply/negP => /eqP.
move/(congr1 (fun z => W * z * U)); rewrite mulr0 mul0r /image !mulrA EW mul1r -mulrA Ed -scalerAr mulr1.
move/(congr1 ( *:%R d^-1)); rewrite scaler0 scalerA mulVr // scale1r.
move/(congr1 (fun f : mval R n => f [set Ordinal n0])); rewrite bl_coef eqxx ffunE.
by move/eqP; rewrite oner_eq0.
Qed.

(* ---- what characterise_Mv records for a new object in the blade basis ---- *)
Definition term_grade (t : R * word) : nat := if t.2 is s :: _ then size s.2 else 0.
Lemma term_gradeE (c : R) I : term_grade (c, mk_blade I) = size I.
Proof. by case: I. Qed.
Lemma term_homog X r : blade_expr n (obj X) -> mv_ok a X ->
  all (fun t => term_grade t == r) (obj X) = (gpart r (mvv X) == mvv X).
Proof.
move=> bX oX; have u := (andP (proj1 (andP oX))).1.
have cE t I : t \in obj X -> t.2 = mk_blade I -> wfI n I -> (mvv X : mval R n) (set_of n I) = t.1.
  by move=> tX E wI; rewrite /Mv_Proof.mvv -coef_value // -E (coef_uniq u tX).
apply/allP/eqP => [h|h t tX].
  apply/ffunP => S; rewrite ffunE; case: eqP => // cS; apply/esym.
  rewrite -{1}(list_ofK S) /Mv_Proof.mvv -coef_value //; last exact: list_of_wf.
  apply: coef_notin; apply/negP => /mapP[t tX Et]; apply: cS.
  by have /eqP <- := h t tX; rewrite -(size_list_of S) -(term_gradeE t.1) Et -surjective_pairing.
have [I wI E] := blade_mem bX tX; have := cE t I tX E wI.
rewrite -h ffunE card_set_of //; case: eqP => [<- _|_ /esym t0].
  by case: (t) E => c w /= ->; rewrite term_gradeE.
by have := allP (proj2 (andP (proj1 (andP oX)))) t tX; rewrite t0 eqxx.
Qed.
Lemma char_loopE x gs : blade_expr n x -> uniq gs ->
  exists2 gs', char_loop n x gs = Some gs' & uniq gs' /\ gs' =i gs ++ [seq term_grade t | t <- x].
Proof.
elim: x gs => [|t x IH] gs; first by move=> _ u; exists gs => //; split=> // k; rewrite cats0.
rewrite /blade_expr /= => /andP[/bladeP[I wI E] bx] u.
set gs1 := if size I \in gs then gs else rcons gs (size I).
have u1 : uniq gs1 by rewrite /gs1; case: ifP => // h; rewrite rcons_uniq h.
have m1 k : k \in gs1 = (k == size I) || (k \in gs).
  rewrite /gs1; case: ifP => h; last by rewrite mem_rcons in_cons.
  by case: eqP => // ->; rewrite h.
have [gs' E' [u' m']] := IH gs1 bx u1; exists gs'.
  rewrite -E' E; case: (I) wI @gs1 {u1 m1 E' m'} => [|i J] wI //=.
  by rewrite (b2g_get (I := i :: J)).
split=> // k; rewrite m' !mem_cat m1 in_cons; case: (t) E => c w /= ->; rewrite term_gradeE.
by rewrite -orbA orbCA.
Qed.

Lemma term_gpart X r : blade_expr n (obj X) -> mv_ok a X ->
  (r \in [seq term_grade t | t <- obj X]) = (gpart r (mvv X) != 0).
Proof.
move=> bX oX; have [u nz] := andP (proj1 (andP oX)).
apply/idP/idP => [/mapP[t tX ->]|]; last first.
  apply: contraR => h; apply/eqP/ffunP => S; rewrite !ffunE; case: eqP => // cS.
  rewrite -{1}(list_ofK S) /Mv_Proof.mvv -coef_value //; last exact: list_of_wf.
  apply: coef_notin; apply: contra h => /mapP[t tX Et]; apply/mapP; exists t => //.
  by rewrite -cS -(size_list_of S) -(term_gradeE t.1) Et -surjective_pairing.
have [I wI E] := blade_mem bX tX; apply/negP => /eqP/(congr1 (fun f : mval R n => f (set_of n I))).
rewrite !ffunE card_set_of // {1}[t]surjective_pairing E term_gradeE eqxx /Mv_Proof.mvv -coef_value // -E.
by rewrite (coef_uniq u tX) => /eqP; apply/negP; exact: (allP nz).
Qed.
Lemma mvv_nil X : mv_ok a X -> (obj X == [::]) = (mvv X == 0).
Proof. by move=> oX; rewrite -(is_zeroP two oX) /is_zero canon_id //; case/andP: oX. Qed.

(* the fields of a new object: same expression, blade flag set, nothing left to
   characterise, grades those of the value *)
Lemma newP X : mv_ok a X -> blade_expr n (obj X) -> let o := new_mv a (obj X) in let u := mvv X in
  [/\ forget o = Mv (obj X) true, versor_flg o = None, characterise a o = o,
     blade_flg o = None \/ (blade_flg o = Some true /\ exists2 I, wfI n I & obj X = [:: (1, mk_blade I)]) &
     exists2 gs, grades o = Some gs &
      [/\ i_grade o = (if gs is [:: r] then Some r else None), uniq gs &
          forall r, (r \in gs) = (gpart r u != 0) || ((u == 0) && (r == 0%N))]].
Proof.
move=> oX bX; have cX : canonical (obj X) by case/andP: oX.
have cc := canon_id cX.
have zE := mvv_nil oX.
have memE gs : gs =i [seq term_grade t | t <- obj X] -> obj X != [::] ->
   forall r, (r \in gs) = (gpart r (mvv X) != 0) || ((mvv X == 0) && (r == 0%N)).
  by move=> h x0 r; rewrite h (term_gpart r bX oX) -zE (negPf x0) orbF.
rewrite /= /new_mv /characterise /= cc cc.
case: ifP => [com|ncom] /=.
  rewrite cc com; split=> //; [by left|]; exists [:: 0%N] => //; split=> // r; rewrite inE.
  case: (altP (obj X =P [::])) => [x0|x0].
    move: zE; rewrite x0 eqxx => /esym/eqP ->.
    by rewrite raddf0 eqxx.
  rewrite -(term_gpart r bX oX) -zE (negPf x0) orbF.
  have h0 t : t \in obj X -> term_grade t = 0%N by move/(allP com); rewrite /term_grade; case: t.2.
  apply/eqP/mapP => [->|[t /h0 -> ->] //].
  by case: (obj X) x0 h0 => // t x _ h0; exists t; rewrite ?mem_head // h0 // mem_head.
have x0 : obj X != [::] by apply: contraFN ncom => /eqP ->.
case: ifP => [one|_] /=.
  case: (obj X) bX one memE x0 => [|[c w] [|]] // bX /andP[/eqP -> wb] memE _.
  have /bladeP[I wI EI] := wb; rewrite EI b2g_get //=; split=> //.
    by right; split=> //; exists I.
  exists [:: size I] => //; split=> // r; apply: memE => // k.
  by rewrite /= EI term_gradeE.
have [gs E [ug mg]] := char_loopE bX (isT : uniq [::]); rewrite E /=; split=> //; first by left.
by exists gs => //; split=> //; apply: memE.
Qed.

Definition versorb (u : C) : bool :=
  [&& gpart 0 (u * (mrev u : C)) == u * (mrev u : C), u * (mrev u : C) != 0,
     [forall i, gpart 1 (image u i) == image u i] & [exists i, image u i != 0]].
Lemma ext_bl_self S : S != set0 -> ext (bl R S) (bl R S) = 0 :> mval R n.
Proof.
by move=> S0; rewrite ext_bl /extb; case: ifP => //; rewrite -setI_eq0 setIid (negPf S0).
Qed.
Lemma homog_leq r (u : mval R n) : homog r u -> u != 0 -> (r <= n)%N.
Proof. by move=> h; apply: contraR; rewrite -ltnNge => /gpart_out E; rewrite -h E. Qed.
Lemma is_bladeE X : mv_ok a X -> blade_expr n (obj X) -> let u := mvv X in
  (is_blade a (new_mv a (obj X))).2 = Some [&& u != 0, [exists r : 'I_n.+1, gpart r u == u] &
    [|| gpart 0 u == u, gpart 1 u == u, versorb u | ext u u == 0]].
Proof.
move=> oX bX u; have [fo vo co bo [gs Egs [Eig ugs mgs]]] := newP oX bX; rewrite -/u in mgs.
have co' : cobj (new_mv a (obj X)) = obj X by have := congr1 (@obj R) fo.
rewrite /is_blade; case: bo => [->|[-> [I wI EX]]]; last first.
  congr Some; have uE : u = bl R (set_of n I).
    by rewrite /u /Mv_Proof.mvv EX value_term // scale1r.
  have cI : #|set_of n I| = size I by rewrite card_set_of.
  have sI : (size I < n.+1)%N by rewrite ltnS -cI -[X in (_ <= X)%N]card_ord max_card.
  rewrite uE; apply/esym/and3P; split.
  - apply/negP => /eqP /(congr1 (fun f : mval R n => f (set_of n I))); rewrite bl_coef eqxx ffunE.
    by move/eqP; rewrite oner_eq0.
  - by apply/existsP; exists (Ordinal sI); rewrite /= gpart_bl cI eqxx.
  case: (altP (set_of n I =P set0)) => [->|S0]; first by rewrite gpart_bl cards0 !eqxx.
  by rewrite (ext_bl_self S0) eqxx !orbT.
rewrite co Eig.
have hom r : gs = [:: r] -> u != 0 -> gpart r u = u.
  move=> E u0; rewrite [RHS]gpart_sum [LHS](gpart_sum (gpart r u)); apply: eq_bigr => k _.
  rewrite gpart_gpart; case: eqP => [-> //|kr]; apply/esym/eqP; apply: contraT => h.
  by have := mgs k; rewrite h E inE => /eqP.
case: (boolP (u == 0)) => [u0|u0] /=.
  have x0 : obj X == [::] by rewrite (mvv_nil oX).
  case: (gs) => [|r [|]] //=; rewrite co' (eqP x0) //=.
have x0 : obj X == [::] = false by rewrite (mvv_nil oX) (negPf u0).
have [[r Er]|nr] : (exists r, gs = [:: r]) \/ (if gs is [:: r] then false else true).
  by case: (gs) => [|r [|]]; [right|left; exists r|right].
- have hr := hom r Er u0; have rn : (r < n.+1)%N by rewrite ltnS; exact: homog_leq hr u0.
  have -> : [exists r : 'I_n.+1, gpart r u == u] by apply/existsP; exists (Ordinal rn); rewrite /= hr.
  rewrite Er co' canon_id ?x0; last by case/andP: oX.
  case: leqP => r1 /=.
    by move: r1 hr; case: (r) => [|[|]] // _ ->; rewrite eqxx ?orbT.
  have no k : (k < 2)%N -> (gpart k u == u) = false.
    move=> k1; rewrite -hr gpart_gpart; case: (altP (k =P r)) => [E|_]; first by move: k1; rewrite E ltnNge r1.
    by rewrite eq_sym hr (negPf u0).
  rewrite !no //=.
  have n0 : (0 < n)%N by rewrite -ltnS; apply: leq_trans rn; exact: ltnW.
  have oX' : mv_ok a (Mv (obj X) true) by case/andP: oX => c _; rewrite /mv_ok c.
  have vE : versor_value a (Mv (obj X) true) = Some (versorb u) by exact: (versor_valueE oX' bX n0).
  rewrite /is_versor vo co fo vE /=.
  case: (versorb u) => //=.
  rewrite -[forget (CMv _ _ _ _ _ _ _)]/(forget (new_mv a (obj X))) fo.
  have [w -> [ow vw _]] := mv_wedgeP two wf oX' oX'.
  by rewrite /= (is_zeroP two ow) vw.
have -> : [exists r : 'I_n.+1, gpart r u == u] = false.
  apply/existsP => -[r /eqP hr].
  suff E : gs = [:: val r] by move: nr; rewrite E.
  apply: perm_small_eq => //; apply: uniq_perm => // k; rewrite mgs (negPf u0) orbF inE.
  by rewrite -hr gpart_gpart; case: (k == r); rewrite ?hr ?u0 ?eqxx.
by move: nr; case: (gs) => [|r [|]].
Qed.

(* the answer of X.is_versor() and X.is_blade() for an object whose caches are
   those of its construction *)
Definition answers_versor X : option bool := (is_versor a (new_mv a (obj X))).2.
Definition answers_blade X : option bool := (is_blade a (new_mv a (obj X))).2.
Lemma answers_versorE X : mv_ok a X -> bladed a X ->
  answers_versor X = if (0 < n)%N then Some (versorb (mvv X)) else versor_value a (Mv (obj X) true).
Proof.
move=> oX bX; have bx := bladed_blade oX bX; have [fo vo co _ _] := newP oX bx.
rewrite /answers_versor /is_versor vo co fo.
have oX' : mv_ok a (Mv (obj X) true) by case/andP: oX => c _; rewrite /mv_ok c.
case: posnP => [_|n0]; first by case: versor_value.
by rewrite (versor_valueE oX' bx n0).
Qed.
Theorem C23_versor_sound X : mv_valid a X -> blade_form a X -> answers_versor X = Some true ->
  (exists2 c, c != 0 & run_eq a (X *. Rev X) (Num c) = Some true) /\
  forall v, mv_valid a v -> is_vec a v ->
    exists w, [/\ run a (Invol X *. v *. Rev X) = Some w, mv_valid a w & is_vec a w].
Proof.
move=> hX bX; have oX : mv_ok a X by rewrite -mv_validE.
rewrite (answers_versorE oX bX); case: posnP => [n0|n0 E].
  rewrite /versor_value; case: (mv_rev _ _) => //= r; case: (mv_mul _ _ _) => //= p.
  by case: (is_scalar _ _) => //= s; case: ifP => // _; rewrite n0.
by apply: versor_value_sound => //; rewrite (versor_valueE oX (bladed_blade oX bX) n0).
Qed.
(* products of vectors with invertible square are accepted *)
Theorem C23_versor_complete Xs : (0 < n)%N -> List.Forall nonnull_vector Xs ->
  exists P, [/\ run a (mul_all Xs) = Some P, mv_valid a P & answers_versor P = Some true].
Proof.
move=> n0 h; have [P [E hP bP]] := versor_value_complete n0 h; have oP : mv_ok a P by rewrite -mv_validE.
by move=> v; exists P; split=> //; rewrite (answers_versorE oP bP) n0 -v (versor_valueE oP (bladed_blade oP bP) n0).
Qed.
(* what an accepted multivector satisfies *)
Theorem C23_blade_sound X : mv_valid a X -> blade_form a X -> answers_blade X = Some true ->
  run_eq a X (Num 0) = Some false /\
  exists r, run_eq a (Grade X r) X = Some true /\
    ((r <= 1)%N \/ answers_versor X = Some true \/ run_eq a (X ^. X) (Num 0) = Some true).
Proof.
move=> hX bX; have oX : mv_ok a X by rewrite -mv_validE.
rewrite /answers_blade (is_bladeE oX (bladed_blade oX bX)) => -[/and3P[u0 /existsP[r /eqP hr] alt]]; split.
  by rewrite (run_eqP two wf Hc) /= ?hX // VE // /num scale0r (negPf u0).
have gr k : gpart k (mvv X) == mvv X -> run_eq a (Grade X k) X = Some true.
  by move/eqP => E; apply: (run_law two wf Hc); rewrite /= ?hX ?[_ || _]bX // VE.
case/or4P: alt => [h|h|h|/eqP h]; [exists 0%N|exists 1%N|exists r|exists r]; split; rewrite ?gr ?hr //; try by left.
  right; left; rewrite (answers_versorE oX bX); case: posnP => [n0|_]; last by rewrite h.
  by move: h; rewrite /versorb => /and4P[_ _ _ /existsP[i _]]; have := leq_ltn_trans (leq0n _) (ltn_ord i); rewrite [X in (_ < X)%N]n0.
by right; right; apply: (run_law two wf Hc); rewrite /= ?hX // VE // h /num scale0r.
Qed.
(* every non-zero outer product of vectors is accepted *)
Theorem C23_blade_complete Xs P : all (fun X => mv_valid a X && is_vec a X) Xs ->
  run a (wedge_all Xs) = Some P -> run_eq a P (Num 0) = Some false -> answers_blade P = Some true.
Proof.
move=> hXs E; have val : all (mv_valid a) Xs by apply: sub_all hXs => X /andP[].
have [P' E' [oP vP bP]] := run_yields two wf Hc (legal_wedge_all val).
move: E' oP vP bP; rewrite E => -[<-] oP vP bP nz.
have ib : inblade a (wedge_all Xs) by elim: (Xs).
have hP : mv_valid a P by rewrite mv_validE.
rewrite /answers_blade (is_bladeE oP (bladed_blade oP (bP ib))); congr Some.
have u0 : mvv P != 0.
  by move: nz; rewrite (run_eqP two wf Hc) /= ?hP // VE // /num scale0r => -[->].
have hl : all (fun x : mval R n => gpart 1 x == x) [seq den cm (obj X) | X <- Xs].
  by rewrite all_map; apply: sub_all hXs => X /andP[h1 h2] /=; apply/eqP; exact: (vec_homog two h1 h2).
have hom : homog (size Xs) (mvv P).
  by rewrite vP sem_wedge_all; have := W_homog two hl; rewrite size_map.
have rn : (size Xs < n.+1)%N by rewrite ltnS; exact: homog_leq hom u0.
apply/and3P; split=> //; first by apply/existsP; exists (Ordinal rn); apply/eqP.
case: Xs hl vP hom {hXs E val ib nz rn bP} => [|X Xs] hl vP hom; first by rewrite [gpart 0 _]hom eqxx.
apply/or4P; apply: Or44; rewrite vP /=; move: hl => /= /andP[/eqP hx hl].
rewrite sem_wedge_all; have hr := W_homog two hl; set r := foldr _ _ _ in hr * .
set x := den cm _ in hx * .
rewrite -(extA two) (extA two r) (ext_swap hr (hx : homog 1 x)) (extZl two) (extZr two) -(extA two) (extA two x).
by rewrite (ext_vv two hx) (ext0l two) scaler0.
Qed.

(* a vector object with given coefficients *)
Definition vec_mv (x : mval R n) : mv R := mk_mv a [seq (x [set i], mk_blade [:: val i]) | i <- enum 'I_n].
Lemma vec_mvP (x : mval R n) : homog 1 x -> [/\ mv_valid a (vec_mv x), is_vec a (vec_mv x), mvv (vec_mv x) = x & brep (vec_mv x)].
Proof.
move=> hx; have wI (i : 'I_n) : wfI n [:: val i] by rewrite /wfI /= ltn_ord.
have bx : blade_expr n [seq (x [set i], mk_blade [:: val i]) | i <- enum 'I_n].
  by apply/allP => w /mapP[t /mapP[i _ ->] ->]; exact: (mk_blade_in (wI i)).
have o := mk_mv_blade bx; have v : mvv (vec_mv x) = x.
  rewrite mvv_mk [RHS](vec_decomp hx) -[in RHS]big_enum.
  elim: (enum 'I_n) => [|i l IH]; first by rewrite big_nil value_nil.
  rewrite big_cons -IH [map _ _]/= -cat1s value_cat (value_term two _ (wI i)); congr (_ *: bl R _ + _).
  by apply/setP => j; rewrite !inE.
split=> //; [by rewrite mv_validE| |exact: blade_brep].
by apply: (@homog_vec R two a (vec_mv x) (blade_canon bx) o); rewrite v.
Qed.
(* the square of an outer product of vectors is a scalar *)
Theorem C23_wedge_square Xs : all (fun X => mv_valid a X && is_vec a X) Xs ->
  exists c, run_eq a (wedge_all Xs *. wedge_all Xs) (Num c) = Some true.
Proof.
move=> hXs; have val : all (mv_valid a) Xs by apply: sub_all hXs => X /andP[].
set l := [seq den cm (obj X) | X <- Xs].
have hl : all (fun x : mval R n => gpart 1 x == x) l.
  by rewrite all_map; apply: sub_all hXs => X /andP[h1 h2] /=; apply/eqP; exact: (vec_homog two h1 h2).
pose v (i : 'I_(size l)) := nth 0 l i.
have hv i : homog 1 (v i) by apply/eqP; apply: (allP hl); exact: mem_nth.
have E : [seq v i | i <- enum 'I_(size l)] = l.
  by rewrite /v (map_comp (nth 0 l) (@nat_of_ord _)) val_enum_ord map_nth_iota0 // take_size.
have := gram_sq g hv; rewrite /vps E => sq; eexists.
apply: (run_law two wf Hc); rewrite /= ?legal_wedge_all // !sem_wedge_all.
exact: sq.
Qed.
(* a multivector whose square has a part of positive grade is no outer product
   of vectors *)
Lemma no_scalar_square X : mv_valid a X -> run_eq a (X *. X) (Grade (X *. X) 0) = Some false -> blade_form a X ->
  (forall c, run_eq a (X *. X) (Num c) <> Some true) /\
  forall Xs, all (fun X => mv_valid a X && is_vec a X) Xs -> run_eq a (wedge_all Xs) X <> Some true.
Proof.
move=> ok sq bX.
have nsq c : run_eq a (X *. X) (Num c) <> Some true.
  rewrite (run_eqP two wf Hc) /= ?ok // => -[/eqP E]; move: sq.
  rewrite (run_eqP two wf Hc) /= ?ok ?[_ || _]bX // E /num => -[/eqP]; apply; apply/esym.
  by apply: homogZ; have := homog_bl R (set0 : {set 'I_n}); rewrite cards0.
split=> // Xs hXs h; have val : all (mv_valid a) Xs by apply: sub_all hXs => Y /andP[].
have [c] := C23_wedge_square hXs; have lw := legal_wedge_all val.
move: h; rewrite (run_eqP two wf Hc lw) //= => -[/eqP E].
rewrite (run_eqP two wf Hc) /= ?lw // => -[/eqP E2]; apply: (nsq c).
by apply: (run_law two wf Hc); rewrite /= ?ok // -E2 E.
Qed.

(* ---- C40: cached answers ---- *)
Definition versor_spec (u : C) : option bool :=
  if (gpart 0 (u * (mrev u : C)) == u * (mrev u : C)) && (u * (mrev u : C) != 0) then
    if n == 0%N then None
    else Some ([forall i, gpart 1 (image u i) == image u i] && [exists i, image u i != 0])
  else Some false.
Lemma even_odd_blade x b : canonical x -> all (fun w : word => size w <= 1)%N (words x) ->
  isSome (ga_even_odd a x b) -> blade_expr n x.
Proof.
move=> cx sx; rewrite /ga_even_odd canon_id // /blade_expr.
elim: x sx {cx} => //= -[c w] x IH /andP[sw /IH{}IH].
case: w sw => [|s0 w] sw /=.
  rewrite (@mk_blade_in n [::]) //=; case E: (omapM _ x) => [ts|] // _.
  by apply: IH; rewrite E.
case: w sw => // _; rewrite /first_sym /=; case E1: (dget _ _) => [k|] //=.
have [I [wI -> _]] := b2g_some E1; rewrite mk_blade_in //=.
by case E: (omapM _ x) => [ts|] // _; apply: IH; rewrite E.
Qed.
Lemma versor_valueS X : mv_ok a X -> versor_value a X = versor_spec (mvv X) \/
  (versor_value a X = None /\ ~~ blade_expr n (obj X)).
Proof.
move=> oX; case: (boolP (blade_expr n (obj X))) => bX.
  left; rewrite /versor_spec; case: (posnP n) => [n0|n0]; last first.
    rewrite (versor_valueE oX bX n0) /=.
    by case: (_ == _) => //=; case: (_ != _).
  rewrite /versor_value.
  have [Y -> [oY vY bY]] := mv_revP two wf true oX; rewrite /=.
  have [P -> [oP vP _]] := mv_mulP two wf oX oY; rewrite /= (is_scalarP two wf oP) /= (is_zeroP two oP) vP vY /=.
  have -> : (n == 0%N) = true by exact/eqP.
  by case: (_ && _).
rewrite /versor_spec /versor_value.
have [Y -> [oY vY bY]] := mv_revP two wf true oX; rewrite /=.
have [P -> [oP vP _]] := mv_mulP two wf oX oY; rewrite /= (is_scalarP two wf oP) /= (is_zeroP two oP) vP vY.
case: (_ && _); last by left.
case: (posnP n) => [n0 /=|n0 /=]; first by right.
right; split=> //.
have -> // : versor_image a X = None.
rewrite /versor_image -(prednK n0) /=.
have -> // : mv_invol a X = None.
rewrite /mv_invol /mv_even; case E: (ga_even_odd a (obj X) true) => [z|] //=.
case/negP: bX; apply: (@even_odd_blade _ true); rewrite ?E //; first by case/andP: oX.
by apply: (@valid_size _ a X); rewrite mv_validE.
Qed.

Inductive query := AskBlade | AskVersor | AskGrade | ToBase | ToBlade.
(* the object after the call; base_rep() and blade_rep() return a copy that takes
   over the cached fields *)
Definition ask (o : cmv R) (q : query) : cmv R :=
  match q with
  | AskBlade => (is_blade a o).1
  | AskVersor => (is_versor a o).1
  | AskGrade => (pure_grade a o).1
  | ToBase => odflt o (cbase_rep a o)
  | ToBlade => odflt o (cblade_rep a o)
  end.

Section Cache.
Variable X : mv R.
Hypotheses (oX : mv_ok a X) (bX : blade_expr n (obj X)).
Let F := new_mv a (obj X).
Let FP := newP oX bX.
Definition inv (o : cmv R) :=
  [/\ mv_ok a (forget o), mvv (forget o) = mvv X, char o = char F, i_grade o = i_grade F /\ grades o = grades F &
    (blade_flg o = blade_flg F \/ blade_flg o = answers_blade X) /\
    (versor_flg o = None \/ versor_flg o = answers_versor X)].
Lemma inv_new : inv F.
Proof.
have [fo vo co bo _] := FP; split=> //.
- by rewrite fo /mv_ok /= bX andbT; case/andP: oX.
- by rewrite fo.
- by split; left.
Qed.
Lemma char_F : char F = false -> all (fun t : R * word => nilp t.2) (obj X).
Proof.
have cX : canonical (obj X) by case/andP: oX.
rewrite /F /new_mv /characterise /= !canon_id //; case: ifP => //= _.
by case: ifP => //=; case: (char_loop _ _ _).
Qed.
Lemma grade_F : char F = false -> i_grade F = Some 0%N /\ grades F = Some [:: 0%N].
Proof.
have cX : canonical (obj X) by case/andP: oX.
move=> h; have := char_F h; rewrite /F /new_mv /characterise /= !canon_id //; by case: ifP.
Qed.
Lemma nil_blade (x : expr R) : all (fun t : R * word => nilp t.2) x -> blade_expr n x.
Proof.
by move=> /allP h; apply/allP => w /mapP[t /h /nilP -> ->]; exact: (@mk_blade_in n [::]).
Qed.
Lemma nil_words Y : mv_ok a Y -> mvv Y = mvv X -> all (fun t : R * word => nilp t.2) (obj X) ->
  all (fun t : R * word => nilp t.2) (obj Y).
Proof.
move=> oY E nX; have rX : in_rep a (brep Y) (obj X).
  have := in_rep_const a (brep Y) (1 : R); rewrite /in_rep; case: ifP => _ h; first exact: nil_blade.
  by apply/allP => w /mapP[t /(allP nX) /nilP -> ->]; have /andP[] := h.
have := rep_perm (ok_rep oY) rX E; rewrite !canon_id; first by move/perm_all ->.
  by case/andP: oX.
by case/andP: oY.
Qed.
Lemma inv_char o : inv o -> [/\ inv (characterise a o), cobj (characterise a o) = cobj o,
  blade_flg (characterise a o) = blade_flg o & versor_flg (characterise a o) = versor_flg o].
Proof.
move=> h; have [oo vo co [io go] [bo wo]] := h; rewrite /characterise.
case: ifP => [//|nc]; have cF : char F = false by rewrite -co.
have nX := nil_words oo vo (char_F cF).
have -> : canon (cobj o) = cobj o by apply: canon_id; case/andP: oo.
rewrite nX; split=> //; split=> //=.
- by rewrite /mv_ok /= nil_blade // andbT; case/andP: oo.
- by case: (grade_F cF) => -> ->.
Qed.
Lemma answers_S : answers_versor X = versor_spec (mvv X).
Proof.
have oX' : mv_ok a (Mv (obj X) true) by case/andP: oX => c _; rewrite /mv_ok c.
have [fo vo co _ _] := FP; rewrite /answers_versor /is_versor vo co fo.
have [->|[_]] := versor_valueS oX'; last by rewrite bX.
by rewrite -[mvv (Mv (obj X) true)]/(mvv X); case: (versor_spec _).
Qed.
Lemma inv_versor o : inv o -> [/\ inv (is_versor a o).1, cobj (is_versor a o).1 = cobj o,
   blade_flg (is_versor a o).1 = blade_flg o &
   (is_versor a o).2 = answers_versor X \/ ((is_versor a o).2 = None /\ ~~ blade_expr n (cobj o))].
Proof.
move=> h; have [oo vo co [io go] [bo wo]] := h; rewrite /is_versor.
case Ev: (versor_flg o) => [b|] /=.
  by split=> //; left; case: wo => [|<- //]; rewrite Ev.
have [hc cc cb cv] := inv_char h; have [oo1 vo1 co1 [io1 go1] [bo1 wo1]] := hc.
have := versor_valueS oo1; rewrite vo1 -answers_S; case: (versor_value _ _) => [b|] H /=.
  have Eb : answers_versor X = Some b by case: H => [<-|[]].
  split=> //; last by left.
  by split=> //; split=> //; right; rewrite Eb.
by split=> //; case: H => [<-|[_ H]]; [left|right; rewrite -cc].
Qed.
Lemma inv_blade o : inv o -> inv (is_blade a o).1 /\
   ((is_blade a o).2 = answers_blade X \/ ((is_blade a o).2 = None /\ ~~ blade_expr n (cobj o))).
Proof.
move=> h; have [oo vo co [io go] [bo wo]] := h.
have [Ab EA] : exists b, answers_blade X = Some b by rewrite /answers_blade (is_bladeE oX bX); eexists.
rewrite /is_blade; case Eb: (blade_flg o) => [b|] /=.
  split=> //; left; case: bo => [E|<- //]; rewrite /answers_blade /is_blade.
  by rewrite -/F -E Eb.
have bF : blade_flg F = None by case: bo; rewrite Eb ?EA.
have [hc cc cb cv] := inv_char h; have [oo1 vo1 co1 [io1 go1] [bo1 wo1]] := hc.
have set_inv o' b : inv o' -> answers_blade X = Some b -> inv (set_blade o' b).1.
  by case=> ? ? ? ? [? ?] E; split=> //; split=> //; right; rewrite E.
have [_ _ cF _ _] := FP.
have zE Y : mv_ok a Y -> mvv Y = mvv X -> (canon (obj Y) == [::]) = (mvv X == 0).
  by move=> oY vY; rewrite -vY -(is_zeroP two oY).
have EX : answers_blade X = (is_blade a F).2 by [].
move: EX set_inv; rewrite /is_blade bF cF io1.
have [oF vF _ _ _] := inv_new.
rewrite [canon (cobj F) == _](zE _ oF vF) [canon (cobj (characterise a o)) == _](zE _ oo1 vo1).
case: (i_grade F) => [r|] EX set_inv; last by split; [apply: set_inv|left].
case: ifP EX => [_|_] EX; first by split; [apply: set_inv|left].
case: ifP EX => [_|_] EX; first by split; [apply: set_inv|left].
have [hv cv' bv Hv] := inv_versor hc; have [hvF cvF _ HvF] := inv_versor inv_new.
move: EX; case: (is_versor a F) hvF cvF HvF => oF2 vF2 /= hvF cvF HvF.
have {}HvF : vF2 = answers_versor X.
  by case: HvF => // -[_]; rewrite -[cobj F]/(obj (forget F)); have [-> _ _ _ _] := FP; rewrite bX.
case: (is_versor a (characterise a o)) hv cv' bv Hv => o2 v2 /= hv cv' bv Hv.
have wE o' : inv o' -> exists2 w, mv_wedge a (forget o') (forget o') = Some w & is_zero w = (ext (mvv X) (mvv X) == 0).
  case=> o'o v'o _ _ _; have [w E [ow vw _]] := mv_wedgeP two wf o'o o'o; exists w => //.
  by rewrite (is_zeroP two ow) vw v'o.
have [w1 -> z1] := wE _ hvF; have [w2 -> z2] := wE _ hv; rewrite HvF z1 z2.
case: Hv => [->|[-> nb]] /=.
  case: (answers_versor X) => [[|]|] /= EX; first by split; [apply: set_inv|left].
    by split; [apply: set_inv|left].
  by move: EX; rewrite EA.
by move=> _; split=> //; right; rewrite -cc.
Qed.
Lemma inv_grade o : inv o -> inv (pure_grade a o).1 /\ (pure_grade a o).2 = (pure_grade a F).2.
Proof.
move=> h; have [hc _ _ _] := inv_char h; split=> //; have [_ _ _ [io go] _] := hc.
by have [_ _ cF _ _] := FP; rewrite /pure_grade /= cF io go.
Qed.
Lemma inv_base o : inv o -> exists2 o', cbase_rep a o = Some o' & inv o'.
Proof.
move=> h; have [oo vo co ig fl] := h; rewrite /cbase_rep; case: ifP => br; first by exists o.
have [Y] := base_repP two wf oo; rewrite /base_rep /= (negbFE br).
case: (blade_to_base_rep _ _) => //= x [<-] [_ oY vY]; eexists; first by [].
by split=> //=; rewrite -?vo -?vY.
Qed.
Lemma inv_toblade o : inv o -> exists2 o', cblade_rep a o = Some o' & inv o' /\ cbrep o'.
Proof.
move=> h; have [oo vo co ig fl] := h; rewrite /cblade_rep; case: ifP => br; first by exists o.
have [Y] := blade_repP two wf oo; rewrite /blade_rep /= br.
case: (base_to_blade_rep _ _) => //= x [<-] [_ oY vY]; eexists; first by [].
by split=> //; split=> //=; rewrite -?vo -?vY.
Qed.
Lemma inv_ask o q : inv o -> inv (ask o q).
Proof.
move=> h; case: q => /=; first by have [] := inv_blade h.
- by have [] := inv_versor h.
- by have [] := inv_grade h.
- by have [o' ->] := inv_base h.
by have [o' -> []] := inv_toblade h.
Qed.
Lemma inv_asks qs : inv (foldl ask F qs).
Proof.
suff h o : inv o -> inv (foldl ask o qs) by exact/h/inv_new.
by elim: qs o => //= q qs IH o /(inv_ask q) /IH.
Qed.
End Cache.

(* whatever was asked before, and through any changes of representation, the
   object never gives an answer different from that of a new object with the
   same value; in the blade representation it does answer.  Missing for the full
   property: set_coef() and objects made in the base representation, for which
   it is false (below). *)
Theorem C40_queries_partial X qs : mv_valid a X -> blade_form a X ->
  let o := foldl ask (new_mv a (obj X)) qs in
  [/\ forall b, (is_blade a o).2 = Some b -> answers_blade X = Some b,
      forall b, (is_versor a o).2 = Some b -> answers_versor X = Some b,
      (pure_grade a o).2 = (pure_grade a (new_mv a (obj X))).2 &
      exists2 o', cblade_rep a o = Some o' &
        (is_blade a o').2 = answers_blade X /\ (is_versor a o').2 = answers_versor X].
Proof.
move=> hX fX o; have oX : mv_ok a X by rewrite -mv_validE.
have bX := bladed_blade oX fX; have h : inv X o := inv_asks oX bX qs; split.
- by move=> b E; have [_ [<- //|[]]] := inv_blade oX bX h; rewrite E.
- by move=> b E; have [_ _ _ [<- //|[]]] := inv_versor oX bX h; rewrite E.
- by have [] := inv_grade oX bX h.
have [o' -> [h' br]] := inv_toblade h; exists o' => //.
have bo : blade_expr n (cobj o') by have [oo _ _ _ _] := h'; exact: (ok_blade oo br).
have [_ [-> |[_]]] := inv_blade oX bX h'; last by rewrite bo.
by have [_ _ _ [-> |[_]]] := inv_versor oX bX h'; last by rewrite bo.
Qed.
(* what a new object records: exactly the grades of the non-zero parts *)
Theorem C40_new X : mv_valid a X -> blade_form a X ->
  exists2 gs, grades (new_mv a (obj X)) = Some gs & uniq gs /\
   [/\ forall r, (r \in gs) <-> (run_eq a (Grade X r) (Num 0) = Some false \/ (run_eq a X (Num 0) = Some true /\ r = 0%N)),
       forall r, i_grade (new_mv a (obj X)) = Some r <-> gs = [:: r],
       forall r, run_eq a X (Num 0) = Some false -> run_eq a (Grade X r) X = Some true ->
         (pure_grade a (new_mv a (obj X))).2 = Some (Posz r) &
       (1 < size gs)%N -> exists2 r, r \in gs & (pure_grade a (new_mv a (obj X))).2 = Some (- Posz r)].
Proof.
move=> hX fX; have oX : mv_ok a X by rewrite -mv_validE.
have bX := bladed_blade oX fX; have [fo vo co _ [gs Eg [Ei ug mg]]] := newP oX bX; exists gs => //; split=> //.
have GE r : run_eq a (Grade X r) (Num 0) = Some (gpart r (mvv X) == 0).
  by rewrite (run_eqP two wf Hc) /= ?hX ?[_ || _]fX // VE // /num scale0r.
have ZE : run_eq a X (Num 0) = Some (mvv X == 0).
  by rewrite (run_eqP two wf Hc) /= ?hX // VE // /num scale0r.
split=> [r|r|r|].
- rewrite mg GE ZE; split=> [/orP[/negPf -> |/andP[-> /eqP ->]]|[[/negbT ->]|[[->] ->]]]; rewrite ?orbT //.
  + by left.
  by right.
- by rewrite Ei; case: (gs) => [|k [|]]; split=> // -[->].
- rewrite ZE (run_eqP two wf Hc) /= ?hX ?[_ || _]fX // VE // => -[/negbT u0] [/eqP hr].
have E : gs = [:: r].
  apply: perm_small_eq => //; apply: uniq_perm => // k; rewrite mg (negPf u0) orbF inE.
  by rewrite -hr gpart_gpart; case: (k == r); rewrite ?hr ?u0 ?eqxx.
  by rewrite /pure_grade /= co Ei E.
rewrite /pure_grade /= co Ei Eg; case: (gs) => [|g [|k l]] // _.
by exists (last g (k :: l)) => //; exact: mem_last.
Qed.
End Versor.

(* over a field the test is exact in grade 2: accepted bivectors are outer
   products of two vectors *)
Theorem C23_blade_bivector (F : fieldType) (two : (2%:R : F) \is a GRing.unit) (a : ga F) X : wf_ga a ->
  mv_valid a X -> blade_form a X -> run_eq a (Grade X 2) X = Some true -> answers_blade a X = Some true ->
  exists u v, [/\ mv_valid a u && is_vec a u, mv_valid a v && is_vec a v & run_eq a (u ^. v) X = Some true].
Proof.
move=> wf hX bX; have oX : mv_ok a X by rewrite -mv_validE.
have Hc := clifford_product_exists (ga_metric two a).
have VE Y : mv_ok a Y -> den (cmul (ga_metric two a)) (obj Y) = mvv two a Y by exact: den_ok.
rewrite (run_eqP two wf Hc) /= ?hX ?[_ || _]bX // VE // => -[/eqP h2].
rewrite /answers_blade (is_bladeE two wf oX (bladed_blade oX bX)); set B := mvv two a X in h2 * => -[/and3P[B0 _ alt]].
have no k : k != 2%N -> (gpart k B == B) = false.
  by move=> k2; rewrite -h2 gpart_gpart (negPf k2) eq_sym h2 (negPf B0).
have BB : ext B B = 0.
  move: alt; rewrite !no //= => /orP[/and4P[/eqP s _ _ _]|/eqP //].
  have mB : mrev B = - B by rewrite -{1}h2 mrev_gpart expr1 scaleN1r h2.
  have := ext_top two (ga_metric two a) 2 2 B B; rewrite h2 => <-.
  have -> : (B : cl two a) * (B : cl two a) = - (B * (mrev B : cl two a)) by rewrite mB mulrN opprK.
  by rewrite -s raddfN /= gpart_gpart oppr0.
have [i [j c0]] := bivector_coef h2 B0; set c := contr_op i B [set j] in c0.
have hu : homog 1 (c^-1 *: contr_op i B) by apply: homogZ; exact: (homog_contr i (r := 1) h2).
have hv : homog 1 (contr_op j B) by exact: (homog_contr j (r := 1) h2).
have [vu isu Eu _] := vec_mvP two hu; have [vv isv Ev _] := vec_mvP two hv.
move: (vec_mv (c^-1 *: _)) vu isu Eu => U vu isu Eu; move: (vec_mv _) vv isv Ev => V vv isv Ev.
exists U, V; rewrite vu isu vv isv; split=> //.
apply: (run_law two wf Hc); rewrite /= ?vu ?vv ?hX // !VE -?mv_validE // Eu Ev (extZl two).
by rewrite -(bivector_split two i j h2 BB) scalerA mulVf // scale1r.
Qed.

(* finding: the outer-square test accepts multivectors that are not blades.  In
   five Euclidean dimensions e0^e1^e2 + e0^e3^e4 passes; its square is not a
   scalar and it is no outer product of vectors. *)
Definition euclid5 : ga rat_comUnitRing :=
  @Ga rat_comUnitRing 5 [seq [seq ((i == j)%:R : rat) | j <- iota 0 5] | i <- iota 0 5].
Definition not_blade : mv rat_comUnitRing :=
  Mv [:: (1 : rat, mk_blade [:: 0; 1; 2]%N); (1 : rat, mk_blade [:: 0; 3; 4]%N)] true.
Lemma rat_two : (2%:R : rat_comUnitRing) \is a GRing.unit. Proof. by []. Qed.
Lemma euclid5_wf : wf_ga euclid5. Proof. by vm_compute. Qed.
Lemma not_blade_ok : mv_valid euclid5 not_blade. Proof. by vm_compute. Qed.
Lemma not_blade_form : blade_form euclid5 not_blade. Proof. by []. Qed.
Lemma not_blade_accepted : answers_blade euclid5 not_blade = Some true. Proof. by vm_compute. Qed.
Lemma not_blade_square : run_eq euclid5 (not_blade *. not_blade) (Grade (not_blade *. not_blade) 0) = Some false.
Proof. by vm_compute. Qed.
Theorem C23_blade_refuted :
  [/\ wf_ga euclid5, mv_valid euclid5 not_blade, answers_blade euclid5 not_blade = Some true,
      forall c, run_eq euclid5 (not_blade *. not_blade) (Num c) <> Some true &
      forall Xs, all (fun X => mv_valid euclid5 X && is_vec euclid5 X) Xs ->
        run_eq euclid5 (wedge_all Xs) not_blade <> Some true].
Proof.
have [h1 h2] := no_scalar_square rat_two euclid5_wf not_blade_ok not_blade_square not_blade_form.
exact: (And5 euclid5_wf not_blade_ok not_blade_accepted h1 h2).
Qed.


(* finding: set_coef() leaves the cached answers in place.  Adding a scalar to
   e0 gives a multivector that is not homogeneous, still reported as a blade of
   grade 1 *)
Theorem C40_set_coef_refuted : exists (a : ga rat_comUnitRing) X (v : rat),
  [/\ wf_ga a, mv_valid a X && blade_form a X &
   omap (fun o => [&& (is_blade a o).2 == Some true, answers_blade a (forget o) == Some false,
                      (pure_grade a o).2 == Some (Posz 1) & grades o != grades (new_mv a (cobj o))])
     (set_coef a (new_mv a (obj X)) 0 0 v) = Some true].
Proof. by exists mv_ga, (mv_basis_vec rat_comUnitRing 0), 5%:R; split; vm_compute. Qed.
(* finding: an object made in the base representation keeps the characteristics
   "not in blade representation" after blade_rep(): is_blade() is False for
   e0*e1 - (e0|e1) = e0^e1, and pure_grade() raises *)
Definition base_bivector : mv rat_comUnitRing := Mv [:: (1 : rat, mk_base [:: 0; 1]%N); (- (3%:R : rat), [::])] false.
Theorem C40_base_rep_refuted : exists (a : ga rat_comUnitRing) X,
  [/\ wf_ga a, mv_valid a X &
   omap (fun o => [&& cbrep o, mv_valid a (forget o), (is_blade a o).2 == Some false, answers_blade a (forget o) == Some true &
                      ~~ isSome (pure_grade a o).2])
     (cblade_rep a (new_mv a (obj X))) = Some true].
Proof. by exists mv_ga, base_bivector; split; vm_compute. Qed.
(* finding: pure_grade() is the negative of the last grade for a mixed
   multivector, so e0 + 2 is reported with 0, the grade of a scalar *)
Theorem C40_pure_grade_refuted : exists (a : ga rat_comUnitRing) X,
  [/\ wf_ga a, mv_valid a X && blade_form a X,
      (pure_grade a (new_mv a (obj X))).2 == Some (Posz 0) &
      (is_scalar a X == Some false)].
Proof.
exists mv_ga, (Mv [:: (1 : rat, mk_blade [:: 0%N]); (2%:R : rat, [::])] true).
by split; vm_compute.
Qed.

(* e0 + 3 e0^e1 has two grades; e0*(e0 - e1) is a versor, as a product of vectors
   with squares 1 and -3; e0^e1 is accepted as a blade *)
Lemma mv_ga_wf : wf_ga mv_ga. Proof. by vm_compute. Qed.
Lemma ex_e0 : mv_valid mv_ga (mv_basis_vec rat_comUnitRing 0) && is_vec mv_ga (mv_basis_vec rat_comUnitRing 0). Proof. by vm_compute. Qed.
Lemma ex_V : mv_valid mv_ga mv_V && is_vec mv_ga mv_V. Proof. by vm_compute. Qed.
Lemma ex_e0_sq : run_eq mv_ga (mv_basis_vec rat_comUnitRing 0 *. mv_basis_vec rat_comUnitRing 0) (Num (1 : rat)) = Some true.
Proof. by vm_compute. Qed.
Lemma ex_V_sq : run_eq mv_ga (mv_V *. mv_V) (Num (- (3%:R : rat))) = Some true. Proof. by vm_compute. Qed.
Example C23_ex_vectors : List.Forall (nonnull_vector mv_ga) [:: mv_basis_vec rat_comUnitRing 0; mv_V].
Proof.
have [v0 i0] := andP ex_e0; have [v1 i1] := andP ex_V.
apply: List.Forall_cons; first by split=> //; exists 1 => //; exact: ex_e0_sq.
apply: List.Forall_cons; last exact: List.Forall_nil.
by split=> //; exists (- 3%:R) => //; exact: ex_V_sq.
Qed.
Example C23_ex_versor : let r := run mv_ga (mul_all [:: mv_basis_vec rat_comUnitRing 0; mv_V]) in
  omap (answers_versor mv_ga) r == Some (Some true) /\ (omap (fun P => is_scalar mv_ga P) r == Some (Some false)).
Proof. by split; vm_compute. Qed.
Example C23_ex_not : answers_versor mv_ga mv_X == Some false /\ answers_blade mv_ga mv_X == Some false.
Proof. by split; vm_compute. Qed.
Example C23_ex_blade : omap (answers_blade mv_ga) (run mv_ga (wedge_all [:: mv_basis_vec rat_comUnitRing 0; mv_V])) == Some (Some true).
Proof. by vm_compute. Qed.
Example C40_ex : let o := foldl (ask mv_ga) (new_mv mv_ga (obj mv_X)) [:: AskBlade; ToBase; AskVersor; ToBlade; AskGrade] in
  [&& blade_flg o == Some false, versor_flg o == Some false, grades o == Some [:: 1; 2]%N & cbrep o].
Proof. by vm_compute. Qed.



Definition props_versor_all := (C23_versor_sound, C23_versor_complete, C23_blade_sound, C23_blade_complete, C23_blade_bivector,
  C23_wedge_square, C23_blade_refuted, C40_queries_partial, C40_new, C40_set_coef_refuted, C40_base_rep_refuted, C40_pure_grade_refuted).
Print Assumptions props_versor_all.
