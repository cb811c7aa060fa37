(* Metric_Agree.v -- every product reads only the upper triangle (with the
   diagonal) of the metric: two algebras that agree there compute the same
   expressions. *)
From mathcomp Require Import all_ssreflect all_algebra.
From Verif Require Import PyBase Ga_Model Mv_Model Mv_Expr.
Set Implicit Arguments.
Unset Strict Implicit.
Unset Printing Implicit Defensive.
Import GRing.Theory.
Local Open Scope ring_scope.

Lemma eq_omapM (A B : Type) (f g : A -> option B) l : f =1 g -> omapM f l = omapM g l.
Proof. by move=> e; elim: l => //= x l ->; rewrite e. Qed.
Lemma eq_foldl (A B : Type) (f g : B -> A -> B) z l : (forall u v, f u v = g u v) -> foldl f z l = foldl g z l.
Proof. by move=> e; elim: l z => //= x l IH z; rewrite e IH. Qed.

Section Agree.
Variables (R : comUnitRingType) (n : nat) (g1 g2 : seq (seq R)).
Notation a := (Ga n g1).
Notation b := (Ga n g2).
Hypothesis eg : forall i j, (i <= j)%N -> gij a i j = gij b i j.

Lemma is_ortho_agree : is_ortho a = is_ortho b.
Proof.
apply: eq_in_all => i _; apply: eq_in_all => j _.
by case lt: (i < j)%N => //=; rewrite eg // ltnW.
Qed.
Lemma remove_repeats_agree rep l c : remove_repeats a rep l c = remove_repeats b rep l c.
Proof.
elim: rep l c => //= i rep IH l c; case: (pyremove l i) => //= l1.
by case: (pyremove l1 i) => //= l2; rewrite eg // IH.
Qed.
Lemma mul_ortho_agree x y : mul_ortho a x y = mul_ortho b x y.
Proof.
rewrite /mul_ortho /=; case: dget => //= i1; case: dget => //= i2.
by case: ortho_sort => [[l rep] s]; rewrite remove_repeats_agree.
Qed.
Lemma bpass_agree r lft rgt s c o : bpass a r lft rgt s c o = bpass b r lft rgt s c o.
Proof.
elim/ltn_ind: {rgt}(size rgt) {-2}rgt (erefl (size rgt)) lft s c o => k IH [|y rgt] //= ek lft s c o.
case: lft => //= x lft; rewrite eg //.
case: ifP => _.
  by case: ifP => // _; case: rgt ek => [|z rgt] //= ek; apply: (IH (size rgt)) => //; rewrite -ek ltnS leqnSn.
by case: ifP => _; apply: (IH (size rgt)) => //; rewrite -ek ltnS.
Qed.
Lemma bubble_agree f r l s c : bubble a f r l s c = bubble b f r l s c.
Proof.
elim: f l s c => [|f IH] l s c //=; case: ifP => // _; rewrite bpass_agree.
by case: bpass => // [[[[l' s'] c'] o]]; case: o.
Qed.
Lemma single_ortho_agree k x y : single_ortho a k x y = single_ortho b k x y.
Proof.
rewrite /single_ortho; case: dget => // i1; case: dget => // i2; rewrite /obnd.
by case: result_grade => // r; rewrite bubble_agree.
Qed.
Lemma rbl_scan_agree pre x rest : rbl_scan a pre x rest = rbl_scan b pre x rest.
Proof.
elim: rest pre x => //= y rest IH pre x; rewrite eg //; case: ifP => // _.
by case lt: (y < x)%N => //; rewrite eg // ltnW.
Qed.
Lemma rb_step_agree t : rb_step a t = rb_step b t.
Proof. by case: t => [[c l] f] /=; case: l => // x l; rewrite /= rbl_scan_agree. Qed.
Lemma rb_pass_agree ts : rb_pass a ts = rb_pass b ts.
Proof. by rewrite /rb_pass; congr (_ ++ flatten _); apply: eq_map => t; rewrite rb_step_agree. Qed.
Lemma rb_loop_agree f ts : rb_loop a f ts = rb_loop b f ts.
Proof. by elim: f ts => //= f IH ts; rewrite rb_pass_agree IH. Qed.
Lemma reduce_basis_agree l : reduce_basis a l = reduce_basis b l.
Proof. by rewrite /reduce_basis; case: l => // x l; rewrite rb_loop_agree. Qed.
Lemma basic_table_agree : basic_table a = basic_table b.
Proof.
rewrite /basic_table; congr obnd; apply: eq_omapM => p; rewrite /of_basis_bases /=.
case: dget => //= i1; case: dget => //= i2; rewrite reduce_basis_agree //.
Qed.
Lemma basic_mul_agree x y : basic_mul a x y = basic_mul b x y.
Proof. by rewrite /basic_mul basic_table_agree. Qed.
Lemma bed_agree : blade_expansion_dict a = blade_expansion_dict b.
Proof.
rewrite /blade_expansion_dict; apply: eq_foldl => [[d|] i] //=; rewrite /bed_step /=.
case: ifP => // _; case: dget => //= va; case: dget => //= vA; case: dget => //= Ae.
by rewrite !basic_mul_agree.
Qed.
Lemma bsd_agree : base_expansion_dict a = base_expansion_dict b.
Proof. by rewrite /base_expansion_dict bed_agree. Qed.
Lemma to_blade_agree x : base_to_blade_rep a x = base_to_blade_rep b x.
Proof. by rewrite /base_to_blade_rep is_ortho_agree bsd_agree. Qed.
Lemma to_base_agree x : blade_to_base_rep a x = blade_to_base_rep b x.
Proof. by rewrite /blade_to_base_rep is_ortho_agree bed_agree. Qed.
Lemma subst_agree x y (t1 t2 : word -> word -> option (expr R)) : (forall u v, t1 u v = t2 u v) ->
  update_and_substitute x y t1 = update_and_substitute x y t2.
Proof. by move=> e; rewrite /update_and_substitute; congr obnd; apply: eq_omapM => p; rewrite e. Qed.
Lemma mul_bb_agree x y : mul_bb a x y = mul_bb b x y.
Proof.
rewrite /mul_bb is_ortho_agree mul_ortho_agree (to_base_agree [:: (1, x)]) (to_base_agree [:: (1, y)]).
case: (is_ortho b); first by [].
case: (blade_to_base_rep b [:: (1, x)]) => [x1|]; last by [].
case: (blade_to_base_rep b [:: (1, y)]) => [x2|]; last by [].
rewrite /obnd basic_mul_agree; case: (basic_mul b x1 x2) => [z|]; last by [].
exact: to_blade_agree.
Qed.
Lemma ga_mul_agree x y : ga_mul a x y = ga_mul b x y.
Proof. by apply: subst_agree => u v; exact: mul_bb_agree. Qed.
Lemma single_bb_agree k x y : single_bb a k x y = single_bb b k x y.
Proof.
suff e : (if is_ortho a then single_ortho a k x y else single_non_ortho a k x y) =
         (if is_ortho b then single_ortho b k x y else single_non_ortho b k x y) by case: k e.
rewrite is_ortho_agree single_ortho_agree; case: (is_ortho b); first by [].
rewrite /single_non_ortho /obnd bed_agree -[ga_n a]/n -[ga_n b]/n.
case: (dget (blades_to_grades n) x) => [r|]; last by []. case: (dget (blades_to_grades n) y) => [s|]; last by [].
case: result_grade => [k'|]; last by []. case: (blade_expansion_dict b) => [bed|]; last by [].
case: (dget bed x) => [x1|]; last by []. case: (dget bed y) => [x2|]; last by [].
rewrite ga_mul_agree; case: (ga_mul b x1 x2) => [z|]; last by [].
rewrite to_blade_agree; case: (base_to_blade_rep b z) => [u|]; last by [].
by [].
Qed.
Lemma ga_single_agree k x y : ga_single a k x y = ga_single b k x y.
Proof. by apply: subst_agree => u v; exact: single_bb_agree. Qed.
Lemma ga_grades_agree x : ga_grades a x = ga_grades b x.
Proof. by rewrite /ga_grades to_blade_agree. Qed.

Lemma base_rep_agree X : base_rep a X = base_rep b X.
Proof. by rewrite /base_rep to_base_agree. Qed.
Lemma blade_rep_agree X : blade_rep a X = blade_rep b X.
Proof. by rewrite /blade_rep to_blade_agree. Qed.
Lemma is_scalar_agree X : is_scalar a X = is_scalar b X.
Proof. by rewrite /is_scalar ga_grades_agree. Qed.
Lemma arith_agree op X Y : mv_arith op a X Y = mv_arith op b X Y.
Proof. by rewrite /mv_arith !blade_rep_agree. Qed.
Lemma mv_mul_agree X Y : mv_mul a X Y = mv_mul b X Y.
Proof.
rewrite /mv_mul /obnd is_scalar_agree (ga_mul_agree (obj X)) (base_rep_agree X) (base_rep_agree Y).
case: (is_scalar b X) => [[]|]; [by []| |by []].
case: (~~ brep X && ~~ brep Y); first by [].
case: (base_rep b X) => [X'|]; last by []. case: (base_rep b Y) => [Y'|]; last by [].
rewrite ga_mul_agree; case: (ga_mul b _ _) => [z|]; last by [].
exact: blade_rep_agree.
Qed.
Lemma mv_wedge_agree X Y : mv_wedge a X Y = mv_wedge b X Y.
Proof. by rewrite /mv_wedge is_scalar_agree mv_mul_agree (blade_rep_agree X) (blade_rep_agree Y). Qed.
Lemma mv_single_agree k X Y : mv_single k a X Y = mv_single k b X Y.
Proof.
rewrite /mv_single /obnd (blade_rep_agree X) (blade_rep_agree Y).
case: (blade_rep b X) => [X'|]; last by []. case: (blade_rep b Y) => [Y'|]; last by [].
by rewrite ga_single_agree.
Qed.
Lemma mv_com_agree X Y : mv_com a X Y = mv_com b X Y.
Proof.
rewrite /mv_com /obnd (mv_mul_agree X) (mv_mul_agree Y).
case: (mv_mul b X Y) => [p|]; last by []. case: (mv_mul b Y X) => [q|]; last by [].
by rewrite /mv_sub arith_agree.
Qed.
Lemma mv_anticom_agree X Y : mv_anticom a X Y = mv_anticom b X Y.
Proof.
rewrite /mv_anticom /obnd (mv_mul_agree X) (mv_mul_agree Y).
case: (mv_mul b X Y) => [p|]; last by []. case: (mv_mul b Y X) => [q|]; last by [].
by rewrite /mv_add arith_agree.
Qed.
Lemma mv_pow_agree X k : mv_pow a X k = mv_pow b X k.
Proof.
rewrite /mv_pow -[mv_const b 1]/(mv_const a 1); elim: k (mv_const a 1) => [//|k IH r].
rewrite [LHS]/= [RHS]/= /obnd mv_mul_agree; case: (mv_mul b r X) => [z|]; last by [].
exact: IH.
Qed.
Lemma mv_rev_agree X : mv_rev a X = mv_rev b X.
Proof. by rewrite /mv_rev blade_rep_agree. Qed.
Lemma mv_invol_agree X : mv_invol a X = mv_invol b X.
Proof.
rewrite /mv_invol /obnd -[mv_even b X]/(mv_even a X) -[mv_odd b X]/(mv_odd a X).
case: (mv_even a X) => [e|]; last by []. case: (mv_odd a X) => [o|]; last by [].
by rewrite /mv_sub arith_agree.
Qed.
Lemma o1 (f g : mv R -> option (mv R)) x : (forall u, f u = g u) -> obnd x f = obnd x g.
Proof. by case: x => [x|] e; [exact: e|]. Qed.
Lemma run_agree (p : py R) : run a p = run b p.
Proof.
elim: p.
- by [].
- by [].
- by move=> p IH; rewrite [LHS]/= [RHS]/= IH.
- move=> p IHp q IHq; rewrite [LHS]/= [RHS]/= IHp; apply: o1 => x; rewrite IHq; apply: o1 => y.
  by rewrite /mv_add arith_agree.
- move=> p IHp q IHq; rewrite [LHS]/= [RHS]/= IHp; apply: o1 => x; rewrite IHq; apply: o1 => y.
  by rewrite /mv_sub arith_agree.
- by move=> p IH c; rewrite [LHS]/= [RHS]/= IH.
- by move=> p IH c; rewrite [LHS]/= [RHS]/= IH.
- by move=> c p IH; rewrite [LHS]/= [RHS]/= IH.
- by move=> c p IH; rewrite [LHS]/= [RHS]/= IH.
- move=> p IHp q IHq; rewrite [LHS]/= [RHS]/= IHp; apply: o1 => x; rewrite IHq; apply: o1 => y.
  exact: mv_mul_agree.
- move=> p IHp q IHq; rewrite [LHS]/= [RHS]/= IHp; apply: o1 => x; rewrite IHq; apply: o1 => y.
  exact: mv_wedge_agree.
- move=> p IHp q IHq; rewrite [LHS]/= [RHS]/= IHp; apply: o1 => x; rewrite IHq; apply: o1 => y.
  exact: mv_single_agree.
- move=> p IHp q IHq; rewrite [LHS]/= [RHS]/= IHp; apply: o1 => x; rewrite IHq; apply: o1 => y.
  exact: mv_single_agree.
- move=> p IHp q IHq; rewrite [LHS]/= [RHS]/= IHp; apply: o1 => x; rewrite IHq; apply: o1 => y.
  exact: mv_single_agree.
- by move=> p IHp k; rewrite [LHS]/= [RHS]/= IHp; apply: o1 => x; exact: mv_pow_agree.
- move=> p IHp q IHq; rewrite [LHS]/= [RHS]/= IHp; apply: o1 => x; rewrite IHq; apply: o1 => y.
  exact: mv_com_agree.
- move=> p IHp q IHq; rewrite [LHS]/= [RHS]/= IHp; apply: o1 => x; rewrite IHq; apply: o1 => y.
  exact: mv_anticom_agree.
- by move=> p IHp k; rewrite [LHS]/= [RHS]/= IHp.
- by move=> p IHp; rewrite [LHS]/= [RHS]/= IHp.
- by move=> p IHp; rewrite [LHS]/= [RHS]/= IHp.
- by move=> p IHp; rewrite [LHS]/= [RHS]/= IHp; apply: o1 => x; exact: mv_invol_agree.
- by move=> p IHp; rewrite [LHS]/= [RHS]/= IHp; apply: o1 => x; exact: mv_rev_agree.
- move=> p IHp; rewrite [LHS]/= [RHS]/= IHp; apply: o1 => x; rewrite /mv_ccon mv_invol_agree.
  by apply: o1 => y; exact: mv_rev_agree.
- by move=> p IHp; rewrite [LHS]/= [RHS]/= IHp; apply: o1 => x; exact: base_rep_agree.
- by move=> p IHp; rewrite [LHS]/= [RHS]/= IHp; apply: o1 => x; exact: blade_rep_agree.
Qed.
Lemma run_eq_agree (p q : py R) : run_eq a p q = run_eq b p q.
Proof.
rewrite /run_eq /obnd (run_agree p) (run_agree q).
case: (run b p) => [x|]; last by []. case: (run b q) => [y|]; last by [].
by rewrite /mv_eq /mv_sub arith_agree.
Qed.
Lemma mv_inv_agree X : mv_inv a X = mv_inv b X.
Proof.
rewrite /mv_inv /obnd (is_scalar_agree X) (mv_mul_agree X X) (mv_rev_agree X).
case: (is_scalar b X) => [[]|]; [by []| |by []].
case: (mv_mul b X X) => [sq|]; last by [].
rewrite (is_scalar_agree sq); case: (is_scalar b sq) => [[]|]; [by []| |by []].
case: (mv_rev b X) => [r|]; last by [].
rewrite (mv_mul_agree X r); case: (mv_mul b X r) => [q|]; last by [].
by rewrite (is_scalar_agree q).
Qed.
End Agree.
