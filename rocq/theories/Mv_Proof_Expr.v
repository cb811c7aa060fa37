(* Mv_Proof_Expr.v -- running a multivector expression computes its meaning *)
From mathcomp Require Import all_ssreflect all_algebra.
From Verif Require Import NatTac AlgTactics Exterior Clifford Blades Spec_Grade Grades.
From Verif Require Import Spec_Index PyBase Ga_Model Ga_Proof_Tables Ga_Proof_Sort Ga_Proof_Sem Ga_Proof_Reduce.
From Verif Require Import Ga_Sem Ga_Proof_Rep Ga_Proof_Conv Ga_Proof_Mul Spec_Clifford Clifford_Unique Spec_Mv Ga_Proof_Den Ga_Proof_Wedge Ga_Proof_Inner.
From Verif Require Import Ga_Proof_Grade Mv_Model Mv_Proof Mv_Expr.
Set Implicit Arguments.
Unset Strict Implicit.
Unset Printing Implicit Defensive.
Import GRing.Theory.
Local Open Scope ring_scope.

Lemma mv_validE (R : comUnitRingType) (a : ga R) X : mv_valid a X = mv_ok a X.
Proof.
rewrite /mv_valid /mv_ok /canonical /blade_expr /base_expr /words andbA; congr (_ && _).
by case: ifP => _; rewrite all_map; apply: eq_all.
Qed.

Section Expr.
Variables (R : comUnitRingType) (two : (2%:R : R) \is a GRing.unit) (a : ga R).
Hypothesis wf : wf_ga a.
Notation n := (ga_n a).
Notation C := (cl two a).
Variable mul : mval R n -> mval R n -> mval R n.
Hypothesis H : is_clifford_product (fun i j : 'I_n => geff a i j) mul.
Notation sem := (sem mul).
Implicit Types (p q : py R) (X Y : mv R).

Lemma selE f (x y : mval R n) : selprod mul f x y = selprod (fun u v : C => u * v) f x y.
Proof.
rewrite /selprod; apply: eq_bigr => r _; apply: eq_bigr => s _.
by case: f => // k; rewrite (mulE two H).
Qed.
Lemma powE (x : C) k : iter k (fun z => mul z x) (num a 1) = x ^+ k.
Proof.
elim: k => [|k IH] /=; first by rewrite expr0 /num scale1r.
by rewrite IH (mulE two H) exprSr.
Qed.
Lemma den_ok X : mv_ok a X -> den mul (obj X) = mvv two a X.
Proof. by move=> oX; rewrite (denE two H) //; exact: ok_ok. Qed.

Lemma run_yields p : legal a p -> @yields _ two a (inblade a p) (run a p) (sem p).
Proof.
have b1 (b b' : bool) o (v : C) : yields b o v -> (b' -> b) -> yields b' o v by move=> h h'; exact: yieldsW h' h.
elim: p => //=.
- by move=> X; rewrite mv_validE => oX; rewrite den_ok //; exact: yields_some.
- by move=> c _; exact: yields_const.
- move=> p IH /IH[X -> [oX <- bX]] /=; exact: (b1 _ _ _ _ (mv_negP two oX) bX).
- move=> p IHp q IHq /andP[/IHp[X -> [oX <- bX]] /IHq[Y -> [oY <- bY]]] /=.
  apply: (b1 _ _ _ _ (mv_addP two wf oX oY)) => /orP[/bX->//|/bY->]; by rewrite orbT.
- move=> p IHp q IHq /andP[/IHp[X -> [oX <- bX]] /IHq[Y -> [oY <- bY]]] /=.
  apply: (b1 _ _ _ _ (mv_subP two wf oX oY)) => /orP[/bX->//|/bY->]; by rewrite orbT.
- by move=> p IH c /IH[X -> [oX <- bX]] /=; exact: (b1 _ _ _ _ (mv_addcP two _ oX) bX).
- by move=> p IH c /IH[X -> [oX <- bX]] /=; exact: (b1 _ _ _ _ (mv_subcP two _ oX) bX).
- by move=> c p IH /IH[X -> [oX <- bX]] /=; exact: (b1 _ _ _ _ (mv_rsubcP two _ oX) bX).
- by move=> c p IH /IH[X -> [oX <- bX]] /=; exact: (b1 _ _ _ _ (mv_scaleP two _ oX) bX).
- move=> p IHp q IHq /andP[/IHp[X -> [oX <- bX]] /IHq[Y -> [oY <- bY]]] /=.
  by rewrite (mulE two H); exact: (b1 _ _ _ _ (mv_mulP two wf oX oY) bY).
- move=> p IHp q IHq /andP[/IHp[X -> [oX <- bX]] /IHq[Y -> [oY <- bY]]] /=.
  exact: (b1 _ _ _ _ (mv_wedgeP two wf oX oY) bY).
- move=> p IHp q IHq /andP[/IHp[X -> [oX <- bX]] /IHq[Y -> [oY <- bY]]] /=.
  by rewrite selE; exact: (mv_singleP two wf Hestenes).
- move=> p IHp q IHq /andP[/IHp[X -> [oX <- bX]] /IHq[Y -> [oY <- bY]]] /=.
  by rewrite selE; exact: (mv_singleP two wf LeftC).
- move=> p IHp q IHq /andP[/IHp[X -> [oX <- bX]] /IHq[Y -> [oY <- bY]]] /=.
  by rewrite selE; exact: (mv_singleP two wf RightC).
- by move=> p IH k /IH[X -> [oX <- bX]] /=; rewrite powE; exact: (b1 _ _ _ _ (mv_powP two wf _ oX) bX).
- move=> p IHp q IHq /andP[/IHp[X -> [oX <- bX]] /IHq[Y -> [oY <- bY]]] /=.
  rewrite !(mulE two H); apply: (b1 _ _ _ _ (mv_comP two wf oX oY)) => /andP[/bX-> /bY->] //.
- move=> p IHp q IHq /andP[/IHp[X -> [oX <- bX]] /IHq[Y -> [oY <- bY]]] /=.
  rewrite !(mulE two H); apply: (b1 _ _ _ _ (mv_anticomP two wf oX oY)) => /andP[/bX-> /bY->] //.
- by move=> p IH r /andP[/IH[X -> [oX <- bX]] /bX b] /=; exact: mv_gradeP.
- by move=> p IH /andP[/IH[X -> [oX <- bX]] /bX b] /=; exact: mv_evenP.
- by move=> p IH /andP[/IH[X -> [oX <- bX]] /bX b] /=; exact: mv_oddP.
- by move=> p IH /andP[/IH[X -> [oX <- bX]] /bX b] /=; exact: (mv_involP two wf).
- by move=> p IH /IH[X -> [oX <- bX]] /=; exact: (mv_revP two wf).
- by move=> p IH /andP[/IH[X -> [oX <- bX]] /bX b] /=; exact: (mv_cconP two wf).
- move=> p IH /IH[X -> [oX <- bX]] /=; have [X' -> [nb oX' vX']] := base_repP two wf oX.
  by exists X' => //; split=> // ort; rewrite /bladed ort orbT.
- move=> p IH /IH[X -> [oX <- bX]] /=; have [X' -> [nb oX' vX']] := blade_repP two wf oX.
  by exists X' => //; split=> // _; rewrite /bladed nb.
Qed.

Lemma run_eqP p q : legal a p -> legal a q -> run_eq a p q = Some (sem p == sem q).
Proof.
move=> /run_yields[X E [oX <- _]] /run_yields[Y F [oY <- _]].
by rewrite /run_eq E F /= (mv_eqP two wf oX oY).
Qed.
(* laws: legal, equal meanings *)
Lemma run_law p q : legal a p -> legal a q -> sem p = sem q -> run_eq a p q = Some true.
Proof. by move=> lp lq E; rewrite run_eqP // E eqxx. Qed.
End Expr.
