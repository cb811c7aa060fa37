(* AlgTactics.v -- reflexive decision procedures for identities of abelian
   groups ([zmod]) and of noncommutative rings with integer coefficients
   ([ncring]).  Proof engineering only. *)
From mathcomp Require Import all_ssreflect all_algebra.
Set Implicit Arguments.
Unset Strict Implicit.
Unset Printing Implicit Defensive.
Import GRing.Theory.
Local Open Scope ring_scope.

Inductive zexp :=
  | ZV of nat | ZZ | ZA of zexp & zexp | ZO of zexp | ZN of zexp & nat.

Section Zmod.
Variable V : zmodType.
Fixpoint zeval (env : seq V) e : V :=
  match e with
  | ZV k => nth 0 env k
  | ZZ => 0
  | ZA a b => zeval env a + zeval env b
  | ZO a => - zeval env a
  | ZN a k => zeval env a *+ k
  end.
Fixpoint zcoef e (m : nat) : int :=
  match e with
  | ZV k => if k == m then 1 else 0
  | ZZ => 0
  | ZA a b => zcoef a m + zcoef b m
  | ZO a => - zcoef a m
  | ZN a k => zcoef a m * (k%:Z)
  end.
Lemma zevalE env e :
  zeval env e = \sum_(i < size env) nth 0 env i *~ zcoef e i.
Proof.
elim: e => [k||a Ha b Hb|a Ha|a Ha k] /=; rewrite ?Ha ?Hb.
- have [kn|kn] := ltnP k (size env); last first.
    rewrite nth_default // big1 // => i _.
    by case: eqP => // ki; move: (ltn_ord i); rewrite -ki ltnNge kn.
  rewrite (bigD1 (Ordinal kn)) //= eqxx mulr1z big1 ?addr0 // => i.
  by rewrite -(inj_eq val_inj) /= eq_sym => /negbTE ->; rewrite mulr0z.
- by rewrite big1 // => i _; rewrite mulr0z.
- by rewrite -big_split; apply: eq_bigr => i _; rewrite mulrzDl.
- by rewrite -sumrN; apply: eq_bigr => i _; rewrite mulrNz.
- by rewrite -sumrMnl; apply: eq_bigr => i _; rewrite mulrzA pmulrn.
Qed.
Definition zcheck (m : nat) e1 e2 :=
  all (fun i => zcoef e1 i == zcoef e2 i) (iota 0 m).
Lemma zcheckP env e1 e2 : zcheck (size env) e1 e2 -> zeval env e1 = zeval env e2.
Proof.
move=> /allP h; rewrite !zevalE; apply: eq_bigr => i _.
by rewrite (eqP (h i _)) // mem_iota ltn_ord.
Qed.
End Zmod.


(* generic formal sums *)
Section Formal.
Variables (K : eqType) (V : zmodType) (val : K -> V).
Definition fval (p : seq (int * K)) : V := \sum_(t <- p) val t.2 *~ t.1.
Definition fcoef (p : seq (int * K)) w : int :=
  foldr (fun t acc => if t.2 == w then t.1 + acc else acc) 0 p.
Lemma fcoefE p w : fcoef p w = \sum_(t <- p | t.2 == w) t.1.
Proof.
elim: p => [|t p IH] /=; first by rewrite big_nil.
by rewrite big_cons; case: ifP => _; rewrite IH.
Qed.
Definition fnull (p : seq (int * K)) := all (fun t => fcoef p t.2 == 0) p.
Lemma fval0 p : fnull p -> fval p = 0.
Proof.
move=> /allP h; rewrite /fval.
have -> : \sum_(t <- p) val t.2 *~ t.1
        = \sum_(w <- undup (map snd p)) \sum_(t <- p | t.2 == w) val t.2 *~ t.1.
  rewrite (exchange_big_dep xpredT) //= big_seq [RHS]big_seq; apply: eq_bigr => t tp.
  rewrite -big_filter (_ : filter _ _ = [:: t.2]) ?big_seq1 //.
  have u := undup_uniq (map snd p).
  have m : t.2 \in undup (map snd p) by rewrite mem_undup map_f.
  rewrite (eq_filter (a2 := pred1 t.2)); last by move=> w; rewrite /= eq_sym.
  by rewrite filter_pred1_uniq.
rewrite big_seq big1 // => w; rewrite mem_undup => /mapP [t tp ->].
rewrite (eq_bigr (fun u => val t.2 *~ u.1)); last by move=> u /eqP ->.
by rewrite -mulrz_sumr -fcoefE (eqP (h t tp)) mulr0z.
Qed.
Lemma fval_cat p q : fval (p ++ q) = fval p + fval q.
Proof. by rewrite /fval big_cat. Qed.
Lemma fval_opp p : fval [seq (- t.1, t.2) | t <- p] = - fval p.
Proof. by rewrite /fval big_map -sumrN; apply: eq_bigr => t _; rewrite mulrNz. Qed.
Lemma fval_muln p k : fval [seq (t.1 * k%:Z, t.2) | t <- p] = fval p *+ k.
Proof. by rewrite /fval big_map -sumrMnl; apply: eq_bigr => t _; rewrite mulrzA pmulrn. Qed.
End Formal.

(* ring expressions *)
Inductive nexp :=
  | NV of nat | NZ | NI | NA of nexp & nexp | NO of nexp | NM of nexp & nexp
  | NN of nexp & nat | NX of nexp & nat.

Fixpoint nnorm e : seq (int * seq nat) :=
  let mul p q := flatten [seq [seq (t.1 * u.1, t.2 ++ u.2) | u <- q] | t <- p] in
  match e with
  | NV k => [:: (1, [:: k])]
  | NZ => [::]
  | NI => [:: (1, [::])]
  | NA a b => nnorm a ++ nnorm b
  | NO a => [seq (- p.1, p.2) | p <- nnorm a]
  | NM a b => mul (nnorm a) (nnorm b)
  | NN a k => [seq (p.1 * k%:Z, p.2) | p <- nnorm a]
  | NX a k => iter k (fun q => mul (nnorm a) q) [:: (1, [::])]
  end.

Section NcRing.
Variable A : ringType.
Fixpoint neval (env : seq A) e : A :=
  match e with
  | NV k => nth 0 env k
  | NZ => 0
  | NI => 1
  | NA a b => neval env a + neval env b
  | NO a => - neval env a
  | NM a b => neval env a * neval env b
  | NN a k => neval env a *+ k
  | NX a k => neval env a ^+ k
  end.
Definition wval (env : seq A) (w : seq nat) : A := \prod_(i <- w) nth 0 env i.
Lemma fval_mul env (p q : seq (int * seq nat)) :
  fval (wval env) (flatten [seq [seq (t.1 * u.1, t.2 ++ u.2) | u <- q] | t <- p])
  = fval (wval env) p * fval (wval env) q.
Proof.
rewrite /fval big_flatten /= big_map mulr_suml; apply: eq_bigr => t _.
rewrite mulr_sumr big_map; apply: eq_bigr => u _ /=.
by rewrite /wval big_cat /= mulrzAl mulrzAr -mulrzA mulrC.
Qed.
Lemma nnormE env e : neval env e = fval (wval env) (nnorm e).
Proof.
elim: e => [k|||a Ha b Hb|a Ha|a Ha b Hb|a Ha k|a Ha k] /=; rewrite ?Ha ?Hb.
- by rewrite /fval big_seq1 /wval big_seq1.
- by rewrite /fval big_nil.
- by rewrite /fval big_seq1 /wval big_nil.
- by rewrite fval_cat.
- by rewrite fval_opp.
- by rewrite fval_mul.
- by rewrite fval_muln.
- elim: k => [|k IH] /=; first by rewrite /fval big_seq1 /wval big_nil.
  by rewrite fval_mul exprS IH.
Qed.
Definition ncheck e1 e2 := fnull (nnorm (NA e1 (NO e2))).
Lemma ncheckP env e1 e2 : ncheck e1 e2 -> neval env e1 = neval env e2.
Proof.
move=> h; apply/eqP; rewrite -subr_eq0; apply/eqP.
by rewrite -[LHS]/(neval env (NA e1 (NO e2))) nnormE; apply: fval0.
Qed.
End NcRing.

(* commutative rings: sort the words *)
Section CRing.
Variable R : comRingType.
Definition wsort (p : seq (int * seq nat)) := [seq (t.1, sort leq t.2) | t <- p].
Lemma wval_sort (env : seq R) w : wval env (sort leq w) = wval env w.
Proof. by rewrite /wval; apply: perm_big; rewrite perm_sort. Qed.
Lemma fval_wsort (env : seq R) p : fval (wval env) (wsort p) = fval (wval env) p.
Proof. by rewrite /fval /wsort big_map; apply: eq_bigr => t _; rewrite wval_sort. Qed.
Definition ccheck e1 e2 := fnull (wsort (nnorm (NA e1 (NO e2)))).
Lemma ccheckP (env : seq R) e1 e2 : ccheck e1 e2 -> neval env e1 = neval env e2.
Proof.
move=> h; apply/eqP; rewrite -subr_eq0; apply/eqP.
rewrite -[LHS]/(neval env (NA e1 (NO e2))) nnormE -fval_wsort; exact: fval0.
Qed.
End CRing.

(* module and algebra expressions *)
Inductive mexp :=
  | MV of nat | MZ | MI | MA of mexp & mexp | MO of mexp | MM of mexp & mexp
  | MN of mexp & nat | MS of nexp & mexp.
Fixpoint is_mod e :=
  match e with
  | MV _ | MZ => true
  | MI | MM _ _ => false
  | MA a b => is_mod a && is_mod b
  | MO a | MN a _ | MS _ a => is_mod a
  end.
Fixpoint mnorm e : seq (int * (seq nat * seq nat)) :=
  match e with
  | MV k => [:: (1, ([::], [:: k]))]
  | MZ => [::]
  | MI => [:: (1, ([::], [::]))]
  | MA a b => mnorm a ++ mnorm b
  | MO a => [seq (- p.1, p.2) | p <- mnorm a]
  | MM a b => flatten [seq [seq (p.1 * q.1, (p.2.1 ++ q.2.1, p.2.2 ++ q.2.2))
                                      | q <- mnorm b] | p <- mnorm a]
  | MN a k => [seq (p.1 * k%:Z, p.2) | p <- mnorm a]
  | MS s a => flatten [seq [seq (p.1 * q.1, (p.2 ++ q.2.1, q.2.2))
                                      | q <- mnorm a] | p <- nnorm s]
  end.
Definition msort (p : seq (int * (seq nat * seq nat))) :=
  [seq (t.1, (sort leq t.2.1, t.2.2)) | t <- p].
Definition mcheck e1 e2 := fnull (msort (mnorm (MA e1 (MO e2)))).

Section Lmod.
Variables (R : comRingType) (V : lmodType R).
Fixpoint meval (se : seq R) (env : seq V) e : V :=
  match e with
  | MV k => nth 0 env k
  | MA a b => meval se env a + meval se env b
  | MO a => - meval se env a
  | MN a k => meval se env a *+ k
  | MS s a => neval se s *: meval se env a
  | _ => 0
  end.
Definition mwval (se : seq R) (env : seq V) (w : seq nat * seq nat) : V :=
  wval se w.1 *: (if w.2 is [:: k] then nth 0 env k else 0).
Lemma fval_msort se env p : fval (mwval se env) (msort p) = fval (mwval se env) p.
Proof.
rewrite /fval /msort big_map; apply: eq_bigr => t _.
by rewrite /mwval /= wval_sort.
Qed.
Lemma mnormE se env e : is_mod e -> meval se env e = fval (mwval se env) (mnorm e).
Proof.
elim: e => [k|||a Ha b Hb|a Ha|a Ha b Hb|a Ha k|s a Ha] //=.
- by rewrite /fval big_seq1 /mwval /wval big_nil scale1r.
- by rewrite /fval big_nil.
- by case/andP=> /Ha -> /Hb ->; rewrite fval_cat.
- by move/Ha=> ->; rewrite fval_opp.
- by move/Ha=> ->; rewrite fval_muln.
- move/Ha=> ->; rewrite nnormE /fval big_flatten /= big_map scaler_suml.
  apply: eq_bigr => t _; rewrite scaler_sumr big_map; apply: eq_bigr => u _ /=.
  rewrite /mwval /= /wval big_cat /= -scalerA.
  by rewrite -!scaler_int !scalerA; congr (_ *: _); rewrite -mulrzl intrM; congr (_ * _); rewrite mulrAC.
Qed.
Lemma mcheckP se env e1 e2 : is_mod e1 && is_mod e2 && mcheck e1 e2 ->
  meval se env e1 = meval se env e2.
Proof.
move=> /andP[/andP[m1 m2] h]; apply/eqP; rewrite -subr_eq0; apply/eqP.
rewrite -[LHS]/(meval se env (MA e1 (MO e2))) mnormE /= ?m1 ?m2 // -fval_msort.
exact: fval0.
Qed.
End Lmod.

Section Alg.
Variables (R : comRingType) (A : algType R).
Fixpoint aeval (se : seq R) (env : seq A) e : A :=
  match e with
  | MV k => nth 0 env k
  | MZ => 0
  | MI => 1
  | MA a b => aeval se env a + aeval se env b
  | MO a => - aeval se env a
  | MM a b => aeval se env a * aeval se env b
  | MN a k => aeval se env a *+ k
  | MS s a => neval se s *: aeval se env a
  end.
Definition awval (se : seq R) (env : seq A) (w : seq nat * seq nat) : A :=
  wval se w.1 *: wval env w.2.
Lemma fval_asort se env p : fval (awval se env) (msort p) = fval (awval se env) p.
Proof.
rewrite /fval /msort big_map; apply: eq_bigr => t _.
by rewrite /awval /= wval_sort.
Qed.
Lemma anormE se env e : aeval se env e = fval (awval se env) (mnorm e).
Proof.
elim: e => [k|||a Ha b Hb|a Ha|a Ha b Hb|a Ha k|s a Ha] //=; rewrite ?Ha ?Hb.
- by rewrite /fval big_seq1 /awval /wval big_nil scale1r big_seq1.
- by rewrite /fval big_nil.
- by rewrite /fval big_seq1 /awval /wval !big_nil scale1r.
- by rewrite fval_cat.
- by rewrite fval_opp.
- rewrite /fval big_flatten /= big_map mulr_suml; apply: eq_bigr => t _.
  rewrite mulr_sumr big_map; apply: eq_bigr => u _ /=.
  rewrite /awval /wval !big_cat /= mulrzAl mulrzAr -mulrzA.
  by rewrite -scalerAl -scalerAr scalerA mulrC [_ * t.1]mulrC.
- by rewrite fval_muln.
- rewrite nnormE /fval big_flatten /= big_map scaler_suml.
  apply: eq_bigr => t _; rewrite scaler_sumr big_map; apply: eq_bigr => u _ /=.
  rewrite /awval /= /wval big_cat /= -scalerA.
  by rewrite -!scaler_int !scalerA; congr (_ *: _); rewrite -mulrzl intrM !mulrA; congr (_ * _); rewrite mulrAC.
Qed.
Lemma acheckP se env e1 e2 : mcheck e1 e2 -> aeval se env e1 = aeval se env e2.
Proof.
move=> h; apply/eqP; rewrite -subr_eq0; apply/eqP.
rewrite -[LHS]/(aeval se env (MA e1 (MO e2))) anormE -fval_asort.
exact: fval0.
Qed.
End Alg.

Ltac at_add x l :=
  match l with
  | nil => constr:(cons x nil)
  | cons x _ => l
  | cons ?y ?l' => let l'' := at_add x l' in constr:(cons y l'')
  end.
Ltac at_idx x l :=
  match l with
  | cons x _ => constr:(O)
  | cons _ ?l' => let k := at_idx x l' in constr:(S k)
  end.

Ltac z_atoms e l :=
  match e with
  | 0 => l
  | ?a + ?b => let l1 := z_atoms a l in z_atoms b l1
  | - ?a => z_atoms a l
  | ?a *+ ?k => z_atoms a l
  | _ => at_add e l
  end.
Ltac z_reify e l :=
  match e with
  | 0 => constr:(ZZ)
  | ?a + ?b => let x := z_reify a l in let y := z_reify b l in constr:(ZA x y)
  | - ?a => let x := z_reify a l in constr:(ZO x)
  | ?a *+ ?k => let x := z_reify a l in constr:(ZN x k)
  | _ => let k := at_idx e l in constr:(ZV k)
  end.
Ltac zmod :=
  match goal with
  | |- @eq ?T ?a ?b =>
    let l0 := constr:(@nil T) in
    let l1 := z_atoms a l0 in let l := z_atoms b l1 in
    let x := z_reify a l in let y := z_reify b l in
    refine (@zcheckP _ l x y _); vm_compute; reflexivity
  end.


Ltac n_atoms e l :=
  match e with
  | 0 => l
  | 1 => l
  | ?a + ?b => let l1 := n_atoms a l in n_atoms b l1
  | ?a * ?b => let l1 := n_atoms a l in n_atoms b l1
  | - ?a => n_atoms a l
  | ?a *+ ?k => n_atoms a l
  | ?a ^+ O => l
  | ?a ^+ S _ => n_atoms a l
  | _ => at_add e l
  end.
Ltac n_reify e l :=
  match e with
  | 0 => constr:(NZ)
  | 1 => constr:(NI)
  | ?a + ?b => let x := n_reify a l in let y := n_reify b l in constr:(NA x y)
  | ?a * ?b => let x := n_reify a l in let y := n_reify b l in constr:(NM x y)
  | - ?a => let x := n_reify a l in constr:(NO x)
  | ?a *+ ?k => let x := n_reify a l in constr:(NN x k)
  | ?a ^+ O => constr:(NI)
  | ?a ^+ (S ?k) => let x := n_reify a l in constr:(NX x (S k))
  | _ => let k := at_idx e l in constr:(NV k)
  end.
Ltac ncring :=
  match goal with
  | |- @eq ?T ?a ?b =>
    let l0 := constr:(@nil T) in
    let l1 := n_atoms a l0 in let l := n_atoms b l1 in
    let x := n_reify a l in let y := n_reify b l in
    refine (@ncheckP _ l x y _); vm_compute; reflexivity
  end.
Ltac cring :=
  match goal with
  | |- @eq ?T ?a ?b =>
    let l0 := constr:(@nil T) in
    let l1 := n_atoms a l0 in let l := n_atoms b l1 in
    let x := n_reify a l in let y := n_reify b l in
    refine (@ccheckP _ l x y _); vm_compute; reflexivity
  end.

(* pairs (scalar atoms, vector atoms) *)
Ltac m_atoms e sl :=
  match e with
  | 0 => sl
  | ?a + ?b => let l1 := m_atoms a sl in m_atoms b l1
  | - ?a => m_atoms a sl
  | ?a *+ ?k => m_atoms a sl
  | ?s *: ?a =>
    match sl with (?l1, ?l2) =>
      let l1' := n_atoms s l1 in m_atoms a constr:((l1', l2)) end
  | _ => match sl with (?l1, ?l2) => let l := at_add e l2 in constr:((l1, l)) end
  end.
Ltac m_reify e s l :=
  match e with
  | 0 => constr:(MZ)
  | ?a + ?b => let x := m_reify a s l in let y := m_reify b s l in constr:(MA x y)
  | - ?a => let x := m_reify a s l in constr:(MO x)
  | ?a *+ ?k => let x := m_reify a s l in constr:(MN x k)
  | ?c *: ?a => let x := n_reify c s in let y := m_reify a s l in constr:(MS x y)
  | _ => let k := at_idx e l in constr:(MV k)
  end.
(* [lmod R]: identities of modules over the commutative ring R *)
Ltac lmod R :=
  match goal with
  | |- @eq ?T ?a ?b =>
    let sl0 := constr:((@nil R, @nil T)) in
    let sl1 := m_atoms a sl0 in let sl := m_atoms b sl1 in
    match sl with (?s, ?l) =>
      let x := m_reify a s l in let y := m_reify b s l in
      refine (@mcheckP _ _ s l x y _); vm_compute; reflexivity
    end
  end.
Ltac a_atoms e sl :=
  match e with
  | 0 => sl
  | 1 => sl
  | ?a + ?b => let l1 := a_atoms a sl in a_atoms b l1
  | ?a * ?b => let l1 := a_atoms a sl in a_atoms b l1
  | - ?a => a_atoms a sl
  | ?a *+ ?k => a_atoms a sl
  | ?s *: ?a =>
    match sl with (?l1, ?l2) =>
      let l1' := n_atoms s l1 in a_atoms a constr:((l1', l2)) end
  | _ => match sl with (?l1, ?l2) => let l := at_add e l2 in constr:((l1, l)) end
  end.
Ltac a_reify e s l :=
  match e with
  | 0 => constr:(MZ)
  | 1 => constr:(MI)
  | ?a + ?b => let x := a_reify a s l in let y := a_reify b s l in constr:(MA x y)
  | ?a * ?b => let x := a_reify a s l in let y := a_reify b s l in constr:(MM x y)
  | - ?a => let x := a_reify a s l in constr:(MO x)
  | ?a *+ ?k => let x := a_reify a s l in constr:(MN x k)
  | ?c *: ?a => let x := n_reify c s in let y := a_reify a s l in constr:(MS x y)
  | _ => let k := at_idx e l in constr:(MV k)
  end.
(* [lalg R]: identities of algebras over the commutative ring R *)
Ltac lalg R :=
  match goal with
  | |- @eq ?T ?a ?b =>
    let sl0 := constr:((@nil R, @nil T)) in
    let sl1 := a_atoms a sl0 in let sl := a_atoms b sl1 in
    match sl with (?s, ?l) =>
      let x := a_reify a s l in let y := a_reify b s l in
      refine (@acheckP _ _ s l x y _); vm_compute; reflexivity
    end
  end.

Section Test.
Variables (V : zmodType) (a b c : V) (A : ringType) (x y z : A).
Goal a + b - (c + a) = b *+ 2 - b - c.
Proof. zmod. Qed.
Goal (x + y) * (x - y) = x * x - y ^+ 2 + (y * x - x * y).
Proof. ncring. Qed.
Goal (x + y + 1) * (x - y) * z *+ 2 = (x * x * z - y * (y * z) + (y * x - x * y) * z + x * z - y * z) *+ 2.
Proof. ncring. Qed.
Variables (R : comUnitRingType) (s t : R) (M : lmodType R) (u v : M) (B : algType R) (p q : B).
Goal (s + t) * (s - t) = s ^+ 2 - t ^+ 2.
Proof. cring. Qed.
Goal s *: (t *: u + v) - (t * s) *: u = s *: v.
Proof. lmod R. Qed.
Goal s *: p * (t *: q + 1) - (t * s) *: (p * q) = s *: p.
Proof. lalg R. Qed.
End Test.
