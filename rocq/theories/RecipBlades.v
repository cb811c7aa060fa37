(* RecipBlades.v -- outer products of reciprocal vectors in a Clifford algebra: the
   reciprocal blades, and the expansion of a multivector in them. *)
From mathcomp Require Import all_ssreflect all_algebra.
From Verif Require Import AlgTactics Exterior Clifford Blades Spec_Grade Grades GradeLaws ContrLaws Det Outer BladeLaws.
Set Implicit Arguments.
Unset Strict Implicit.
Unset Printing Implicit Defensive.
Import GRing.Theory.
Local Open Scope ring_scope.

Section Recip.
Variables (R : comUnitRingType) (n : nat) (g : cmetric R n).
Notation M := (mval R n).
Notation C := (clifford g).
Notation two := (two_unit g).
Notation mulC := (fun u v : C => u * v).
Implicit Types (x y z u b : M).
Notation lc := (selprod mulC left_grade).

Lemma scalar_lc x y : ((x : C) * (y : C) : M) set0 = lc x y set0.
Proof.
rewrite scalar_mul [in RHS](mval_decomp x) sel_suml sum_ffunE; apply: eq_bigr => S _.
rewrite selZ ffunE [in RHS](mval_decomp y) sel_sumr sum_ffunE mulr_sumr; apply: eq_bigr => T _.
rewrite selZr ffunE.
rewrite (sel_homog g left_grade (homog_bl R S) (homog_bl R T)) /left_grade.
case: (ltngtP #|S| #|T|) => [lt|gt|e].
- by rewrite scalar_bl_lt // ffunE cards0 eq_sym subn_eq0 leqNgt lt.
- by rewrite ffunE scalar_bl_neq // neq_ltn gt orbT.
by rewrite e subnn ffunE cards0.
Qed.

Variables (s : R) (r : 'I_n -> M).
Hypothesis hr : forall i, homog 1 (r i).
Hypothesis dr : forall i j, gform g (bl R [set j]) (r i) = (j == i)%:R * s.

Lemma gform_sym x y : gform g x y = gform g y x.
Proof.
rewrite /gform exchange_big; apply: eq_bigr => i _; apply: eq_bigr => j _.
by rewrite [x _ * _]mulrC gram_sym.
Qed.
Lemma lc_recip i x : lc (r i) x = s *: contr_op i x.
Proof.
rewrite lc_gcontr //.
have -> : s *: contr_op i x = \sum_j ((j == i)%:R * s) *: contr_op j x.
  by rewrite (bigD1 i) //= eqxx mul1r big1 ?addr0 // => j /negbTE ->; rewrite mul0r scale0r.
under eq_bigr => k _ do rewrite gcontrE scaler_sumr.
rewrite exchange_big; apply: eq_bigr => j _ /=; rewrite -(dr i j) gform_sym.
under eq_bigr => k _ do rewrite scalerA.
rewrite -scaler_suml; congr (_ *: _); rewrite /gform; apply: eq_bigr => k _.
rewrite (bigD1 j) //= big1 ?addr0 => [|l lj]; first by rewrite bl_coef eqxx mulr1.
by rewrite bl_coef (inj_eq set1_inj) (negbTE lj) mulr0 mul0r.
Qed.
(* the outer product of the reciprocal vectors in reverse order *)
Definition rb (I : seq 'I_n) : M := foldl (fun x i => ext x (r i)) (bl R set0) (rev I).
Lemma rb_cons i I : rb (i :: I) = ext (rb I) (r i).
Proof. by rewrite /rb rev_cons -cats1 foldl_cat. Qed.
Lemma rb_homog I : homog (size I) (rb I).
Proof.
elim: I => [|i I IH]; first by have := @homog_bl R n set0; rewrite cards0.
by rewrite rb_cons /= -addn1; apply: (homog_ext two).
Qed.
Definition contrs (I : seq 'I_n) x : M := foldl (fun y i => contr_op i y) x I.
Lemma lc_rb I x : lc (rb I) x = s ^+ size I *: contrs I x.
Proof.
elim: I x => [|i I IH] x; first by rewrite /rb /= lc1 expr0 scale1r.
rewrite rb_cons lc_lc lc_recip selZr IH scalerA -exprS //.
Qed.
Lemma contrsZ I (c : R) x : contrs I (c *: x) = c *: contrs I x.
Proof. by elim: I x => //= i I IH x; rewrite linearZ IH. Qed.
Lemma contrsD I x y : contrs I (x + y) = contrs I x + contrs I y.
Proof. by elim: I x y => //= i I IH x y; rewrite linearD IH. Qed.
Lemma contrs0 I : contrs I 0 = 0.
Proof. by have := contrsZ I 0 0; rewrite !scale0r. Qed.
Definition below_ (i j : 'I_n) := (i < j)%N.
Lemma contrs_bl I S : sorted below_ I -> contrs I (bl R S) set0 = (S == [set i in I])%:R.
Proof.
elim: I S => [|i I IH] S /=; first by move=> _; rewrite bl_coef eq_sym; congr (_ == _)%:R; apply/setP => j; rewrite !inE.
move=> pI; have iI j : j \in I -> (i < j)%N.
  have tr : transitive below_ by move=> ? ? ?; apply: ltn_trans.
  by move: pI; rewrite path_sortedE // => /andP[/allP h _] /h.
have ni : i \notin I by apply/negP => /iI; rewrite ltnn.
have setE : [set j in i :: I] = i |: [set j in I] by apply/setP => j; rewrite !inE.
have IHs T : contrs I (bl R T) set0 = (T == [set j in I])%:R by apply: IH; exact: path_sorted pI.
rewrite contr_op_bl /Cb; case: ifP => iS; last first.
  rewrite contrs0 ffunE; case: eqP => // E; by move: iS; rewrite E inE mem_head.
rewrite contrsZ ffunE IHs setE.
have -> : (S == i |: [set j in I]) = (S :\ i == [set j in I]).
  apply/eqP/eqP => [->|<-]; last by rewrite setD1K.
  by rewrite setU1K // inE.
case: eqP => [E|_]; last by rewrite mulr0.
rewrite /nlt (_ : [set k in S | _] = set0) ?cards0 ?mulr1 //.
apply/setP => k; rewrite !inE; apply/negbTE; rewrite negb_and -leqNgt.
case: (k =P i) => [->|/eqP ki]; first by rewrite leqnn orbT.
have : (k \in S :\ i) = (k \in S) by rewrite !inE ki.
by rewrite E inE => <-; case kI : (k \in I) => //=; rewrite ltnW ?iI.
Qed.
(* reading off a coefficient with a reciprocal blade *)
Lemma rb_coef I x : sorted below_ I -> ((rb I : C) * (x : C) : M) set0 = s ^+ size I * x [set i in I].
Proof.
move=> sI; rewrite scalar_lc lc_rb ffunE; congr (_ * _).
rewrite {1}(mval_decomp x).
have -> : contrs I (\sum_S x S *: bl R S) = \sum_S x S *: contrs I (bl R S).
  by elim/big_rec2: _ => [|S y z _ <-]; rewrite ?contrs0 // contrsD contrsZ.
rewrite sum_ffunE (bigD1 [set i in I]) //= big1 ?addr0 => [|S /negbTE h].
  by rewrite ffunE contrs_bl // eqxx mulr1.
by rewrite ffunE contrs_bl // h mulr0.
Qed.

(* the reciprocal blades, normalised *)
Definition rbs (S : {set 'I_n}) : M := (s ^+ #|S|)^-1 *: rb (enum S).
Hypothesis us : s \is a GRing.unit.
Lemma sorted_enum (S : {set 'I_n}) : sorted below_ (enum S).
Proof.
have tr : transitive below_ by move=> ? ? ?; apply: ltn_trans.
rewrite {1}/enum_mem; apply: sorted_filter => //; rewrite -enumT.
have := iota_ltn_sorted 0 n; rewrite -val_enum_ord sorted_map; exact.
Qed.
Lemma rbs_coef S x : ((rbs S : C) * (x : C) : M) set0 = x S.
Proof.
rewrite /rbs -scalerAl ffunE rb_coef ?sorted_enum // -cardE mulrA mulVr ?unitrX // mul1r.
by congr (x _); apply/setP => i; rewrite inE mem_enum.
Qed.
Lemma rbs_bl S T : ((rbs S : C) * (bl R T : C) : M) set0 = (S == T)%:R.
Proof. by rewrite rbs_coef bl_coef. Qed.
Lemma rbs_homog (S : {set 'I_n}) : homog #|S| (rbs S).
Proof. by apply: homogZ; rewrite cardE; exact: rb_homog. Qed.
Lemma scalar_blE S y : ((bl R S : C) * (y : C) : M) set0 = \sum_T y T * ((bl R S : C) * (bl R T : C) : M) set0.
Proof.
rewrite scalar_mul (bigD1 S) //= [X in _ + X]big1 ?addr0 => [|T TS].
  by apply: eq_bigr => T _; rewrite bl_coef eqxx mul1r.
by apply: big1 => U _; rewrite bl_coef (negbTE TS) mul0r.
Qed.
(* a multivector orthogonal to every basis blade is zero *)
Lemma scalar_ndeg y : (forall S, ((bl R S : C) * (y : C) : M) set0 = 0) -> y = 0.
Proof.
move=> h; apply/ffunP => K; rewrite -rbs_coef scalar_mul ffunE big1 // => S _.
by rewrite -mulr_sumr -scalar_blE h mulr0.
Qed.
(* the expansion of a multivector in the reciprocal blades of the grades in P *)
Lemma rbs_expand (P : pred nat) y :
  \sum_(S : {set 'I_n} | P #|S|) ((bl R S : C) * (y : C) : M) set0 *: rbs S =
  [ffun S : {set 'I_n} => if P #|S| then y S else 0].
Proof.
set y' := LHS; set z := RHS; apply/eqP; rewrite -subr_eq0; apply/eqP; apply: scalar_ndeg => J.
rewrite mulrBr; apply/eqP; rewrite [_ set0]ffunE ffunE subr_eq0; apply/eqP.
transitivity (if P #|J| then ((bl R J : C) * (y : C) : M) set0 else 0).
  have yE : (y' : C) = \sum_(S : {set 'I_n} | P #|S|) ((bl R S : C) * (y : C) : M) set0 *: (rbs S : C) by [].
  rewrite [LHS]scalar_swap yE mulr_suml sum_ffunE.
  under eq_bigr => S _ do rewrite -scalerAl ffunE rbs_bl.
  case: ifP => pJ.
    rewrite (bigD1 J) //= eqxx mulr1 big1 ?addr0 // => S /andP[_ /negbTE ->]; by rewrite mulr0.
  by rewrite big1 // => S; case: eqP => [->|_ _]; rewrite ?pJ // mulr0.
rewrite !scalar_blE; case: ifP => pJ.
  apply: eq_bigr => T _; rewrite ffunE.
  case: (#|J| =P #|T|) => [<-|/eqP JT]; first by rewrite pJ.
  by rewrite scalar_bl_neq // !mulr0.
rewrite big1 // => T _; rewrite ffunE.
case: (#|J| =P #|T|) => [<-|/eqP JT]; first by rewrite pJ mul0r.
by rewrite scalar_bl_neq // mulr0.
Qed.
End Recip.
