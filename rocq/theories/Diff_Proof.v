(* Diff_Proof.v -- proofs about Diff_Model.v. *)
From mathcomp Require Import all_ssreflect all_algebra.
From Verif Require Import Props_Metric NatTac AlgTactics Exterior Clifford Blades Spec_Grade Grades PyBase Spec_Index Ga_Model.
From Verif Require Import Ga_Sem Ga_Proof_Tables Ga_Proof_Sort Ga_Proof_Sem Ga_Proof_Reduce Ga_Proof_Rep Ga_Proof_Conv.
From Verif Require Import Ga_Proof_Mul Ga_Proof_Den Ga_Proof_Wedge Ga_Proof_Inner Ga_Proof_Grade.
From Verif Require Import GradeLaws Det ExtDeriv Mv_Model Mv_Proof Mv_Expr Dual_Model Dual_Proof Metric_Model Spec_Diff Nabla Diff_Model.
Set Implicit Arguments.
Unset Strict Implicit.
Unset Printing Implicit Defensive.
Import GRing.Theory.
Local Open Scope ring_scope.

Section Blade.
Variables (R : comUnitRingType) (two : (2%:R : R) \is a GRing.unit) (m : metric R) (dga : diff_ga R).
Notation a := (metric_ga m).
Notation n := (m_n m).
Notation val_ := (value two a).
Notation de_ i j := (nth [::] (nth [::] (dg_de dga) i) j).

(* what the proofs need of the table of derivatives of the basis vectors *)
Definition de_shape := forall i j : 'I_n, blade_expr n (de_ i j) /\ homog 1 (val_ (de_ i j)).
Definition cof (ib : 'I_n) (j k : 'I_n) : R := (val_ (de_ ib j) : mval R n) [set k].
Hypothesis dok : de_shape.
Implicit Types (I : seq nat).

Lemma dbasisE (ib j : 'I_n) : dbasis (cof ib) j = val_ (de_ ib j).
Proof. by have [_ h] := dok ib j; rewrite [RHS](vec_decomp h). Qed.
Lemma bl_cons x I : wfI n (x :: I) -> forall xn : (x < n)%N,
  bl R (set_of n (x :: I)) = ext (bl R [set Ordinal xn]) (bl R (set_of n I)).
Proof.
move=> /andP[/= px /andP[_ al]] xn; rewrite -(wedge_opE two) wedge_op_bl /Wb.
have lt y : y \in I -> (x < y)%N by have := order_path_min ltn_trans px; move/allP; apply.
rewrite inE /=; case: ifP => [/lt|_]; first by rewrite ltnn.
rewrite (_ : nlt _ _ = 0%N) ?expr0 ?scale1r.
  by congr bl; apply/setP=> j; rewrite !inE -val_eqE.
apply/eqP; rewrite cards_eq0; apply/eqP/setP=> j; rewrite !inE.
by apply/negbTE/negP=> /andP[/lt l1 l2]; have := ltn_trans l1 l2; rewrite ltnn.
Qed.
Lemma wfI_tail x I : wfI n (x :: I) -> wfI n I.
Proof. by case/andP=> /= p /andP[_ al]; rewrite /wfI (path_sorted p). Qed.
Lemma wfI_take i I : wfI n I -> wfI n (take i I).
Proof.
case/andP=> p al; rewrite /wfI take_sorted //=.
by apply/allP=> x /mem_take; exact: (allP al).
Qed.
Lemma wfI_drop i I : wfI n I -> wfI n (drop i I).
Proof.
case/andP=> p al; rewrite /wfI drop_sorted //=.
by apply/allP=> x /mem_drop; exact: (allP al).
Qed.
Lemma bl_nil : bl R (set_of n [::]) = bl R set0.
Proof. by congr bl; apply/setP=> j; rewrite !inE. Qed.
Lemma dblades_list (ib : 'I_n) I : wfI n I ->
  dblades (cof ib) (bl R (set_of n I)) =
  \sum_(i < size I) ext (ext (bl R (set_of n (take i I))) (val_ (de_ ib (nth 0%N I i))))
                        (bl R (set_of n (drop i.+1 I))).
Proof.
elim: I => [|x I IH] wI; first by rewrite big_ord0 bl_nil (L_one two).
have xn : (x < n)%N by case/andP: wI => _ /andP[].
have wI' := wfI_tail wI.
rewrite (bl_cons wI xn) (L_ext two) (L_e two) big_ord_recl /= drop0 bl_nil (ext1l two); congr (_ + _).
  by rewrite (dbasisE ib (Ordinal xn)).
rewrite IH // (ext_sumr two); apply: eq_bigr => i _ /=.
have wt : wfI n (x :: take i I) by have := wfI_take i.+1 wI.
by rewrite (bl_cons wt xn) !(extA two).
Qed.
Lemma value_flatten (l : seq (expr R)) : val_ (flatten l) = \sum_(x <- l) val_ x.
Proof. by elim: l => [|x l IH]; rewrite ?big_nil ?big_cons ?value_nil //= value_cat IH. Qed.
Lemma blade_flatten (l : seq (expr R)) : {in l, forall x, blade_expr n x} -> blade_expr n (flatten l).
Proof.
elim: l => [//|x l IH] h /=; rewrite (@blade_cat R a) h ?mem_head //=; apply: IH => y yl.
by rewrite h // inE yl orbT.
Qed.
Lemma blade_deriv_newP (ib : 'I_n) I : wfI n I ->
  exists2 v, blade_deriv_new m dga (mk_blade I) ib = Some v &
    [/\ blade_expr n v, canonical v & val_ v = dblades (cof ib) (bl R (set_of n I))].
Proof.
move=> wI; rewrite /blade_deriv_new ltn_ord b2i_get //=.
have tot (i : 'I_(size I)) : exists2 z, (LET l := dget (indexes_to_blades n) (take i I) IN
        LET r := dget (indexes_to_blades n) (drop i.+1 I) IN
        let d := de_ ib (nth 0%N I i) in
        LET w := ga_wedge a [:: (1, l)] d IN ga_wedge a w [:: (1, r)]) = Some z &
     blade_expr n z /\ val_ z = ext (ext (bl R (set_of n (take i I))) (val_ (de_ ib (nth 0%N I i))))
                        (bl R (set_of n (drop i.+1 I))).
  have wt := wfI_take i wI; have wd := wfI_drop i.+1 wI.
  rewrite !i2b_get //=; have xn : (nth 0%N I i < n)%N by case/andP: wI => _ /all_nthP; apply.
  have [bd _] := dok ib (Ordinal xn).
  have b1 J : wfI n J -> blade_expr n [:: (1 : R, mk_blade J)] by move=> wJ; rewrite /blade_expr /= mk_blade_in.
  have [w -> [bw _ vw]] := ga_wedgeP (a := a) two (b1 _ wt) bd.
  have [z /= -> [bz _ vz]] := ga_wedgeP (a := a) two bw (b1 _ wd); exists z => //; split=> //.
  by rewrite vz vw !value_term // !scale1r.
pose F i := (LET l := dget (indexes_to_blades n) (take i I) IN
        LET r := dget (indexes_to_blades n) (drop i.+1 I) IN
        let d := de_ ib (nth 0%N I i) in
        LET w := ga_wedge a [:: (1, l)] d IN ga_wedge a w [:: (1, r)]).
rewrite -[omapM _ _]/(omapM F _); have {}tot : forall i : 'I_(size I), exists2 z, F i = Some z & _ := tot.
pose h i := if F i is Some z then z else [::].
rewrite (omapM_some (h := h)) => [|i]; last first.
  by rewrite mem_iota /= => lt; have [z E _] := tot (Ordinal lt); rewrite /h E.
exists (canon (flatten [seq h i | i <- iota 0 (size I)])) => //; split; last first.
- rewrite value_canon value_flatten big_map dblades_list // -{1}[size I]subn0 -/(index_iota _ _) big_mkord.
  by apply: eq_bigr => i _; have [z E [_ <-]] := tot i; rewrite /h E.
- exact: canonical_canon.
apply: (@blade_canon R a); apply: blade_flatten => _ /mapP[i + ->]; rewrite mem_iota /= => lt.
by have [z E [bz _]] := tot (Ordinal lt); rewrite /h E.
Qed.
End Blade.

(* ---- computations on a state whose cache is sound ---- *)
Fixpoint ofold (A B : Type) (f : A -> B -> option A) (l : seq B) (x : A) : option A :=
  if l is b :: l' then LET y := f x b IN ofold f l' y else Some x.

Lemma omapM_comp (A B C : Type) (f : B -> option C) (g : A -> B) l : omapM f (map g l) = omapM (fun x => f (g x)) l.
Proof. by elim: l => //= x l ->. Qed.

Section State.
Variables (R : comUnitRingType) (me : metric_env R) (m : metric R) (dga : diff_ga R).
Notation a := (metric_ga m).
Notation n := (m_n m).
Notation dstate := (dstate R).
Implicit Types (st : dstate) (A : mv R).
Definition cache_ok st := forall ib blade v, dget (ds_bases st) (ib, blade) = Some v ->
  blade_deriv_new m dga blade ib = Some v.
Definition same st st' := [/\ cache_ok st', ds_flag st' = ds_flag st, ds_slot st' = ds_slot st &
  ds_conn st' = ds_conn st].
Definition runs T st (p : prog R T) (o : option T) := exists2 st', p st = (st', o) & same st st'.

Lemma same_refl st : cache_ok st -> same st st. Proof. by split. Qed.
Lemma same_trans st1 st2 st3 : same st1 st2 -> same st2 st3 -> same st1 st3.
Proof. by case=> _ f1 s1 c1 [k f2 s2 c2]; split=> //; rewrite ?f2 ?s2 ?c2. Qed.
Lemma runs_lift T st (o : option T) : cache_ok st -> runs st (lift o) o.
Proof. by move=> ok; exists st => //; exact: same_refl. Qed.
Lemma runs_ret T st (x : T) : cache_ok st -> runs st (ret x) (Some x).
Proof. exact: runs_lift. Qed.
Lemma runs_bnd T U st (p : prog R T) (f : T -> prog R U) o g : runs st p o ->
  (forall x st', same st st' -> runs st' (f x) (g x)) -> runs st (bnd p f) (obnd o g).
Proof.
case=> st1 E s1 h; rewrite /runs /bnd E; case: o {E} => [x|] /=; last by exists st1.
by have [st2 E s2] := h x st1 s1; exists st2 => //; exact: same_trans s2.
Qed.
Lemma runs_pfold T (U : eqType) st (f : T -> U -> prog R T) g (l : seq U) x : cache_ok st ->
  (forall y b st', same st st' -> runs st' (f y b) (g y b)) -> runs st (pfold f l x) (ofold g l x).
Proof.
elim: l x st => [|b l IH] x st ok h /=; first exact: runs_ret.
apply: runs_bnd => [|y st1 s1]; first by apply: h; exact: same_refl.
apply: IH => [|z c st2 s2]; first by case: s1.
by apply: h; exact: same_trans s2.
Qed.
Lemma runs_eq T st (p : prog R T) o o' : runs st p o -> o = o' -> runs st p o'.
Proof. by move=> + <-. Qed.

Definition bd_pure (blade : word) (ib : nat) : option (expr R) :=
  if dg_connect dga then blade_deriv_new m dga blade ib else None.
Lemma bd_runs st blade ib : cache_ok st -> runs st (blade_derivation m dga blade ib) (bd_pure blade ib).
Proof.
move=> ok; rewrite /runs /blade_derivation /bd_pure; case: ifP => [/negbTE ->|/negbFE ->].
  by exists st => //; exact: same_refl.
case e: dget => [v|]; first by rewrite (ok _ _ _ e); exists st => //; exact: same_refl.
case e': blade_deriv_new => [v|]; last by exists st => //; exact: same_refl.
eexists; first by []; split=> //= ib' b' v'; rewrite dget_dset; case: eqP => [[<- <-] [<-] //|_].
exact: ok.
Qed.
Definition pDiff_term_pure ib (dA : mv R) (t : R * word) : option (mv R) :=
  LET x := bd_pure (first_sym t.2) ib IN
  Some (if canon x == [::] then dA else mk_mv a (obj dA ++ escale t.1 x)).
Definition pDiff_pure (A : mv R) (ib : nat) : option (mv R) :=
  let dA := mk_mv a (diff_terms me ib (obj A)) in
  if dg_connect dga then
    LET s := is_scalar a A IN
    if s then Some dA else ofold (pDiff_term_pure ib) [seq t <- canon (obj A) | ~~ nilp t.2] dA
  else Some dA.
(* a state in which differentiation is not disturbed *)
Definition clean st := [/\ cache_ok st, ds_flag st = dg_connect dga & ds_slot st = (-1)%R].
Lemma clean_same st st' : clean st -> same st st' -> clean st'.
Proof. by case=> _ f s [k f' s' _]; split; rewrite ?f' ?s'. Qed.
Lemma pDiff_runs st A ib : clean st -> runs st (pDiff me m dga A ib) (pDiff_pure A ib).
Proof.
case=> ok fl sl; rewrite /runs /pDiff /pDiff_pure fl sl eqxx andbT; case: ifP => _; last first.
  by exists st => //; exact: same_refl.
apply: runs_bnd; first exact: runs_lift.
move=> s st1 [ok1 _ _ _]; case: s; first exact: runs_ret.
apply: runs_pfold => // dA t st2 [ok2 _ _ _].
apply: runs_bnd; first exact: bd_runs.
by move=> x st3 [ok3 _ _ _]; exact: runs_ret.
Qed.
Lemma clean_init : clean (ds_init dga). Proof. by split. Qed.

(* with connect_flg overwritten by False *)
Lemma pDiff_off st A ib : cache_ok st -> ds_flag st = false ->
  runs st (pDiff me m dga A ib) (Some (mk_mv a (diff_terms me ib (obj A)))).
Proof. by move=> ok fl; rewrite /runs /pDiff fl; exists st => //; exact: same_refl. Qed.
Definition grad_pure (h : nat -> option (mv R)) (d : dmode) (left : bool) : option (mv R) :=
  ofold (fun s i => LET dA := h i IN
    let r := nth (mv_const a 0) (dg_grad dga) i in
    LET q := (if left then mv_op m d r dA else mv_op m d dA r) IN mv_add a s q) (iota 0 n) (mv_const a 0).
Lemma grad_runs st A d left h : cache_ok st ->
  (forall i st', same st st' -> runs st' (pDiff me m dga A i) (h i)) ->
  runs st (grad_mul me m dga d left A) (grad_pure h d left).
Proof.
move=> ok H; apply: runs_pfold => // s i st' sm; apply: runs_bnd; first exact: H.
by move=> dA st2 [ok2 _ _ _]; exact: runs_lift.
Qed.
Lemma grad_clean st A d left : clean st ->
  runs st (grad_mul me m dga d left A) (grad_pure (pDiff_pure A) d left).
Proof.
move=> cs; apply: grad_runs => [|i st' sm]; first by case: cs.
by apply: pDiff_runs; exact: clean_same sm.
Qed.
Lemma grad_off st A d left : cache_ok st -> ds_flag st = false ->
  runs st (grad_mul me m dga d left A) (grad_pure (fun ib => Some (mk_mv a (diff_terms me ib (obj A)))) d left).
Proof.
move=> ok fl; apply: grad_runs => // i st' [ok' fl' _ _]; apply: pDiff_off => //; by rewrite fl'.
Qed.
Fixpoint times_pure A ib k : option (mv R) := if k is k'.+1 then LET B := pDiff_pure A ib IN times_pure B ib k' else Some A.
Lemma times_runs st A ib k : clean st -> runs st (pDiff_times me m dga A ib k) (times_pure A ib k).
Proof.
elim: k st A => [|k IH] st A cs /=; first by apply: runs_ret; case: cs.
apply: runs_bnd; first exact: pDiff_runs.
by move=> B st' sm; apply: IH; exact: clean_same sm.
Qed.
Lemma list_runs st A l : clean st -> runs st (pDiff_list me m dga A l)
  (if (n <= size l)%N then ofold (fun B ib => times_pure B ib (nth 0%N l ib)) (iota 0 n) A else None).
Proof.
move=> cs; have ok : cache_ok st by case: cs.
rewrite /pDiff_list; case: ifP => _; last exact: (runs_lift None).
by apply: runs_pfold => // B i st' sm; apply: times_runs; exact: clean_same sm.
Qed.
Lemma diff_runs st A i : clean st -> runs st (mv_diff me m A i)
  (if dg_connect dga then None else Some (mk_mv a (diff_terms me i (obj A)))).
Proof.
case=> ok fl sl; rewrite /runs /mv_diff fl sl eqxx andbT.
by case: ifP => _; exists st => //; exact: same_refl.
Qed.
Definition tr_pure (F : option (mv R)) : option R :=
  LET X := F IN LET r := grad_pure (fun ib => Some (mk_mv a (diff_terms me ib (obj X)))) MDot true IN Some (mv_scalar r).
(* the flag is restored when the call returns; its result does not depend on the state *)
Lemma tr_runs st F : clean st -> (lt_tr me m dga F st).2 = tr_pure F /\
  (tr_pure F <> None -> same st (lt_tr me m dga F st).1).
Proof.
case=> ok fl sl; rewrite /lt_tr /bnd /tr_pure; case: F => [X|] //=.
have [|//|st2 -> [ok2 f2 s2 c2]] := @grad_off (DState (ds_bases st) (ds_conn st) (ds_slot st) false) X MDot true.
  by [].
by case: grad_pure => [r|] //=; split=> // _; split.
Qed.
Definition conn_step rs kb d left (C : expr R) (ib : nat) : option (expr R) :=
  LET x := bd_pure kb ib IN
  let x' := if m_enorm m is Some N then escale (nth 0 N ib)^-1 x else x in
  let er := nth [::] rs ib in
  LET p := (if left then ga_Mul m d er x' else ga_Mul m d x' er) IN Some (canon (C ++ p)).
Definition conn_pure kb d left : option (expr R) :=
  LET rs := r_basis a IN ofold (conn_step rs kb d left) (iota 0 n) [::].
Definition ckey (rb kb : word) d (left : bool) := (mode_code d, left, if left then rb ++ kb else kb ++ rb).
(* the call asks for a new key: it computes; otherwise it raises *)
Lemma conn_new st rb kb d left : clean st -> dg_connect dga -> dget (ds_conn st) (ckey rb kb d left) = None ->
  let: (st', o) := connection m dga rb kb d left st in
  [/\ o = conn_pure kb d left, clean st', forall v, o = Some v -> dget (ds_conn st') (ckey rb kb d left) = Some v &
   forall k, k != ckey rb kb d left -> dget (ds_conn st') k = dget (ds_conn st) k].
Proof.
move=> cs co no; rewrite /connection co /= -/(ckey rb kb d left) no.
have ok : cache_ok st by case: cs.
rewrite /bnd /= /conn_pure; case: (r_basis a) => [rs|] //=.
set p := pfold _ _ _.
have [st' -> sm] : runs st p (ofold (conn_step rs kb d left) (iota 0 n) [::]).
  apply: runs_pfold => // y b st2 [ok2 _ _ _].
  by apply: runs_bnd; [exact: bd_runs|move=> x st3 [ok3 _ _ _]; exact: runs_lift].
have cs' := clean_same cs sm.
case: sm => _ _ _ cE.
case: ofold => [C|] //=; case: cs' => k1 k2 k3; split=> //=.
- by move=> v [<-]; rewrite dget_dset eqxx.
- by move=> k nk; rewrite dget_dset eq_sym (negbTE nk) cE.
by move=> k _; rewrite cE.
Qed.
Lemma conn_clean st rb kb d left : clean st -> clean (connection m dga rb kb d left st).1.
Proof.
move=> cs; case co: (dg_connect dga); last by rewrite /connection co.
case E: (dget (ds_conn st) (ckey rb kb d left)) => [v|].
  by rewrite /connection co /= -/(ckey rb kb d left) E.
by have := conn_new cs co E; case: connection => st' o [].
Qed.
End State.

Section Value.
Variables (R : comUnitRingType) (two : (2%:R : R) \is a GRing.unit) (me : metric_env R) (m : metric R) (dga : diff_ga R).
Notation a := (metric_ga m).
Notation n := (m_n m).
Notation val_ := (value two a).
Hypothesis wf : wf_ga a.
Hypothesis dok : dg_connect dga -> de_shape two m dga.
Hypothesis der : forall k, derivation (me_diff me k).
Implicit Types (A : mv R).
(* the covariant derivative by coordinate ib *)
Definition nab (ib : 'I_n) : mval R n -> mval R n :=
  nabla (me_diff me ib) (fun j k => if dg_connect dga then cof two dga ib j k else 0).

Lemma value_diff ib x : blade_expr n x -> val_ (diff_terms me ib x) = dcoef (me_diff me ib) (val_ x).
Proof.
elim: x => [|[c w] x IH] /=; first by rewrite !value_nil (dco0 _ (der ib)).
case/andP=> bw bx; rewrite -(cat1s (c, w)) -(cat1s (_, w)) !value_cat (dcoD (der ib)) -IH //; congr (_ + _).
by have /bladeP[I wI wE] := bw; rewrite /= in wE; rewrite wE !value_term // (dcoZ (der ib)) (dco_bl (der ib)) scaler0 addr0.
Qed.
Lemma blade_diff ib x : blade_expr n (diff_terms me ib x) = blade_expr n x.
Proof. by rewrite /blade_expr /words /diff_terms -map_comp. Qed.
Lemma first_blade I : first_sym (mk_blade I) = mk_blade I. Proof. by case: I. Qed.
Lemma dblades_zero (x : mval R n) : dblades (fun _ _ => 0) x = 0.
Proof.
rewrite /dblades big1 // => i _; rewrite /dbasis big1 ?(ext0l two) // => j _.
by rewrite scale0r.
Qed.
Lemma nab_off ib : dg_connect dga = false -> forall x, nab ib x = dcoef (me_diff me ib) x.
Proof. by move=> e x; rewrite /nab e /nabla dblades_zero addr0. Qed.
Lemma nab_on ib : dg_connect dga -> forall x, nab ib x = dcoef (me_diff me ib) x + dblades (cof two dga ib) x.
Proof. by move=> e x; rewrite /nab e. Qed.
Section On.
Hypothesis con : dg_connect dga.
Variable ib : 'I_n.
Notation L := (dblades (cof two dga ib)).
Lemma L0 : L 0 = 0. Proof. exact: (linear0 (L_lin two _)). Qed.
Lemma LD x y : L (x + y) = L x + L y. Proof. exact: (linearD (L_lin two _)). Qed.
Lemma LZ b x : L (b *: x) = b *: L x. Proof. by have := L_linear two (cof two dga ib) b x 0; rewrite L0 !addr0. Qed.
Lemma termsP ts dA : blade_expr n ts -> mv_ok a dA -> bladed a dA ->
  @yields R two a true (ofold (pDiff_term_pure m dga ib) ts dA) (mvv two a dA + L (val_ ts)).
Proof.
elim: ts dA => [|[c w] ts IH] dA bt oA bA.
  by exists dA => //; split=> //; rewrite value_nil L0; exact: (esym (addr0 _)).
have /andP[bw bt'] := bt; have /bladeP[I wI wE] := bw; rewrite /= in wE.
have [v Ev [bv cv vv]] := blade_deriv_newP (dok con) ib wI.
have E1 : pDiff_term_pure m dga ib dA (c, w) =
    Some (if canon v == [::] then dA else mk_mv a (obj dA ++ escale c v)).
  by rewrite /pDiff_term_pure /bd_pure con /= wE first_blade Ev.
rewrite /= E1 /=.
have bA' := bladed_blade oA bA.
set dA' := if _ then _ else _.
have [oA' bA2 vA'] : [/\ mv_ok a dA', bladed a dA' & mvv two a dA' = mvv two a dA + c *: val_ v].
  rewrite /dA'; case: eqP => [z|_].
    by split=> //; rewrite -value_canon z value_nil scaler0 addr0.
  have bx : blade_expr n (obj dA ++ escale c v).
    by rewrite (@blade_cat R a) bA' /blade_expr words_escale.
  have [X [<-] [o1 v1 b1]] := yields_blade (two := two) (a := a) bx erefl true; split=> //; first exact: b1.
  by rewrite v1 value_cat value_escale.
apply: yields_eq (IH _ bt' oA' bA2) _.
rewrite vA' vv -addrA; congr (_ + _).
by rewrite -(cat1s _ ts) value_cat wE value_term // LD LZ.
Qed.
Lemma nonscalar x : blade_expr n x -> L (val_ [seq t <- x | ~~ nilp t.2]) = L (val_ x).
Proof.
elim: x => [//|[c w] x IH] /andP[bw bx] /=; rewrite -[in RHS]cat1s value_cat [in RHS]LD -IH //.
case: ifP => [_|/negbFE /nilP ->]; first by rewrite -cat1s value_cat LD.
by rewrite value_const LZ (L_one two) scaler0 add0r.
Qed.
End On.
Lemma pDiff_pureP (ib : 'I_n) A : mv_ok a A -> bladed a A ->
  @yields R two a true (pDiff_pure me m dga A ib) (nab ib (mvv two a A)).
Proof.
move=> oA bA; have bx := bladed_blade oA bA; rewrite /pDiff_pure.
have bd : blade_expr n (diff_terms me ib (obj A)) by rewrite blade_diff.
have vd : val_ (diff_terms me ib (obj A)) = dcoef (me_diff me ib) (mvv two a A) by exact: value_diff.
case: ifP => con; last by apply: (yields_blade (two := two) (a := a)); rewrite ?nab_off.
rewrite (is_scalarP two wf oA) /=; case: eqP => [sA|_].
  apply: (yields_blade (two := two) (a := a)); rewrite // nab_on // vd.
  have E : mvv two a A = ((mvv two a A : mval R n) set0) *: bl R set0 by rewrite -{1}sA; exact: (@scal_gpart R a).
  by rewrite [in X in _ = _ + X]E LZ (L_one two) scaler0 addr0.
have [dA [EA] [od vdA bdA]] := yields_blade (two := two) (a := a) bd vd true.
rewrite EA; apply: yields_eq (termsP con ib _ od (bdA isT)) _.
  by apply/allP=> w /mapP[t]; rewrite mem_filter => /andP[_ tin] ->; have /allP := @blade_canon R a _ bx; apply; exact: map_f.
by rewrite vdA nab_on // nonscalar ?value_canon //; exact: (@blade_canon R a).
Qed.
End Value.

(* ---- the derivatives of the basis vectors ---- *)
Section Conn.
Variables (R : comUnitRingType) (two : (2%:R : R) \is a GRing.unit) (me : metric_env R).
Notation D := (me_diff me).
Variables (coords : nat) (garg : garg R) (norm : bool) (m : metric R) (gsym : option R).
Notation n := (m_n m).
Notation a := (metric_ga m).
Notation val_ := (value two a).
Notation G := (mx n n (m_graw m)).
Hypothesis der : forall k, derivation (D k).
Hypotheses (mk : make_metric me n (Some coords) garg norm = Some m) (lec : (n <= coords)%N).
Hypotheses (sh : shape n n (m_graw m)) (sy : symmetric_mx G).
Hypotheses (u : gmat a \in unitmx) (gs : gsym_ok a gsym).

Lemma shg : shape n n (m_g m).
Proof.
have [_ _ _ _] := make_metricP mk; case: norm => [[N [_ _ _ ng]]|[-> _] //].
by have [] := norm_gE ng sh.
Qed.
Lemma m_wf : wf_ga a. Proof. exact: shg. Qed.
Lemma m_orthoE : is_ortho a = m_ortho m. Proof. by have [_ _ ->] := C49_orthogonality_flag mk sh sy. Qed.
Lemma scaleE : exists2 s, (if m_ortho m then s = 1 else ga_e_sq gsym a = Some s) &
  [/\ s \is a GRing.unit & s = r_scale a].
Proof.
exists (r_scale a); last by split=> //; exact: r_scale_unit u.
by rewrite /r_scale m_orthoE; case: (m_ortho m) => //; exact: (ga_e_sqE two m_wf gs).
Qed.
(* lowered: e_l . (D_i e_j) *)
Definition low (i j l : 'I_n) : R :=
  if m_enorm m is Some N then
    Gamma1 me m i j l / nth 0 N l / nth 0 N j - D i (nth 0 N j) / nth 0 N j * geff a l j
  else Gamma1 me m i j l.
Notation gf l x := (\sum_k (x : mval R n) [set k] * geff a l k).
Lemma subsP rs (e : rexpr R) : r_ok two a rs -> all (fun t => t.2.2 < n)%N e ->
  [/\ blade_expr n (subs_rbasis rs e), homog 1 (val_ (subs_rbasis rs e)) &
   forall l : 'I_n, gf l (val_ (subs_rbasis rs e)) =
     \sum_(t <- e) t.1 * (if t.2.1 then (val l == t.2.2)%:R * r_scale a else geff a l t.2.2)].
Proof.
case=> _ rok; elim: e => [|[c [b k]] e IH] /=.
  move=> _; split=> [//||l]; first by rewrite value_nil; exact: homog0.
  by rewrite value_nil big_nil big1 // => k _; rewrite ffunE mul0r.
case/andP=> lk /IH[IH1 IH2 IH3].
pose h := if b then escale c (nth [::] rs k) else [:: (c, mk_blade [:: k])].
have [h1 h2 h3] : [/\ blade_expr n h, homog 1 (val_ h) & forall l : 'I_n, gf l (val_ h) =
    c * (if b then (val l == k)%:R * r_scale a else geff a l k)].
  have [/= b1 b2 b3] := rok (Ordinal lk).
  have wI : wfI n [:: k] by rewrite /wfI /= lk.
  have gZ l (x : mval R n) : gf l (c *: x) = c * gf l x.
    by rewrite mulr_sumr; apply: eq_bigr => q _; rewrite ffunE mulrA.
  rewrite /h; case: (b); split.
  - by rewrite /blade_expr words_escale.
  - by rewrite value_escale; exact: homogZ.
  - move=> l; rewrite value_escale gZ; congr (_ * _).
    by rewrite -[_ == k]/(l == Ordinal lk) -(b3 l); exact: (esym (@gform_bl R two a _ _)).
  - by rewrite /blade_expr /words all_seq1 inE mk_blade_in.
  - rewrite value_term //; apply: homogZ.
    by have := @homog_bl R n (set_of n [:: k]); rewrite (card_set_of wI).
  move=> l; rewrite value_term // gZ; congr (_ * _).
  rewrite (bigD1 (Ordinal lk)) //= [X in _ + X]big1 ?addr0 => [|q qk].
    by rewrite bl_coef (_ : _ == _) ?mul1r //; apply/eqP/setP=> q; rewrite !inE -val_eqE.
  rewrite bl_coef (_ : (_ == _) = false) ?mul0r //; apply/negbTE; apply: contra qk => /eqP/setP/(_ q).
  by rewrite !inE eqxx => /esym /eqP e1; apply/eqP/val_inj.
have -> : subs_rbasis rs ((c, (b, k)) :: e) = h ++ subs_rbasis rs e by [].
split; first by rewrite (@blade_cat R a) h1.
  by rewrite value_cat; exact: homogD.
move=> l; rewrite big_cons -h3 -IH3 -big_split /=; apply: eq_bigr => q _.
by rewrite value_cat ffunE mulrDl.
Qed.
Lemma de_entryP rs (i j : 'I_n) : r_ok two a rs -> exists2 z, de_entry me gsym m rs i j = Some z &
  [/\ blade_expr n z, homog 1 (val_ z) & forall l : 'I_n, gf l (val_ z) = low i j l].
Proof.
move=> rok; have [_ _ _ _ nm] := make_metricP mk.
have al1 : all (fun t => t.2.2 < n)%N (de_first me m i j).
  by apply/allP=> t /mapP[k]; rewrite mem_iota /= => lk ->.
have al : all (fun t => t.2.2 < n)%N (de_metric me m i j).
  rewrite /de_metric; case: (m_enorm m) => // N; rewrite /de_norm all_map all_cat /= ltn_ord /= andbT all_map.
  by apply: sub_all al1 => t; rewrite /=; case: ifP.
have [b1 b2 b3] := subsP rok al; have [s s1 [us s2]] := scaleE.
have S (l : 'I_n) (F : nat -> R) : \sum_(k <- iota 0 n) F k * ((val l == k)%:R * r_scale a) = F l * r_scale a.
  rewrite -{1}[n]subn0 -/(index_iota 0 n) big_mkord (bigD1 l) //= eqxx mul1r big1 ?addr0 // => k kl.
  by rewrite [_ == _](_ : _ = (l == k)) // eq_sym (negbTE kl) mul0r mulr0.
have low1 (l : 'I_n) : \sum_(t <- de_metric me m i j) t.1 * (if t.2.1 then (val l == t.2.2)%:R * r_scale a else geff a l t.2.2) =
    low i j l * r_scale a.
  rewrite /de_metric /low; case: norm nm => [[N [or -> nl ng]]|[_ ->]]; last first.
    by rewrite big_map S.
  have r1 : r_scale a = 1 by rewrite -s2; move: s1; rewrite or.
  move: S; rewrite r1 => S.
  rewrite big_map big_cat /= big_seq1 /= big_map big_map /= mulr1; congr (_ + _); last first.
    by rewrite mulNr mulNr.
  have := S l (fun k => Gamma1 me m i j k / nth 0 N k / nth 0 N j); rewrite mulr1 => <-; exact: eq_bigr.
have cz y : blade_expr n y -> homog 1 (val_ y) -> [/\ blade_expr n (canon y), homog 1 (val_ (canon y)) &
   forall l : 'I_n, gf l (val_ (canon y)) = gf l (val_ y)].
  by move=> b h; rewrite value_canon; split=> //; exact: (@blade_canon R a).
rewrite /de_entry; move: s1; case: ifP => [_ s1|_ s1].
  have [c1 c2 c3] := cz _ b1 b2; eexists; first by []; split=> // l.
  by rewrite c3 b3 low1 -s2 s1 mulr1.
rewrite s1 /= /sinv us /=.
have b1' : blade_expr n (escale s^-1 (subs_rbasis rs (de_metric me m i j))) by rewrite /blade_expr words_escale.
have b2' : homog 1 (val_ (escale s^-1 (subs_rbasis rs (de_metric me m i j)))) by rewrite value_escale; exact: homogZ.
have [c1 c2 c3] := cz _ b1' b2'; eexists; first by []; split=> // l.
rewrite c3 value_escale (eq_bigr (fun k : 'I_n => s^-1 * ((val_ (subs_rbasis rs (de_metric me m i j)) : mval R n) [set k] * geff a l k))) => [|k _].
  by rewrite -mulr_sumr b3 low1 -s2 [_ * s]mulrC mulKr.
by rewrite ffunE mulrA.
Qed.
(* compatibility with the metric of the algebra *)
Lemma low_compat (i j l : 'I_n) : low i j l + low i l j = D i (geff a j l).
Proof.
have [_ _ _ _ nm] := make_metricP mk.
have Gs (p q : 'I_n) : ment (m_graw m) p q = ment (m_graw m) q p by exact: (symE sy).
have gam : Gamma1 me m i j l + Gamma1 me m i l j = D i (ment (m_graw m) j l).
  rewrite /Gamma1 /dg -mulrDr -[RHS](halfK two); congr (_ * _).
  by rewrite (Gs l j) (Gs i l) (Gs i j) ; zmod.
have ge (p q : 'I_n) : geff a p q = ment (m_g m) p q.
  rewrite /geff /gij /minn /maxn /=; case: ltnP => // _.
  case: norm nm => [[N [_ _ nl ng]]|[-> _]]; last exact: Gs.
  have [_ _ e] := norm_gE ng sh; have := e q p; rewrite /ment => -> //; have := e p q; rewrite /ment => -> //.
  by rewrite mulrC; have := Gs q p; rewrite /ment => ->; rewrite [nth 0 N q * _]mulrC mulrC.
rewrite /low (ge j l); case: norm nm => [[N [or -> nl ng]]|[-> ->]] //.
have [_ un e] := norm_gE ng sh; have sN := norm_size nl.
have uN (p : 'I_n) : nth 0 N p \is a GRing.unit by rewrite nunit ?sN.
rewrite !ge !e // (Gs l j) (drvM (der i)) (drvV (der i)) ?unitrM ?uN // (drvM (der i)) -gam.
move: (uN j) (uN l); set Nj := nth 0 N j; set Nl := nth 0 N l => uj ul.
rewrite invrM // !invrM ?unitrX ?unitrM ?uj ?ul //.
have := mulrV uj; have := mulrV ul; set vj := Nj^-1; set vl := Nl^-1 => el ej.
have -> : (D i Nj * Nl + Nj * D i Nl) * (vl * vj * (vl * vj)) =
    D i Nj * (Nl * vl) * (vj * (vl * vj)) + D i Nl * (Nj * vj) * (vl * vl * vj) by cring.
by rewrite el ej !mulr1; cring.
Qed.
(* the constant case *)
Hypothesis rooted : norm -> forall i : 'I_n, let x := G i i in me_root me x ^+ 2 = x \/ me_root me x ^+ 2 = - x.
Definition efac (j : nat) : R := if m_enorm m is Some N then nth 0 N j else 1.
Lemma efac_unit (j : 'I_n) : efac j \is a GRing.unit.
Proof.
have [_ _ _ _] := make_metricP mk; rewrite /efac; case: norm => [[N [_ -> nl ng]]|[_ ->]]; last exact: unitr1.
by have [_ un _] := norm_gE ng sh; rewrite nunit ?(norm_size nl).
Qed.
Lemma geffE (p q : 'I_n) : geff a p q = G p q / (efac p * efac q).
Proof.
have Gs (i j : 'I_n) : ment (m_graw m) i j = ment (m_graw m) j i by exact: (symE sy).
have e (i j : 'I_n) : ment (m_g m) i j = G i j / (efac i * efac j).
  rewrite ment_mx; have [_ _ _ _] := make_metricP mk; rewrite /efac; case: norm => [[N [_ -> nl ng]]|[-> ->]].
    by have [_ _ ->] := norm_gE ng sh.
  by rewrite mulr1 divr1.
rewrite /geff /gij /minn /maxn /=; case: ltnP => // _; rewrite -?/(ment _ _ _) ?e //.
by rewrite !ment_mx Gs [efac q * _]mulrC.
Qed.
Lemma efac_const : (forall i j k : 'I_n, D k (G i j) = 0) -> forall r k : 'I_n, D k (efac r) = 0.
Proof.
move=> z r k; have [_ _ _ _] := make_metricP mk; rewrite /efac.
case: norm rooted => [/(_ isT) rooted' [N [_ -> nl ng]]|_ [_ ->]]; last exact: (drv1 (der k)).
have ur : nth 0 N r \is a GRing.unit by have [_ un _] := norm_gE ng sh; rewrite nunit ?(norm_size nl).
have NE : nth 0 N r = me_root me (G r r).
  move: nl; rewrite /norm_list (omapM_some (h := fun i => me_root me (ment (m_graw m) i i))) => [[<-]|i].
    by rewrite (nth_map 0%N) ?size_iota // nth_iota // ment_mx.
  by rewrite mem_iota /= => li; rewrite (mgetE sh).
have : D k (nth 0 N r ^+ 2) = 0 by rewrite NE; case: (rooted' r) => ->; rewrite ?(drvN (der k)) z ?oppr0.
rewrite expr2 (drvM (der k)) [_ * D k _]mulrC -mulr2n -mulr_natl => h.
by apply: (mulrI two); apply: (mulIr ur); rewrite -[LHS]mulrA h mulr0 mul0r.
Qed.
Lemma geff_const : (forall i j k : 'I_n, D k (G i j) = 0) -> forall i j k : 'I_n, D k (geff a i j) = 0.
Proof.
move=> z i j k; rewrite geffE (drvM (der k)) z mul0r add0r (drvV (der k)) ?unitrM ?efac_unit // (drvM (der k)) !efac_const //.
by rewrite mul0r mulr0 addr0 mul0r oppr0 mulr0.
Qed.
(* the lowered derivative of the vectors of the original basis *)
Lemma low_raw (i j l : 'I_n) :
  efac l * (D i (efac j) * geff a l j + efac j * low i j l) = Gamma1 me m i j l.
Proof.
have := efac_unit l; have := efac_unit j; rewrite /low /efac; case: (m_enorm m) => [N|] uj ul; last first.
  by rewrite (drv1 (der i)) mul0r add0r !mul1r.
set Nj := nth 0 N j in uj * ; set Nl := nth 0 N l in ul * .
have := mulrV uj; have := mulrV ul; set vj := Nj^-1; set vl := Nl^-1 => el ej.
have -> : Nl * (D i Nj * geff a l j + Nj * (Gamma1 me m i j l * vl * vj - D i Nj * vj * geff a l j)) =
   Nl * D i Nj * geff a l j * (1 - Nj * vj) + (Nj * vj) * (Nl * vl) * Gamma1 me m i j l by cring.
by rewrite ej el subrr mulr0 add0r !mul1r.
Qed.

(* the vectors of the gradient: e_j . r_i = (j == i)/N_i *)
Definition nfac (i : nat) : R := if m_enorm m is Some N then (nth 0 N i)^-1 else 1.
Definition grad_ok (gr : seq (mv R)) := size gr = n /\ forall i : 'I_n, let r := nth (mv_const a 0) gr i in
  [/\ mv_ok a r, bladed a r, homog 1 (mvv two a r) & forall j : 'I_n, gf j (mvv two a r) = (j == i)%:R * nfac i].
Lemma gfZ (l : 'I_n) c (x : mval R n) : gf l (c *: x) = c * gf l x.
Proof. by rewrite mulr_sumr; apply: eq_bigr => q _; rewrite ffunE mulrA. Qed.
Lemma gradsP : exists2 gr, build_grads gsym m = Some gr & grad_ok gr.
Proof.
have [_ _ _ _ nm] := make_metricP mk.
have [rs Er [sz rok]] := r_basis_unit two m_wf u; have [s s1 [us s2]] := scaleE.
pose w (i : nat) := mk_mv a (nth [::] rs i).
have wP (i : 'I_n) : [/\ mv_ok a (w i), bladed a (w i), homog 1 (mvv two a (w i)) &
    forall j : 'I_n, gf j (mvv two a (w i)) = (j == i)%:R * s].
  have [b1 b2 b3] := rok i; have [X [<-] [o1 v1 /(_ isT) b4]] := yields_blade (two := two) (a := a) b1 erefl true.
  rewrite v1; split=> // j; rewrite -[LHS](@gform_bl R two a) s2; exact: b3.
have wE : r_basis_mv a = Some [seq w i | i <- iota 0 n].
  by rewrite /r_basis_mv Er /= -[in LHS](@mkseq_nth _ [::] rs) sz -map_comp.
have dv (i : 'I_n) X c : c \is a GRing.unit -> mv_ok a X -> bladed a X -> homog 1 (mvv two a X) ->
    exists2 Y, mv_divc a X c = Some Y & [/\ mv_ok a Y, bladed a Y, homog 1 (mvv two a Y) &
      forall j : 'I_n, gf j (mvv two a Y) = c^-1 * gf j (mvv two a X)].
  move=> uc oX bX hX; rewrite /mv_divc /sinv uc /=.
  have [Y -> [oY vY bY]] := mv_scaleP two c^-1 oX; exists Y => //; split=> //; first exact: bY.
    by rewrite vY; exact: homogZ.
  by move=> j; rewrite vY mulr_sumr; apply: eq_bigr => k _; rewrite ffunE mulrA.
rewrite /build_grads wE /=; case: norm nm => [[N [or eN nl ng]]|[_ eN]].
  rewrite or /= eN; have [_ un _] := norm_gE ng sh; have sN := norm_size nl.
  have uN (r : 'I_n) : nth 0 N r \is a GRing.unit by rewrite nunit ?sN.
  pose h (p : mv R * R) := if mv_divc a p.1 p.2 is Some z then z else mv_const a 0.
  have ze : zip [seq w i | i <- iota 0 n] N = [seq (w i, nth 0 N i) | i <- iota 0 n].
    have e0 : [seq nth 0 N i | i <- iota 0 n] = N by rewrite -[RHS](mkseq_nth 0) sN.
    by rewrite -[in LHS]e0; elim: (iota 0 n) => //= x q ->.
  rewrite ze omapM_comp (omapM_some (h := fun i => h (w i, nth 0 N i))) => [|i]; last first.
    rewrite mem_iota /= => li; rewrite /h; have [w1 w2 w3 _] := wP (Ordinal li).
    by have [Y -> _] := dv (Ordinal li) _ _ (uN (Ordinal li)) w1 w2 w3.
  eexists; first by []; split=> [|i]; first by rewrite !size_map size_iota.
  rewrite (nth_map 0%N) ?size_iota // nth_iota // /h /= add0n.
  have [w1 w2 w3 w4] := wP i; have [Y -> [o1 o2 o3 o4]] := dv i _ _ (uN i) w1 w2 w3; split=> // j.
  by rewrite o4 w4; move: s1; rewrite or => ->; rewrite /nfac eN mulr1 mulrC.
rewrite eN; move: s1; case: ifP => [_ s1|_ ->].
  eexists; first by []; split=> [|i]; first by rewrite !size_map size_iota.
  rewrite (nth_map 0%N) ?size_iota // nth_iota // add0n.
  by have [w1 w2 w3 w4] := wP i; split=> // j; rewrite w4 s1 /nfac eN.
pose h (x : mv R) := if mv_divc a x s is Some z then z else mv_const a 0.
rewrite /= omapM_comp (omapM_some (h := fun i => h (w i))) => [|i]; last first.
  rewrite mem_iota /= => li; rewrite /h; have [w1 w2 w3 _] := wP (Ordinal li).
  by have [Y -> _] := dv (Ordinal li) _ _ us w1 w2 w3.
eexists; first by []; split=> [|i]; first by rewrite !size_map size_iota.
rewrite (nth_map 0%N) ?size_iota // nth_iota // /h /= add0n.
have [w1 w2 w3 w4] := wP i; have [Y -> [o1 o2 o3 o4]] := dv i _ _ us w1 w2 w3; split=> // j.
by rewrite o4 w4 /nfac eN mulr1 mulrCA mulVr ?mulr1.
Qed.

(* what Ga.__init__ computes *)
Definition coef_of (dga : diff_ga R) (ib j k : 'I_n) : R := if dg_connect dga then cof two dga ib j k else 0.
Lemma make_diffP : exists2 dga, make_diff_ga me gsym m = Some dga &
  [/\ dg_connect dga = [exists i : 'I_n, exists j : 'I_n, exists k : 'I_n, D k (G i j) != 0],
      dg_connect dga -> de_shape two m dga,
      forall ib j l : 'I_n, D ib (geff a j l) =
        \sum_k coef_of dga ib j k * geff a k l + \sum_k coef_of dga ib l k * geff a j k,
      dg_connect dga -> forall i j l : 'I_n, \sum_k cof two dga i j k * geff a l k = low i j l &
      grad_ok (dg_grad dga)].
Proof.
have [_ ec _ _ nm] := make_metricP mk.
have fl : connect_flg me m = Some [exists i : 'I_n, exists j : 'I_n, exists k : 'I_n, D k (G i j) != 0].
  rewrite /connect_flg ec (dims mk lec sh) /=; congr Some.
  apply/hasP/existsP => [[i]|[i /existsP[j /existsP[k ne]]]].
    rewrite mem_iota /= => li /hasP[j]; rewrite mem_iota /= => lj /hasP[k]; rewrite mem_iota /= => lk ne.
    exists (Ordinal li); apply/existsP; exists (Ordinal lj); apply/existsP; exists (Ordinal lk).
    by rewrite ment_mx.
  exists (val i); first by rewrite mem_iota /=.
  apply/hasP; exists (val j); first by rewrite mem_iota /=.
  apply/hasP; exists (val k); first by rewrite mem_iota /=.
  by rewrite /dg -ment_mx.
have [rs Er rok] := r_basis_unit two m_wf u.
pose t (i j : nat) := if de_entry me gsym m rs i j is Some z then z else [::].
have tE (i j : 'I_n) : de_entry me gsym m rs i j = Some (t i j).
  by rewrite /t; have [z -> _] := de_entryP i j rok.
pose T := [seq [seq t i j | j <- iota 0 n] | i <- iota 0 n].
have ET : omapM (fun i => omapM (de_entry me gsym m rs i) (iota 0 n)) (iota 0 n) = Some T.
  apply: omapM_some => i; rewrite mem_iota /= => li; apply: omapM_some => j; rewrite mem_iota /= => lj.
  exact: (tE (Ordinal li) (Ordinal lj)).
have nT (i j : 'I_n) : nth [::] (nth [::] T i) j = t i j.
  by rewrite (nth_map 0%N) ?size_iota // (nth_map 0%N) ?size_iota // !nth_iota.
have [gr Eg gok] := gradsP.
pose b := [exists i : 'I_n, exists j : 'I_n, exists k : 'I_n, D k (G i j) != 0].
exists (DiffGa b (if b then T else [::]) gr).
  by rewrite /make_diff_ga /ga_de fl -/b /=; case: (b); rewrite /= ?Er /= ?ET /= Eg.
have cE (i j k : 'I_n) : b -> cof two (DiffGa b (if b then T else [::]) gr) i j k = (val_ (t i j) : mval R n) [set k].
  by move=> bt; rewrite /cof /= bt nT.
have gE (i j l : 'I_n) : b -> \sum_k cof two (DiffGa b (if b then T else [::]) gr) i j k * geff a l k = low i j l.
  move=> bt; rewrite (eq_bigr _ (fun k _ => congr1 (fun z => z * _) (cE i j k bt))).
  by have [z e [_ _ <-]] := de_entryP i j rok; move: e; rewrite tE => -[->].
split=> //=; rewrite -/b.
- move=> bt i j; rewrite /= bt nT.
  by have [z e [e1 e2 _]] := de_entryP i j rok; move: e; rewrite tE => -[->].
- move=> i j l; rewrite /coef_of /=; case e: b; last first.
    rewrite !big1 ?addr0 => [|k _|k _]; rewrite ?mul0r //.
    apply: geff_const => i' j' k'; apply/eqP/negbNE/negP => ne.
    by move/negbT/negP: e; apply; rewrite /b; apply/existsP; exists i'; apply/existsP; exists j'; apply/existsP; exists k'.
  have := gE i j l e; have := gE i l j e; rewrite e => e1 e2.
  rewrite -low_compat -e1 -e2; congr (_ + _); apply: eq_bigr => k _; congr (_ * _); exact: geff_sym.
by move=> bt i j l; exact: gE.
Qed.
End Conn.
