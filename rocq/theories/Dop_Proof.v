(* Dop_Proof.v -- meaning of lists of terms (coefficient, partial derivative). *)
From mathcomp Require Import all_ssreflect all_algebra.
From Verif Require Import PyBase AlgTactics Exterior Clifford Spec_Grade Grades GradeLaws ExtDeriv Spec_Diff Nabla Dop_Model.
Set Implicit Arguments.
Unset Strict Implicit.
Unset Printing Implicit Defensive.
Import GRing.Theory.
Local Open Scope ring_scope.

Lemma dget_in (K : eqType) (V : eqType) (d : seq (K * V)) k v : dget d k = Some v -> (k, v) \in d.
Proof.
elim: d => [//|[k' v'] d IH] /=; case: eqP => [->|_]; first by move=> [->]; rewrite mem_head.
by move/IH; rewrite inE orbC => ->.
Qed.
(* dictionaries: keys are unique *)
Definition pd_uniq (p : pdop) : bool := uniq [seq kv.1 | kv <- p].
Lemma pd_eq_perm p q : pd_uniq p -> pd_eq p q -> perm_eq p q.
Proof.
move=> up /andP[/eqP sz /allP h]; have sub : {subset p <= q} by move=> [k v] /h /eqP /dget_in.
have u : uniq p by exact: map_uniq up.
have [] := uniq_min_size u sub; first by rewrite sz.
by move=> _ e; apply: uniq_perm => //; rewrite (uniq_size_uniq u e) sz.
Qed.
Lemma pd_eq_refl p : pd_uniq p -> pd_eq p p.
Proof.
move=> up; rewrite /pd_eq eqxx; apply/allP=> -[k v] /=.
elim: p up => [//|[k' v'] p IH]; rewrite /pd_uniq map_cons cons_uniq => /andP[nk up]; rewrite inE /=.
case/orP=> [/eqP[-> ->]|i]; first by rewrite eqxx.
case: (k' =P k) => [e|_]; last exact: IH.
by move: nk; rewrite /= e => /mapP[]; exists (k, v).
Qed.
Lemma dset_keys (K : eqType) (V : eqType) (d : seq (K * V)) k v :
  [seq x.1 | x <- dset d k v] = if k \in [seq x.1 | x <- d] then [seq x.1 | x <- d] else rcons [seq x.1 | x <- d] k.
Proof.
elim: d => [//|[k' v'] d IH] /=; rewrite inE [k == k']eq_sym; case: eqP => [->//|_] /=; rewrite IH /=.
by case: (k \in _).
Qed.
Lemma pd_inc_uniq p x k : pd_uniq p -> pd_uniq (pd_inc p x k).
Proof. by rewrite /pd_uniq /pd_inc dset_keys => u; case: ifP => // nx; rewrite rcons_uniq nx. Qed.

Section Apply.
Variables (W : Type) (dW : nat -> W -> W) (dom : pred nat).
Hypothesis comm : forall i j w, dom i -> dom j -> dW i (dW j w) = dW j (dW i w).
Definition papp (p : pdop) (w : W) : W := foldl (fun w (kv : nat * nat) => iter kv.2 (dW kv.1) w) w p.
Definition pd_dom (p : pdop) : bool := all (fun kv => dom kv.1) p.

Lemma iter_comm1 i j k w : dom i -> dom j -> dW i (iter k (dW j) w) = iter k (dW j) (dW i w).
Proof. by move=> di dj; elim: k => [//|k IH]; rewrite !iterS comm // IH. Qed.
Lemma iter_comm i j k l w : dom i -> dom j -> iter l (dW i) (iter k (dW j) w) = iter k (dW j) (iter l (dW i) w).
Proof. by move=> di dj; elim: l => [//|l IH]; rewrite !iterS IH iter_comm1. Qed.
Lemma papp_iter p i k w : dom i -> pd_dom p -> papp p (iter k (dW i) w) = iter k (dW i) (papp p w).
Proof. by move=> di; elim: p w => [//|[j l] p IH] w /= /andP[dj dp]; rewrite iter_comm // IH. Qed.
Lemma papp_cat p q w : papp (p ++ q) w = papp q (papp p w).
Proof. exact: foldl_cat. Qed.
Lemma papp_comm p q w : pd_dom p -> pd_dom q -> papp p (papp q w) = papp q (papp p w).
Proof.
move=> dp dq; elim: q w dq => [//|[i k] q IH] w /= /andP[di dq].
by rewrite -/(papp _ _) IH // papp_iter.
Qed.
Lemma papp_perm p q w : perm_eq p q -> pd_dom p -> papp p w = papp q w.
Proof.
move=> pq dp; suff : pd_dom q /\ papp q w = papp p w by case.
apply: (@catCA_perm_ind _ (fun s => pd_dom s /\ papp s w = papp p w) _ p q pq) => //.
move=> s1 s2 s3 [] d1; rewrite !papp_cat => <-.
move: d1; rewrite /pd_dom !all_cat => /and3P[h1 h2 h3]; rewrite h1 h2 h3; split=> //.
by rewrite -(papp_comm w h2 h1).
Qed.
Lemma papp_eq p q w : pd_eq p q -> pd_uniq p -> pd_dom p -> papp p w = papp q w.
Proof. by move=> e u; apply: papp_perm; exact: pd_eq_perm. Qed.
Lemma papp_inc p x k w : dom x -> pd_dom p -> papp (pd_inc p x k) w = iter k (dW x) (papp p w).
Proof.
move=> dx; rewrite /pd_inc; elim: p w => [//|[i l] p IH] w /= /andP[di dp]; case: eqP => [->|_] /=.
  by rewrite -/(papp _ _) addnC iterD -/(papp _ _) papp_iter.
by rewrite -/(papp _ _) IH.
Qed.
Lemma pd_dom_inc p x k : dom x -> pd_dom p -> pd_dom (pd_inc p x k).
Proof.
move=> dx; rewrite /pd_inc; set v := if _ is Some _ then _ else _; move: v => v.
by elim: p => [|[i l] p IH] /=; rewrite ?dx // => /andP[di dp]; case: eqP => [->|_] /=; rewrite ?dx ?di ?dp //= IH.
Qed.
End Apply.

Section Sem.
Variables (T : Type) (K : coefs T) (V W U : zmodType) (act : V -> W -> U).
Variables (ok : T -> Prop) (val : T -> V) (dom : pred nat).
Variables (dV : nat -> V -> V) (dW : nat -> W -> W) (dU : nat -> U -> U).
Hypothesis actDl : forall x y w, act (x + y) w = act x w + act y w.
Hypothesis dUD : forall i x y, dU i (x + y) = dU i x + dU i y.
Hypothesis leib : forall i v w, dom i -> dU i (act v w) = act (dV i v) w + act v (dW i w).
Hypothesis comm : forall i j w, dom i -> dom j -> dW i (dW j w) = dW j (dW i w).
Hypothesis addP : forall x y, ok x -> ok y -> exists2 z, c_add K x y = Some z & ok z /\ val z = val x + val y.
Hypothesis radd0P : forall x, ok x -> exists2 z, c_radd0 K x = Some z & ok z /\ val z = val x.
Hypothesis iszP : forall x, ok x -> c_isz K x = Some (val x == 0).
Hypothesis diffP : forall i x, ok x -> dom i -> exists2 z, c_diff K i x = Some z & ok z /\ val z = dV i (val x).

Lemma act0l w : act 0 w = 0.
Proof. by have := actDl 0 0 w; rewrite addr0 => /eqP; rewrite eq_sym -subr_eq0 addrK => /eqP. Qed.
Lemma dU0 i : dU i 0 = 0.
Proof. by have := dUD i 0 0; rewrite addr0 => /eqP; rewrite eq_sym -subr_eq0 addrK => /eqP. Qed.
Notation papp_ := papp.
Notation papp := (papp dW).
Definition pd_ok (p : pdop) : bool := pd_uniq p && pd_dom dom p.
Fixpoint ts_ok (ts : seq (T * pdop)) : Prop :=
  if ts is t :: ts' then [/\ ok t.1, pd_ok t.2 & ts_ok ts'] else True.
Definition sem (ts : seq (T * pdop)) (w : W) : U := \sum_(t <- ts) act (val t.1) (papp t.2 w).

Lemma ts_ok_cat s t : ts_ok s -> ts_ok t -> ts_ok (s ++ t).
Proof. by elim: s => [//|x s IH] /= [h1 h2 h3] h; split=> //; exact: IH. Qed.
Lemma sem_cat s t w : sem (s ++ t) w = sem s w + sem t w. Proof. exact: big_cat. Qed.
Lemma sem_cons t s w : sem (t :: s) w = act (val t.1) (papp t.2 w) + sem s w. Proof. exact: big_cons. Qed.
Lemma sem_nil w : sem [::] w = 0. Proof. exact: big_nil. Qed.

Lemma add_toP l c p : ts_ok l -> ok c -> pd_ok p ->
  exists2 l', add_to K l c p = Some l' & ts_ok l' /\ forall w, sem l' w = sem l w + act (val c) (papp p w).
Proof.
elim: l => [|[c' p'] l IH] /=; first by move=> _ oc op; eexists => //; split=> // w; rewrite sem_cons sem_nil addrC.
move=> [oc' op' ol] oc op; case: ifP => [e|_].
  have [s -> [os vs]] := addP oc' oc; eexists; first by [].
  split=> [//|w]; rewrite !sem_cons /= vs actDl.
  case/andP: op' => u' d'; rewrite [in act (val c) _](papp_eq comm w e u' d').
  by rewrite -!addrA; congr (_ + _); rewrite addrC.
have [r -> [or vr]] := IH ol oc op; eexists; first by [].
by split=> // w; rewrite !sem_cons vr addrA.
Qed.
Lemma consolidateP ts : ts_ok ts ->
  exists2 l, consolidate K ts = Some l & ts_ok l /\ forall w, sem l w = sem ts w.
Proof.
rewrite /consolidate => ot; have : ts_ok [::] by [].
suff : forall l, ts_ok l -> exists2 l', ofoldl (fun l (t : T * pdop) => LET z := c_isz K t.1 IN if z then Some l else add_to K l t.1 t.2) ts l = Some l' &
    ts_ok l' /\ forall w, sem l' w = sem l w + sem ts w.
  move=> h /h[l' -> [ol sl]]; exists l' => //; split=> // w; by rewrite sl sem_nil add0r.
elim: ts ot => [|[c p] ts IH] /=; first by move=> _ l ol; exists l => //; split=> // w; rewrite sem_nil addr0.
move=> [oc op ots] l ol; rewrite iszP //=; case: eqP => [v0|_] /=.
  have [l' -> [ol' sl']] := IH ots l ol; exists l' => //; split=> // w.
  by rewrite sl' sem_cons /= v0 act0l add0r.
have [l1 -> [ol1 sl1]] := add_toP ol oc op.
have [l' /= -> [ol' sl']] := IH ots l1 ol1; exists l' => //; split=> // w.
by rewrite sl' sl1 sem_cons addrA.
Qed.

(* the working list of _merge_terms *)
Definition oval (c : option T) : V := if c is Some x then val x else 0.
Fixpoint os_ok (l : seq (option T * pdop)) : Prop :=
  if l is (c, p) :: l' then [/\ (if c is Some x then ok x else True), pd_ok p & os_ok l'] else True.
Definition osem (l : seq (option T * pdop)) (w : W) : U := \sum_(t <- l) act (oval t.1) (papp t.2 w).
Lemma osem_cons t s w : osem (t :: s) w = act (oval t.1) (papp t.2 w) + osem s w. Proof. exact: big_cons. Qed.
Lemma add_atP l c p : os_ok l -> ok c -> pd_ok p -> has (fun t => pd_eq t.2 p) l ->
  exists2 l', add_at K l c p = Some l' &
   [/\ os_ok l', [seq t.2 | t <- l'] = [seq t.2 | t <- l] & forall w, osem l' w = osem l w + act (val c) (papp p w)].
Proof.
elim: l => [//|[c' p'] l IH] /= [oc' op' ol] oc op; case: ifP => [e _|_ /= h].
  have [s -> [os vs]] : exists2 z, (if c' is Some x then c_add K x c else c_radd0 K c) = Some z & ok z /\ val z = oval c' + val c.
    case: c' oc' => [x|] ox; first by have [z E [oz vz]] := addP ox oc; exists z.
    by have [z E [oz vz]] := radd0P oc; exists z => //; rewrite add0r.
  eexists; first by [].
  split=> [//|//|w]; rewrite !osem_cons /= vs actDl.
  case/andP: op' => u' d'; rewrite [in act (val c) _](papp_eq comm w e u' d').
  by rewrite -!addrA; congr (_ + _); rewrite addrC.
have [r -> [or pr vr]] := IH ol oc op h; eexists; first by [].
by split=> [//||w]; rewrite /= ?pr // !osem_cons vr addrA.
Qed.
Lemma add_allP ts l : os_ok l -> ts_ok ts -> (forall t, t \in [seq t.2 | t <- ts] -> has (fun q => pd_eq q t) [seq t.2 | t <- l]) ->
  exists2 l', ofoldl (fun l (t : T * pdop) => add_at K l t.1 t.2) ts l = Some l' &
   [/\ os_ok l', [seq t.2 | t <- l'] = [seq t.2 | t <- l] & forall w, osem l' w = osem l w + sem ts w].
Proof.
elim: ts l => [|[c p] ts IH] l /=; first by move=> ol _ _; exists l => //; split=> // w; rewrite sem_nil addr0.
move=> ol [oc op ots] h; have hp : has (fun t => pd_eq t.2 p) l.
  by have := h p (mem_head _ _); rewrite has_map.
have [l1 -> [ol1 pl1 vl1]] := add_atP ol oc op hp.
have [|l' /= -> [ol' pl' vl']] := IH l1 ol1 ots; first by move=> t ti; rewrite pl1; apply: h; rewrite inE ti orbT.
by exists l' => //; split=> // [|w]; rewrite ?pl' // vl' vl1 sem_cons addrA.
Qed.
Lemma drop_zerosP l : os_ok l ->
  exists2 ts, drop_zeros K l = Some ts & [/\ ts_ok ts, forall w, sem ts w = osem l w &
    forall t, t \in [seq t.2 | t <- ts] -> t \in [seq t.2 | t <- l]].
Proof.
elim: l => [|[c p] l IH] /=; first by move=> _; exists [::] => //; split=> // w; rewrite sem_nil /osem big_nil.
move=> [oc op ol]; have [r -> [or vr mr]] := IH ol; case: c oc => [x|] ox /=; last first.
  by exists r => //; split=> // [w|t /mr]; rewrite ?osem_cons /= ?act0l ?add0r // inE orbC => ->.
rewrite iszP //=; case: eqP => [v0|_]; eexists; try by [].
  by split=> // [w|t /mr]; rewrite ?osem_cons /= ?v0 ?act0l ?add0r // inE orbC => ->.
split=> // [w|t]; first by rewrite sem_cons osem_cons vr.
by rewrite /= !inE => /orP[->//|/mr ->]; rewrite orbT.
Qed.
Lemma mergeP t1 t2 : ts_ok t1 -> ts_ok t2 ->
  exists2 ts, merge_terms K t1 t2 = Some ts & ts_ok ts /\ forall w, sem ts w = sem t1 w + sem t2 w.
Proof.
move=> o1 o2; rewrite /merge_terms; set ps := (_ ++ [seq _ <- _ | _]).
have pok ts : ts_ok ts -> all pd_ok [seq t.2 | t <- ts] by elim: ts => [//|t ts IH] /= [_ -> /IH].
have okp : all pd_ok ps.
  rewrite /ps all_cat pok //=; apply/allP=> p; rewrite mem_filter => /andP[_].
  by move: p; apply/allP; exact: pok.
have ol0 : os_ok [seq (None, p) | p <- ps].
  by elim: (ps) okp => [//|p l IH] /= /andP[op /IH].
have s0 w : osem [seq (None, p) | p <- ps] w = 0.
  by rewrite /osem big_map big1 // => p _; exact: act0l.
have p0 : [seq t.2 | t <- [seq (None : option T, p) | p <- ps]] = ps by rewrite -map_comp map_id.
have refl p : p \in ps -> has (fun q => pd_eq q p) ps.
  by move=> pi; apply/hasP; exists p => //; apply: pd_eq_refl; have /andP[] := allP okp p pi.
have h1 t : t \in [seq t.2 | t <- t1] -> has (fun q => pd_eq q t) ps.
  by move=> ti; apply: refl; rewrite mem_cat ti.
have h2 t : t \in [seq t.2 | t <- t2] -> has (fun q => pd_eq q t) ps.
  move=> ti; rewrite /ps has_cat; case E: (has _ [seq t.2 | t <- t1]) => //=.
  apply/hasP; exists t; first by rewrite mem_filter ti E.
  by apply: pd_eq_refl; have /andP[] := allP (pok _ o2) t ti.
rewrite -p0 in h1 h2.
have [l1 -> [ol1 pl1 vl1]] := add_allP ol0 o1 h1.
rewrite -pl1 in h2; have [l2 /= -> [ol2 pl2 vl2]] := add_allP ol1 o2 h2.
have [ts /= -> [ot vt _]] := drop_zerosP ol2; exists ts => //; split=> // w.
by rewrite vt vl2 vl1 s0 add0r.
Qed.
Lemma diff_termP x t : ok t.1 -> pd_ok t.2 -> dom x ->
  exists2 l, diff_term K x t = Some l & ts_ok l /\ forall w, sem l w = dU x (act (val t.1) (papp t.2 w)).
Proof.
move=> oc op dx; rewrite /diff_term; have [z -> [oz vz]] := diffP oc dx; rewrite /= iszP //=.
eexists; first by []; case/andP: (op) => u d.
have oi : pd_ok (pd_inc t.2 x 1) by rewrite /pd_ok pd_inc_uniq //= pd_dom_inc.
split=> [|w]; first by case: eqP.
rewrite sem_cat sem_cons sem_nil addr0 /= (papp_inc comm 1 w dx d) leib // -vz; congr (_ + _).
by case: eqP => [->|_]; rewrite ?sem_cons sem_nil ?addr0 ?act0l.
Qed.
Lemma diff_timesP x k ts : ts_ok ts -> dom x ->
  exists2 l, diff_times K x k ts = Some l & ts_ok l /\ forall w, sem l w = iter k (dU x) (sem ts w).
Proof.
move=> ot dx; elim: k ts ot => [|k IH] ts ot /=; first by exists ts.
have [l -> [ol vl]] : exists2 l, omapM (diff_term K x) ts = Some l & ts_ok (flatten l) /\ forall w, sem (flatten l) w = dU x (sem ts w).
  elim: ts ot => [|t ts IHt] /=; first by move=> _; exists [::] => //; split=> // w; rewrite !sem_nil dU0.
  move=> [oc op ots]; have [l1 -> [ol1 vl1]] := diff_termP oc op dx.
  have [l2 -> [ol2 vl2]] := IHt ots; exists (l1 :: l2) => //=; split; first exact: ts_ok_cat.
  by move=> w; rewrite sem_cat sem_cons vl1 vl2 dUD.
have [l' /= -> [ol' vl']] := IH _ ol; exists l' => //; split=> // w.
by rewrite vl' vl -iterS iterSr.
Qed.
Lemma eval_derivativeP x k ts : ts_ok ts -> dom x ->
  exists2 l, eval_derivative K ts x k = Some l & ts_ok l /\ forall w, sem l w = iter k (dU x) (sem ts w).
Proof.
move=> ot dx; rewrite /eval_derivative; have [l1 -> [o1 v1]] := diff_timesP k ot dx.
by have [l /= -> [ol vl]] := consolidateP o1; exists l => //; split=> // w; rewrite vl v1.
Qed.
Lemma pd_on_termsP p ts : ts_ok ts -> pd_dom dom p ->
  exists2 l, pd_on_terms K p ts = Some l & ts_ok l /\ forall w, sem l w = papp_ dU p (sem ts w).
Proof.
rewrite /pd_on_terms; elim: p ts => [|[x k] p IH] ts ot /=; first by exists ts.
case/andP=> dx dp; have [l1 -> [o1 v1]] := eval_derivativeP k ot dx.
by have [l /= -> [ol vl]] := IH l1 o1 dp; exists l => //; split=> // w; rewrite vl v1.
Qed.
End Sem.

(* two covariant derivatives that commute on scalars and on the basis vectors
   commute *)
Section Flat.
Variables (R : comUnitRingType) (n : nat) (two : (2%:R : R) \is a GRing.unit).
Notation M := (mval R n).
Variables (d1 d2 : R -> R) (der1 : derivation d1) (der2 : derivation d2) (c1 c2 : 'I_n -> 'I_n -> R).
Notation n1 := (nabla d1 c1).
Notation n2 := (nabla d2 c2).
Hypothesis comm : forall x, d1 (d2 x) = d2 (d1 x).
Hypothesis flat : forall i, n1 (n2 (bl R [set i])) = n2 (n1 (bl R [set i])).
Definition same x := n1 (n2 x) = n2 (n1 x).
Lemma same0 : same 0. Proof. by rewrite /same !(nabla0 two der1, nabla0 two der2). Qed.
Lemma sameD x y : same x -> same y -> same (x + y).
Proof. by rewrite /same !(nablaD two der1, nablaD two der2) => -> ->. Qed.
Lemma sameZ a x : same x -> same (a *: x).
Proof.
rewrite /same !(nablaZ two der1, nablaZ two der2, nablaD two der1, nablaD two der2) => ->.
by rewrite comm addrACA.
Qed.
Lemma same_ext x y : same x -> same y -> same (ext x y).
Proof.
rewrite /same !(nabla_ext two der1, nabla_ext two der2, nablaD two der1, nablaD two der2) => -> ->.
by rewrite addrACA.
Qed.
Lemma same_bl S : same (bl R S).
Proof.
have [k] := ubnP #|S|; elim: k S => // k IH S; rewrite ltnS => hS.
case: (set_0Vmem S) => [->|[i iS]].
  by rewrite /same !(nabla_one two der1, nabla_one two der2, nabla0 two der1, nabla0 two der2).
have e : (-1) ^+ nlt i (S :\ i) *: wedge_op i (bl R (S :\ i)) = bl R S.
  by rewrite wedge_op_bl /Wb !inE eqxx /= signrZK setD1K.
have lt : (#|S :\ i| < k)%N by move: hS; rewrite (cardsD1 i S) iS.
by rewrite -e (wedge_opE two); apply: sameZ; apply: same_ext; [exact: flat|exact: IH].
Qed.
Theorem nabla_comm x : n1 (n2 x) = n2 (n1 x).
Proof.
suff : same x by []; rewrite [x]mval_decomp.
by elim/big_rec: _ => [|S y _ h]; [exact: same0|apply: sameD => //; apply: sameZ; exact: same_bl].
Qed.
End Flat.
