(* Props_Mlt.v -- property C33: multilinear transformations. *)
From mathcomp Require Import all_ssreflect all_algebra fraction.
From Verif Require Import NatTac AlgTactics Exterior Clifford Blades Spec_Grade Grades PyBase Spec_Index Ga_Model.
From Verif Require Import Ga_Sem Ga_Proof_Tables Ga_Proof_Sort Ga_Proof_Sem Ga_Proof_Reduce Ga_Proof_Rep Ga_Proof_Conv.
From Verif Require Import Ga_Proof_Mul Spec_Clifford Clifford_Unique Spec_Mv Ga_Proof_Den Ga_Proof_Wedge Ga_Proof_Inner Ga_Proof_Grade.
From Verif Require Import GradeLaws Det Outer Mv_Model Mv_Proof Mv_Expr Mv_Proof_Expr Props_Mv Dual_Model Dual_Proof Props_Dual.
From Verif Require Import Coef_Model Coef_Proof Props_Coef Props_Versor Metric_Model Props_Metric Spec_Diff Nabla Diff_Model Diff_Proof.
From Verif Require Import Props_Diff Props_Dop Lt_Model Spec_Lt Lt_Proof Props_Lt Props_Trace Props_Lt_Cases Mlt_Model Spec_Mlt.
Set Implicit Arguments.
Unset Strict Implicit.
Unset Printing Implicit Defensive.
Import GRing.Theory.
Local Open Scope ring_scope.
Open Scope py_scope.

Lemma all_flat (T : Type) (P : pred T) (ss : seq (seq T)) : all P (flatten ss) = all (all P) ss.
Proof. by elim: ss => //= s ss IH; rewrite all_cat IH. Qed.
Lemma dget_app (K : eqType) (V : Type) (d d' : seq (K * V)) k : dget (d ++ d') k = if dget d k is Some v then Some v else dget d' k.
Proof. by elim: d => //= -[k' v] d IH; case: eqP. Qed.
Lemma dget_grid (V : Type) (P : nat -> nat -> V) (is_ ks : seq nat) i k :
  dget (flatten [seq [seq ((i, k), P i k) | k <- ks] | i <- is_]) (i, k) = if (i \in is_) && (k \in ks) then Some (P i k) else None.
Proof.
elim: is_ => //= i' is_ IH; rewrite dget_app IH inE.
have -> : dget [seq ((i', k0), P i' k0) | k0 <- ks] (i, k) = if (i == i') && (k \in ks) then Some (P i k) else None.
  elim: ks {IH} => [|k' ks IH] /=; first by rewrite andbF.
  rewrite IH inE xpair_eqE eq_sym; case: (i =P i') => [->|] //=; by rewrite eq_sym; case: (k =P k') => [->|].
by case: (i =P i') => [->|] //=; case: (k \in ks) => //=; rewrite ?andbF.
Qed.
(* ---- component expressions ---- *)
Section Poly.
Variable R : comUnitRingType.
Notation poly := (Mlt_Model.poly R).
Implicit Types (p q : poly) (env : slotsym -> R) (d : seq (slotsym * poly)).
Definition pev env p : R := \sum_(t <- p) t.1 * \prod_(v <- t.2) env v.
Lemma pev_cat env p q : pev env (p ++ q) = pev env p + pev env q. Proof. by rewrite /pev big_cat. Qed.
Lemma pev_flatten env (ps : seq poly) : pev env (flatten ps) = \sum_(p <- ps) pev env p.
Proof. by rewrite /pev; elim: ps => [|p ps IH]; rewrite /= ?big_nil // big_cat big_cons IH. Qed.
Lemma pev_mul env p q : pev env (pol_mul p q) = pev env p * pev env q.
Proof.
rewrite /pol_mul pev_flatten big_map {2}/pev mulr_suml; apply: eq_bigr => s _.
rewrite /pev big_map mulr_sumr; apply: eq_bigr => t _ /=; by rewrite big_cat /= mulrACA.
Qed.
Lemma pev_scale env c p : pev env (pol_scale c p) = c * pev env p.
Proof. by rewrite /pev big_map mulr_sumr; apply: eq_bigr => t _; rewrite mulrA. Qed.
Lemma pev_const env c : pev env (pol_const c) = c.
Proof. by rewrite /pev big_seq1 /= big_nil mulr1. Qed.
Definition env_subs d env (v : slotsym) : R := if dget d v is Some r then pev env r else env v.
Lemma pev_subs env d p : pev env (pol_subs d p) = pev (env_subs d env) p.
Proof.
rewrite /pol_subs pev_flatten big_map; apply: eq_bigr => -[c l] _ /=.
rewrite /term_subs /=; elim: l => [|v l IH] /=; first by rewrite pev_const big_nil mulr1.
rewrite pev_mul IH big_cons mulrCA; congr (_ * _); rewrite /env_subs; case: dget => [r|] //.
by rewrite /pev big_seq1 /= big_seq1 mul1r.
Qed.
Definition numeric p := all (fun t : R * seq slotsym => nilp t.2) p.
Lemma numeric_pev env p : numeric p -> pol_number p = Some (pev env p).
Proof.
rewrite /pol_number /numeric => nm; rewrite nm; congr Some; elim: p nm => [|[c l] p IH] /=; first by rewrite /pev big_nil.
by case/andP=> /nilP -> /IH ->; rewrite /pev big_cons big_nil mulr1.
Qed.
Lemma numeric_mul p q : numeric p -> numeric q -> numeric (pol_mul p q).
Proof.
move=> np nq; rewrite /numeric /pol_mul all_flat all_map; apply: sub_all np => s /= /nilP ->.
by rewrite all_map; apply: sub_all nq.
Qed.
Lemma numeric_subs d p : all (fun t => all (fun v => if dget d v is Some r then numeric r else false) t.2) p ->
  numeric (pol_subs d p).
Proof.
move=> h; rewrite /numeric /pol_subs all_flat all_map; apply: sub_all h => -[c l] /=.
rewrite /term_subs /=; elim: l => [//|v l IH] /= /andP[]; case: dget => // r nr /IH; exact: numeric_mul.
Qed.
End Poly.

Section C33.
Variables (R : comUnitRingType) (two : (2%:R : R) \is a GRing.unit) (a : ga R).
Hypotheses (wf : wf_ga a) (u : \det (metric_mx a) \is a GRing.unit).
Notation n := (ga_n a).
Notation f := (r_factor a).
Notation poly := (Mlt_Model.poly R).
Notation mvv := (mvv two a).
Notation yields := (@yields R two a).
Implicit Types (T : mlt R) (X Y : mv R) (x : marg R) (i j k : nat).
(* the coefficient of e_k *)
Definition xcoef X k : R := coefficient (obj X) (mk_blade [:: k]).
Lemma xcoefE X (k : 'I_n) : vector a X -> xcoef X k = (mvv X : mval R n) [set k].
Proof.
move=> vX; have [oX bX _ _] := vectorP two vX.
have wk : wfI n [:: val k] by rewrite /wfI /= ltn_ord.
rewrite /xcoef -[coefficient _ _]/(coef (obj X) _) (coef_value two (bladed_blade oX bX) wk); congr (_ _).
by rewrite set_of1.
Qed.
Definition good_arg x : bool := if x is Vec X then vector a X else true.
Definition arg_poly x k : poly :=
  match x with
  | Vec X => pol_const (f * xcoef X k)
  | Slot j => [seq (f * xcoef (mv_basis_vec R l) k, [:: (j, l)]) | l <- iota 0 n]
  end.
Lemma basis_vector k : (k < n)%N -> vector a (mv_basis_vec R k).
Proof. exact: evecP. Qed.
Lemma recip_dot : exists2 rs, r_basis_mv a = Some rs & size rs = n /\
  forall k X, (k < n)%N -> vector a X -> exists2 d, mv_dot a (nth (mv_const a 0) rs k) X = Some d & mv_scalar d = f * xcoef X k.
Proof.
have u' : gmat a \in unitmx by rewrite unitmxE.
have [rs E [sz h]] := r_basis_unit two wf u'; exists [seq mk_mv a r | r <- rs]; first by rewrite /r_basis_mv E.
rewrite size_map sz; split=> // k X lk vX; have [oX bX _ hX] := vectorP two vX.
rewrite (nth_map [::]) ?sz //; have [/= br hr dr] := h (Ordinal lk); set r := nth _ _ _ in br hr dr * .
have yr : yields true (Some (mk_mv a r)) (value two a r) by exact: yields_blade.
have yX : yields true (Some X) (mvv X) by exists X.
have [d Ed [od vd bd]] := yields_dot wf hr hX yr yX; exists d => //.
rewrite (mv_scalarP two od (bd isT)) vd /scal ffunE /= ffunE /= gform_sym (@gform_expand R two a).
rewrite eqxx mulr1 (bigD1 (Ordinal lk)) //= dr eqxx mul1r big1 ?addr0 => [|l lk'].
  by rewrite mulrC -(xcoefE (Ordinal lk) vX).
by rewrite dr (negbTE lk') mul0r mulr0.
Qed.
Lemma omapM_iota (B : Type) (F : nat -> option B) (h : nat -> B) m : (forall k, (k < m)%N -> F k = Some (h k)) ->
  omapM F (iota 0 m) = Some [seq h k | k <- iota 0 m].
Proof. by move=> H; apply: Ga_Proof_Rep.omapM_some => k; rewrite mem_iota => /H. Qed.
Lemma dot_argP : exists2 rs, r_basis_mv a = Some rs & size rs = n /\
  forall k x, (k < n)%N -> good_arg x -> dot_arg a (nth (mv_const a 0) rs k) x = Some (arg_poly x k).
Proof.
have [rs E [sz h]] := recip_dot; exists rs => //; split=> // k [X|j] lk /= gx.
  by have [d -> /= ->] := h k X lk gx.
rewrite (@omapM_iota _ _ (fun l => f * xcoef (mv_basis_vec R l) k)) => [/=|l ll].
  have -> (g : nat -> R) : zip [seq g l | l <- iota 0 n] (iota 0 n) = [seq (g l, l) | l <- iota 0 n].
    by rewrite -{2}[iota 0 n]map_id zip_map.
  by rewrite -map_comp.
by have [d -> /= ->] := h k _ lk (basis_vector ll).
Qed.
Definition arg_dict (args : seq (marg R)) : seq (slotsym * poly) :=
  flatten [seq [seq ((i, k), arg_poly (nth (Slot R 0) args i) k) | k <- iota 0 n] | i <- iota 0 (size args)].
Lemma zip_nth (A B : Type) (x0 : A) (s : seq A) (t : nat -> B) m : (size s <= m)%N ->
  zip s [seq t i | i <- iota 0 m] = [seq (nth x0 s i, t i) | i <- iota 0 (size s)].
Proof.
rewrite -[in LHS](addn0 m) -[0%N in LHS]/0%N; move: m.
suff H j m : (size s <= m)%N -> zip s [seq t i | i <- iota j m] = [seq (nth x0 s (i - j), t i) | i <- iota j (size s)].
  move=> m le; rewrite H ?addn0 //; apply: eq_map => i; by rewrite subn0.
elim: s j m => [|x s IH] j [|m] //= le; rewrite subnn IH //=; congr (_ :: _).
apply/eq_in_map => i; rewrite mem_iota => /andP[ji _]; by rewrite -[(i - j)%N]prednK ?subn_gt0 //= subnS.
Qed.
Lemma mlt_callP slots T args : (size args <= slots)%N -> (0 < size args)%N -> all good_arg args ->
  mlt_call a slots T args = Some (pol_subs (arg_dict args) (ml_value T)).
Proof.
move=> le pos ga; have [rs E [sz h]] := dot_argP.
have gi i : (i < size args)%N -> good_arg (nth (Slot R 0) args i) by move=> li; apply: (all_nthP _ ga).
have -> : mlt_call a slots T args = (LET rs := r_basis_mv a IN
  LET ds := omapM (fun xi : marg R * nat =>
      omapM (fun rv : mv R * slotsym => LET p := dot_arg a rv.1 xi.1 IN Some (rv.2, p)) (zip rs (slot_coefs a xi.2)))
    (zip args (iota 0 slots)) IN
  Some (pol_subs (flatten ds) (ml_value T))) by case: (args) pos.
rewrite E /= -[iota 0 slots]map_id (zip_nth (Slot R 0)) // omapM_comp.
rewrite (@omapM_iota _ _ (fun i => [seq ((i, k), arg_poly (nth (Slot R 0) args i) k) | k <- iota 0 n])) //= => i li.
rewrite /slot_coefs (zip_nth (mv_const a 0)) ?sz // omapM_comp.
by apply: omapM_iota => k lk /=; rewrite h //; exact: gi.
Qed.
Definition arg_val (env : slotsym -> R) x k : R := match x with Vec X => xcoef X k | Slot j => env (j, k) end.
Lemma xcoef_basis l k : (k < n)%N -> (l < n)%N -> xcoef (mv_basis_vec R l) k = (k == l)%:R.
Proof.
move=> lk ll; rewrite (xcoefE (Ordinal lk) (basis_vector ll)) (evec_val two (Ordinal ll)) bl_coef.
by rewrite (inj_eq set1_inj).
Qed.
Lemma arg_polyE env x k : (k < n)%N -> pev env (arg_poly x k) = f * arg_val env x k.
Proof.
case: x => [X|j] lk /=; first exact: pev_const.
rewrite /pev big_map (bigD1_seq k) ?mem_iota ?iota_uniq //= xcoef_basis // eqxx mulr1 big_seq1.
rewrite big_seq_cond big1 ?addr0 // => l /andP[]; rewrite mem_iota => /andP[_ ll] nk.
by rewrite xcoef_basis // eq_sym (negbTE nk) mulr0 mul0r.
Qed.
Lemma arg_dictE args i k : dget (arg_dict args) (i, k) =
  if (i < size args)%N && (k < n)%N then Some (arg_poly (nth (Slot R 0) args i) k) else None.
Proof. by rewrite dget_grid !mem_iota. Qed.

(* what a tensor of rank k gives on k arguments *)
Lemma tensor_pev T args env : tensor a T -> size args = ml_nargs T ->
  pev env (pol_subs (arg_dict args) (ml_value T)) =
  f ^+ ml_nargs T * pev (fun v => arg_val env (nth (Slot R 0) args v.1) v.2) (ml_value T).
Proof.
move=> /allP tT sz; rewrite pev_subs /pev mulr_sumr !big_seq; apply: eq_bigr => t /tT /andP[pe /allP al].
rewrite mulrCA; congr (_ * _).
rewrite -(size_iota 0 (ml_nargs T)) -(perm_size pe) size_map.
have -> : f ^+ size t.2 = \prod_(v <- t.2) f by rewrite big_const_seq count_predT iter_mulr_1.
rewrite -big_split /=.
rewrite !big_seq; apply: eq_bigr => -[i k] vt; rewrite /env_subs arg_dictE.
have li : (i < size args)%N.
  have : i \in [seq v.1 | v <- t.2] by apply/mapP; exists (i, k).
  by rewrite (perm_mem pe) mem_iota sz.
by rewrite li (al _ vt) /= arg_polyE ?(al _ vt).
Qed.
Lemma value_atP slots T Xs : tensor a T -> size Xs = ml_nargs T -> (ml_nargs T <= slots)%N -> all (vector a) Xs ->
  value_at a slots T Xs = Some (f ^+ ml_nargs T *
    \sum_(t <- ml_value T) t.1 * \prod_(v <- t.2) xcoef (nth (mv_const a 0) Xs v.1) v.2).
Proof.
move=> tT sz le vX; pose args := [seq Vec X | X <- Xs].
have sa : size args = ml_nargs T by rewrite size_map.
have na i : (i < ml_nargs T)%N -> nth (Slot R 0) args i = Vec (nth (mv_const a 0) Xs i).
  by move=> li; rewrite (nth_map (mv_const a 0)) ?sz.
have vE : pev (fun v => arg_val (fun=> 0) (nth (Slot R 0) args v.1) v.2) (ml_value T) =
    \sum_(t <- ml_value T) t.1 * \prod_(v <- t.2) xcoef (nth (mv_const a 0) Xs v.1) v.2.
  rewrite /pev !big_seq; apply: eq_bigr => t /(allP tT) /andP[pe al]; congr (_ * _).
  rewrite !big_seq; apply: eq_bigr => -[i k] vt /=.
  have : i \in [seq v.1 | v <- t.2] by apply/mapP; exists (i, k).
  by rewrite (perm_mem pe) mem_iota => /andP[_ /na ->].
rewrite /value_at -/args; case: (posnP (ml_nargs T)) => [n0|pos].
  have -> : args = [::] by apply/nilP; rewrite /nilp sa n0.
  rewrite /mlt_call /= (@numeric_pev _ (fun v => arg_val (fun=> 0) (nth (Slot R 0) args v.1) v.2)).
    by rewrite vE n0 expr0 mul1r.
  by apply: sub_all tT => t /andP[/perm_size]; rewrite size_map n0 /= => /eqP.
rewrite mlt_callP ?sa //; last by rewrite all_map.
rewrite -[LHS]/(pol_number (pol_subs (arg_dict args) (ml_value T))) (@numeric_pev _ (fun=> 0)) ?tensor_pev ?vE //.
apply: numeric_subs; apply: sub_all tT => t /andP[pe al]; apply/allP => -[i k] vt; rewrite arg_dictE.
have : i \in [seq v.1 | v <- t.2] by apply/mapP; exists (i, k).
rewrite (perm_mem pe) mem_iota => /andP[_ li]; rewrite sa [(_ < _)%N]li (allP al _ vt) /=.
by rewrite na.
Qed.

(* ---- components ---- *)
Lemma term_match k (l : seq slotsym) (I : seq nat) : perm_eq [seq v.1 | v <- l] (iota 0 k) -> size I = k ->
  perm_eq l (zip (iota 0 k) I) = all (fun v => v.2 == nth 0%N I v.1) l.
Proof.
move=> pe sI; have ul : uniq l by apply: (@map_uniq _ _ fst); rewrite (perm_uniq pe) iota_uniq.
have mz v : v \in zip (iota 0 k) I -> (v.1 < k)%N /\ v.2 = nth 0%N I v.1.
  move/(nthP (0, 0)%N) => [i]; rewrite size_zip size_iota sI minnn => li <-.
  by rewrite nth_zip ?size_iota // nth_iota.
apply/idP/idP => [p|al].
  by apply/allP => v; rewrite (perm_mem p) => /mz [_ ->].
have uz : uniq (zip (iota 0 k) I).
  by apply: (@map_uniq _ _ fst); rewrite -/(unzip1 _) unzip1_zip ?size_iota ?sI // iota_uniq.
apply: uniq_perm => // v; apply/idP/idP => [vl|].
  have : v.1 \in [seq v.1 | v <- l] by apply/mapP; exists v.
  rewrite (perm_mem pe) mem_iota => /andP[_ lv]; move/allP: al => /(_ _ vl)/eqP e.
  rewrite [v]surjective_pairing e; apply/(nthP (0, 0)%N); exists v.1; first by rewrite size_zip size_iota sI minnn.
  by rewrite nth_zip ?size_iota // nth_iota.
case/mz=> lv e; have : v.1 \in iota 0 k by rewrite mem_iota.
rewrite -(perm_mem pe) => /mapP [w wl ew]; move/allP: al => /(_ _ wl)/eqP e'.
suff -> : v = w by []. by rewrite [v]surjective_pairing [w]surjective_pairing e e' ew.
Qed.
Lemma prod_delta (l : seq slotsym) (P : pred slotsym) : \prod_(v <- l) (P v)%:R = (all P l)%:R :> R.
Proof. by elim: l => [|v l IH]; rewrite ?big_nil // big_cons IH /=; case: (P v); rewrite ?mul1r ?mul0r. Qed.
(* T(e_i, e_j, ...) is the component, up to the factor of the reciprocal basis *)
Theorem C33_components_scaled slots T (I : seq nat) : tensor a T -> size I = ml_nargs T -> (ml_nargs T <= slots)%N ->
  all (fun i => i < n)%N I ->
  value_at a slots T [seq mv_basis_vec R i | i <- I] = Some (f ^+ ml_nargs T * component T I).
Proof.
move=> tT sI le aI; rewrite value_atP ?size_map //; last first.
  by rewrite all_map; apply: sub_all aI => i /basis_vector.
congr (Some (_ * _)); rewrite /component [RHS]big_mkcond !big_seq; apply: eq_bigr => t /(allP tT) /andP[pe al].
rewrite (term_match pe sI) -mulrb -[X in _ = _ *+ X]/(nat_of_bool _) -mulr_natr -prod_delta; congr (_ * _).
rewrite !big_seq; apply: eq_bigr => -[i k] vt /=.
have : i \in [seq v.1 | v <- t.2] by apply/mapP; exists (i, k).
rewrite (perm_mem pe) mem_iota => /andP[_ li]; rewrite (nth_map 0%N) ?sI // xcoef_basis //; first exact: (allP al _ vt).
by apply: (allP aI); rewrite mem_nth ?sI.
Qed.
(* T(x_1, ..., x_k) in terms of components *)
Theorem C33_value slots T Xs : tensor a T -> size Xs = ml_nargs T -> (ml_nargs T <= slots)%N -> all (vector a) Xs ->
  value_at a slots T Xs = Some (f ^+ ml_nargs T * \sum_(I : (ml_nargs T).-tuple 'I_n)
    component T [seq val i | i <- I] * \prod_(j < ml_nargs T) xcoef (nth (mv_const a 0) Xs j) (tnth I j)).
Proof.
move=> tT sz le vX; rewrite value_atP //; congr (Some (_ * _)).
set k := ml_nargs T in tT sz le *; set x := xcoef.
rewrite (eq_bigr (fun I : k.-tuple 'I_n => \sum_(t <- ml_value T) (if perm_eq t.2 (zip (iota 0 k) (map val I)) then
   t.1 * \prod_(v <- t.2) x (nth (mv_const a 0) Xs v.1) v.2 else 0))) => [|I _]; last first.
  rewrite /component big_mkcond mulr_suml; apply: eq_bigr => t _; case: ifP => [pe|_]; last by rewrite mul0r.
  congr (_ * _); rewrite (perm_big _ pe) /= -/k.
  have zE : zip (iota 0 k) (map val I) = [seq (val j, val (tnth I j)) | j <- enum 'I_k].
    apply: (@eq_from_nth _ (0, 0)%N) => [|j]; first by rewrite size_zip size_iota !size_map ?size_enum_ord ?size_tuple -?enumT ?size_enum_ord minnn.
    rewrite size_zip size_iota size_map size_tuple minnn => lj.
    rewrite nth_zip ?size_iota ?size_map ?size_tuple // nth_iota // (nth_map (Ordinal lj)) ?size_enum_ord //.
    have eo : nth (Ordinal lj) (enum 'I_k) j = Ordinal lj by apply: val_inj; rewrite /= nth_enum_ord.
    rewrite eo (nth_map (tnth I (Ordinal lj))) ?size_tuple //.
    by rewrite -(tnth_nth (tnth I (Ordinal lj)) I (Ordinal lj)).
  by rewrite zE big_map big_enum.
rewrite exchange_big /=; apply/esym; rewrite !big_seq; apply: eq_bigr => t /(allP tT) /andP[pe al].
have k0 : (0 < k)%N -> (0 < n)%N.
  move=> kp; have : 0%N \in iota 0 k by rewrite mem_iota.
  by rewrite -(perm_mem pe) => /mapP [v /(allP al) lv _]; exact: leq_ltn_trans lv.
pose s j := nth (0, 0)%N t.2 (index j [seq v.1 | v <- t.2]).
have sj j : (j < k)%N -> s j \in t.2 /\ (s j).1 = j.
  move=> lj; have : j \in [seq v.1 | v <- t.2] by rewrite (perm_mem pe) mem_iota.
  move=> jm; have ii : (index j [seq v.1 | v <- t.2] < size t.2)%N by rewrite -(size_map fst) index_mem.
  split; first by rewrite mem_nth.
  by rewrite /s -(nth_map (0, 0)%N 0%N) // nth_index.
have ln j : (j < k)%N -> ((s j).2 < n)%N by move=> /sj [/(allP al)].
pose I0 : k.-tuple 'I_n := [tuple Ordinal (ln j (ltn_ord j)) | j < k].
have mt (I : k.-tuple 'I_n) : perm_eq t.2 (zip (iota 0 k) (map val I)) = (I == I0).
  rewrite term_match // ?size_map ?size_tuple //; apply/idP/eqP => [/allP h|->].
    apply: eq_from_tnth => j; apply: val_inj; rewrite tnth_mktuple /=.
    have [m1 m2] := sj j (ltn_ord j); have /eqP := h _ m1; rewrite m2 => ->.
    by rewrite (nth_map (tnth I j)) ?size_tuple // -tnth_nth.
  apply/allP => v vt; have : v.1 \in [seq v.1 | v <- t.2] by apply/mapP; exists v.
  rewrite (perm_mem pe) mem_iota => /andP[_ lv].
  rewrite (nth_map (Ordinal (ln _ lv))) ?size_tuple // -(tnth_nth _ _ (Ordinal lv)) tnth_mktuple /=.
  have [m1 m2] := sj _ lv.
  have ut : uniq [seq v.1 | v <- t.2] by rewrite (perm_uniq pe) iota_uniq.
  suff -> : s v.1 = v by [].
  have /(nthP (0, 0)%N) [q lq e] := vt; rewrite /s -{1}e.
  have -> : (nth (0, 0)%N t.2 q).1 = nth 0%N [seq v.1 | v <- t.2] q by rewrite (nth_map (0, 0)%N).
  by rewrite index_uniq ?size_map // e.
rewrite (eq_bigr (fun I => if I == I0 then t.1 * \prod_(v <- t.2) x (nth (mv_const a 0) Xs v.1) v.2 else 0)).
  by rewrite -big_mkcond big_pred1_eq.
by move=> I _; rewrite -mt.
Qed.

(* ---- multilinearity, in every non-degenerate metric ---- *)
Lemma xcoef_lin c d X Y Z k : vector a X -> vector a Y -> vector a Z -> (k < n)%N ->
  run a (c ##. X +. d ##. Y) = Some Z -> xcoef Z k = c * xcoef X k + d * xcoef Y k.
Proof.
move=> vX vY vZ lk E; rewrite !(xcoefE (Ordinal lk)) //.
have [_ [<-] [_ -> _]] : yields true (Some Z) (c *: mvv X + d *: mvv Y).
  by rewrite -E; apply: yields_lin => //; apply: plain_yields; exact: vector_plain.
by rewrite !ffunE.
Qed.
Lemma linear_vector c d X Y : vector a X -> vector a Y -> exists2 Z, run a (c ##. X +. d ##. Y) = Some Z & vector a Z.
Proof.
move=> vX vY; have [Z E [pZ vZ]] := yields_plain (yields_lin wf c d (plain_yields two (vector_plain vX)) (plain_yields two (vector_plain vY))).
exists Z => //; rewrite /vector pZ /=; have [oZ bZ] := plainP pZ.
have [_ _ _ hX] := vectorP two vX; have [_ _ _ hY] := vectorP two vY.
have hZ : homog 1 (mvv Z : mval R n) by rewrite vZ; apply: homogD; apply: homogZ.
exact: (vec_object oZ bZ hZ).
Qed.
Theorem C33_multilinear slots T pre X Y post c d : tensor a T -> (size pre + (size post).+1)%N = ml_nargs T ->
  (ml_nargs T <= slots)%N -> all (vector a) pre -> all (vector a) post -> vector a X -> vector a Y ->
  exists Z v w, [/\ run a (c ##. X +. d ##. Y) = Some Z,
    value_at a slots T (pre ++ X :: post) = Some v, value_at a slots T (pre ++ Y :: post) = Some w &
    value_at a slots T (pre ++ Z :: post) = Some (c * v + d * w)].
Proof.
move=> tT sz le vpre vpost vX vY; have [Z EZ vZ] := linear_vector c d vX vY.
have vA W : vector a W -> all (vector a) (pre ++ W :: post) by move=> vW; rewrite all_cat /= vpre vW.
have sA W : size (pre ++ W :: post) = ml_nargs T by rewrite size_cat.
exists Z; eexists; eexists; rewrite !value_atP ?vA ?sA //; split=> //; congr Some.
rewrite [c * _]mulrCA [d * _]mulrCA -mulrDr; congr (_ * _); rewrite !mulr_sumr -big_split /=.
rewrite !big_seq; apply: eq_bigr => t /(allP tT) /andP[pe al].
have : size pre \in [seq v.1 | v <- t.2] by rewrite (perm_mem pe) mem_iota add0n -sz addnS ltnS leq_addr.
case/mapP=> v0 v0t e0; rewrite !(big_rem v0 v0t) /= -!e0.
have nthZ W : nth (mv_const a 0) (pre ++ W :: post) (size pre) = W by rewrite nth_cat ltnn subnn.
have ut : uniq [seq v.1 | v <- t.2] by rewrite (perm_uniq pe) iota_uniq.
have rest W : \prod_(v <- rem v0 t.2) xcoef (nth (mv_const a 0) (pre ++ W :: post) v.1) v.2 =
    \prod_(v <- rem v0 t.2) xcoef (nth (mv_const a 0) (pre ++ X :: post) v.1) v.2.
  rewrite !big_seq; apply: eq_bigr => v vr.
  have ne : v.1 != size pre.
    rewrite e0; have := perm_map fst (perm_to_rem v0t) => /perm_uniq; rewrite ut /= => /esym /andP[nm _].
    by apply: contra nm => /eqP <-; apply/mapP; exists v.
  rewrite !nth_cat; case: ltnP => // le'.
  have -> : (v.1 - size pre)%N = (v.1 - size pre).-1.+1 by rewrite prednK // subn_gt0 ltn_neqAle eq_sym ne le'.
  by [].
rewrite (rest Y) (rest Z) !nthZ (xcoef_lin vX vY vZ (allP al _ v0t) EZ).
set P := \prod_(v <- _) _; rewrite mulrDl mulrDr; congr (_ + _); by rewrite !mulrA [t.1 * _]mulrC.
Qed.

(* ---- sums, differences and multiples are taken pointwise ---- *)
Lemma value_pev slots T Xs : tensor a T -> size Xs = ml_nargs T -> (ml_nargs T <= slots)%N -> all (vector a) Xs ->
  value_at a slots T Xs = Some (f ^+ ml_nargs T * pev (fun v => xcoef (nth (mv_const a 0) Xs v.1) v.2) (ml_value T)).
Proof. exact: value_atP. Qed.
Theorem C33_add slots T1 T2 : tensor a T1 -> tensor a T2 -> (ml_nargs T1 <= slots)%N ->
  if ml_nargs T1 == ml_nargs T2 then
    exists2 T, mlt_add T1 T2 = Some T & [/\ tensor a T, ml_nargs T = ml_nargs T1 &
      forall Xs, size Xs = ml_nargs T -> all (vector a) Xs ->
      exists v w, [/\ value_at a slots T1 Xs = Some v, value_at a slots T2 Xs = Some w & value_at a slots T Xs = Some (v + w)]]
  else mlt_add T1 T2 = None.
Proof.
rewrite /mlt_add => t1 t2 le; case: eqP => // e; eexists; first reflexivity.
have tT : tensor a (Mlt (ml_nargs T1) (ml_value T1 ++ ml_value T2)) by rewrite /tensor /= all_cat; apply/andP; split; [exact: t1|rewrite e; exact: t2].
split=> // Xs sz vX; eexists; eexists; rewrite !value_pev -?e //=; split=> //.
by rewrite pev_cat mulrDr.
Qed.
Lemma tensor_scale k c p : tensor a (Mlt k p) -> tensor a (Mlt k (pol_scale c p)).
Proof. by rewrite /tensor /= all_map. Qed.
Theorem C33_sub slots T1 T2 : tensor a T1 -> tensor a T2 -> (ml_nargs T1 <= slots)%N ->
  if ml_nargs T1 == ml_nargs T2 then
    exists2 T, mlt_sub T1 T2 = Some T & [/\ tensor a T, ml_nargs T = ml_nargs T1 &
      forall Xs, size Xs = ml_nargs T -> all (vector a) Xs ->
      exists v w, [/\ value_at a slots T1 Xs = Some v, value_at a slots T2 Xs = Some w & value_at a slots T Xs = Some (v - w)]]
  else mlt_sub T1 T2 = None.
Proof.
rewrite /mlt_sub => t1 t2 le; case: eqP => // e; eexists; first reflexivity.
have tT : tensor a (Mlt (ml_nargs T1) (ml_value T1 ++ pol_scale (-1) (ml_value T2))).
  rewrite /tensor /= all_cat; apply/andP; split; first exact: t1.
  by apply: (@tensor_scale (ml_nargs T1) (-1) (ml_value T2)); rewrite e; case: (T2) t2.
split=> // Xs sz vX; eexists; eexists; rewrite !value_pev -?e //=; split=> //.
by rewrite pev_cat pev_scale mulrDr mulN1r mulrN.
Qed.
Theorem C33_scale slots c T Xs : tensor a T -> size Xs = ml_nargs T -> (ml_nargs T <= slots)%N -> all (vector a) Xs ->
  [/\ tensor a (mlt_scale c T), ml_nargs (mlt_scale c T) = ml_nargs T &
   exists2 v, value_at a slots T Xs = Some v & value_at a slots (mlt_scale c T) Xs = Some (c * v)].
Proof.
move=> tT sz le vX; have tS : tensor a (mlt_scale c T) by apply: tensor_scale; case: (T) tT.
by split=> //; eexists; rewrite value_pev //= pev_scale mulrCA.
Qed.

(* ---- products: (T1 * T2)(x..., y...) = T1(x...) T2(y...) ---- *)
Definition slot_args m k : seq (marg R) := [seq Slot R i | i <- iota m k].
Lemma term_subs_slots m k (t : R * seq slotsym) : all (fun v => (v.1 < k)%N && (v.2 < n)%N) t.2 ->
  all (fun s => ([seq v.1 | v <- s.2] == [seq (m + v.1)%N | v <- t.2]) && all (fun v => (v.2 < n)%N) s.2)
      (term_subs (arg_dict (slot_args m k)) t).
Proof.
case: t => c l; rewrite /term_subs /=; elim: l => [|[i q] l IH] //= /andP[/andP[li lq] /IH {}IH].
rewrite arg_dictE size_map size_iota li lq /= (nth_map 0%N) ?size_iota // nth_iota //=.
rewrite /pol_mul all_flat !all_map; apply/allP => l' ; rewrite mem_iota => /andP[_ ll] /=.
rewrite all_map; apply: sub_all IH => s /= /andP[/eqP <- ->].
by rewrite eqxx ll.
Qed.
Lemma call_slots slots m T : tensor a T -> (ml_nargs T <= slots)%N ->
  exists2 p, mlt_call a slots T (slot_args m (ml_nargs T)) = Some p &
    all (fun s => perm_eq [seq v.1 | v <- s.2] (iota m (ml_nargs T)) && all (fun v => (v.2 < n)%N) s.2) p /\
    forall env, pev env p = f ^+ ml_nargs T * pev (fun v => env ((m + v.1)%N, v.2)) (ml_value T).
Proof.
move=> tT le; case: (posnP (ml_nargs T)) => [k0|pos].
  rewrite /slot_args k0 /=; eexists; first reflexivity; split=> [|env].
    apply: sub_all tT => t; rewrite k0 /= => /andP[pe ->]; by rewrite pe.
  rewrite expr0 mul1r /pev !big_seq; apply: eq_bigr => t /(allP tT) /andP[/perm_size]; rewrite size_map k0.
  by move=> /eqP/nilP -> _; rewrite !big_nil.
rewrite mlt_callP ?size_map ?size_iota //; last by rewrite all_map; apply/allP.
eexists; first reflexivity; split=> [|env].
  rewrite /pol_subs all_flat all_map; apply: sub_all tT => t /andP[pe al] /=.
  have bt : all (fun v => (v.1 < ml_nargs T)%N && (v.2 < n)%N) t.2.
    apply/allP => v vt; rewrite (allP al _ vt) andbT.
    have : v.1 \in [seq v.1 | v <- t.2] by apply/mapP; exists v.
    by rewrite (perm_mem pe) mem_iota.
  apply: sub_all (term_subs_slots m bt) => s /andP[/eqP -> ->]; rewrite andbT.
  have -> : [seq (m + v.1)%N | v <- t.2] = map (addn m) [seq v.1 | v <- t.2] by rewrite -map_comp.
  by rewrite -[m in iota m _]addn0 iotaDl; exact: perm_map.
rewrite tensor_pev ?size_map ?size_iota //; congr (_ * _).
rewrite /pev !big_seq; apply: eq_bigr => t /(allP tT) /andP[pe al]; congr (_ * _).
rewrite !big_seq; apply: eq_bigr => -[i q] vt /=.
have : i \in [seq v.1 | v <- t.2] by apply/mapP; exists (i, q).
rewrite (perm_mem pe) mem_iota => /andP[_ li].
by rewrite (nth_map 0%N) ?size_iota // nth_iota.
Qed.
Theorem C33_mul_scaled T1 T2 slots : tensor a T1 -> tensor a T2 ->
  exists2 T, (mlt_mul a T1 T2 slots).2 = Some T &
    [/\ tensor a T, ml_nargs T = (ml_nargs T1 + ml_nargs T2)%N, (ml_nargs T <= (mlt_mul a T1 T2 slots).1)%N &
    forall slots' Xs Ys, (ml_nargs T <= slots')%N -> size Xs = ml_nargs T1 -> size Ys = ml_nargs T2 ->
      all (vector a) Xs -> all (vector a) Ys ->
      exists v w, [/\ value_at a slots' T1 Xs = Some v, value_at a slots' T2 Ys = Some w &
        value_at a slots' T (Xs ++ Ys) = Some (f ^+ ml_nargs T * (v * w))]].
Proof.
move=> t1 t2; rewrite /mlt_mul; set N := (_ + _)%N; set sl := increment_slots N slots.
have leN : (N <= sl)%N by exact: leq_maxl.
have [p Ep [sp vp]] := call_slots 0 t1 (leq_trans (leq_addr _ _) leN : (ml_nargs T1 <= sl)%N).
have [q Eq [sq vq]] := call_slots (ml_nargs T1) t2 (leq_trans (leq_addl _ _) leN : (ml_nargs T2 <= sl)%N).
rewrite -[_.2]/(LET p := mlt_call a sl T1 (slot_args 0 (ml_nargs T1)) IN
  LET q := mlt_call a sl T2 (slot_args (ml_nargs T1) (ml_nargs T2)) IN Some (Mlt N (pol_mul p q))) Ep Eq.
eexists; first reflexivity.
have tT : tensor a (Mlt N (pol_mul p q)).
  rewrite /tensor /= /pol_mul all_flat all_map; apply: sub_all sp => s /andP[ps as_] /=.
  rewrite all_map; apply: sub_all sq => t /andP[pt at_] /=.
  by rewrite map_cat all_cat as_ at_ /= andbT /N iotaD add0n; apply: perm_cat.
split=> // sl' Xs Ys le sX sY vX vY.
have le1 : (ml_nargs T1 <= sl')%N by apply: leq_trans le; exact: leq_addr.
have le2 : (ml_nargs T2 <= sl')%N by apply: leq_trans le; exact: leq_addl.
eexists; eexists; rewrite !value_pev ?size_cat ?sX ?sY ?all_cat ?vX ?vY //; split=> //.
congr (Some (_ * _)); rewrite /= pev_mul vp vq; congr (_ * _ * (_ * _)).
  rewrite /pev !big_seq; apply: eq_bigr => t /(allP t1) /andP[pe al]; congr (_ * _).
  rewrite !big_seq; apply: eq_bigr => -[i k] vt /=.
  have : i \in [seq v.1 | v <- t.2] by apply/mapP; exists (i, k).
  by rewrite (perm_mem pe) mem_iota => /andP[_ li]; rewrite add0n nth_cat sX [(i < _)%N]li.
rewrite /pev !big_seq; apply: eq_bigr => t /(allP t2) /andP[pe al]; congr (_ * _).
rewrite !big_seq; apply: eq_bigr => -[i k] vt /=.
by rewrite nth_cat sX ltnNge leq_addr /= addKn.
Qed.

(* ---- tensors made from a vector, a linear transformation, a name ---- *)
Notation gf := (gform (ga_metric two a)).
Lemma scalar_dot X Y : vector a X -> vector a Y ->
  exists2 d, mv_dot a X Y = Some d & mv_scalar d = gf (mvv X) (mvv Y).
Proof.
move=> vX vY; have [_ _ _ hX] := vectorP two vX; have [_ _ _ hY] := vectorP two vY.
have [d E [od vd bd]] := yields_dot wf hX hY (plain_yields two (vector_plain vX)) (plain_yields two (vector_plain vY)).
exists d => //; by rewrite (mv_scalarP two od (bd isT)) vd /scal ffunE /= ffunE /= eqxx mulr1.
Qed.
Lemma gform_sumr (I : finType) (x : mval R n) (c : I -> R) (z : I -> mval R n) :
  gf x (\sum_k c k *: z k) = \sum_k c k * gf x (z k).
Proof.
transitivity (\sum_(i < n) \sum_(j < n) \sum_k c k * (x [set i] * (z k) [set j] * ga_metric two a i j)).
  apply: eq_bigr => i _; apply: eq_bigr => j _; rewrite sum_ffunE mulr_sumr mulr_suml; apply: eq_bigr => k _.
  by rewrite ffunE -!mulrA mulrCA.
rewrite (eq_bigr (fun i : 'I_n => \sum_k \sum_(j < n) c k * (x [set i] * (z k) [set j] * ga_metric two a i j))) => [|i _]; last exact: exchange_big.
rewrite exchange_big; apply: eq_bigr => k _; rewrite /gform mulr_sumr; apply: eq_bigr => i _; by rewrite mulr_sumr.
Qed.
Lemma vec_xcoef X : vector a X -> mvv X = \sum_(k < n) xcoef X k *: bl R [set k].
Proof.
move=> vX; have [_ _ _ hX] := vectorP two vX; rewrite {1}(vec_decomp hX); apply: eq_bigr => k _.
by rewrite xcoefE.
Qed.
Lemma iota_ord (F : nat -> R) : \sum_(k <- iota 0 n) F k = \sum_(k < n) F k.
Proof. by rewrite -[n in iota 0 n]subn0 -/(index_iota 0 n) big_mkord. Qed.
(* Mlt(v)(x) is v | x *)
Theorem C33_vector_scaled F slots : vector a F -> is_vector a F = Some true ->
  exists2 T, (mlt_of_vector a F slots).2 = Some T & [/\ tensor a T, ml_nargs T = 1%N &
    forall slots' X, (0 < slots')%N -> vector a X ->
      exists2 d, run a (F ||. X) = Some d & value_at a slots' T [:: X] = Some (f * mv_scalar d)].
Proof.
move=> vF iF; rewrite /mlt_of_vector /= iF /=.
rewrite (@omapM_iota _ _ (fun k => gf (mvv F) (mvv (mv_basis_vec R k)))) => [|k lk]; last first.
  by have [d -> /= ->] := scalar_dot vF (basis_vector lk).
eexists; first reflexivity.
have -> (g : nat -> R) : zip [seq g l | l <- iota 0 n] (iota 0 n) = [seq (g l, l) | l <- iota 0 n].
  by rewrite -{2}[iota 0 n]map_id zip_map.
set T := Mlt _ _; have tT : tensor a T.
  by rewrite /tensor /= !all_map; apply/allP => k; rewrite mem_iota => /andP[_ lk] /=; rewrite lk.
split=> // sl X lsl vX; have [d E dE] := scalar_dot vF vX; exists d => //.
rewrite value_pev //= ?vX // expr1 dE; congr (Some (_ * _)).
rewrite /pev -map_comp big_map iota_ord (vec_xcoef vX) gform_sumr; apply: eq_bigr => k _.
by rewrite /= big_seq1 /= (evec_val two k) mulrC.
Qed.
(* Mlt(L)(x, y) is x | L(y) *)
Theorem C33_lt_scaled L slots : transformation a L ->
  exists2 T, (mlt_of_lt a L slots).2 = Some T & [/\ tensor a T, ml_nargs T = 2%N &
    forall slots' X Y, (1 < slots')%N -> vector a X -> vector a Y ->
      exists2 d, (LET y := lt_call a L Y IN run a (X ||. y)) = Some d &
        value_at a slots' T [:: X; Y] = Some (f ^+ 2 * mv_scalar d)].
Proof.
move=> tL; pose LL := @om R n (@vimgs R two a L).
have callV Y : vector a Y -> exists2 Z, lt_call a L Y = Some Z & vector a Z /\ mvv Z = LL (mvv Y).
  move=> vY; have [Z E [pZ vZ]] := yields_plain (callP two wf tL (vector_plain vY)); exists Z => //; split=> //.
  rewrite /vector pZ /=; have [oZ bZ] := plainP pZ; have [_ _ _ hY] := vectorP two vY.
  apply: (@vec_object _ two a) => //; rewrite vZ; apply: (om_homog two) => // i; exact: vimg_homog.
rewrite /mlt_of_lt.
rewrite (@omapM_iota _ _ (fun k => [seq (gf (mvv (mv_basis_vec R j)) (LL (mvv (mv_basis_vec R k))), [:: (0, j); (1, k)]%N) | j <- iota 0 n])) => [|k lk]; last first.
  have [Z -> [vZ <-]] := callV _ (basis_vector lk); rewrite /=.
  rewrite (@omapM_iota _ _ (fun j => gf (mvv (mv_basis_vec R j)) (mvv Z))) => [|j lj]; last first.
    by have [d -> /= ->] := scalar_dot (basis_vector lj) vZ.
  rewrite /=; have -> (g : nat -> R) : zip [seq g l | l <- iota 0 n] (iota 0 n) = [seq (g l, l) | l <- iota 0 n].
    by rewrite -{2}[iota 0 n]map_id zip_map.
  by rewrite -map_comp.
eexists; first reflexivity; set T := Mlt _ _; have tT : tensor a T.
  rewrite /tensor /= all_flat !all_map; apply/allP => k; rewrite mem_iota => /andP[_ lk] /=.
  by rewrite all_map; apply/allP => j; rewrite mem_iota => /andP[_ lj] /=; rewrite [(j < n)%N]lj [(k < n)%N]lk.
split=> // sl X Y lsl vX vY; have [Z -> [vZ eZ]] := callV _ vY; rewrite /=.
have [d E dE] := scalar_dot vX vZ; exists d => //.
rewrite value_pev //= ?vX ?vY // dE; congr (Some (_ * _)).
rewrite /= pev_flatten big_map iota_ord eZ (vec_xcoef vY).
have -> : LL (\sum_(k < n) xcoef Y k *: bl R [set k]) = \sum_(k < n) xcoef Y k *: LL (bl R [set k]).
  by rewrite /LL linear_sum; apply: eq_bigr => k _; rewrite linearZ.
rewrite gform_sumr; apply: eq_bigr => k _.
rewrite gform_sym (vec_xcoef vX) gform_sumr mulr_sumr /pev big_map iota_ord; apply: eq_bigr => j _.
rewrite /= big_cons big_seq1 /= !(evec_val two) gform_sym mulrC -mulrA [xcoef Y k * _ in RHS]mulrCA; congr (_ * _).
Qed.
(* a name: the component with indices I is the symbol for I, if no tensor of higher rank was made before *)
Lemma cart_mem k I : (I \in cartesian (nseq k (iota 0 n))) = (size I == k) && all (fun i => i < n)%N I.
Proof.
elim: k I => [|k IH] I /=; first by rewrite inE; case: I.
apply/allpairsP/idP => [[[x l] /= [xm lm ->]]|].
  by move: lm xm; rewrite IH mem_iota /= eqSS => /andP[-> ->] ->.
case: I => // x l /andP[sl /= /andP[lx al]]; exists (x, l); split=> //=; first by rewrite mem_iota.
by rewrite IH al andbT.
Qed.
Lemma cart_uniq k : uniq (cartesian (nseq k (iota 0 n))).
Proof.
elim: k => [|k IH] //=; apply: allpairs_uniq => //; first exact: iota_uniq.
by move=> [x l] [y l'] _ _ /= [-> ->].
Qed.
Lemma cart_slots m k : cartesian [seq slot_coefs a i | i <- iota m k] =
  [seq zip (iota m k) I | I <- cartesian (nseq k (iota 0 n))].
Proof.
elim: k m => [|k IH] m //=; rewrite IH /slot_coefs -map_comp map_flatten -map_comp; congr flatten.
by apply: eq_map => x /=; rewrite -!map_comp.
Qed.
Theorem C33_name_scaled (coef : seq nat -> R) nargs slots : (slots <= nargs)%N ->
  exists2 T, (mlt_of_name a coef nargs slots).2 = Some T & [/\ tensor a T, ml_nargs T = nargs &
    forall I, size I = nargs -> all (fun i => i < n)%N I -> component T I = coef I /\
      forall slots', (nargs <= slots')%N ->
        value_at a slots' T [seq mv_basis_vec R i | i <- I] = Some (f ^+ nargs * coef I)].
Proof.
move=> le; rewrite /mlt_of_name /=; eexists; first reflexivity.
have -> : increment_slots nargs slots = nargs by apply/maxn_idPl.
rewrite cart_slots; set ct := cartesian _.
have -> : zip ct [seq zip (iota 0 nargs) I | I <- ct] = [seq (I, zip (iota 0 nargs) I) | I <- ct].
  by rewrite -{1}[ct]map_id zip_map.
rewrite -map_comp; set T := Mlt _ _; have tT : tensor a T.
  rewrite /tensor /= all_map; apply/allP => I; rewrite cart_mem => /andP[/eqP sI aI] /=.
  rewrite -/(unzip1 _) unzip1_zip ?size_iota ?sI // perm_refl /=.
  apply/allP => v /(map_f snd); rewrite -/(unzip2 _) unzip2_zip ?size_iota ?sI //; exact: (allP aI).
split=> // I sI aI; have cE : component T I = coef I.
  rewrite /component /T /= big_map /=.
  rewrite big_seq_cond (eq_bigl (fun J => (J \in ct) && (J == I))) => [|J]; last first.
    case Jc: (J \in ct) => //=; move: Jc; rewrite cart_mem => /andP[/eqP sJ aJ].
    apply/idP/eqP => [pe|-> //]; apply: (@eq_from_nth _ 0%N) => [|j]; rewrite ?sJ // => lj.
    have uz : perm_eq [seq v.1 | v <- zip (iota 0 nargs) J] (iota 0 nargs) by rewrite -/(unzip1 _) unzip1_zip ?size_iota ?sJ.
    move: pe; rewrite (term_match uz sI) => /allP/(_ (j, nth 0%N J j)) h; apply/eqP/h; apply/(nthP (0, 0)%N); exists j; first by rewrite size_zip size_iota sJ minnn.
    by rewrite nth_zip ?size_iota ?sJ // nth_iota.
  rewrite -big_seq_cond.
  have Ic : I \in ct by rewrite cart_mem sI eqxx.
  by rewrite -big_filter (filter_pred1_uniq (cart_uniq _) Ic) big_seq1.
split=> // sl lsl; by rewrite C33_components_scaled //= cE.
Qed.

(* ---- the same for orthogonal metrics, without the factor.  Missing: oblique metrics, where the
   factor f = e_sq of the reciprocal basis appears (C33_oblique_refuted) ---- *)
Hypothesis ort : is_ortho a.
Let f1 : f = 1. Proof. by rewrite /r_factor ort. Qed.
Theorem C33_components_partial slots T (I : seq nat) : tensor a T -> size I = ml_nargs T -> (ml_nargs T <= slots)%N ->
  all (fun i => i < n)%N I ->
  value_at a slots T [seq mv_basis_vec R i | i <- I] = Some (component T I).
Proof. by move=> tT sI le aI; rewrite C33_components_scaled // f1 expr1n mul1r. Qed.
Theorem C33_mul_partial T1 T2 slots : tensor a T1 -> tensor a T2 ->
  exists2 T, (mlt_mul a T1 T2 slots).2 = Some T &
    [/\ tensor a T, ml_nargs T = (ml_nargs T1 + ml_nargs T2)%N, (ml_nargs T <= (mlt_mul a T1 T2 slots).1)%N &
    forall slots' Xs Ys, (ml_nargs T <= slots')%N -> size Xs = ml_nargs T1 -> size Ys = ml_nargs T2 ->
      all (vector a) Xs -> all (vector a) Ys ->
      exists v w, [/\ value_at a slots' T1 Xs = Some v, value_at a slots' T2 Ys = Some w &
        value_at a slots' T (Xs ++ Ys) = Some (v * w)]].
Proof.
move=> t1 t2; have [T E [h1 h2 h3 h4]] := C33_mul_scaled slots t1 t2; exists T => //; split=> // sl Xs Ys l sX sY vX vY.
have [v [w [e1 e2 e3]]] := h4 sl Xs Ys l sX sY vX vY; exists v, w; split=> //.
by rewrite e3 f1 expr1n mul1r.
Qed.
Theorem C33_vector_partial F slots : vector a F -> is_vector a F = Some true ->
  exists2 T, (mlt_of_vector a F slots).2 = Some T & [/\ tensor a T, ml_nargs T = 1%N &
    forall slots' X, (0 < slots')%N -> vector a X ->
      exists2 d, run a (F ||. X) = Some d & value_at a slots' T [:: X] = Some (mv_scalar d)].
Proof.
move=> vF iF; have [T E [h1 h2 h3]] := C33_vector_scaled slots vF iF; exists T => //; split=> // sl X l vX.
by have [d e1 e2] := h3 sl X l vX; exists d; rewrite // e2 f1 mul1r.
Qed.
Theorem C33_lt_partial L slots : transformation a L ->
  exists2 T, (mlt_of_lt a L slots).2 = Some T & [/\ tensor a T, ml_nargs T = 2%N &
    forall slots' X Y, (1 < slots')%N -> vector a X -> vector a Y ->
      exists2 d, (LET y := lt_call a L Y IN run a (X ||. y)) = Some d &
        value_at a slots' T [:: X; Y] = Some (mv_scalar d)].
Proof.
move=> tL; have [T E [h1 h2 h3]] := C33_lt_scaled slots tL; exists T => //; split=> // sl X Y l vX vY.
by have [d e1 e2] := h3 sl X Y l vX vY; exists d; rewrite // e2 f1 expr1n mul1r.
Qed.
Theorem C33_name_partial (coef : seq nat -> R) nargs slots : (slots <= nargs)%N ->
  exists2 T, (mlt_of_name a coef nargs slots).2 = Some T & [/\ tensor a T, ml_nargs T = nargs &
    forall I slots', size I = nargs -> all (fun i => i < n)%N I -> (nargs <= slots')%N ->
        value_at a slots' T [seq mv_basis_vec R i | i <- I] = Some (coef I)].
Proof.
move=> le; have [T E [h1 h2 h3]] := C33_name_scaled coef le; exists T => //; split=> // I sl sI aI l.
by have [_ ->] := h3 I sI aI; rewrite // f1 expr1n mul1r.
Qed.
End C33.

(* ---- the bookkeeping of the slot vectors: after a tensor has been made there are as many as before,
   or as many as the tensor needs, whichever is more ---- *)
Section Slots.
Variables (R : comUnitRingType) (a : ga R).
Theorem C33_slots (slots : nat) (r : nat * option (mlt R)) T :
  [\/ exists F, r = mlt_of_vector a F slots, exists L, r = mlt_of_lt a L slots,
      exists coef nargs, r = mlt_of_name a coef nargs slots | exists T1 T2, r = mlt_mul a T1 T2 slots] \/
  (exists p nargs, r = mlt_of_expr p nargs slots) ->
  r.2 = Some T -> r.1 = maxn slots (ml_nargs T).
Proof.
case=> [[[F ->]|[L ->]|[coef [k ->]]|[T1 [T2 ->]]]|[p [k ->]]] /=; rewrite maxnC /increment_slots.
- by case: is_vector => // -[] //=; case: omapM => //= cs [<-].
- by case: omapM => //= rows [<-].
- by case=> <-.
- by case: mlt_call => //= q; case: mlt_call => //= q' [<-].
- by case=> <-.
Qed.
(* taking away slot vector number slot (counted from 1): the symbols of the later slot vectors move down
   by one, the others stay *)
Lemma foldl_map_each (V I : Type) (g : I -> V -> V) (s : seq I) : forall l,
  foldl (fun l i => [seq g i v | v <- l]) l s = [seq foldl (fun v i => g i v) v s | v <- l].
Proof. by elim: s => [|i s IH] l /=; rewrite ?map_id // IH -map_comp. Qed.
Theorem C33_remove_slot (slot nargs : nat) (l : seq slotsym) : (0 < slot <= nargs)%N ->
  all (fun v => (v.1 < nargs)%N && (v.1 != slot.-1)) l ->
  remove_slot slot nargs l = [seq (if (slot <= v.1)%N then v.1.-1 else v.1, v.2) | v <- l].
Proof.
case/andP=> s0 le al; rewrite /remove_slot.
have one k : forall s (v : slotsym), (0 < s)%N -> foldl (fun v i => if v.1 == i then (i.-1, v.2) else v) v (iota s k) =
    (if (s <= v.1 < s + k)%N then v.1.-1 else v.1, v.2).
  elim: k => [|k IH] s [x y] p /=; first by rewrite addn0 leqNgt andNb.
  rewrite IH //; case: eqP => [->|/eqP ne] /=.
    rewrite leqnn /= addnS ltnS leq_addr prednK //.
    by rewrite (ltnNge s s.-1) leq_pred.
  by rewrite addSnnS ltn_neqAle eq_sym ne.
case: eqP => [e|/eqP ne]; last rewrite foldl_map_each.
  by rewrite -[LHS]map_id; apply/eq_in_map => -[x y] /(allP al)/andP[/= lx _]; rewrite e leqNgt lx.
by apply/eq_in_map => -[x y] /(allP al)/andP[/= lx _]; rewrite one //= subnKC // lx andbT.
Qed.
End Slots.
Example C33_remove_ex : remove_slot 2 4 [:: (0, 5); (3, 1); (2, 0)]%N = [:: (0, 5); (2, 1); (1, 0)]%N.
Proof. by rewrite C33_remove_slot. Qed.
Print Assumptions C33_slots.
Print Assumptions C33_remove_slot.

(* ---- contraction: contract() differentiates by the coordinates of the algebra, not by the slot
   vectors, so that it returns 0 for every tensor with constant coefficients ---- *)
Section Contract.
Variables (R : comUnitRingType) (two : (2%:R : R) \is a GRing.unit).
Variables (me : metric_env R) (coords : nat) (garg : garg R) (norm : bool) (m : metric R) (gsym : option R) (dga : diff_ga R).
Notation D := (me_diff me).
Notation n := (m_n m).
Notation a := (metric_ga m).
Notation G := (mx n n (m_graw m)).
Hypothesis par : partials D.
Hypotheses (mk : make_metric me n (Some coords) garg norm = Some m) (lec : (n <= coords)%N).
Hypotheses (sh : shape n n (m_graw m)) (sy : symmetric_mx G).
Hypothesis rooted : norm -> forall i : 'I_n, let x := G i i in me_root me x ^+ 2 = x \/ me_root me x ^+ 2 = - x.
Hypotheses (u : \det (metric_mx a) \is a GRing.unit) (gs : det_declared a gsym).
Hypothesis mkd : make_diff_ga me gsym m = Some dga.
Let der k : derivation (D k). Proof. by case: par. Qed.
Let u' : gmat a \in unitmx. Proof. by rewrite unitmxE. Qed.
Let gs' : gsym_ok a gsym. Proof. by []. Qed.
Let wf : wf_ga a := m_wf mk sh.
Let gok : grad_ok two m (dg_grad dga).
Proof. by have [d] := make_diffP two der mk lec sh sy u' gs' rooted; rewrite mkd => -[<-] []. Qed.
Notation yields := (@yields R two a).
Notation mvv := (mvv two a).
Notation opv := (@opv R two m).
Definition still (st : dstate R) := ds_slot st != (-1)%R.
Lemma opv0r d x : opv d x 0 = 0.
Proof. by have := @opvDr R two m d 0 0 x; rewrite addr0 -{1}[opv d x 0]addr0 => /addrI/esym. Qed.
Lemma value0_obj X : mv_ok a X -> bladed a X -> mvv X = 0 -> obj X = [::].
Proof.
move=> oX bX v0; have bx := bladed_blade oX bX; have : canon (obj X) == [::] by rewrite (@value_blade0 _ two a) //; apply/eqP.
move/eqP=> E; case/andP: oX => /andP[un nz] _; case: (obj X) E un nz => //= t l E un /andP[t0 _].
suff : t \in canon (t :: l) by rewrite E.
by rewrite mem_canon t0 /= coef_uniq ?mem_head.
Qed.
Lemma grad_zero st d A : still st -> (forall i, (i < n)%N -> canon (diff_terms me i (obj A)) = [::]) ->
  exists2 X, grad_mul me m dga d true A st = (st, Some X) & obj X = [::].
Proof.
move=> bl0 dA; rewrite /grad_mul; have [_ gr] := gok.
suff H l s : all (fun i => i < n)%N l -> yields true (Some s) 0 ->
  exists2 X, pfold (fun s i => bnd (pDiff me m dga A i) (fun dA =>
      let r := nth (mv_const a 0) (dg_grad dga) i in
      lift (LET q := mv_op m d r dA IN mv_add a s q))) l s st = (st, Some X) & yields true (Some X) 0.
  have [||X -> [_ [<-] [oX vX /(_ isT) bX]]] := H (iota 0 n) (mv_const a 0).
  - by apply/allP => i; rewrite mem_iota.
  - have [o v0 b] := const_ok two a 0; exists (mv_const a 0) => //; split=> //; by rewrite v0 /scal scale0r.
  by exists X => //; exact: value0_obj.
elim: l s => [|i l IH] s /=; first by move=> _ ys; exists s.
case/andP=> li al [_ [<-] [os vs bs]]; have [o b _ _] := gr (Ordinal li).
have [z0 [E0] [oz vz /(_ isT) bz]] : yields true (Some (mk_mv a [::])) 0 by apply: yields_blade => //; exact: value_nil.
have [q Eq [oq vq bq]] := mv_opP two mk sh d o oz bz.
have [t Et yt] := mv_addP two wf os oq.
have stp : bnd (pDiff me m dga A i) (fun dA =>
      lift (LET q := mv_op m d (nth (mv_const a 0) (dg_grad dga) i) dA IN mv_add a s q)) st = (st, Some t).
  rewrite /bnd /pDiff (negbTE bl0) andbF /mk_mv dA // -[Mv _ _]/(mk_mv a [::]) E0 /lift.
  by rewrite /= in Eq; rewrite Eq /= Et.
rewrite {1}/bnd stp; apply: IH => //; exists t => //; case: yt => ot vt bt; split=> //.
  by rewrite vt vs vq vz opv0r addr0.
by move=> _; apply: bt; rewrite bs.
Qed.
Lemma terms_zero st d (ts : seq (mv R * seq slotsym)) : still st ->
  List.Forall (fun t => forall i, (i < n)%N -> canon (diff_terms me i (obj t.1)) = [::]) ts ->
  exists2 l, grad_terms me m dga d ts st = (st, Some l) &
    List.Forall (fun t => obj t.1 = [::]) l /\ [seq t.2 | t <- l] = [seq t.2 | t <- ts].
Proof.
move=> bl0; elim: ts => [|t ts IH] h /=; first by exists [::].
have {h} [h1 h2] : (forall i, (i < n)%N -> canon (diff_terms me i (obj t.1)) = [::]) /\
  List.Forall (fun t => forall i, (i < n)%N -> canon (diff_terms me i (obj t.1)) = [::]) ts by inversion h.
have [X EX oX] := grad_zero d bl0 h1; have [l El [al e]] := IH h2.
exists ((X, t.2) :: l); first by rewrite /bnd EX El.
by split=> //=; [constructor | rewrite e].
Qed.
Theorem C33_contract_zero T slot1 slot2 st : (0 < slot1)%N -> (0 < slot2)%N -> slot1 != slot2 ->
  all (fun t => [forall i : 'I_n, D i t.1 == 0]) (ml_value T) ->
  exists st' T', [/\ mlt_contract me m dga T slot1 slot2 st = (st', Some T'), ml_nargs T' = (ml_nargs T - 2)%N &
    all (fun t => t.1 == 0) (ml_value T')].
Proof.
move=> p1 p2 ne cst; rewrite /mlt_contract.
have lo : (0 < minn slot1 slot2)%N by rewrite leq_min p1 p2.
have hi : (1 < maxn slot1 slot2)%N.
  by rewrite leq_max; move: p1 p2 ne; clear; case: slot1 slot2 => [|[|s]] [|[|t]].
set k1 := minn _ _ in lo *; set k2 := maxn _ _ in hi * .
have s1 : still (set_slot (k1%:Z - 1%:Z)%R st) by rewrite /still /=; case: (k1) lo.
have s2 st1 : still (set_slot (k2%:Z - 2%:Z)%R st1) by rewrite /still /=; case: (k2) hi => [|[|k]].
have c1 : List.Forall (fun t : mv R * seq slotsym => forall i, (i < n)%N -> canon (diff_terms me i (obj t.1)) = [::])
    [seq (mv_const a t.1, t.2) | t <- ml_value T].
  elim: (ml_value T) cst => [|t ts IH] /=; first by constructor.
  case/andP=> /forallP ct /IH h; constructor=> // i li /=.
  have z : D i t.1 = 0 by exact/eqP/(ct (Ordinal li)).
  by rewrite /canon /=; case: ifP => //= _; rewrite /canon /= /eqE /=; rewrite ?z ?addr0 ?eqxx.
have [g1 E1 [z1 e1]] := terms_zero MMul s1 c1; rewrite /bnd E1.
have c2 : List.Forall (fun t : mv R * seq slotsym => forall i, (i < n)%N -> canon (diff_terms me i (obj t.1)) = [::])
    [seq (t.1, remove_slot k1 (ml_nargs T) t.2) | t <- g1].
  by elim: z1 => [|t ts h _ IH]; constructor=> //= i _; rewrite h.
have [g2 E2 [z2 e2]] := terms_zero MDot (s2 (set_slot (k1%:Z - 1%:Z)%R st)) c2; rewrite E2.
eexists; eexists; split; first reflexivity; first by [].
rewrite /= all_map; elim: z2 => [|t ts h _ IH] //=; rewrite IH andbT /mv_scalar h; exact: eqxx.
Qed.
End Contract.

(* ---- false cases ---- *)
(* the rank 1 tensor a_1__0 in the plane with e0.e0 = 1, e0.e1 = 3, e1.e1 = 2: its component for e0
   is 1, but T(e0) is 7 *)
Definition case_T1 : mlt Q := Mlt 1 [:: (1, [:: (0, 0)%N])].
Theorem C33_oblique_refuted : exists (a : ga Q) T,
  [/\ wf_ga a, \det (metric_mx a) \is a GRing.unit, tensor a T && (ml_nargs T == 1%N), component T [:: 0%N] = 1 &
      omap (fun v => v == 7%:R) (value_at a 1 T [:: mv_basis_vec Q 0]) = Some true].
Proof.
exists mv_ga, case_T1; split; [by [] | exact: case_det | by [] | | by vm_compute].
by rewrite /component /= big_mkcond big_seq1.
Qed.
(* in that plane the product of two tensors does not evaluate to the product of the values *)
Theorem C33_oblique_mul_refuted : exists (a : ga Q) T1 T2 X Y,
  [/\ wf_ga a, tensor a T1 && tensor a T2, vector a X && vector a Y &
   (LET T := (mlt_mul a T1 T2 0).2 IN LET v := value_at a 2 T1 [:: X] IN LET w := value_at a 2 T2 [:: Y] IN
    LET z := value_at a 2 T [:: X; Y] IN Some (z == v * w)) = Some false].
Proof. by exists mv_ga, case_T1, case_T1, (mv_basis_vec Q 0), (mv_basis_vec Q 0); split=> //; vm_compute. Qed.
(* after a tensor of rank 2, a tensor of rank 1 made from a name has terms with symbols of both
   slots: T(e0) is not a number, and the component for e0 is lost *)
Theorem C33_name_refuted : exists (a : ga Q) (coef : seq nat -> Q) T,
  [/\ wf_ga a, (mlt_of_name a coef 1 2).2 = Some T, ~~ tensor a T, component T [:: 0%N] = 0 /\ coef [:: 0%N] = 1 &
      value_at a 2 T [:: mv_basis_vec Q 0] = None].
Proof.
exists mv_ga, (fun=> 1); eexists; split; [by [] | reflexivity | by vm_compute | | by vm_compute].
by split=> //; rewrite /component big_mkcond /= !big_cons big_nil /= !addr0.
Qed.
(* contraction: the tensor T(a_1, a_2) = a_1 | a_2 of the Euclidean plane has contraction 2; contract(1, 2) returns 0 *)
Section Euclid.
Variables (R : comUnitRingType) (two : (2%:R : R) \is a GRing.unit) (me : metric_env R).
Hypothesis par : partials (me_diff me).
Let g : seq (seq R) := [:: [:: 1; 0]; [:: 0; 1]].
Definition euc_m : metric R := Metric 2 (Some 2%N) g g true None.
Lemma euc_mk : make_metric me 2 (Some 2%N) (GMatrix g) false = Some euc_m.
Proof. by rewrite /make_metric /= /ortho_test /euc_m /= /ment /= eqxx. Qed.
Lemma euc_sh : shape 2 2 (m_graw euc_m). Proof. by []. Qed.
Lemma euc_sy : symmetric_mx (mx 2 2 (m_graw euc_m)).
Proof. by apply/matrixP => i j; rewrite !mxE; case: i j => [[|[|i]] li] [[|[|j]] lj]. Qed.
Lemma euc_det : \det (metric_mx (metric_ga euc_m)) \is a GRing.unit.
Proof.
rewrite (expand_det_row _ ord0) !big_ord_recl big_ord0 /cofactor !det_mx11 !mxE /geff /gij /=.
by rewrite /= expr0 !mul1r mul0r !addr0 unitr1.
Qed.
Definition euc_T : mlt R := Mlt 2 [:: (1, [:: (0, 0); (1, 0)]%N); (1, [:: (0, 1); (1, 1)]%N)].
Lemma euc_contract : exists2 dga, make_diff_ga me None euc_m = Some dga & exists st' T',
  [/\ tensor (metric_ga euc_m) euc_T, mlt_contract me euc_m dga euc_T 1 2 (ds_init dga) = (st', Some T'),
      ml_nargs T' = 0%N, component T' [::] = 0 & \sum_(i < 2) component euc_T [:: val i; val i] = 2%:R].
Proof.
have nn : false -> forall i : 'I_2, let y := mx 2 2 (m_graw euc_m) i i in me_root me y ^+ 2 = y \/ me_root me y ^+ 2 = - y by [].
have [dga E] := @C37_defined _ two me 2 _ false euc_m None par euc_mk (leqnn 2) euc_sh euc_sy nn euc_det I.
exists dga => //.
have cst : all (fun t => [forall i : 'I_2, me_diff me i t.1 == 0]) (ml_value euc_T).
  by rewrite /=; case: par => d _; rewrite andbT andbb; apply/forallP => i; rewrite (drv1 (d i)).
have [st' [T' [ET nT /allP zT]]] := @C33_contract_zero R two me 2 _ false euc_m None dga par euc_mk (leqnn 2) euc_sh euc_sy nn euc_det I E
  euc_T 1 2 (ds_init dga) isT isT isT cst.
exists st', T'; split=> //.
  by rewrite /component big_seq_cond big1 // => t /andP[/zT/eqP].
by rewrite !big_ord_recl big_ord0 /component !big_mkcond /= !big_cons !big_nil /= !addr0 -[1]/(1%:R) -natrD.
Qed.
End Euclid.
Theorem C33_contract_refuted : exists m : metric [comUnitRingType of {poly {poly rat}}],
  make_metric penv 2 (Some 2%N) (GMatrix [:: [:: 1; 0]; [:: 0; 1]]) false = Some m /\
  exists2 dga, make_diff_ga penv None m = Some dga & exists T st' T',
  [/\ tensor (metric_ga m) T, ml_nargs T = 2%N, mlt_contract penv m dga T 1 2 (ds_init dga) = (st', Some T'),
      component T' [::] = 0 & \sum_(i < 2) component T [:: val i; val i] = 2%:R].
Proof.
have u2 : (2%:R : [comUnitRingType of {poly {poly rat}}]) \is a GRing.unit.
  have u : (2%:R : {poly rat}) \is a GRing.unit.
    by rewrite -(rmorph_nat (polyC_rmorphism [ringType of rat])); apply: rmorph_unit; rewrite unitfE Num.Theory.pnatr_eq0.
  by rewrite -(rmorph_nat (polyC_rmorphism [ringType of {poly rat}])); apply: rmorph_unit.
exists (euc_m _); split; first exact: euc_mk.
have [dga E [st' [T' [h1 h2 h3 h4 h5]]]] := euc_contract u2 (me := penv) pdiff_partials.
by exists dga => //; exists (euc_T _), st', T'.
Qed.

(* ---- cases ---- *)
(* mv_ga is not orthogonal; the orthogonal plane with e0.e0 = 1, e1.e1 = -1 *)
Definition mlt_ga : ga Q := metric_ga (Metric 2 None [:: [:: 1; 0]; [:: 0; -1]] [:: [:: 1; 0]; [:: 0; -1]] true None).
Definition mlt_T2 : mlt Q := Mlt 2 [:: (2%:R, [:: (0, 0); (1, 1)]%N); (5%:R, [:: (1, 0); (0, 1)]%N); (1, [:: (0, 0); (1, 1)]%N)].
Definition mlt_v : mv Q := Mv [:: (2%:R : rat, mk_blade [:: 0%N]); (3%:R : rat, mk_blade [:: 1%N])] true.
Definition mlt_w : mv Q := Mv [:: (1 : rat, mk_blade [:: 0%N]); (- (1 : rat), mk_blade [:: 1%N])] true.
Lemma mlt_det : \det (metric_mx mlt_ga) \is a GRing.unit.
Proof.
rewrite (expand_det_row _ ord0) !big_ord_recl big_ord0 /cofactor !det_mx11 !mxE /geff /gij /=.
by vm_compute.
Qed.
(* T(v, w) = 3*2*(-1) + 5*3*1 = 9 *)
Example C33_case : [/\ wf_ga mlt_ga && is_ortho mlt_ga, \det (metric_mx mlt_ga) \is a GRing.unit,
  tensor mlt_ga mlt_T2 && tensor mv_ga mlt_T2, vector mlt_ga mlt_v && vector mlt_ga mlt_w &
  omap (fun v => v == 9%:R) (value_at mlt_ga 2 mlt_T2 [:: mlt_v; mlt_w]) = Some true].
Proof. by split; [by vm_compute | exact: mlt_det | by vm_compute..]. Qed.
Example C33_case_components : component mlt_T2 [:: 0; 1]%N = 3%:R /\ component mlt_T2 [:: 1; 0]%N = 5%:R.
Proof. by rewrite /component !big_mkcond /= !big_cons !big_nil /= !add0r !addr0 -[1]/(1%:R) -natrD. Qed.
Example C33_case_make : [/\ is_vector mlt_ga mlt_v = Some true, transformation mlt_ga (case_L case_M1),
  omap (fun v => v == 5%:R) (LET T := (mlt_of_vector mlt_ga mlt_v 0).2 IN value_at mlt_ga 1 T [:: mlt_w]) = Some true &
  omap (fun v => v == (9%:R : rat)) (LET T := (mlt_mul mlt_ga mlt_T2 case_T1 0).2 IN value_at mlt_ga 3 T [:: mlt_v; mlt_w; mlt_w]) = Some true].
Proof. by split; vm_compute. Qed.

Print Assumptions C33_value.
Print Assumptions C33_multilinear.
Print Assumptions C33_add.
Print Assumptions C33_sub.
Print Assumptions C33_scale.
Print Assumptions C33_components_scaled.
Print Assumptions C33_mul_scaled.
Print Assumptions C33_vector_scaled.
Print Assumptions C33_lt_scaled.
Print Assumptions C33_name_scaled.
Print Assumptions C33_components_partial.
Print Assumptions C33_mul_partial.
Print Assumptions C33_vector_partial.
Print Assumptions C33_lt_partial.
Print Assumptions C33_name_partial.
Print Assumptions C33_contract_zero.
Print Assumptions C33_oblique_refuted.
Print Assumptions C33_oblique_mul_refuted.
Print Assumptions C33_name_refuted.
Print Assumptions C33_contract_refuted.
