(* Lt_Proof.v -- what the Lt model computes *)
From mathcomp Require Import all_ssreflect all_algebra.
From Verif Require Import NatTac AlgTactics Exterior Clifford Blades Spec_Grade Grades PyBase Spec_Index Ga_Model.
From Verif Require Import Ga_Sem Ga_Proof_Tables Ga_Proof_Sort Ga_Proof_Sem Ga_Proof_Reduce Ga_Proof_Rep Ga_Proof_Conv.
From Verif Require Import Ga_Proof_Mul Spec_Clifford Clifford_Unique Spec_Mv Ga_Proof_Den Ga_Proof_Wedge Ga_Proof_Inner Ga_Proof_Grade.
From Verif Require Import GradeLaws Det Outer Mv_Model Mv_Proof Mv_Expr Mv_Proof_Expr Dual_Model Dual_Proof Coef_Model Coef_Proof Metric_Model Spec_Diff Nabla ExtDeriv Diff_Model Diff_Proof Lt_Model Spec_Lt.
Set Implicit Arguments.
Unset Strict Implicit.
Unset Printing Implicit Defensive.
Import GRing.Theory.
Local Open Scope ring_scope.

Section Lt.
Variables (R : comUnitRingType) (two : (2%:R : R) \is a GRing.unit) (a : ga R).
Hypothesis wf : wf_ga a.
Notation n := (ga_n a).
Notation C := (cl two a).
Notation val_ := (value two a).
Notation mvv := (mvv two a).
Notation yields := (@yields R two a).
Implicit Types (x y : expr R) (L : lt R) (X Y : mv R) (I : seq nat) (i j : nat).

Notation lin_comb := (lin_comb a).
Notation transformation := (transformation a).
Notation rect := (rect a).
Lemma wf1 i : (i < n)%N -> wfI n [:: i].
Proof. by move=> li; rewrite /wfI /= li. Qed.
Lemma basis_wordsP w : reflect (exists2 i, (i < n)%N & w = basis_word i) (w \in basis_words a).
Proof.
apply: (iffP mapP) => -[i]; first by rewrite mem_iota /= => li ->; exists i.
by move=> li ->; exists i; rewrite ?mem_iota.
Qed.
Lemma set_of1 (i : 'I_n) : set_of n [:: val i] = [set i].
Proof. by apply/setP => k; rewrite !inE. Qed.
Lemma val_basis c (i : 'I_n) : val_ [:: (c, basis_word i)] = c *: bl R [set i].
Proof. by rewrite /basis_word (value_term _ _ (wf1 (ltn_ord i))) set_of1. Qed.
Lemma comb_blade x : lin_comb x -> blade_expr n x.
Proof.
move=> h; apply/allP => w /mapP[t tx ->].
have /basis_wordsP[i li ->] := allP h t tx; exact: mk_blade_in (wf1 li).
Qed.
Lemma comb_homog x : lin_comb x -> homog 1 (val_ x : mval R n).
Proof.
elim: x => [|[c w] x IH] /=; first by rewrite value_nil => _; exact: homog0.
case/andP=> /basis_wordsP[i li ->] /IH h; rewrite -(cat1s (c, basis_word i)) value_cat.
apply: homogD => //; rewrite (val_basis c (Ordinal li)); apply: homogZ.
by have := homog_bl R [set (Ordinal li : 'I_n)]; rewrite cards1.
Qed.
Lemma homog_comb x : blade_expr n x -> canonical x -> homog 1 (val_ x : mval R n) -> lin_comb x.
Proof.
move=> bx cx h; apply/allP => t tx.
have [I wI E] := blade_mem bx tx; apply/basis_wordsP.
have cf : coef x t.2 != 0.
  by case/andP: cx => ux /allP nz; rewrite (coef_uniq ux tx); exact: nz.
move: cf; rewrite E (@coef_value _ two a) // -h ffunE.
case: ifP => [/eqP sI _|_]; last by rewrite eqxx.
have s1 : size I = 1%N.
  by rewrite -sI -{1}(set_ofK wI) /list_of size_map -cardE.
case: I s1 wI E {sI} => [//|i [|//]] _ wI E; exists i => //.
by move: wI; rewrite /wfI /= andbT.
Qed.
Lemma comb_cat x y : lin_comb (x ++ y) = lin_comb x && lin_comb y. Proof. exact: all_cat. Qed.
Lemma comb_canon x : lin_comb x -> lin_comb (canon x).
Proof.
by move=> h; have := @all_words_canon R (fun w => w \in basis_words a) x; rewrite !all_map; apply.
Qed.
Lemma comb_escale c x : lin_comb x -> lin_comb (escale c x).
Proof. by rewrite /lin_comb /escale all_map. Qed.
Lemma comb_eneg x : lin_comb x -> lin_comb (eneg x).
Proof. by rewrite /lin_comb /eneg all_map. Qed.

(* ---- the images of the basis vectors ---- *)
Lemma tr_get L i : transformation L -> (i < n)%N -> exists2 v, dget L i = Some v & lin_comb v.
Proof.
case/andP=> pk /allP lc li.
have : i \in [seq kv.1 | kv <- L] by rewrite (perm_mem pk) mem_iota.
rewrite dget_mem; case E: dget => [v|] // _; exists v => //.
elim: L {pk} lc E => [//|[k w] L IH] lc /=; case: eqP => _ E.
  by case: E => <-; exact: (lc (k, w) (mem_head _ _)).
by apply: IH E => kv h; apply: lc; rewrite inE h orbT.
Qed.
Definition vimg L (i : nat) : mval R n := if dget L i is Some v then val_ v else 0.
Definition vimgs L (i : 'I_n) : mval R n := vimg L i.
Lemma vimg_homog L (i : 'I_n) : transformation L -> homog 1 (vimgs L i).
Proof. by move=> tL; rewrite /vimgs /vimg; have [v -> lc] := tr_get tL (ltn_ord i); exact: comb_homog. Qed.
Lemma imageP L i : transformation L -> (i < n)%N ->
  [/\ lin_comb (image L i), blade_expr n (image L i) & val_ (image L i) = vimg L i].
Proof.
move=> tL li; rewrite /image /xreplace /vimg /=; have [v -> lc] := tr_get tL li.
rewrite cats0; split; [exact: comb_escale|apply: comb_blade; exact: comb_escale|].
by rewrite value_escale scale1r.
Qed.
Notation om_ L := (@om R n (vimgs L)).

Lemma ext_wedges_rcons (l : seq (mval R n)) v : wedges (rcons l v) = ext (wedges l) v.
Proof.
elim: l => [|u l IH] /=; first by rewrite (ext1l two) (ext1r two).
by rewrite IH (extA two).
Qed.
Lemma blade_imageP L I : transformation L -> all (fun i => i < n)%N I ->
  exists2 z, blade_image a L I = Some z & blade_expr n z /\ val_ z = wedges [seq vimg L i | i <- I].
Proof.
move=> tL; elim/last_ind: I => [|I i IH] /=.
  move=> _; exists [:: (1, [::])] => //; split; last by rewrite value_const scale1r.
  by rewrite /blade_expr /= (@mk_blade_in n [::]).
rewrite all_rcons => /andP[li /IH [z E [bz vz]]].
rewrite /blade_image -cats1 foldl_cat /= -/(blade_image a L I) E /=.
have [_ bi vi] := imageP tL li; have [u -> [bu _ vu]] := ga_wedgeP two bz bi.
by exists u => //; split=> //; rewrite vu vz vi cats1 map_rcons ext_wedges_rcons.
Qed.
Lemma wedges_om L I : wfI n I -> wedges [seq vimg L i | i <- I] = om_ L (bl R (set_of n I)).
Proof.
move=> wI; rewrite om_bl; congr wedges; rewrite -{1}(set_ofK wI) /list_of -map_comp.
exact: eq_map.
Qed.
Lemma mv_dictP L : transformation L -> exists2 d, mv_dict a L = Some d &
  forall I, wfI n I -> exists2 z, dget d (mk_blade I) = Some z & blade_expr n z /\ val_ z = om_ L (bl R (set_of n I)).
Proof.
move=> tL; rewrite /mv_dict indexes_to_bladesE omapM_comp.
pose h I := if blade_image a L I is Some z then z else [::].
have hP I : wfI n I -> blade_image a L I = Some (h I).
  by case/andP=> _ aI; rewrite /h; have [z -> _] := blade_imageP tL aI.
exists [seq (mk_blade I, h I) | I <- indexes_flat n].
  by apply: omapM_some => I; rewrite mem_indexes_flat => /hP /= ->.
move=> I wI; exists (h I); first by rewrite dget_map_eq ?mem_indexes_flat //; exact: mk_blade_inj.
have [z E [bz vz]] := blade_imageP tL (proj2 (andP wI)); move: (hP I wI); rewrite E => -[<-].
by rewrite vz wedges_om.
Qed.
Lemma xreplaceP (F : {linear mval R n -> mval R n}) (d : word -> option (expr R)) x : blade_expr n x ->
  (forall c I, wfI n I -> (c, mk_blade I) \in x -> exists2 z, d (mk_blade I) = Some z &
    blade_expr n z /\ val_ z = F (bl R (set_of n I))) ->
  blade_expr n (xreplace d x) /\ val_ (xreplace d x) = F (val_ x).
Proof.
move=> bx H; apply: value_flatten_map => // c I wI tx /=; have [z -> [bz vz]] := H c I wI tx.
by rewrite /blade_expr words_escale value_escale vz.
Qed.
Lemma call_exprP L x : transformation L -> blade_expr n x ->
  exists2 y, call_expr a L x = Some y & blade_expr n y /\ val_ y = om_ L (val_ x).
Proof.
move=> tL bx; rewrite /call_expr; have [d -> dP] := mv_dictP tL; eexists; first reflexivity.
have [b v] := xreplaceP (F := [linear of om_ L]) (blade_canon bx) (fun c I wI _ => dP I wI).
by split=> //; rewrite v value_canon.
Qed.
Lemma lookup_basis L i : lt_lookup L (basis_word i) = dget L i. Proof. by []. Qed.
Lemma call_objP L X : transformation L -> mv_ok a X -> bladed a X ->
  exists2 y, call_obj a L X = Some y & blade_expr n y /\ val_ y = om_ L (mvv X).
Proof.
move=> tL oX bX; have bx : blade_expr n (obj X) by case/orP: bX; [exact: ok_blade|exact: ok_blade_ortho].
rewrite /call_obj (is_vectorP two wf oX) /=; case: ifP => [/andP[_ /eqP hX]|_].
  eexists; first reflexivity; apply: (xreplaceP (F := [linear of om_ L])) => // c I wI tx.
  have lc : lin_comb (obj X) by apply: homog_comb => //; case/andP: oX.
  have /basis_wordsP[i li E] := allP lc _ tx; move: E => /= /mk_blade_inj E; subst I.
  rewrite -[mk_blade _]/(basis_word i) lookup_basis; have [v Ev lv] := tr_get tL li; exists v => //.
  split; first exact: comb_blade.
  by rewrite (set_of1 (Ordinal li)) /= (om_bvec two) /vimgs /vimg /= Ev.
have [d -> dP] := mv_dictP tL; eexists; first reflexivity.
exact: (xreplaceP (F := [linear of om_ L]) bx (fun c I wI _ => dP I wI)).
Qed.
Lemma lt_callP L X : transformation L -> mv_ok a X -> bladed a X -> yields true (lt_call a L X) (om_ L (mvv X)).
Proof.
move=> tL oX bX; rewrite /lt_call; have [y -> [b_y vy]] := call_objP tL oX bX; exact: yields_blade.
Qed.

(* ---- matrices ---- *)
Definition entry L (i j : nat) : R := if insub i is Some i' then (vimg L j) [set i'] else 0.
Definition lmx L : 'M[R]_n := \matrix_(i, j) (vimgs L j) [set i].
Lemma entryE L (i j : 'I_n) : entry L i j = lmx L i j.
Proof. by rewrite /entry valK mxE. Qed.
Lemma vimgs_lmx L (j : 'I_n) : transformation L -> vimgs L j = \sum_i lmx L i j *: bl R [set i].
Proof.
by move=> tL; rewrite [LHS](vec_decomp (vimg_homog j tL)); apply: eq_bigr => i _; rewrite mxE.
Qed.
Lemma basis_index i : (i < n)%N -> py_index (basis_words a) (basis_word i) = Some i.
Proof.
move=> li; rewrite /py_index map_f ?mem_iota //; congr Some.
rewrite /basis_words index_map; last by move=> j k /mk_blade_inj [].
by rewrite -[X in index X](nth_iota 0 0 li) index_uniq ?size_iota ?iota_uniq.
Qed.
Lemma fill_columnP (ts : expr R) (col : seq R) : size col = n -> lin_comb ts -> uniq (words ts) ->
  exists2 col', fill_column a ts col = Some col' & size col' = n /\
    forall i, (i < n)%N -> nth 0 col' i = if basis_word i \in words ts then coef ts (basis_word i) else nth 0 col i.
Proof.
elim: ts col => [|[c w] ts IH] col sc /=; first by move=> _ _; exists col.
case/andP=> /basis_wordsP[k lk ->] lt /andP[nin un]; rewrite basis_index //=.
have [|col' -> [sc' h]] := IH (set_nth 0 col k c) _ lt un; first by rewrite size_set_nth sc; apply/maxn_idPr.
have be i' k' : (basis_word i' == basis_word k') = (i' == k') by apply/eqP/eqP => [/mk_blade_inj []|->].
exists col' => //; split=> // i li; rewrite h // inE coef_cons nth_set_nth -[_.2]/(basis_word k) !be -[_.1]/c [k == i]eq_sym /=.
case: (altP (i =P k)) => [->|_] /=; first by rewrite (negbTE nin) coef_notin ?addr0.
by rewrite add0r.
Qed.
Lemma comb_coef L v (i : 'I_n) : lin_comb v -> coef v (basis_word i) = (val_ v : mval R n) [set i].
Proof. by move=> lc; rewrite (@coef_value _ two a) ?comb_blade ?wf1 // set_of1. Qed.
Lemma dict_columnP L j : transformation L -> (j < n)%N ->
  dict_column a L j = Some [seq entry L i j | i <- iota 0 n].
Proof.
move=> tL lj; rewrite /dict_column; have [v Ev lc] := tr_get tL lj; rewrite Ev /=.
have bv := comb_blade lc; case: eqP => [c0|c0].
  congr Some; apply: (@eq_from_nth _ 0) => [|i]; first by rewrite size_nseq size_map size_iota.
  rewrite size_nseq => li; rewrite nth_nseq li (nth_map 0%N) ?size_iota // nth_iota // add0n.
  by rewrite -[i]/(val (Ordinal li)) /entry valK /vimg Ev -value_canon c0 value_nil ffunE.
have sv : all (fun w => size w <= 1)%N (words v) by apply: sub_all bv => w /bladeP[I _ ->]; exact: mk_blade_size.
have le : lin_comb (linear_expand v).
  rewrite /linear_expand; case E: (canon v) c0 => [//|t x] _.
  have : all (fun w => w \in basis_words a) (words (canon v)) by rewrite all_map; exact: comb_canon.
  rewrite E => lx; apply/allP => u ux.
  have : u.2 \in words (merge_terms [seq (t0.1, first_sym t0.2) | t0 <- t :: x]) by apply: map_f.
  rewrite words_merge => /mapP[_ /mapP[q qx ->] ->] /=.
  by have /basis_wordsP[i li ->] := allP lx _ (map_f snd qx); apply/basis_wordsP; exists i.
have [|col -> [sc h]] := fill_columnP (col := nseq n 0) _ le (linear_expand_uniq v); first exact: size_nseq.
congr Some; apply: (@eq_from_nth _ 0) => [|i]; first by rewrite sc size_map size_iota.
rewrite sc => li; rewrite h // (nth_map 0%N) ?size_iota // nth_iota // add0n nth_nseq li.
rewrite -[i]/(val (Ordinal li)) /entry valK /vimg Ev -(comb_coef L) //.
have := linear_expand_coef (basis_word i) sv; case: ifPn => [_ -> //|/coef_notin ->] //.
Qed.
Lemma mk_at f i j r c : (i < r)%N -> (j < c)%N -> mat_at (mat_mk r c f) i j = f i j :> R.
Proof.
move=> li lj; rewrite /mat_at /mat_mk (nth_map 0%N) ?size_iota // (nth_map 0%N) ?size_iota //.
by rewrite !nth_iota.
Qed.
Lemma mk_rect f : rect (mat_mk n n f).
Proof.
rewrite /rect /mat_mk size_map size_iota eqxx; apply/allP => r /mapP[i _ ->].
by rewrite size_map size_iota.
Qed.
Lemma rect_dims M : rect M -> mat_dims M = (n, n).
Proof.
case/andP=> /eqP sM /allP h; rewrite /mat_dims sM; case: M sM h => [|r M] /= sM h; first by rewrite -sM.
by rewrite (eqP (h r (mem_head _ _))).
Qed.
Lemma eq_mk r c (f f' : nat -> nat -> R) : (forall i j, (i < r)%N -> (j < c)%N -> f i j = f' i j) ->
  mat_mk r c f = mat_mk r c f'.
Proof.
move=> h; apply/eq_in_map => i; rewrite mem_iota => li; apply/eq_in_map => j; rewrite mem_iota => lj.
exact: h.
Qed.
Lemma rect_mk M : rect M -> M = mat_mk n n (mat_at M).
Proof.
case/andP=> /eqP sM /allP h; apply: (@eq_from_nth _ [::]) => [|i]; first by rewrite size_map size_iota.
rewrite sM => li; rewrite (nth_map 0%N) ?size_iota // nth_iota // add0n.
have sr : size (nth [::] M i) = n by apply/eqP/h/mem_nth; rewrite sM.
apply: (@eq_from_nth _ 0) => [|j]; first by rewrite size_map size_iota.
by rewrite sr => lj; rewrite (nth_map 0%N) ?size_iota // nth_iota.
Qed.
Lemma rect_eq M N : rect M -> rect N -> to_mx n M = to_mx n N -> M = N.
Proof.
move=> rM rN E; rewrite (rect_mk rM) (rect_mk rN); apply: eq_mk => i j li lj.
by have /matrixP/(_ (Ordinal li) (Ordinal lj)) := E; rewrite !mxE.
Qed.
Lemma to_mk (f : nat -> nat -> R) : to_mx n (mat_mk n n f) = \matrix_(i, j) f i j.
Proof. by apply/matrixP => i j; rewrite !mxE mk_at. Qed.
Lemma mat_TP M : rect M -> rect (mat_T M) /\ to_mx n (mat_T M) = (to_mx n M)^T.
Proof.
move=> rM; rewrite /mat_T rect_dims //; split; first exact: mk_rect.
by apply/matrixP => i j; rewrite !mxE mk_at.
Qed.
Lemma foldr_sum (f : nat -> R) : foldr (fun l s => f l + s) 0 (iota 0 n) = \sum_(l < n) f l.
Proof. by rewrite -(big_mkord xpredT) /index_iota subn0; elim: (iota 0 n) => [|k l IH]; rewrite ?big_nil ?big_cons //= IH. Qed.
Lemma mat_mulP M N : rect M -> rect N -> exists2 P, mat_mul M N = Some P & rect P /\ to_mx n P = to_mx n M *m to_mx n N.
Proof.
move=> rM rN; rewrite /mat_mul !rect_dims // eqxx; eexists; first reflexivity; split; first exact: mk_rect.
apply/matrixP => i j; rewrite !mxE mk_at // (foldr_sum (fun l => mat_at M i l * mat_at N l j)).
by apply: eq_bigr => l _; rewrite !mxE.
Qed.
Lemma mat_invP M : rect M -> to_mx n M \in unitmx ->
  exists2 N, mat_inv M = Some N & rect N /\ to_mx n N = invmx (to_mx n M).
Proof.
move=> rM u; rewrite /mat_inv rect_dims // eqxx -unitmxE u /=; eexists; first reflexivity; split.
  rewrite /rect size_map size_enum_ord eqxx; apply/allP => r /mapP[i _ ->].
  by rewrite size_map size_enum_ord.
apply/matrixP => i j; rewrite !mxE /mat_at (nth_map i) ?size_enum_ord // (nth_map j) ?size_enum_ord //.
by rewrite !nth_ord_enum.
Qed.
Lemma mat_inv_sing M : rect M -> to_mx n M \notin unitmx -> mat_inv M = None.
Proof. by move=> rM u; rewrite /mat_inv rect_dims // eqxx -unitmxE (negbTE u). Qed.

Lemma lt_matrixP L : transformation L ->
  exists2 M, lt_matrix a L = Some M & rect M /\ to_mx n M = lmx L.
Proof.
move=> tL; rewrite /lt_matrix /Dictionary_to_Matrix.
rewrite (omapM_some (h := fun j => [seq entry L i j | i <- iota 0 n])) => [|j]; last first.
  by rewrite mem_iota => lj; exact: dict_columnP.
rewrite -[map _ _]/(mat_mk n n (fun j i => entry L i j)) /=.
have [r t] := mat_TP (mk_rect (fun j i => entry L i j)); eexists; first reflexivity; split=> //.
by rewrite t; apply/matrixP => i j; rewrite !mxE mk_at // entryE mxE.
Qed.
Lemma lt_matrix_eq L M : transformation L -> rect M -> to_mx n M = lmx L -> lt_matrix a L = Some M.
Proof. by move=> tL rM E; have [N -> [rN e]] := lt_matrixP tL; congr Some; apply: rect_eq; rewrite // e E. Qed.

(* a dictionary with an image for every basis vector, in order *)
Lemma table_tr (f : nat -> expr R) : (forall i, (i < n)%N -> lin_comb (f i)) ->
  transformation [seq (i, f i) | i <- iota 0 n].
Proof.
move=> h; rewrite /transformation -map_comp map_id perm_refl /=; apply/allP => kv /mapP[i].
by rewrite mem_iota => li -> /=; exact: h.
Qed.
Lemma table_vimg (f : nat -> expr R) i : (i < n)%N -> vimg [seq (i, f i) | i <- iota 0 n] i = val_ (f i).
Proof. by move=> li; rewrite /vimg (@dget_map_eq _ _ _ id) // mem_iota. Qed.
Lemma val_comb (f : nat -> R) :
  lin_comb [seq (f j, basis_word j) | j <- iota 0 n] /\
  val_ [seq (f j, basis_word j) | j <- iota 0 n] = \sum_(j < n) f j *: (bl R [set j] : mval R n).
Proof.
split; first by apply/allP => t /mapP[j]; rewrite mem_iota => lj ->; apply/basis_wordsP; exists j.
pose g k : mval R n := if insub k is Some i then f k *: bl R [set i] else 0.
transitivity (\sum_(k <- iota 0 n) g k).
  have : all (fun k => k < n)%N (iota 0 n) by apply/allP => k; rewrite mem_iota.
  elim: (iota 0 n) => [|k l IH] /=; first by rewrite value_nil big_nil.
  case/andP=> lk /IH h; rewrite -(cat1s (f k, _)) value_cat h big_cons /g insubT.
  by rewrite (val_basis (f k) (Ordinal lk)).
have -> : iota 0 n = index_iota 0 n by rewrite /index_iota subn0.
rewrite big_mkord; apply: eq_bigr => j _; by rewrite /g valK.
Qed.
Lemma lt_of_matrixP M : rect M -> exists2 L, lt_of_matrix a M = Some L & transformation L /\ lmx L = to_mx n M.
Proof.
move=> rM; rewrite /lt_of_matrix /Matrix_to_dictionary rect_dims // eqxx; eexists; first reflexivity.
pose f col := [seq (mat_at M row col, basis_word row) | row <- iota 0 n].
split; first by apply: (@table_tr f) => j lj; have [] := val_comb (fun row => mat_at M row j).
apply/matrixP => i j; rewrite !mxE /vimgs (@table_vimg f) // (val_comb (fun row => mat_at M row j)).2.
rewrite sum_coef (bigD1 i) //= scale_coef bl_coef eqxx mulr1 big1 ?addr0 // => k ki.
by rewrite scale_coef bl_coef (inj_eq set1_inj) eq_sym (negbTE ki) mulr0.
Qed.
Lemma lt_of_matrix_dims M : mat_dims M != (n, n) -> lt_of_matrix a M = None.
Proof. by rewrite /lt_of_matrix /Matrix_to_dictionary => /negbTE ->. Qed.
(* two transformations with the same matrix are the same function *)
Lemma lmx_om L L' : transformation L -> transformation L' -> lmx L = lmx L' -> om_ L =1 om_ L'.
Proof. by move=> tL tL' E; apply: eq_om => j; rewrite !vimgs_lmx // E. Qed.

(* ---- constructors ---- *)
Lemma zip_iota (T : Type) (x0 : T) (l : seq T) : size l = n -> zip l (iota 0 n) = [seq (nth x0 l i, i) | i <- iota 0 n].
Proof.
move=> sl; apply: (@eq_from_nth _ (x0, 0%N)) => [|i]; first by rewrite size_zip size_map size_iota sl minnn.
rewrite size_zip size_iota sl minnn => li; rewrite nth_zip ?sl ?size_iota // (nth_map 0%N) ?size_iota //.
by rewrite nth_iota.
Qed.
Lemma lt_of_listsP (M : mat R) : rect M -> transformation (lt_of_lists a M) /\ lmx (lt_of_lists a M) = (to_mx n M)^T.
Proof.
case/andP=> /eqP sM /allP rM; rewrite /lt_of_lists (zip_iota [::] sM) -map_comp.
have rE i : (i < n)%N -> row_expr a (nth [::] M i) = canon [seq (mat_at M i j, basis_word j) | j <- iota 0 n].
  move=> li; have sr : size (nth [::] M i) = n by apply/eqP/rM/mem_nth; rewrite sM.
  by rewrite /row_expr (zip_iota 0 sr) -map_comp.
pose f i := row_expr a (nth [::] M i); rewrite -[map _ _]/[seq (i, f i) | i <- iota 0 n]; split.
  by apply: table_tr => i li; rewrite /f rE //; apply: comb_canon; have [] := val_comb (fun j => mat_at M i j).
apply/matrixP => i j; rewrite !mxE /vimgs table_vimg // /f rE // value_canon (val_comb (fun k => mat_at M j k)).2.
rewrite sum_coef (bigD1 i) //= scale_coef bl_coef eqxx mulr1 big1 ?addr0 // => k ki.
by rewrite scale_coef bl_coef (inj_eq set1_inj) eq_sym (negbTE ki) mulr0.
Qed.

(* ---- algebra of transformations ---- *)
Lemma tr_uniq L : transformation L -> uniq [seq kv.1 | kv <- L].
Proof. by case/andP=> /perm_uniq -> _; exact: iota_uniq. Qed.
Lemma dget_memL L kv : uniq [seq kv.1 | kv <- L] -> kv \in L -> dget L kv.1 = Some kv.2.
Proof.
elim: L => //= -[k v] L IH /andP[nin u]; rewrite inE => /predU1P[->|h] /=; first by rewrite eqxx.
rewrite IH //; case: eqP => // E; move: nin; rewrite /= E map_f //.
Qed.
Lemma tr_intro L : perm_eq [seq kv.1 | kv <- L] (iota 0 n) ->
  (forall i v, (i < n)%N -> dget L i = Some v -> lin_comb v) -> transformation L.
Proof.
move=> pk h; rewrite /transformation pk; apply/allP => kv kvL; apply: (h kv.1).
  by have := map_f fst kvL; rewrite (perm_mem pk) mem_iota.
by apply: dget_memL => //; rewrite (perm_uniq pk) iota_uniq.
Qed.
Lemma dset_keys (V : Type) (d : seq (nat * V)) k v : k \in [seq p.1 | p <- d] ->
  [seq p.1 | p <- dset d k v] = [seq p.1 | p <- d].
Proof.
elim: d => //= -[k' v'] d IH; rewrite inE eq_sym; case: eqP => //= _ /IH ->; by [].
Qed.
Lemma merge_get (f : expr R -> expr R -> expr R) g L1 L2 k : uniq [seq kv.1 | kv <- L2] ->
  dget (lt_merge f g L1 L2) k =
  if dget L2 k is Some w then Some (if dget L1 k is Some v then f v w else g w) else dget L1 k.
Proof.
rewrite /lt_merge; elim: L2 L1 => //= -[k' w] L2 IH L1 /andP[nin u]; rewrite IH // dget_dset.
case: eqP => [/= E|//]; move: nin; rewrite E dget_mem; by case: (dget L2 k).
Qed.
Lemma merge_keys (f : expr R -> expr R -> expr R) g L1 L2 :
  {subset [seq kv.1 | kv <- L2] <= [seq kv.1 | kv <- L1]} ->
  [seq kv.1 | kv <- lt_merge f g L1 L2] = [seq kv.1 | kv <- L1].
Proof.
rewrite /lt_merge; elim: L2 L1 => //= -[k' w] L2 IH L1 sub.
have k1 : k' \in [seq kv.1 | kv <- L1] by apply: sub; rewrite inE eqxx.
rewrite IH ?dset_keys // => k kL; apply: sub; by rewrite inE kL orbT.
Qed.
Lemma mergeP (f : expr R -> expr R -> expr R) g (phi : mval R n -> mval R n -> mval R n) L1 L2 :
  (forall v w, lin_comb v -> lin_comb w -> lin_comb (f v w) /\ val_ (f v w) = phi (val_ v) (val_ w)) ->
  transformation L1 -> transformation L2 -> transformation (lt_merge f g L1 L2) /\
  forall i, (i < n)%N -> vimg (lt_merge f g L1 L2) i = phi (vimg L1 i) (vimg L2 i).
Proof.
move=> h t1 t2; have u2 := tr_uniq t2.
have E i : (i < n)%N -> exists v w, [/\ dget L1 i = Some v, dget L2 i = Some w, lin_comb v, lin_comb w &
    dget (lt_merge f g L1 L2) i = Some (f v w)].
  move=> li; have [v e1 lv] := tr_get t1 li; have [w e2 lw] := tr_get t2 li.
  by exists v, w; rewrite merge_get // e1 e2.
split=> [|i li]; last first.
  by have [v [w [e1 e2 lv lw e]]] := E i li; rewrite /vimg e e1 e2; have [] := h v w lv lw.
have [p1 _] := andP t1; have [p2 _] := andP t2; apply: tr_intro => [|i v li].
  rewrite merge_keys // => k; rewrite (perm_mem p1) (perm_mem p2) //.
by have [v' [w [_ _ lv lw ->]]] := E i li => -[<-]; have [] := h v' w lv lw.
Qed.
Lemma lt_addP L1 L2 : transformation L1 -> transformation L2 -> transformation (lt_add L1 L2) /\
  forall i, (i < n)%N -> vimg (lt_add L1 L2) i = vimg L1 i + vimg L2 i.
Proof.
apply: (@mergeP _ _ (fun u v => u + v)) => v w lv lw; rewrite value_canon value_cat; split=> //; apply: comb_canon.
by rewrite comb_cat lv.
Qed.
Lemma lt_minusP L1 L2 : transformation L1 -> transformation L2 -> transformation (lt_minus L1 L2) /\
  forall i, (i < n)%N -> vimg (lt_minus L1 L2) i = vimg L1 i - vimg L2 i.
Proof.
apply: (@mergeP _ _ (fun u v => u - v)) => v w lv lw; rewrite value_canon value_cat value_eneg; split=> //; apply: comb_canon.
by rewrite comb_cat lv comb_eneg.
Qed.
Lemma map_keys (h : nat * expr R -> expr R) L : transformation L -> (forall kv, kv \in L -> lin_comb (h kv)) ->
  transformation [seq (kv.1, h kv) | kv <- L] /\
  forall i, (i < n)%N -> exists2 v, dget L i = Some v & dget [seq (kv.1, h kv) | kv <- L] i = Some (h (i, v)) /\ (i, v) \in L.
Proof.
move=> tL lh; have kE : [seq kv.1 | kv <- [seq (kv.1, h kv) | kv <- L]] = [seq kv.1 | kv <- L] by rewrite -map_comp.
split=> [|i li].
  by rewrite /transformation kE; case/andP: tL => -> _; apply/allP => _ /mapP[kv kvL ->]; exact: lh.
have [v Ev _] := tr_get tL li; exists v => //.
elim: L {tL lh kE} Ev => //= -[k w] L IH; case: eqP => [-> [->]|_ /IH [-> h2]]; first by rewrite inE eqxx.
by rewrite inE h2 orbT.
Qed.
Lemma lt_scaleP c L : transformation L -> transformation (lt_scale c L) /\
  forall i, (i < n)%N -> vimg (lt_scale c L) i = c *: vimg L i.
Proof.
move=> tL; have [|t h] := map_keys (h := fun kv => escale c kv.2) tL.
  by move=> kv kvL; apply: comb_escale; case/andP: tL => _ /allP; apply.
split=> // i li; have [v e1 [e2 _]] := h i li.
by rewrite /vimg -[lt_scale c L]/[seq (kv.1, escale c kv.2) | kv <- L] e2 e1 value_escale.
Qed.
Lemma lt_mulP L1 L2 : transformation L1 -> transformation L2 ->
  exists2 L, lt_mul a L1 L2 = Some L & transformation L /\ forall i, (i < n)%N -> vimg L i = om_ L1 (vimg L2 i).
Proof.
move=> t1 t2; rewrite /lt_mul.
pose F k := LET x := call_expr a L2 [:: (1, basis_word k)] IN LET y := call_expr a L1 x IN Some (canon y).
have FP k : (k < n)%N -> exists2 z, F k = Some z & lin_comb z /\ val_ z = om_ L1 (vimg L2 k).
  move=> lk; have b1 : blade_expr n [:: (1 : R, basis_word k)] by rewrite /blade_expr /= (mk_blade_in (wf1 lk)).
  have [x Ex [bx vx]] := call_exprP t2 b1; have [y Ey [b_y vy]] := call_exprP t1 bx.
  have vk : val_ y = om_ L1 (vimg L2 k).
    by rewrite vy vx (val_basis 1 (Ordinal lk)) scale1r (om_bvec two).
  exists (canon y); first by rewrite /F Ex /= Ey.
  rewrite value_canon vk; split=> //; apply: homog_comb; [exact: blade_canon|exact: canonical_canon|].
  rewrite value_canon vk; apply: (om_homog two) => [i|]; first exact: vimg_homog.
  exact: (vimg_homog (Ordinal lk) t2).
pose h (kv : nat * expr R) := if F kv.1 is Some z then z else [::].
have kn kv : kv \in L2 -> (kv.1 < n)%N.
  by move=> kvL; case/andP: t2 => pk _; have := map_f fst kvL; rewrite (perm_mem pk) mem_iota.
exists [seq (kv.1, h kv) | kv <- L2].
  apply: omapM_some => kv /kn lk; have [z Ez _] := FP _ lk; rewrite /h Ez; move: Ez; rewrite /F.
  by case: call_expr => //= x; case: call_expr => //= y [->].
have [|t g] := map_keys (h := h) t2; first by move=> kv /kn lk; rewrite /h; have [z -> []] := FP _ lk.
split=> // i li; have [v e1 [e2 _]] := g i li; rewrite /vimg e2 /h /=.
by have [z -> [_ ->]] := FP _ li; rewrite /vimg e1.
Qed.

Lemma lmx_add L1 L2 : transformation L1 -> transformation L2 -> lmx (lt_add L1 L2) = lmx L1 + lmx L2.
Proof. by move=> t1 t2; apply/matrixP => i j; rewrite !mxE /vimgs (lt_addP t1 t2).2 // ffunE. Qed.
Lemma lmx_minus L1 L2 : transformation L1 -> transformation L2 -> lmx (lt_minus L1 L2) = lmx L1 - lmx L2.
Proof. by move=> t1 t2; apply/matrixP => i j; rewrite !mxE /vimgs (lt_minusP t1 t2).2 // !ffunE. Qed.
Lemma lmx_scale c L : transformation L -> lmx (lt_scale c L) = c *: lmx L.
Proof. by move=> tL; apply/matrixP => i j; rewrite !mxE /vimgs (lt_scaleP c tL).2 // scale_coef. Qed.
Lemma om_mx L (x : mval R n) (i : 'I_n) : homog 1 x -> (om_ L x) [set i] = \sum_j lmx L i j * x [set j].
Proof.
by move=> hx; rewrite (om_vec two) // sum_coef; apply: eq_bigr => j _; rewrite scale_coef mxE mulrC.
Qed.
Lemma lmx_mul L1 L2 L : transformation L1 -> transformation L2 -> lt_mul a L1 L2 = Some L -> lmx L = lmx L1 *m lmx L2.
Proof.
move=> t1 t2 E; have [L' E' [tL h]] := lt_mulP t1 t2; move: E' h; rewrite E => -[<-] h.
apply/matrixP => i j; rewrite [LHS]mxE /vimgs h // om_mx; last exact: (vimg_homog j t2).
by rewrite mxE; apply: eq_bigr => k _; rewrite [lmx L2 k j]mxE.
Qed.
(* a vector is determined by its coordinates *)
Lemma vec_eq (x y : mval R n) : homog 1 x -> homog 1 y -> (forall k : 'I_n, x [set k] = y [set k]) -> x = y.
Proof. by move=> hx hy h; rewrite (vec_decomp hx) (vec_decomp hy); apply: eq_bigr => i _; rewrite h. Qed.
Lemma om_lin L1 L2 c L (x : mval R n) : homog 1 x -> transformation L1 -> transformation L2 -> transformation L ->
  lmx L = lmx L1 + c *: lmx L2 -> om_ L x = om_ L1 x + c *: om_ L2 x.
Proof.
move=> hx t1 t2 tL E.
have hL L' : transformation L' -> homog 1 (om_ L' x) by move=> t; apply: (om_homog two) => // i; exact: vimg_homog.
apply: vec_eq; [exact: hL|by apply: homogD; [exact: hL|apply: homogZ; exact: hL]|move=> i].
rewrite ffunE scale_coef !om_mx // E mulr_sumr -big_split; apply: eq_bigr => j _ /=.
by rewrite !mxE mulrDl mulrA.
Qed.

(* ---- determinant ---- *)
Lemma om_det L : transformation L -> om_ L (bl R setT) = \det (lmx L) *: bl R setT.
Proof. by move=> tL; rewrite -(om_ps two); apply: eq_om => j; exact: vimgs_lmx. Qed.
Lemma ga_e_inv : esq a \is a GRing.unit -> exists2 J, mv_inv a (ga_e a) = Some J &
  mv_ok a J /\ mvv (ga_e a) * mvv J = 1.
Proof.
move=> u; have [oe ve be _] := ga_eP two a.
have [|J E] := @mv_inv_complete R two a wf _ _ oe u; first by constructor 2; rewrite ve (ps_sqC two a).
by exists J => //; have [oJ []] := mv_inv_sound two wf oe E.
Qed.
Lemma ga_e_noinv : esq a \isn't a GRing.unit -> mv_inv a (ga_e a) = None.
Proof.
move=> nu; case E: mv_inv => [J|] //; have [oe ve be _] := ga_eP two a.
have [oJ [h _]] := mv_inv_sound two wf oe E; case/negP: nu.
have : mvv (ga_e a) * mvv (ga_e a) * (mvv J * mvv J) = 1.
  by rewrite -mulrA [mvv (ga_e a) * (mvv J * _)]mulrA h mul1r.
rewrite ve (ps_sqC two a) => /(@scal_unit R two a) //.
Qed.
Lemma lt_det_val L d : transformation L -> lt_det a L = Some d -> d = \det (lmx L).
Proof.
move=> tL; rewrite /lt_det; have [oe ve be _] := ga_eP two a.
have [x -> [ox vx bx]] := lt_callP tL oe be; rewrite /=; case E: mv_inv => [J|] //=.
have [oJ [h _]] := mv_inv_sound two wf oe E.
have [p -> [op vp _]] := mv_mulP two wf ox oJ => -[<-].
have vp' : mvv p = scal a (\det (lmx L)) by rewrite vp vx ve om_det // -scalerAl -ve h.
have sp : gpart 0 (mvv p) = mvv p by rewrite vp' gpart_scal.
by have := scalar_val op sp; rewrite vp' => /(one_inj n) <-.
Qed.
Lemma lt_det_total L : transformation L -> esq a \is a GRing.unit -> lt_det a L = Some (\det (lmx L)).
Proof.
move=> tL u; case E: (lt_det a L) => [d|]; first by rewrite (lt_det_val tL E).
move: E; rewrite /lt_det; have [oe ve be _] := ga_eP two a.
have [x -> [ox vx bx]] := lt_callP tL oe be; have [J -> [oJ _]] := ga_e_inv u.
by rewrite /=; have [p -> _] := mv_mulP two wf ox oJ.
Qed.
Lemma lt_det_none L : transformation L -> esq a \isn't a GRing.unit -> lt_det a L = None.
Proof.
move=> tL u; rewrite /lt_det; have [oe ve be _] := ga_eP two a.
by have [x -> _] := lt_callP tL oe be; rewrite /= ga_e_noinv.
Qed.
Lemma lt_singularP L : transformation L -> esq a \is a GRing.unit -> lt_is_singular a L = Some (\det (lmx L) == 0).
Proof.
move=> tL u; rewrite /lt_is_singular; have [oe ve be _] := ga_eP two a.
have [x -> [ox vx bx]] := lt_callP tL oe be; have [J -> [oJ vJ]] := ga_e_inv u; rewrite /=.
have JE : mvv J = (esq a)^-1 *: (bl R setT : C).
  have h : mvv (ga_e a) * ((esq a)^-1 *: (bl R setT : C)) = 1.
    by rewrite ve -scalerAr (ps_sqC two a) scalerA mulVr // scale1r.
  by have /cl_mulC1 h' := h; rewrite -[LHS]mul1r -h' -mulrA vJ mulr1.
rewrite -[mv_lc a x J]/(mv_single LeftC a x J).
have [p -> [op vp bp]] := mv_singleP two wf LeftC true ox oJ; rewrite /=; congr (Some (_ == 0)).
rewrite (mv_scalarP two op (bp isT)) vp vx ve om_det // JE.
have hE : homog n (bl R [set: 'I_n]) by exact: homog_ps.
rewrite (sel_homog (ga_metric two a) _ (homogZ _ hE) (homogZ _ hE)) /= /left_grade ?leqnn ?ltnn subnn ffunE cards0 eqxx.
by rewrite -scalerAl -scalerAr (ps_sqC two a) !scale_coef bl_coef eqxx mulr1 mulVr // mulr1.
Qed.

(* ---- a function ---- *)
Lemma vec_object X : mv_ok a X -> bladed a X -> homog 1 (mvv X : mval R n) -> lin_comb (obj X).
Proof.
move=> oX bX hX; have bx : blade_expr n (obj X) by case/orP: bX; [exact: ok_blade|exact: ok_blade_ortho].
by apply: homog_comb => //; case/andP: oX.
Qed.
Lemma basis_vecP i : (i < n)%N -> [/\ mv_ok a (mv_basis_vec R i), bladed a (mv_basis_vec R i), lin_comb (obj (mv_basis_vec R i)) &
  mvv (mv_basis_vec R i) = if insub i is Some k then bl R [set (k : 'I_n)] else 0].
Proof.
move=> li; have lc : lin_comb (obj (mv_basis_vec R i)).
  by rewrite /lin_comb /= andbT; apply/basis_wordsP; exists i.
split=> //; first by rewrite /mv_ok /= [blade_expr _ _](comb_blade lc) andbT /canonical /= oner_eq0.
by rewrite /Mv_Proof.mvv /= insubT (val_basis 1 (Ordinal li)) scale1r.
Qed.
Lemma lt_of_functionP A B (F : mv R -> option (mv R)) (phi : {linear mval R n -> mval R n}) :
  mv_ok a A -> mv_ok a B -> bladed a A -> bladed a B -> lin_comb (obj A) -> lin_comb (obj B) ->
  (forall u, homog 1 u -> homog 1 (phi u)) ->
  (forall X, mv_ok a X -> bladed a X -> lin_comb (obj X) -> yields true (F X) (phi (mvv X))) ->
  exists2 L, lt_of_function a A B F = Some L & transformation L /\ forall i : 'I_n, vimgs L i = phi (bl R [set i]).
Proof.
move=> oA oB bA bB lA lB hphi hF; rewrite /lt_of_function.
have [s -> [os vs /(_ _) bs]] := mv_addP two wf oA oB; rewrite /=.
have {}bs : bladed a s by apply: bs; rewrite bA.
have hs : homog 1 (mvv s : mval R n) by rewrite vs; apply: homogD; exact: comb_homog.
have [Fs -> [oFs vFs _]] := hF s os bs (vec_object os bs hs); rewrite /=.
have [FA -> [oFA vFA _]] := hF A oA bA lA; have [FB -> [oFB vFB _]] := hF B oB bB lB; rewrite /=.
have [t -> [ot vt _]] := mv_addP two wf oFA oFB; rewrite /= (mv_eqP two wf oFs ot) /=.
rewrite vFs vt vFA vFB vs linearD eqxx /=.
pose f i := if F (mv_basis_vec R i) is Some Y then obj Y else [::].
have fP i : (i < n)%N -> exists2 Y, F (mv_basis_vec R i) = Some Y & [/\ mv_ok a Y, bladed a Y, lin_comb (f i) & obj Y = f i].
  move=> li; have [o b l v] := basis_vecP li; have [Y E [oY vY /(_ isT) bY]] := hF _ o b l; exists Y => //.
  rewrite /f E; split=> //; apply: vec_object => //; rewrite vY; apply: hphi; exact: comb_homog.
exists [seq (i, f i) | i <- iota 0 n].
  apply: omapM_some => i; rewrite mem_iota => li; have [Y -> [oY bY lf e]] := fP i li; rewrite /=.
  rewrite (is_vectorP two wf oY) /= (is_zeroP two oY).
  have -> : gpart 1 (mvv Y : mval R n) == mvv Y by apply/eqP; rewrite /Mv_Proof.mvv e; exact: comb_homog.
  by rewrite andbT negbK andbN e.
split; first by apply: table_tr => i li; have [Y _ []] := fP i li.
move=> i; rewrite /vimgs table_vimg //; have [o b l v] := basis_vecP (ltn_ord i).
have [Y E [oY vY _]] := hF _ o b l; rewrite /f E -[val_ _]/(mvv Y) vY v valK //.
Qed.
End Lt.
