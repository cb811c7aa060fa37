(* Props_Coef.v -- properties C16 (coefficients), C39 (equality and hash),
   C41 (identity of algebras) and C55 (compare).

   [coefficient x b] (Spec_Mv.v) is the total coefficient of the symbol b in
   the expression x; [blades_flat n] lists the basis blades in canonical order,
   [nth [::] (blades n) r] those of grade r. *)
From Coq Require Import String Ascii.
From mathcomp Require Import all_ssreflect all_algebra.
From Verif Require Import NatTac AlgTactics Exterior Clifford Blades Spec_Grade Grades GradeLaws.
From Verif Require Import Spec_Index PyBase PyStr Ga_Model Ga_Proof_Tables Ga_Proof_Sort Ga_Proof_Sem Ga_Proof_Reduce.
From Verif Require Import Ga_Sem Ga_Proof_Rep Ga_Proof_Conv Ga_Proof_Mul Spec_Clifford Clifford_Unique Spec_Mv Ga_Proof_Den Ga_Proof_Wedge Ga_Proof_Inner.
From Verif Require Import Ga_Proof_Grade Mv_Model Mv_Proof Mv_Expr Mv_Proof_Expr Names_Model Names_Proof Props_Mv Coef_Model Coef_Proof.
Set Implicit Arguments.
Unset Strict Implicit.
Unset Printing Implicit Defensive.
Import GRing.Theory.
Local Open Scope ring_scope.
Open Scope py_scope.

Section Coefs.
Variables (R : comUnitRingType) (two : (2%:R : R) \is a GRing.unit) (a : ga R).
Hypothesis wf : wf_ga a.
Notation n := (ga_n a).
Implicit Types (X Y Z : mv R) (p q : py R) (x : expr R) (b w : word).

Lemma one_in : [::] \in blades_flat n.
Proof. by rewrite blades_flatE; apply/mapP; exists [::] => //; rewrite mem_indexes_flat. Qed.
(* ---- C16: expansion loses nothing: the bases are distinct, and every symbol
   keeps its coefficient (x: any sum of multiples of symbols) ---- *)
Theorem C16_expand x : all (fun t => size t.2 <= 1)%N x ->
  uniq [seq t.2 | t <- linear_expand x] /\
  forall b, coefficient (linear_expand x) b = coefficient x b.
Proof.
move=> sx; split; first exact: linear_expand_uniq.
by move=> b; apply: linear_expand_coef; rewrite all_map.
Qed.
(* components(): one term per blade with a non-zero coefficient, in canonical order *)
Theorem C16_components X : mv_valid a X -> blade_form a X ->
  mv_components a X = Some (if obj X is [::] then [:: mv_const a 0] else
    [seq mk_mv a [:: (coefficient (obj X) b, b)] | b <- blades_flat n & coefficient (obj X) b != 0]).
Proof.
move=> hX bX; rewrite /mv_components (valid_expand hX).
have sub := valid_blades hX bX; have /andP[uX nzX] := valid_canonical hX.
case E: (obj X) => [|t0 x0]; first by rewrite /= /py_index one_in.
rewrite -E; set ts := obj X.
have -> : omapM (fun t : R * word => LET i := py_index (blades_flat n) t.2 IN Some (i, t)) ts =
    Some [seq (index t.2 (blades_flat n), t) | t <- ts].
  have: {subset words ts <= blades_flat n} by exact: sub.
  elim: (ts) => //= t ts' IH s; rewrite /py_index s ?mem_head //= -/(py_index _ _) IH //.
  by move=> w h; apply: s; rewrite in_cons h orbT.
rewrite /= sort_map -map_comp /=; congr Some.
rewrite (eq_filter (a2 := fun b => b \in words ts)); last by move=> b; rewrite (valid_coef _ hX).
rewrite -(@sort_index _ (blades_flat n) (words ts)) //; last 1 first.
  by rewrite blades_flatE map_inj_uniq ?indexes_flat_uniq //; exact: mk_blade_inj.
rewrite /words sort_map -map_comp; apply/eq_in_map => t; rewrite mem_sort => tx /=.
by rewrite -(coef_mem uX tx).
Qed.
(* a term that is no basis blade (base representation) makes components() raise *)
Theorem C16_components_raises X : mv_valid a X -> ~~ all (fun t => t.2 \in blades_flat n) (obj X) ->
  mv_components a X = None.
Proof.
move=> hX; rewrite /mv_components (valid_expand hX); case: (obj X) => // t x.
have h : forall l : expr R, ~~ all (fun t => t.2 \in blades_flat n) l ->
    omapM (fun t : R * word => LET i := py_index (blades_flat n) t.2 IN Some (i, t)) l = None.
  elim=> //= t' l IH; rewrite negb_and /py_index; case: ifP => //= _ /IH E.
  by rewrite -/(py_index _ _) E.
by move=> /h ->.
Qed.

(* get_coefs(r): the coefficients of the blades of grade r, and an exception if
   there is any other component or no such grade; negative r counts from the end *)
Lemma get_coefs_loopP bl (ts : expr R) cs : uniq bl -> size cs = size bl ->
  get_coefs_loop bl ts cs =
  if all (fun t => (t.1 == 0) || (t.2 \in bl)) ts then
    Some [seq c.1 + coef [seq t <- ts | t.1 != 0] c.2 | c <- zip cs bl] else None.
Proof.
move=> ub; elim: ts cs => [|[c b] ts IH] cs sc /=.
  congr Some; rewrite -[LHS](@unzip1_zip _ _ cs bl) ?sc // /unzip1; apply: eq_map => c.
  by rewrite coef_nil addr0.
case: eqP => [->|nc] /=; first exact: IH.
rewrite /py_index; case: ifP => //= hb.
rewrite IH; last by rewrite size_set_nth sc; apply/maxn_idPr; rewrite index_mem.
case: ifP => // _; congr Some.
have hi : (index b bl < size bl)%N by rewrite index_mem.
apply: (@eq_from_nth _ 0); first by rewrite !size_map !size_zip size_set_nth sc (maxn_idPr _).
move=> i; rewrite size_map size_zip size_set_nth sc (maxn_idPr _) // minnn => ib.
rewrite !(nth_map (0, [::])) ?size_zip ?size_set_nth ?sc ?(maxn_idPr _) ?minnn //.
rewrite !nth_zip ?size_set_nth ?sc ?(maxn_idPr _) //= nth_set_nth /= coef_cons /=.
have -> : (b == nth [::] bl i) = (i == index b bl).
  by rewrite -{1}(nth_index [::] hb) nth_uniq // eq_sym.
by case: eqP => [->|_]; rewrite ?add0r // addrA.
Qed.
Lemma py_nth_blades k : py_nth (blades n) (Posz k) = if (k <= n)%N then Some (nth [::] (blades n) k) else None.
Proof.
have sb : size (blades n) = n.+1 by rewrite /blades /indexes !size_map size_iota.
rewrite /py_nth; case: leqP => h; first by rewrite (nth_map [::]) ?sb.
by rewrite nth_default // size_map sb.
Qed.
Lemma py_nth_neg (T : Type) (l : seq T) k : (k < size l)%N ->
  py_nth l (Negz k) = py_nth l (Posz (size l - k.+1)).
Proof. by rewrite /= => ->. Qed.
Lemma blades_grade_uniq r : (r <= n)%N -> uniq (nth [::] (blades n) r).
Proof.
move=> rn; rewrite /blades (nth_map [::]) ?size_map ?size_iota //.
rewrite map_inj_uniq; last exact: mk_blade_inj.
by rewrite indexes_nth //; apply: comb_uniq; exact: iota_uniq.
Qed.
Theorem C16_get_coefs X r : mv_valid a X -> (r <= n)%N ->
  mv_get_coefs a X (Posz r) =
  if all (fun t => t.2 \in nth [::] (blades n) r) (obj X) then
    Some [seq coefficient (obj X) b | b <- nth [::] (blades n) r] else None.
Proof.
move=> hX rn; rewrite /mv_get_coefs py_nth_blades rn /= (valid_expand hX).
rewrite get_coefs_loopP ?blades_grade_uniq ?size_nseq //.
have /andP[uX nzX] := valid_canonical hX.
set l := if obj X is [::] then _ else _; set bl := nth _ _ _.
have -> : all (fun t => (t.1 == 0) || (t.2 \in bl)) l = all (fun t => t.2 \in bl) (obj X).
  rewrite /l; case: (obj X) nzX => [|t x] nz; first by rewrite /= eqxx.
  by apply: eq_in_all => u /(allP nz) /negPf ->.
have -> : [seq t <- l | t.1 != 0] = obj X.
  rewrite /l; case: (obj X) nzX => [|t x] nz; first by rewrite /= eqxx.
  exact/all_filterP.
case: ifP => // _; congr Some; apply: (@eq_from_nth _ 0).
  by rewrite !size_map size_zip size_nseq minnn.
move=> i; rewrite size_map size_zip size_nseq minnn => ib.
by rewrite !(nth_map (0, [::])) ?(nth_map [::]) ?size_zip ?size_nseq ?minnn // nth_zip ?size_nseq //= nth_nseq ib add0r.
Qed.
Theorem C16_get_coefs_range X r : mv_valid a X ->
  ((n < r)%N -> mv_get_coefs a X (Posz r) = None) /\
  ((r <= n)%N -> mv_get_coefs a X (Negz r) = mv_get_coefs a X (Posz (n - r))) /\
  ((n < r)%N -> mv_get_coefs a X (Negz r) = None).
Proof.
have sb : size (blades n) = n.+1 by rewrite /blades /indexes !size_map size_iota.
move=> hX; split; [|split] => h; rewrite /mv_get_coefs.
- by rewrite py_nth_blades leqNgt h.
- by rewrite py_nth_neg sb // subSS.
- by rewrite /py_nth sb ltnS leqNgt h.
Qed.

(* blade_coefs(): the coefficients of all blades / of the listed basis blades;
   raises if something else is listed *)
Definition is_basis_blade (y : mv R) : bool := [&& size (obj y) == 1%N & all (fun t => (t.1 == 1) && (t.2 \in blades_flat n)) (obj y)].
Lemma blades_in b : b \in blades_flat n -> (size b <= 1)%N.
Proof. by rewrite blades_flatE => /mapP[I _ ->]; exact: mk_blade_size. Qed.
Lemma basis_blade_okE (y : mv R) : mv_valid a y -> basis_blade_ok a y = Some (is_basis_blade y).
Proof.
move=> hy; rewrite /basis_blade_ok /is_base (valid_expand hy) /is_basis_blade.
have cy := valid_canonical hy; have sy := valid_size hy.
case E: (obj y) => [|[c w] [|t l]] /=; last by rewrite eqseq_cons andbF.
  by rewrite eqseq_cons eq_sym oner_eq0.
rewrite eqseq_cons andbT; case: eqP => //= ->.
have cc : canon [:: (1 : R, w)] = [:: (1, w)] by rewrite /canon /= oner_eq0.
rewrite /new_mv /characterise /= !cc /= andbT.
case: w {hy} E cc => [|s w] E cc.
  rewrite /= /is_blade /= /characterise /= !cc /=; congr Some; symmetry.
  by exact: one_in.
rewrite [nilp _]/= eqxx [true && _]/=; case: ifP => [hw|hw] //=.
have w0 : w = [::] by move: sy; rewrite /words E /= andbT; case: w {E cc hw}.
rewrite w0 /=; case D: (dget _ _) => [g|].
  have [I [wI EI _]] := b2g_some D; move: hw; rewrite w0 EI blades_flatE map_f // mem_indexes_flat //.
by rewrite /is_blade.
Qed.
Theorem C16_blade_coefs X : mv_valid a X ->
  mv_blade_coefs a X None = Some [seq coefficient (obj X) b | b <- blades_flat n].
Proof.
move=> hX; rewrite /mv_blade_coefs /= (valid_expand hX) -map_comp; congr Some.
have /andP[uX _] := valid_canonical hX.
apply: eq_map => b /=; case E: (obj X) uX => [|t x] u; last exact: (coef_index b u).
by rewrite [RHS](coef_nil R) /=; case: ifP => // _; case: (_ == _).
Qed.
Lemma cobj_new x : cobj (new_mv a x) = canon x.
Proof. by rewrite /new_mv /characterise /=; case: ifP => // _; case: ifP => // _; case: char_loop. Qed.
(* set_coef(r, i, v): the coefficient of the i-th blade of grade r becomes v and
   no other coefficient changes *)
Theorem C16_set_coef X (r i : nat) (v : R) : mv_valid a X -> (r <= n)%N -> (i < size (nth [::] (blades n) r))%N ->
  exists o, set_coef a (new_mv a (obj X)) (Posz r) (Posz i) v = Some o /\
  forall b, coefficient (cobj o) b = if b == nth [::] (nth [::] (blades n) r) i then v else coefficient (obj X) b.
Proof.
move=> hX rn li; rewrite /set_coef py_nth_blades rn.
have nE : py_nth (nth [::] (blades n) r) (Posz i) = Some (nth [::] (nth [::] (blades n) r) i).
  by rewrite /py_nth (nth_map [::]).
rewrite /obnd nE; eexists; split; first by [].
move=> b; rewrite [cobj _]/=; rewrite [LHS]coef_canon coef_cat; set b0 := nth _ _ i.
have -> : cobj (new_mv a (obj X)) = obj X by rewrite cobj_new canon_id // (valid_canonical hX).
rewrite (valid_expand hX); have /andP[uX _] := valid_canonical hX.
set old := if _ then _ else _.
have oldE : old = coefficient (obj X) b0.
  rewrite /old; case E: (obj X) uX => [|t x] u; last exact: (coef_index b0 u).
  by rewrite [RHS](coef_nil R) /=; case: ifP => // _; case: (_ == _).
rewrite oldE coef_cons coef_nil addr0 /= eq_sym; case: eqP => [->|_]; last by rewrite addr0.
by rewrite addrC subrK.
Qed.
Theorem C16_blade_coefs_list X (ys : seq (mv R)) : mv_valid a X -> all (mv_valid a) ys ->
  mv_blade_coefs a X (Some ys) =
  if all is_basis_blade ys then Some [seq coefficient (obj X) (head (0, [::]) (obj y)).2 | y <- ys] else None.
Proof.
move=> hX hys; rewrite /mv_blade_coefs.
have -> : omapM (basis_blade_ok a) ys = Some [seq is_basis_blade y | y <- ys].
  by elim: ys hys => //= y ys IH /andP[hy /IH ->]; rewrite basis_blade_okE.
rewrite /= all_map (eq_all (a2 := is_basis_blade)) //; case: ifP => //= ok.
rewrite (valid_expand hX) -map_comp; congr Some; have /andP[uX _] := valid_canonical hX.
elim: ys ok {hys} => //= y ys IH /andP[/andP[/eqP s1 _] /IH ->]; congr (_ :: _).
case: (obj y) s1 => [|[c w] [|]] //= _.
case E: (obj X) uX => [|t x] u; last exact: (coef_index w u).
by rewrite [RHS](coef_nil R) /=; case: ifP => // _; case: (_ == _).
Qed.
(* proj(l): keeps exactly the coefficients of the listed basis blades *)
Theorem C16_proj X (ys : seq (mv R)) b : mv_valid a X -> blade_form a X -> 
  mv_valid a (mv_proj a X ys) /\
  coefficient (obj (mv_proj a X ys)) b = if [:: (1, b)] \in [seq obj y | y <- ys] then coefficient (obj X) b else 0.
Proof.
move=> hX bX; split.
  rewrite mv_validE; apply: mk_mv_blade; apply/allP => w /mapP[t]; rewrite mem_filter => /andP[_ tx] ->.
  move: tx; rewrite (valid_expand hX); case E: (obj X) => [|t0 x0].
    by rewrite inE => /eqP ->; exact: one_in.
  by move=> tx; apply: (valid_blades hX bX); rewrite E; exact: map_f.
rewrite [LHS](coef_canon _ b) (valid_expand hX); set S := [seq obj y | y <- ys].
have h : forall l : expr R, coef [seq t <- l | [:: (1, t.2)] \in S] b = if [:: (1, b)] \in S then coef l b else 0.
  elim=> [|t l IH] /=; first by rewrite coef_nil if_same.
  case hS: (_ \in S); rewrite !coef_cons IH; case: eqP => [E|_]; rewrite ?add0r // -E hS.
    by [].
  by [].
rewrite h; case: ifP => // _; case: (obj X) => // ; rewrite coef_cons -[coefficient _ _]/(coef _ _) !coef_nil addr0 /=; by case: (_ == _).
Qed.

(* ---- C39: equality ---- *)
Theorem C39_equivalence X Y Z : mv_valid a X -> mv_valid a Y -> mv_valid a Z ->
  [/\ mv_eq a X X = Some true,
      mv_eq a X Y = mv_eq a Y X &
      mv_eq a X Y = Some true -> mv_eq a Y Z = Some true -> mv_eq a X Z = Some true].
Proof.
rewrite !mv_validE => hX hY hZ; rewrite !(mv_eqP two wf) //; split.
- by rewrite eqxx.
- by rewrite eq_sym.
- by move=> [/eqP ->].
Qed.
(* A == B exactly when all blade coefficients agree, whatever the representations *)
Theorem C39_coefficients X Y : mv_valid a X -> mv_valid a Y ->
  exists X' Y', [/\ blade_rep a X = Some X', blade_rep a Y = Some Y' &
    mv_eq a X Y = Some (all (fun b => coefficient (obj X') b == coefficient (obj Y') b) (blades_flat n))].
Proof.
rewrite !mv_validE => hX hY.
have [X' -> [bX oX vX]] := blade_repP two wf hX; have [Y' -> [bY oY vY]] := blade_repP two wf hY.
exists X', Y'; split=> //; rewrite (mv_eqP two wf) // -vX -vY; congr Some.
have [rX rY] := (ok_blade oX bX, ok_blade oY bY).
apply/eqP/allP => [E b|E].
  rewrite blades_flatE => /mapP[I]; rewrite mem_indexes_flat => wI ->; apply/eqP.
  by rewrite [LHS](coef_value two rX wI) [RHS](coef_value two rY wI) -!/(mvv _ _ _) E.
rewrite /mvv (value_mv_of two rX) (value_mv_of two rY); apply/ffunP => S; rewrite !ffunE.
apply/eqP; apply: E; apply: mk_blade_in; exact: (list_of_wf S).
Qed.
Theorem C39_scalar X c : mv_valid a X -> mv_eqc a X c = mv_eq a X (mv_const a c).
Proof.
rewrite mv_validE => hX; have [o v _] := const_ok two a c.
by rewrite (mv_eqcP two) // (mv_eqP two wf) // v.
Qed.
(* congruence: replacing the multivectors in an expression by equal ones gives an
   equal result.  [same p q]: p and q are the same expression up to leaves that
   compare equal. *)
Fixpoint same p q : Prop :=
  match p, q with
  | Val X, Val Y => mv_eq a X Y = Some true
  | Num c, Num d => c = d
  | Neg p, Neg q | Even p, Even q | Odd p, Odd q | Invol p, Invol q | Rev p, Rev q | Ccon p, Ccon q
  | BaseRep p, BaseRep q | BladeRep p, BladeRep q => same p q
  | AddC p c, AddC q d | SubC p c, SubC q d => same p q /\ c = d
  | RSubC c p, RSubC d q | Scale c p, Scale d q => c = d /\ same p q
  | Pow p k, Pow q j | Grade p k, Grade q j => same p q /\ k = j
  | Add p p', Add q q' | Sub p p', Sub q q' | Mul p p', Mul q q' | Wedge p p', Wedge q q'
  | Dot p p', Dot q q' | LC p p', LC q q' | RC p p', RC q q' | Com p p', Com q q'
  | Anticom p p', Anticom q q' => same p q /\ same p' q'
  | _, _ => False
  end.
Theorem C39_congruence p q : legal a p -> legal a q -> same p q -> run_eq a p q = Some true.
Proof.
pose cm : mval R n -> mval R n -> mval R n := cmul (ga_metric two a).
have Hc : is_clifford_product (fun i j : 'I_n => geff a i j) cm := clifford_product_exists (ga_metric two a).
move=> lp lq s; apply: (run_law two wf Hc) => //; elim: p q lp lq s => //.
all: try by move=> p IH [] //= q /IH h /h e /e ->.
all: try by move=> p IHp p' IHq [] //= q q' /andP[/IHp h1 /IHq h2] /andP[/h1 h3 /h2 h4] [/h3 -> /h4 ->].
all: try by move=> p IH c [] //= q d /IH h /h e [/e -> ->].
all: try by move=> c p IH [] //= d q /IH h /h e [-> /e ->].
all: try by move=> p IH [] //= q /andP[/IH h _] /andP[/h e _] /e ->.
- move=> X [] //= Y; rewrite !mv_validE => oX oY; rewrite (mv_eqP two wf) // => -[/eqP E].
  by rewrite !(den_ok two Hc).
- by move=> c [] //= d _ _ ->.
- by move=> p IH c [] //= q d /andP[/IH h _] /andP[/h e _] [/e -> ->].
Qed.
(* equal multivectors in the same representation have equal hashes: the hashed
   key is the same and the hashed expressions have the same terms *)
Theorem C39_hash X Y name : mv_valid a X -> mv_valid a Y -> blade_form a X = blade_form a Y ->
  mv_eq a X Y = Some true ->
  exists k x y, [/\ hash_input a name X = Some (k, x), hash_input a name Y = Some (k, y) & perm_eq x y].
Proof.
rewrite !mv_validE => hX hY bb; rewrite (mv_eqP two wf) // => -[/eqP E].
rewrite /hash_input (is_scalarP two wf hX) (is_scalarP two wf hY) E /=.
do 3!eexists; split; [reflexivity|reflexivity|].
have r (b1 b2 : bool) x : b1 || is_ortho a = b2 || is_ortho a -> in_rep a b1 x = in_rep a b2 x by rewrite /in_rep => ->.
apply: (@rep_perm _ two a (brep X)) => //; first exact: ok_rep.
by rewrite (r _ (brep Y) _ bb); exact: ok_rep.
Qed.
(* a scalar multivector is hashed like the scalar it equals *)
Theorem C39_hash_scalar X c name : mv_valid a X -> mv_eqc a X c = Some true ->
  exists x, [/\ hash_input a name X = Some (None, x) & perm_eq x (canon [:: (c, [::])])].
Proof.
move=> hX; rewrite /mv_eqc /hash_input; case: (is_scalar a X) => //= b [/andP[-> p]].
by exists (canon (obj X)).
Qed.

(* ---- C41: operators and == on multivectors of different algebras raise, in one
   algebra they give the ordinary result ---- *)
Theorem C41_mixing k (X Y : tagged R) : mv_valid a (body X) -> mv_valid a (body Y) ->
  (owner X <> owner Y -> tagged_op a k X Y = None) /\
  (owner X = owner Y -> tagged_op a k X Y = plain_op a k (body X) (body Y) /\ isSome (plain_op a k (body X) (body Y))).
Proof.
rewrite !mv_validE => hX hY; rewrite /tagged_op /ga_eq; split=> [/eqP/negPf ->//|->]; rewrite eqxx; split=> //.
case: k; rewrite /plain_op /mv_dot /mv_lc /mv_rc.
- by have [? ->] := mv_addP two wf hX hY.
- by have [? ->] := mv_subP two wf hX hY.
- by have [? ->] := mv_mulP two wf hX hY.
- by have [? ->] := mv_wedgeP two wf hX hY.
- by have [? ->] := mv_singleP two wf Hestenes true hX hY.
- by have [? ->] := mv_singleP two wf LeftC true hX hY.
- by have [? ->] := mv_singleP two wf RightC true hX hY.
- by have [? ->] := mv_comP two wf hX hY.
- by have [? ->] := mv_anticomP two wf hX hY.
- by rewrite (mv_eqP two wf).
Qed.
End Coefs.

(* two constructor calls never give algebras that compare equal, whatever fails in
   between: h lists which of the successive constructions succeed *)
Theorem C41_distinct count h i j u v :
  nth None (ga_history count h) i = Some u -> nth None (ga_history count h) j = Some v ->
  ga_eq u v = (i == j).
Proof.
have E k w : nth None (ga_history count h) k = Some w -> w = ("GA" +++ str_nat (count + k))%string.
  elim: h count k => [|b h IH] c [|k] //=; first by case: b => // -[<-]; rewrite addn0.
  by move=> /IH ->; rewrite addSnnS.
move=> /E -> /E ->; apply/eqP/eqP => [/app_injl/str_nat_inj/eqP|-> //].
by rewrite eqn_add2l => /eqP.
Qed.
(* every successful construction has an identity; failures have none *)
Theorem C41_history count h i : (i < size h)%N ->
  isSome (nth None (ga_history count h) i) = nth false h i.
Proof.
elim: h count i => //= b h IH c [|i] //=; first by case: b.
by rewrite ltnS; exact: IH.
Qed.
Theorem C41_equivalence u v w :
  [/\ ga_eq u u, ga_eq u v = ga_eq v u & ga_eq u v -> ga_eq v w -> ga_eq u w].
Proof. by rewrite /ga_eq; split; [|rewrite eq_sym|move=> /eqP ->]. Qed.

(* ---- C55: compare ---- *)
Section Compare.
Variables (F : fieldType) (two : (2%:R : F) \is a GRing.unit) (a : ga F).
Hypothesis wf : wf_ga a.
Notation n := (ga_n a).
Implicit Types (X Y : mv F) (c : F).
Let cm : mval F n -> mval F n -> mval F n := cmul (ga_metric two a).
Let Hc : is_clifford_product (fun i j : 'I_n => geff a i j) cm := clifford_product_exists (ga_metric two a).

Lemma compare_loopP c (ts us : expr F) : size ts = size us -> c != 0 ->
  compare_loop c ts us = if (ts == escale c us) && all (fun t => t.1 != 0) us then c else 0.
Proof.
move=> s nc; elim: ts us s => [|[ac ab] ts IH] [|[bc bb] us] //= [/IH {}IH].
rewrite eqseq_cons xpair_eqE; have [->|nb] /= := eqVneq bc 0; first by rewrite andbF.
case: (ab == bb) => /=; last by rewrite andbF.
rewrite andbT; have -> : (ac / bc != c) = (ac != c * bc) by rewrite (can2_eq (divfK nb) (mulfK nb)).
by case: eqP => _ /=; rewrite ?eqxx ?IH.
Qed.
Lemma compareE X Y : mv_valid a X -> mv_valid a Y -> 
  mv_compare X Y = if [&& obj Y != [::], [seq t.2 | t <- obj X] == [seq t.2 | t <- obj Y] & 
       obj X == escale ((head (0, [::]) (obj X)).1 / (head (0, [::]) (obj Y)).1) (obj Y)]
    then (head (0, [::]) (obj X)).1 / (head (0, [::]) (obj Y)).1 else 0.
Proof.
move=> hX hY; rewrite /mv_compare (valid_expand hX) (valid_expand hY).
have /andP[_ nzX] := valid_canonical hX; have /andP[_ nzY] := valid_canonical hY.
case: (obj X) nzX => [|[ac ab] ts] nzX; case: (obj Y) nzY => [|[bc bb] us] nzY.
- by rewrite /= eqxx.
- by rewrite /= mul0r !if_same.
- by rewrite /= eqxx /= !if_same.
have /andP[/= na nts] := nzX; have /andP[/= nb nus] := nzY.
case: eqP => [/= [ss]|ns] /=; last first.
  by rewrite eqseq_cons; case: eqP => //= -> ; case: eqP => //= /(congr1 size); rewrite !size_map => ss; case: ns; rewrite /= ss.
case: eqP => [E|_] /=; last by [].
have [-> Es] : ab = bb /\ [seq t.2 | t <- ts] = [seq t.2 | t <- us] by case: E.
rewrite nb eqxx /= compare_loopP //; last by rewrite mulf_neq0 // invr_neq0.
have -> : all (fun t : F * seq (bool * seq nat) => t.1 != 0) us by [].
rewrite andbT eqseq_cons xpair_eqE.
by rewrite [bb == _]eqxx divfK // eqxx.
Qed.
(* a non-zero result c is a scale factor: A == c*B *)
Theorem C55_sound X Y c : mv_valid a X -> mv_valid a Y -> mv_compare X Y = c -> c != 0 ->
  run_eq a X (c ##. Y) = Some true.
Proof.
move=> hX hY; rewrite compareE //; case: ifP; last by move=> _ <-; rewrite eqxx.
move=> /and3P[_ _ /eqP E] Ec nc; apply: (run_law two wf Hc) => //=.
rewrite E Ec /den /escale big_map scaler_sumr; apply: eq_bigr => t _ /=.
by rewrite scalerA.
Qed.
(* and every scale factor is found, if the two expansions list their blades in the
   same order *)
Theorem C55_complete X Y c : mv_valid a X -> mv_valid a Y -> obj Y != [::] -> c != 0 ->
  [seq t.2 | t <- obj X] = [seq t.2 | t <- obj Y] -> blade_form a X -> blade_form a Y ->
  run_eq a X (c ##. Y) = Some true -> mv_compare X Y = c.
Proof.
move=> hX hY nY nc E bX bY; rewrite (run_eqP two wf Hc) //= => -[/eqP D].
have [oX oY] : mv_ok a X /\ mv_ok a Y by rewrite -!mv_validE.
have [rX rY] := (bladed_blade oX bX, bladed_blade oY bY).
have co w : w \in words (obj X) -> coef (obj X) w = c * coef (obj Y) w.
  move=> h; have := allP rX w h; case/bladeP=> I wI ->.
  rewrite (coef_value two rX wI) (coef_value two rY wI) -!/(mvv _ _ _) -(den_ok two Hc oX) -(den_ok two Hc oY) D.
  by rewrite scale_coef.
have /andP[uX _] := valid_canonical hX; have /andP[uY nzY] := valid_canonical hY.
have EX : obj X = escale c (obj Y).
  have -> : obj X = [seq (coef (obj X) w, w) | w <- words (obj X)].
    by rewrite -map_comp -[LHS]map_id; apply/eq_in_map => t tx; rewrite /= -(coef_mem uX tx).
  have -> : words (obj X) = words (obj Y) by exact: E.
  rewrite /escale -map_comp; apply/eq_in_map => t tY /=.
  by rewrite co ?(coef_uniq uY tY) //; rewrite /words E; exact: map_f.
rewrite compareE // nY E eqxx /= EX; case: (obj Y) nY nzY => // -[bc bb] us _ /andP[/= nb _].
by rewrite /= mulfK // eqxx.
Qed.
(* so 0 means: not a non-zero multiple, for expansions in the same order *)
Theorem C55_zero X Y : mv_valid a X -> mv_valid a Y -> obj Y != [::] ->
  [seq t.2 | t <- obj X] = [seq t.2 | t <- obj Y] -> blade_form a X -> blade_form a Y ->
  mv_compare X Y = 0 -> forall c, c != 0 -> run_eq a X (c ##. Y) = Some false.
Proof.
move=> hX hY nY E bX bY z c nc; have := run_eqP two wf Hc (p := X) (q := c ##. Y) hX hY.
case: eqP => // D H; have := C55_complete hX hY nY nc E bX bY H; rewrite z => /eqP.
by rewrite eq_sym (negPf nc).
Qed.
End Compare.

(* ---- concrete cases, in the oblique plane mv_ga of Props_Mv.v ---- *)
Example C16_ex : [/\ mv_valid mv_ga mv_X && blade_form mv_ga mv_X,
  (omap (fun l => l == [:: 0; 1; 0; 3%:R]) (mv_blade_coefs mv_ga mv_X None)) = Some true,
  isSome (mv_get_coefs mv_ga mv_X 1) = false,
  (omap (fun l => l == [:: 1; -1]) (mv_get_coefs mv_ga mv_V 1)) = Some true &
  (omap (fun l => [seq obj Z | Z <- l] == [:: [:: (1, mk_blade [:: 0%N])]; [:: (3%:R, mk_blade [:: 0; 1]%N)]])
     (mv_components mv_ga mv_X)) = Some true].
Proof. by split; vm_compute. Qed.
Example C39_ex : [/\ mv_valid mv_ga mv_B, isSome (blade_rep mv_ga mv_B) &
  omap (fun Y => mv_eq mv_ga mv_B Y == Some true) (blade_rep mv_ga mv_B) = Some true].
Proof. by split; vm_compute. Qed.
Example C41_ex : ga_history 1 [:: true; false; true] = [:: Some "GA1"; None; Some "GA3"]%string.
Proof. by vm_compute. Qed.
(* compare(e0 - e1, 3*(e0 - e1)) *)
Definition mv_V3 : mv rat_comUnitRing := Mv [:: (3%:R : rat, mk_blade [:: 0%N]); (- (3%:R : rat), mk_blade [:: 1%N])] true.
Example C55_ex : mv_valid mv_ga mv_V3 && (@mv_compare rat_comUnitRing mv_V3 mv_V == 3%:R).
Proof. by vm_compute. Qed.

(* ---- findings ---- *)
(* blade_coefs() of a base representation is not the list of blade coefficients *)
Theorem C16_base_rep_refuted : exists (a : ga rat_comUnitRing) X, [/\ wf_ga a, mv_valid a X &
  omap (fun Y => mv_blade_coefs a X None == mv_blade_coefs a Y None) (blade_rep a X) = Some false].
Proof. by exists mv_ga, mv_B; split; vm_compute. Qed.
(* equal multivectors in different representations are hashed differently *)
Theorem C39_hash_refuted : exists (a : ga rat_comUnitRing) X Y, [/\ wf_ga a, mv_valid a X, mv_valid a Y,
  mv_eq a X Y = Some true &
  (if (hash_input a "GA1" X, hash_input a "GA1" Y) is (Some (k, x), Some (l, y)) then (k == l) && perm_eq x y else true) = false].
Proof.
exists mv_ga, mv_B, (Mv [:: (3%:R : rat, [::]); (1 : rat, mk_blade [:: 0; 1]%N)] true).
by split; vm_compute.
Qed.
(* the documentation of compare(A, B) promises c with B == c*A *)
Theorem C55_documentation_refuted : exists (a : ga rat_comUnitRing) X Y, [/\ wf_ga a, mv_valid a X, mv_valid a Y,
  @mv_compare rat_comUnitRing X Y != 0 & run_eq a Y (@mv_compare rat_comUnitRing X Y ##. X) = Some false].
Proof. by exists mv_ga, mv_V3, mv_V; split; vm_compute. Qed.
(* equal multivectors whose terms are listed in different orders compare as 0.
   (sympy orders the terms of a sum by coefficient: 2*e0 + 3*e1 and -2*e0 - 3*e1
   are listed in opposite orders.) *)
Theorem C55_order_refuted : exists (a : ga rat_comUnitRing) X Y, [/\ wf_ga a, mv_valid a X, mv_valid a Y,
  run_eq a X ((-1) ##. Y) = Some true & @mv_compare rat_comUnitRing X Y == 0].
Proof.
exists mv_ga, (Mv [:: (2%:R : rat, mk_blade [:: 0%N]); (3%:R : rat, mk_blade [:: 1%N])] true),
  (Mv [:: (- (3%:R : rat), mk_blade [:: 1%N]); (- (2%:R : rat), mk_blade [:: 0%N])] true).
by split; vm_compute.
Qed.
Definition props_coef_all :=
  (C16_expand, C16_components, C16_components_raises, C16_get_coefs, C16_get_coefs_range, C16_blade_coefs,
   C16_blade_coefs_list, C16_set_coef, C16_proj, C16_base_rep_refuted,
   C39_equivalence, C39_coefficients, C39_scalar, C39_congruence, C39_hash, C39_hash_scalar, C39_hash_refuted,
   C41_mixing, C41_distinct, C41_history, C41_equivalence,
   C55_sound, C55_complete, C55_zero, C55_documentation_refuted, C55_order_refuted).
Print Assumptions props_coef_all.
