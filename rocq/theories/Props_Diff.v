(* Props_Diff.v -- properties C37, C38, C52: differentiation of multivector
   fields, its independence of the history of calls, and connection().

   A multivector field is an object of the algebra whose coefficients are scalar
   functions; me_diff me i is the partial derivative of scalars by coordinate i. *)
From mathcomp Require Import all_ssreflect all_algebra.
From Verif Require Import Props_Metric NatTac AlgTactics Exterior Clifford Blades Spec_Grade Grades PyBase Spec_Index Ga_Model.
From Verif Require Import Ga_Sem Ga_Proof_Tables Ga_Proof_Sort Ga_Proof_Sem Ga_Proof_Reduce Ga_Proof_Rep Ga_Proof_Conv.
From Verif Require Import Ga_Proof_Mul Spec_Clifford Clifford_Unique Spec_Mv Ga_Proof_Den Ga_Proof_Wedge Ga_Proof_Inner Ga_Proof_Grade.
From Verif Require Import GradeLaws Det ExtDeriv Mv_Model Mv_Proof Mv_Expr Mv_Proof_Expr Props_Mv Dual_Model Dual_Proof Props_Dual Metric_Model Spec_Diff Nabla.
From Verif Require Import Diff_Model Diff_Proof.
Set Implicit Arguments.
Unset Strict Implicit.
Unset Printing Implicit Defensive.
Import GRing.Theory.
Local Open Scope ring_scope.
Open Scope py_scope.

(* ---- specification ---- *)
Section Spec.
Variables (R : comUnitRingType) (me : metric_env R) (m : metric R) (dga : diff_ga R).
Notation a := (metric_ga m).
(* p op q as a Python expression *)
Definition dop (d : dmode) (p q : py R) : py R :=
  match d with MMul => p *. q | MWedge => p ^. q | MDot => p ||. q | MLt => p <. q | MGt => p >. q end.
(* a valid object in blade representation *)
Definition field (A : mv R) : bool := mv_valid a A && (brep A || is_ortho a).
(* the calls on a new algebra *)
Definition deriv (A : mv R) (i : nat) : option (mv R) := (pDiff me m dga A i (ds_init dga)).2.
Definition gradient (d : dmode) (left : bool) (A : mv R) : option (mv R) :=
  (grad_mul me m dga d left A (ds_init dga)).2.

(* a history of calls on one algebra; their results are dropped *)
Inductive call :=
  | CPDiff of mv R & nat
  | CPDiffList of mv R & seq nat
  | CDiff of mv R & nat
  | CGrad of dmode & bool & mv R
  | CBlade of word & nat
  | CConnection of word & word & dmode & bool
  | CTrace of option (mv R)
  | CMltDiff of int & mv R.
Definition drop T (p : prog R T) : prog R unit := bnd p (fun _ => ret tt).
Definition perform (c : call) : prog R unit :=
  match c with
  | CPDiff A i => drop (pDiff me m dga A i)
  | CPDiffList A l => drop (pDiff_list me m dga A l)
  | CDiff A i => drop (mv_diff me m A i)
  | CGrad d lf A => drop (grad_mul me m dga d lf A)
  | CBlade b i => drop (blade_derivation m dga b i)
  | CConnection rb kb d lf => drop (connection m dga rb kb d lf)
  | CTrace F => drop (lt_tr me m dga F)
  | CMltDiff slot F => drop (mlt_pdiff me m dga slot F)
  end.
Fixpoint history (h : seq call) (st : dstate R) : dstate R :=
  if h is c :: h' then history h' (perform c st).1 else st.
(* no call of Mlt.pdiff/contract, and no call of Lt.tr that raised *)
Fixpoint quiet (h : seq call) (st : dstate R) : Prop :=
  if h is c :: h' then
    (match c with CMltDiff _ _ => False | CTrace _ => (perform c st).2 <> None | _ => True end) /\
    quiet h' (perform c st).1
  else True.
End Spec.

(* ---- C38 ---- *)
Section History.
Variables (R : comUnitRingType) (me : metric_env R) (m : metric R) (dga : diff_ga R).
Notation init := (ds_init dga).
Lemma drop_fst T (p : prog R T) st : (drop p st).1 = (p st).1.
Proof. by rewrite /drop /bnd; case: (p st) => st' [x|]. Qed.
Lemma drop_snd T (p : prog R T) st : (drop p st).2 = None <-> (p st).2 = None.
Proof. by rewrite /drop /bnd; case: (p st) => st' [x|]. Qed.
Lemma runs_clean T st (p : prog R T) o : clean m dga st -> runs m dga st p o -> clean m dga (p st).1.
Proof. by move=> cs [st' -> sm]; exact: clean_same sm. Qed.
Lemma history_clean h st : clean m dga st -> quiet me m dga h st -> clean m dga (history me m dga h st).
Proof.
elim: h st => [//|c h IH] st cs [qc qh]; apply: IH (qh) => {h qh}.
case: c qc => /= [A i _|A l _|A i _|d left A _|b i _|rb kb d left _|F ne|//]; rewrite drop_fst.
- exact: runs_clean cs (pDiff_runs me A i cs).
- exact: runs_clean cs (list_runs me A l cs).
- exact: runs_clean cs (diff_runs me A i cs).
- exact: runs_clean cs (grad_clean me A d left cs).
- by apply: (runs_clean cs); apply: bd_runs; case: cs.
- exact: conn_clean.
have [e s] := tr_runs me F cs; apply: clean_same cs (s _) => e0; apply: ne.
by apply/drop_snd; rewrite e.
Qed.
(* after every history without such calls, each call returns what it returns on
   a new algebra *)
Theorem C38_independent_partial h : quiet me m dga h init -> let st := history me m dga h init in
  [/\ forall A i, (pDiff me m dga A i st).2 = (pDiff me m dga A i init).2,
      forall A l, (pDiff_list me m dga A l st).2 = (pDiff_list me m dga A l init).2,
      forall A i, (mv_diff me m A i st).2 = (mv_diff me m A i init).2,
      forall d left A, (grad_mul me m dga d left A st).2 = (grad_mul me m dga d left A init).2 &
      forall F, (lt_tr me m dga F st).2 = (lt_tr me m dga F init).2].
Proof.
move=> q st; have cs := history_clean (clean_init m dga) q; have ci := clean_init m dga.
have two_runs T (p : prog R T) o : runs m dga st p o -> runs m dga init p o -> (p st).2 = (p init).2.
  by move=> [s1 -> _] [s2 -> _].
split=> [A i|A l|A i|d left A|F].
- exact: two_runs (pDiff_runs me A i cs) (pDiff_runs me A i ci).
- exact: two_runs (list_runs me A l cs) (list_runs me A l ci).
- exact: two_runs (diff_runs me A i cs) (diff_runs me A i ci).
- exact: two_runs (grad_clean me A d left cs) (grad_clean me A d left ci).
by have [-> _] := tr_runs me F cs; have [-> _] := tr_runs me F ci.
Qed.
End History.

(* ---- C52 ---- *)
Section ConnSpec.
Variables (R : comUnitRingType).
(* what a request is remembered by *)
Definition request (rb kb : word) (d : dmode) (left : bool) : nat * bool * word :=
  (mode_code d, left, if left then rb ++ kb else kb ++ rb)%SEQ.
Definition asked (h : seq (call R)) rb kb d left : bool :=
  has (fun c => if c is CConnection rb' kb' d' left' then request rb' kb' d' left' == request rb kb d left else false) h.
Definition blade_mv (I : seq nat) : mv R := Mv [:: (1, mk_blade I)] true.
End ConnSpec.

Section ConnHistory.
Variables (R : comUnitRingType) (me : metric_env R) (m : metric R) (dga : diff_ga R).
Lemma request_keep st rb kb d left k : clean m dga st -> request rb kb d left != k ->
  dget (ds_conn (connection m dga rb kb d left st).1) k = dget (ds_conn st) k.
Proof.
move=> cs nk; case co: (dg_connect dga); last by rewrite /connection co.
case E: (dget (ds_conn st) (ckey rb kb d left)) => [v|].
  by rewrite /connection co /= -/(ckey rb kb d left) E.
by have := conn_new cs co E; case: connection => st' o [_ _ _ h]; apply: h; rewrite eq_sym.
Qed.
Lemma history_conn h st rb kb d left : clean m dga st -> quiet me m dga h st -> ~~ asked h rb kb d left ->
  dget (ds_conn (history me m dga h st)) (request rb kb d left) = dget (ds_conn st) (request rb kb d left).
Proof.
elim: h st => [//|c h IH] st cs [qc qh]; rewrite /= negb_or => /andP[nc nh].
have cs' : clean m dga (perform me m dga c st).1 by apply: (@history_clean _ me m dga [:: c] st cs).
rewrite (IH _ cs' qh nh) => {h IH qh nh cs'}.
have ex T (p : prog R T) o : runs m dga st p o -> ds_conn (p st).1 = ds_conn st by case=> st' -> [].
case: c qc nc => /= [A i _|A l _|A i _|d' left' A _|b i _|rb' kb' d' left' _|F ne|//] nc; rewrite drop_fst.
- by rewrite (ex _ _ _ (pDiff_runs me A i cs)).
- by rewrite (ex _ _ _ (list_runs me A l cs)).
- by rewrite (ex _ _ _ (diff_runs me A i cs)).
- by rewrite (ex _ _ _ (grad_clean me A d' left' cs)).
- by rewrite (ex _ _ (bd_pure m dga b i)) //; apply: bd_runs; case: cs.
- exact: request_keep.
have [e s] := tr_runs me F cs; case: s => [e0|_ _ _ -> //]; case: ne.
by apply/drop_snd; rewrite e.
Qed.
End ConnHistory.

Section Props.
Variables (R : comUnitRingType) (two : (2%:R : R) \is a GRing.unit) (me : metric_env R).
Notation D := (me_diff me).
Variables (coords : nat) (garg : garg R) (norm : bool) (m : metric R) (gsym : option R) (dga : diff_ga R).
Notation n := (m_n m).
Notation a := (metric_ga m).
Notation G := (mx n n (m_graw m)).
Notation C := (cl two a).
(* differentiation of scalars; a symmetric metric with as many coordinates as
   basis vectors; with norm=True the factors are roots up to sign; the metric of
   the algebra is non-degenerate; gsym declares nothing or the determinant *)
Hypothesis par : partials D.
Hypotheses (mk : make_metric me n (Some coords) garg norm = Some m) (lec : (n <= coords)%N).
Hypotheses (sh : shape n n (m_graw m)) (sy : symmetric_mx G).
Hypothesis rooted : norm -> forall i : 'I_n, let x := G i i in me_root me x ^+ 2 = x \/ me_root me x ^+ 2 = - x.
Hypotheses (u : \det (metric_mx a) \is a GRing.unit) (gs : det_declared a gsym).

Let der k : derivation (D k). Proof. by case: par. Qed.
Let u' : gmat a \in unitmx. Proof. by rewrite unitmxE. Qed.
Let gs' : gsym_ok a gsym. Proof. by []. Qed.
Let wf : wf_ga a := m_wf mk sh.
Let mdP := make_diffP two der mk lec sh sy u' gs' rooted.

(* the algebra is built *)
Theorem C37_defined : exists dga, make_diff_ga me gsym m = Some dga.
Proof. by have [d E _] := mdP; exists d. Qed.

Hypothesis mkd : make_diff_ga me gsym m = Some dga.
Let con : [/\ dg_connect dga = [exists i : 'I_n, exists j : 'I_n, exists k : 'I_n, D k (G i j) != 0],
      dg_connect dga -> de_shape two m dga,
      forall ib j l : 'I_n, D ib (geff a j l) =
        \sum_k coef_of two dga ib j k * geff a k l + \sum_k coef_of two dga ib l k * geff a j k,
      dg_connect dga -> forall i j l : 'I_n, \sum_k cof two dga i j k * geff a l k = low me i j l &
      grad_ok two m (dg_grad dga)].
Proof. by have [d] := mdP; rewrite mkd => -[<-]. Qed.
Let dok : dg_connect dga -> de_shape two m dga. Proof. by case: con. Qed.
Notation nab := (nab two me dga).
Notation deriv := (deriv me m dga).

Lemma pureE A i : deriv A i = pDiff_pure me m dga A i.
Proof. by rewrite /deriv; have [st -> _] := pDiff_runs me A i (clean_init m dga). Qed.
Lemma fieldP A : field m A -> mv_ok a A /\ bladed a A.
Proof. by rewrite /field mv_validE => /andP[]. Qed.
Lemma derivP A (i : 'I_n) : field m A -> @yields R two a true (deriv A i) (nab i (mvv two a A)).
Proof. by case/fieldP=> oA bA; rewrite pureE; exact: pDiff_pureP. Qed.
Definition opv (d : dmode) (x y : C) : C :=
  match d with
  | MMul => x * y | MWedge => ext x y
  | MDot => selprod (fun u v : C => u * v) (rule_of Hestenes) x y
  | MLt => selprod (fun u v : C => u * v) (rule_of LeftC) x y
  | MGt => selprod (fun u v : C => u * v) (rule_of RightC) x y
  end.
Lemma mv_opP d X Y : mv_ok a X -> mv_ok a Y -> bladed a Y -> @yields R two a true (mv_op m d X Y) (opv d (mvv two a X) (mvv two a Y)).
Proof.
move=> oX oY bY; case: d => /=; try exact: mv_singleP.
  by apply: yieldsW (mv_mulP two wf oX oY) => _.
by apply: yieldsW (mv_wedgeP two wf oX oY) => _.
Qed.
Lemma nab_op d (i : 'I_n) (x y : C) : nab i (opv d x y) = opv d (nab i x) y + opv d x (nab i y).
Proof.
have [_ _ cp _ _] := con.
case: d => /=.
- exact: (@nablaM R n (ga_metric two a) _ (der i) _ (cp i)).
- exact: (nabla_ext two (der i)).
- exact: (@nabla_selprod R n (ga_metric two a) _ (der i) _ (cp i)).
- exact: (@nabla_selprod R n (ga_metric two a) _ (der i) _ (cp i)).
- exact: (@nabla_selprod R n (ga_metric two a) _ (der i) _ (cp i)).
Qed.

Lemma dopP d (A B : mv R) : mv_ok a A -> mv_ok a B -> bladed a B ->
  @yields R two a true (run a (dop d A B)) (opv d (mvv two a A) (mvv two a B)).
Proof. by move=> oA oB bB; have := mv_opP d oA oB bB; case: d. Qed.
Lemma yields_field o v : @yields R two a true o v -> exists2 X, o = Some X & field m X /\ mvv two a X = v.
Proof. by case=> X -> [oX vX /(_ isT) bX]; exists X => //; split=> //; rewrite /field mv_validE oX. Qed.
Lemma yields_same (p q : py R) v : @yields R two a true (run a p) v -> @yields R two a true (run a q) v ->
  run_eq a p q = Some true.
Proof.
move=> [X E [oX vX _]] [Y F [oY vY _]]; rewrite /run_eq E F /= (mv_eqP two wf oX oY).
by rewrite vX vY eqxx.
Qed.
Lemma yields_add (p q : py R) v w : @yields R two a true (run a p) v -> @yields R two a true (run a q) w ->
  @yields R two a true (run a (p +. q)) (v + w).
Proof.
move=> [X E [oX vX bX]] [Y F [oY vY bY]]; rewrite /= E F /=; rewrite -vX -vY.
by apply: yieldsW (mv_addP two wf oX oY) => _; rewrite bX.
Qed.
Lemma yields_val X : field m X -> @yields R two a true (run a (Val X)) (mvv two a X).
Proof. by case/fieldP=> oX bX; exists X. Qed.
Lemma yields_dop d (p q : py R) v w : @yields R two a true (run a p) v -> @yields R two a true (run a q) w ->
  @yields R two a true (run a (dop d p q)) (opv d v w).
Proof.
move=> [X E [oX vX bX]] [Y F [oY vY bY]]; have := dopP d oX oY (bY isT); rewrite vX vY.
by case: d => /=; rewrite E F.
Qed.
Lemma yields_num c : @yields R two a true (run a (Num c)) (c *: (bl R set0 : mval R n)).
Proof. have [o v b] := const_ok two a c; by exists (mv_const a c). Qed.
Lemma yields_scale c (p : py R) v : @yields R two a true (run a p) v -> @yields R two a true (run a (c ##. p)) (c *: v).
Proof. move=> [X E [oX <- bX]]; rewrite /= E /=; by apply: yieldsW (mv_scaleP two c oX) => _; exact: bX. Qed.
Lemma yields_grade r (p : py R) v : @yields R two a true (run a p) v -> @yields R two a true (run a (Grade p r)) (gpart r (v : mval R n)).
Proof. by move=> [X E [oX <- bX]]; rewrite /= E /=; apply: (mv_gradeP two r true oX); exact: bX. Qed.

(* ---- C37 ---- *)
Implicit Types (A B : mv R).
(* the derivative of a field by a coordinate is a field *)
Theorem C37_total A i : field m A -> (i < n)%N -> exists2 A', deriv A i = Some A' & field m A'.
Proof. by move=> fA li; have [X E [fX _]] := yields_field (derivP (Ordinal li) fA); exists X. Qed.
(* additive *)
Theorem C37_additive A B i : field m A -> field m B -> (i < n)%N ->
  exists S A' B' S', [/\ run a (A +. B) = Some S, deriv A i = Some A', deriv B i = Some B',
    deriv S i = Some S' & run_eq a S' (A' +. B') = Some true].
Proof.
move=> fA fB li; have [S Es [fS vS]] := yields_field (yields_add (yields_val fA) (yields_val fB)).
have [A' Ea [fA' vA]] := yields_field (derivP (Ordinal li) fA).
have [B' Eb [fB' vB]] := yields_field (derivP (Ordinal li) fB).
have [S' Es' [fS' vS']] := yields_field (derivP (Ordinal li) fS).
exists S, A', B', S'; split=> //; apply: yields_same (yields_val fS') _.
apply: yields_eq (yields_add (yields_val fA') (yields_val fB')) _.
by rewrite vS' vS vA vB; exact: (esym (nablaD two (der _) _ _ _)).
Qed.
(* extends the derivative of scalars *)
Theorem C37_scalar (f : R) i : (i < n)%N ->
  exists2 X, deriv (mv_const a f) i = Some X & run_eq a X (Num (D i f)) = Some true.
Proof.
move=> li; have [X E [fX vX]] := yields_field (yields_num f); case: E => E.
rewrite /= in E; subst X.
have [Y Ey [fY vY]] := yields_field (derivP (Ordinal li) fX).
exists Y => //; apply: yields_same (yields_val fY) _; apply: yields_eq (yields_num (D i f)) _.
by rewrite vY vX /Diff_Proof.nab (nablaZ two (der _)) (nabla_one two (der _)) scaler0 addr0.
Qed.
(* the product rule, for each of the products *, ^, |, <, > *)
Theorem C37_product d A B i : field m A -> field m B -> (i < n)%N ->
  exists P A' B' P', [/\ run a (dop d A B) = Some P, deriv A i = Some A', deriv B i = Some B',
    deriv P i = Some P' & run_eq a P' (dop d A' B +. dop d A B') = Some true].
Proof.
move=> fA fB li; have [P Ep [fP vP]] := yields_field (yields_dop d (yields_val fA) (yields_val fB)).
have [A' Ea [fA' vA]] := yields_field (derivP (Ordinal li) fA).
have [B' Eb [fB' vB]] := yields_field (derivP (Ordinal li) fB).
have [P' Ep' [fP' vP']] := yields_field (derivP (Ordinal li) fP).
exists P, A', B', P'; split=> //; apply: yields_same (yields_val fP') _.
apply: yields_eq (yields_add (yields_dop d (yields_val fA') (yields_val fB)) (yields_dop d (yields_val fA) (yields_val fB'))) _.
by rewrite vP' vP vA vB nab_op.
Qed.
(* it preserves grades *)
Theorem C37_grade A r i : field m A -> (i < n)%N ->
  exists P A' P', [/\ run a (Grade A r) = Some P, deriv A i = Some A', deriv P i = Some P' &
    run_eq a P' (Grade A' r) = Some true].
Proof.
move=> fA li; have [P Ep [fP vP]] := yields_field (yields_grade r (yields_val fA)).
have [A' Ea [fA' vA]] := yields_field (derivP (Ordinal li) fA).
have [P' Ep' [fP' vP']] := yields_field (derivP (Ordinal li) fP).
exists P, A', P'; split=> //; apply: yields_same (yields_val fP') _.
apply: yields_eq (yields_grade r (yields_val fA')) _.
by rewrite vP' vP vA; exact: (esym (nabla_gpart two (der _) _ _ _)).
Qed.
(* the derivatives of the basis vectors: if E_j is the basis vector of the given
   metric -- with norm=True the basis of the algebra is E_j/N_j -- then
   E_l . (d_i E_j) is the Christoffel symbol of the first kind *)
Definition norm_factor (j : nat) : R := if m_enorm m is Some N then nth 0 N j else 1.
Definition E_ (j : nat) : py R := norm_factor j ##. basis_mv R j.
Theorem C37_basis i j l : (i < n)%N -> (j < n)%N -> (l < n)%N ->
  exists P P', [/\ run a (E_ j) = Some P, deriv P i = Some P' &
    run_eq a (E_ l ||. P')
      (Num (2%:R^-1 * (D i (ment (m_graw m) j l) + D j (ment (m_graw m) i l) - D l (ment (m_graw m) i j)))) = Some true].
Proof.
move=> li lj ll; pose i' := Ordinal li; pose j' := Ordinal lj; pose l' := Ordinal ll.
have [oj vj bj _] := @basis_ok R two a j'; have [ol vl bl_ _] := @basis_ok R two a l'.
have fj : field m (basis_mv R j) by rewrite /field mv_validE oj.
have fl : field m (basis_mv R l) by rewrite /field mv_validE ol.
have [P Ep [fP vP]] := yields_field (yields_scale (norm_factor j) (yields_val fj)).
have [P' Ep' [fP' vP']] := yields_field (derivP i' fP).
exists P, P'; split=> //; apply: yields_same (yields_num _).
apply: yields_eq (yields_dop MDot (yields_scale (norm_factor l) (yields_val fl)) (yields_val fP')) _.
have hb (k : 'I_n) : homog 1 (bl R [set k]) by have := @homog_bl R n [set k]; rewrite cards1.
have nE : mvv two a P' = D i (norm_factor j) *: (bl R [set j'] : mval R n) +
    norm_factor j *: nab i' (bl R [set j'] : mval R n).
  by rewrite vP' vP vj /Diff_Proof.nab (nablaZ two (der _)).
have hn : homog 1 (nab i' (bl R [set j'] : mval R n)) by apply: (homog_nabla two (der _)); exact: hb.
have hP' : homog 1 (mvv two a P' : mval R n) by rewrite nE; apply: homogD; apply: homogZ.
rewrite /= vl (vec_dot (ga_metric two a) (homogZ _ (hb l')) hP'); congr (_ *: _).
have -> (x : mval R n) : gform (ga_metric two a) (norm_factor l *: bl R [set l']) x =
    norm_factor l * \sum_k x [set k] * geff a l' k.
  rewrite /gform mulr_sumr exchange_big; apply: eq_bigr => k _; rewrite (bigD1 l') //= big1 ?addr0 => [|q ql].
    by rewrite ffunE bl_coef eqxx mulr1 mulrA.
  by rewrite ffunE bl_coef (inj_eq set1_inj) (negbTE ql) mulr0 !mul0r.
have -> : \sum_k (mvv two a P' : mval R n) [set k] * geff a l' k =
    D i (norm_factor j) * geff a l' j' + norm_factor j * \sum_k (nab i' (bl R [set j'] : mval R n)) [set k] * geff a l' k.
  rewrite nE (eq_bigr (fun k => D i (norm_factor j) * ((bl R [set j'] : mval R n) [set k] * geff a l' k) +
    norm_factor j * ((nab i' (bl R [set j'] : mval R n)) [set k] * geff a l' k))) => [|k _].
    rewrite big_split /= -!mulr_sumr; congr (_ * _ + _); rewrite (bigD1 j') //= big1 ?addr0 => [|q qj].
      by rewrite bl_coef eqxx mul1r.
    by rewrite bl_coef (inj_eq set1_inj) (negbTE qj) mul0r.
  by rewrite !ffunE mulrDl !mulrA.
have [cE _ _ lo _] := con.
have gE k : (nab i' (bl R [set j'] : mval R n)) [set k] = coef_of two dga i' j' k.
  rewrite /Diff_Proof.nab (nabla_e two (der _)) /dbasis sum_coef (bigD1 k) //= big1 ?addr0 => [|q qk].
    by rewrite scale_coef bl_coef eqxx mulr1.
  by rewrite scale_coef bl_coef (inj_eq set1_inj) eq_sym (negbTE qk) mulr0.
rewrite (eq_bigr (fun k => coef_of two dga i' j' k * geff a l' k)) => [|k _]; last by rewrite gE.
case: (boolP (dg_connect dga)) => cn.
  rewrite /coef_of cn lo //; exact: (low_raw der mk sh i' j' l').
have z p q k : D (k : 'I_n) (G p q) = 0.
  apply/eqP/negbNE/negP => ne; move: cn; rewrite cE => /negP; apply.
  by apply/existsP; exists p; apply/existsP; exists q; apply/existsP; exists k.
have -> : D i (norm_factor j) = 0 by exact: (efac_const two der mk sh rooted z j' i').
rewrite big1 => [|k _]; last by rewrite /coef_of (negbTE cn) mul0r.
have := z j' l' i'; have := z i' l' j'; have := z i' j' l'; rewrite !ment_mx /= => -> -> ->.
by rewrite mul0r mulr0 !addr0 subr0 !mulr0.
Qed.
(* grad op A and A op grad: there are vectors e^i reciprocal to the E_j, and the
   result is the sum of e^i op (d_i A), of (d_i A) op e^i *)
Definition py_sum (l : seq (py R)) : py R := foldl (@Add R) (Num 0) l.
Theorem C37_gradient d left A : field m A ->
  exists rs ds Z, [/\ size rs = n,
    forall i, (i < n)%N -> let r := nth (mv_const a 0) rs i in [/\ mv_valid a r, is_vec a r &
      forall j, (j < n)%N -> run_eq a (E_ j ||. r) (Num (i == j)%:R) = Some true],
    size ds = n, forall i, (i < n)%N -> deriv A i = Some (nth (mv_const a 0) ds i) &
    gradient me m dga d left A = Some Z /\
    run_eq a Z (py_sum [seq let r := nth (mv_const a 0) rs i in let dA := nth (mv_const a 0) ds i in
                        if left then dop d r dA else dop d dA r | i <- iota 0 n]) = Some true].
Proof.
move=> fA; have [_ _ _ _ [sg gok]] := con.
pose dd i := if deriv A i is Some X then X else mv_const a 0.
have dE i : (i < n)%N -> deriv A i = Some (dd i).
  by move=> li; rewrite /dd; have [X -> _] := derivP (Ordinal li) fA.
exists (dg_grad dga), [seq dd i | i <- iota 0 n].
have nd i : (i < n)%N -> nth (mv_const a 0) [seq dd i | i <- iota 0 n] i = dd i.
  by move=> li; rewrite (nth_map 0%N) ?size_iota // nth_iota.
have fd i : (i < n)%N -> field m (dd i).
  by move=> li; have [X E [fX _]] := yields_field (derivP (Ordinal li) fA); move: E; rewrite /= dE // => -[->].
have fg i : (i < n)%N -> field m (nth (mv_const a 0) (dg_grad dga) i).
  by move=> li; have [o b _ _] := gok (Ordinal li); rewrite /field mv_validE o.
set w := fun i => let r := nth (mv_const a 0) (dg_grad dga) i in let dA := dd i in
   if left then dop d r dA else dop d dA r.
have wE : [seq let r := nth (mv_const a 0) (dg_grad dga) i in
            let dA := nth (mv_const a 0) [seq dd i | i <- iota 0 n] i in
            if left then dop d r dA else dop d dA r | i <- iota 0 n] = [seq w i | i <- iota 0 n].
  by apply/eq_in_map => i; rewrite mem_iota /= => li; rewrite nd.
have wP i : (i < n)%N -> exists v, @yields R two a true (run a (w i)) v.
  by move=> li; rewrite /w; case: (left); eexists; apply: yields_dop; apply: yields_val; auto.
(* the loop of the model is the sum *)
have sumP (l : seq nat) (p : py R) X v st : all (fun i => i < n)%N l -> run a p = Some X ->
    @yields R two a true (run a p) v -> clean m dga st ->
    exists2 Z, (pfold (fun s i => bnd (pDiff me m dga A i) (fun dA =>
       let r := nth (mv_const a 0) (dg_grad dga) i in
       lift (LET q := (if left then mv_op m d r dA else mv_op m d dA r) IN mv_add a s q))) l X st).2 = Some Z &
     run a (foldl (@Add R) p [seq w i | i <- l]) = Some Z /\ exists v', @yields R two a true (Some Z) v'.
  elim: l p X v st => [|i l IH] p X v st /=; first by move=> _ E y _; exists X => //; split=> //; rewrite -E; exists v.
  case/andP=> li al E y cs; have [v2 y2] := wP i li.
  have [st' pE sm] := pDiff_runs me A i cs; rewrite -pureE dE // in pE.
  have yy := yields_add y y2; have [Y EY [oY vY bY]] := yy.
  have [Z EZ [rZ vZ]] := IH (p +. w i) Y _ st' al EY yy (clean_same cs sm).
  have {}EY : (LET q := (if left then mv_op m d (nth (mv_const a 0) (dg_grad dga) i) (dd i)
        else mv_op m d (dd i) (nth (mv_const a 0) (dg_grad dga) i)) IN mv_add a X q) = Some Y.
    rewrite -EY /= E /=; rewrite /w /=.
    by case: (left); case: (d).
  exists Z => //; rewrite /bnd pE /= EY /=; exact: EZ.
have al : all (fun i => i < n)%N (iota 0 n) by apply/allP=> i; rewrite mem_iota.
have [Z EZ [rZ vZ]] := sumP (iota 0 n) (Num 0) (mv_const a 0) _ (ds_init dga) al erefl (yields_num 0) (clean_init m dga).
exists Z; split=> //; last 1 first.
- split; first exact: EZ.
  rewrite wE /py_sum /run_eq rZ /=; have [v [Y [<-] [oZ _ _]]] := vZ.
  by rewrite (mv_eqP two wf oZ oZ) eqxx.
- move=> i li r; have [o b h g] := gok (Ordinal li); rewrite /r mv_validE; split=> //.
    by apply: (homog_vec (two := two)) => //; exact: bladed_blade.
  move=> j lj; have [oj vj bj _] := @basis_ok R two a (Ordinal lj).
  have fj : field m (basis_mv R j) by rewrite /field mv_validE oj.
  apply: yields_same (yields_num _).
  apply: yields_eq (yields_dop MDot (yields_scale (norm_factor j) (yields_val fj)) (yields_val (fg i li))) _.
  have hb : homog 1 (bl R [set Ordinal lj]) by have := @homog_bl R n [set Ordinal lj]; rewrite cards1.
  rewrite /= vj (vec_dot (ga_metric two a) (homogZ _ hb) h); congr (_ *: _).
  rewrite (@gform_expand R two a) (bigD1 (Ordinal lj)) //= big1 ?addr0 => [|q ql]; last first.
    by rewrite scale_coef bl_coef (inj_eq set1_inj) (negbTE ql) mulr0 mul0r.
  rewrite scale_coef bl_coef eqxx mulr1 (@gform_bl R two a) g /= -val_eqE eq_sym /nfac /norm_factor.
  have := efac_unit mk sh (Ordinal lj); rewrite /efac /=; case: eqP => [->|_] uj; last by rewrite mul0r mulr0.
  by case: (m_enorm m) uj => [N|] uj; rewrite mul1r ?mulr1 ?mulrV.
- by rewrite size_map size_iota.
by move=> i li; rewrite nd // dE.
Qed.

(* ---- C52 ---- *)
Lemma ga_MulP d (x y : expr R) : blade_expr n x -> blade_expr n y -> exists2 z, ga_Mul m d x y = Some z &
  blade_expr n z /\ value two a z = opv d (value two a x) (value two a y).
Proof.
move=> bx by_; case: d => /=.
- have [z -> [bz _ vz]] := ga_mulP two wf (@blade_ok R a _ bx) (@blade_ok R a _ by_); exists z => //; split=> //.
  exact: vz (wf_rel two wf).
- by have [z -> [bz _ vz]] := ga_wedgeP (a := a) two bx by_; exists z.
- by have [z -> [bz _ vz]] := ga_singleP (a := a) two wf Hestenes bx by_; exists z.
- by have [z -> [bz _ vz]] := ga_singleP (a := a) two wf LeftC bx by_; exists z.
by have [z -> [bz _ vz]] := ga_singleP (a := a) two wf RightC bx by_; exists z.
Qed.
Lemma yields_sum (w : nat -> py R) v (l : seq nat) p x : (forall i, (i \in l) -> @yields R two a true (run a (w i)) (v i)) ->
  @yields R two a true (run a p) x ->
  @yields R two a true (run a (foldl (@Add R) p [seq w i | i <- l])) (x + \sum_(i <- l) v i).
Proof.
elim: l p x => [|i l IH] p x wP y /=; first by rewrite big_nil addr0.
rewrite big_cons addrA; apply: IH => [j jl|]; first by apply: wP; rewrite inE jl orbT.
by apply: yields_add y (wP i (mem_head _ _)).
Qed.
(* the first request for a product of the reciprocal vectors with the derivatives
   of a blade, after every quiet history, gives that sum.  Missing: the second
   request *)
Theorem C52_first_call_partial h rb I d left : quiet me m dga h (ds_init dga) -> dg_connect dga ->
  wfI n I -> ~~ asked h rb (mk_blade I) d left ->
  exists x rs ds, [/\ (connection m dga rb (mk_blade I) d left (history me m dga h (ds_init dga))).2 = Some x,
    r_basis_mv a = Some rs,
    forall i, (i < n)%N -> deriv (blade_mv R I) i = Some (nth (mv_const a 0) ds i) &
    run_eq a (mk_mv a x) (py_sum [seq let r := nth (mv_const a 0) rs i in
                        let dB := (norm_factor i)^-1 ##. nth (mv_const a 0) ds i in
                        if left then dop d r dB else dop d dB r | i <- iota 0 n]) = Some true].
Proof.
move=> q co wI na; set st := history _ _ _ _ _.
have cs : clean m dga st by exact: history_clean (clean_init m dga) q.
have no : dget (ds_conn st) (ckey rb (mk_blade I) d left) = None.
  by rewrite -/(request rb (mk_blade I) d left) (history_conn (clean_init m dga) q na).
have xE : (connection m dga rb (mk_blade I) d left st).2 = conn_pure m dga (mk_blade I) d left.
  by have := conn_new cs co no; case: connection => st' o [].
have [rs Er [sz rok]] := r_basis_unit two wf u'.
have be : blade_expr n [:: (1 : R, mk_blade I)] by rewrite /blade_expr /= mk_blade_in.
have oB : mv_ok a (blade_mv R I).
  by rewrite /mv_ok /= [blade_expr _ _]be andbT /canonical /= oner_eq0.
have fB : field m (blade_mv R I).
  by rewrite /field mv_validE oB.
have vB : mvv two a (blade_mv R I) = bl R (set_of n I).
  by rewrite /mvv /= value_term // (@scale1r _ [lmodType R of mval R n]).
pose dd i := if deriv (blade_mv R I) i is Some X then X else mv_const a 0.
have dP (i : 'I_n) : [/\ deriv (blade_mv R I) i = Some (dd i), field m (dd i) &
    mvv two a (dd i) = dblades (cof two dga i) (bl R (set_of n I))].
  rewrite /dd; have [X E [fX vX]] := yields_field (derivP i fB); rewrite E; split=> //.
  by rewrite vX vB nab_on // dco_bl ?add0r.
pose rv (i : 'I_n) : C := value two a (nth [::] rs i).
pose dv (i : 'I_n) : C := (norm_factor i)^-1 *: (dblades (cof two dga i) (bl R (set_of n I)) : mval R n).
pose tv (i : nat) : C := if insub i is Some k then (if left then opv d (rv k) (dv k) else opv d (dv k) (rv k)) else 0.
have tvE (i : 'I_n) : tv i = if left then opv d (rv i) (dv i) else opv d (dv i) (rv i) by rewrite /tv valK.
have stepP x (i : 'I_n) : blade_expr n x -> exists2 z, conn_step m dga rs (mk_blade I) d left x i = Some z &
    blade_expr n z /\ value two a z = value two a x + tv i.
  move=> bx; rewrite /conn_step /bd_pure co.
  have [y -> [by_ _ vy]] := blade_deriv_newP (dok co) i wI => /=.
  set y' := if m_enorm m is Some _ then _ else _.
  have [by' vy'] : blade_expr n y' /\ value two a y' = dv i.
    rewrite /y' /dv /norm_factor; case: (m_enorm m) => [N|]; last first.
      by rewrite invr1 (@scale1r _ [lmodType R of mval R n]).
    split; first by rewrite /blade_expr words_escale.
    by rewrite value_escale vy.
  have [br _ _] := rok i.
  rewrite tvE; case: (left).
    have [z -> [bz vz]] := ga_MulP d br by' => /=; eexists; first by [].
    split; first by apply: (@blade_canon R a); rewrite (@blade_cat R a) bx.
    by rewrite value_canon value_cat vz vy'.
  have [z -> [bz vz]] := ga_MulP d by' br => /=; eexists; first by [].
  split; first by apply: (@blade_canon R a); rewrite (@blade_cat R a) bx.
  by rewrite value_canon value_cat vz vy'.
have foldP l x : all (fun i => i < n)%N l -> blade_expr n x ->
    exists2 z, ofold (conn_step m dga rs (mk_blade I) d left) l x = Some z &
    blade_expr n z /\ value two a z = value two a x + \sum_(i <- l) tv i.
  elim: l x => [|i l IH] x /=; first by move=> _ bx; exists x => //; rewrite big_nil addr0.
  case/andP=> li al bx; have [z1 /= -> [b1 v1]] := stepP x (Ordinal li) bx.
  have [z /= -> [bz vz]] := IH z1 al b1; exists z => //; split=> //.
  by rewrite vz v1 big_cons addrA.
have al : all (fun i => i < n)%N (iota 0 n) by apply/allP=> i; rewrite mem_iota.
have [z Ez [bz vz]] := foldP (iota 0 n) [::] al isT.
exists z, [seq mk_mv a r | r <- rs], [seq dd i | i <- iota 0 n]; split.
- by rewrite xE /conn_pure Er.
- by rewrite /r_basis_mv Er.
- by move=> i li; rewrite (nth_map 0%N) ?size_iota // nth_iota //; case: (dP (Ordinal li)).
have yz : @yields R two a true (run a (Val (mk_mv a z))) (value two a z) by exact: yields_blade.
apply: yields_same yz _; rewrite vz.
apply: yields_eq (yields_sum (v := tv) _ (yields_num 0)) _; last first.
  by congr (_ + _); rewrite /value /ev big_nil; exact: (scale0r (V := [lmodType R of mval R n]) (bl R set0)).
move=> i; rewrite mem_iota /= => li; rewrite (nth_map 0%N) ?size_iota // nth_iota // (nth_map [::]) ?sz //.
have [b1 _ _] := rok (Ordinal li); have [_ fd vd] := dP (Ordinal li).
have y1 : @yields R two a true (run a (Val (mk_mv a (nth [::] rs i)))) (rv (Ordinal li)).
  exact: yields_blade.
have y2 : @yields R two a true (run a ((norm_factor i)^-1 ##. dd i)) (dv (Ordinal li)).
  by apply: yields_eq (yields_scale _ (yields_val fd)) _; rewrite vd.
by rewrite (tvE (Ordinal li)); case: (left); exact: yields_dop.
Qed.
End Props.

(* ---- concrete algebras and refutations: plane polar coordinates ---- *)
Lemma dot_zero (R : comUnitRingType) (two : (2%:R : R) \is a GRing.unit) (a : ga R) (p : py R) P Q c : wf_ga a ->
  mv_ok a P -> mv_ok a Q -> mvv two a Q = 0 -> run a p = Some P -> run_eq a (p ||. Q) (Num c) = Some true -> c = 0.
Proof.
move=> wf oP oQ v0 E; rewrite /run_eq /= E /=.
have [X EX [oX vX _]] := mv_singleP two wf Hestenes true oP oQ. rewrite -[mv_dot _ _ _]/(mv_single Hestenes a P Q) EX.
have [oc vc _] := const_ok two a c; rewrite /= (mv_eqP two wf oX oc) vX vc v0 => -[/eqP].
have -> (x : cl two a) : selprod (fun u v : cl two a => u * v) (rule_of Hestenes) x 0 = 0.
  have := @selprod_linr R two a (rule_of Hestenes) (-1) 0 0 x.
  by rewrite scaleN1r addNr => ->; rewrite scaleN1r addNr.
rewrite -(@scale0r _ [lmodType R of mval R (ga_n a)] (bl R set0)) => /one_inj.
by [].
Qed.
Section Cases.
Notation F := [comUnitRingType of ratfun].
Notation e0 := (rf_env (fun _ _ => 0)).
Definition polar_m (norm : bool) : metric F :=
  Metric 2 (Some 2%N) (if norm then polar_n else polar_g) polar_g true (if norm then Some [:: 1; rf_x] else None).
Lemma polar_mk norm : make_metric e0 (m_n (polar_m norm)) (Some 2%N) (GMatrix polar_g) norm = Some (polar_m norm).
Proof. exact: polar_metric. Qed.
Lemma polar_root norm : norm -> forall i : 'I_2, let x := mx 2 2 polar_g i i in
  me_root e0 x ^+ 2 = x \/ me_root e0 x ^+ 2 = - x.
Proof.
move=> _ [[|[|i]] li] //; rewrite mxE /ment /=; left; last by rewrite eqxx.
by rewrite eq_sym x2_neq1 expr1n.
Qed.
Lemma polar_det norm : \det (metric_mx (metric_ga (polar_m norm))) \is a GRing.unit.
Proof.
have gE (f : nat -> F) : metric_mx (Ga 2 [:: [:: f 0%N; 0]; [:: 0; f 1%N]]) = diag_mx (\row_(i < 2) f i).
  by apply/matrixP=> -[[|[|i]] li] -[[|[|j]] lj]; rewrite !mxE.
have -> : metric_mx (metric_ga (polar_m norm)) = diag_mx (\row_(i < 2) (if norm then 1 else if i == 0%N :> nat then 1 else rf_x ^+ 2)).
  by case: norm; [have := gE (fun _ => 1)|have := gE (fun i => if i == 0%N then 1 else rf_x ^+ 2)].
rewrite det_diag big_ord_recl big_ord1 !mxE /=.
by case: norm; rewrite /= mul1r ?unitr1 // unitrX // rf_x_unit.
Qed.
Let sh norm : shape (m_n (polar_m norm)) (m_n (polar_m norm)) (m_graw (polar_m norm)).
Proof. by case: (polar_cases (polar_metric norm)). Qed.
Let sy norm : symmetric_mx (mx (m_n (polar_m norm)) (m_n (polar_m norm)) (m_graw (polar_m norm))).
Proof. by case: (polar_cases (polar_metric norm)). Qed.
Let par : partials (me_diff e0) := rf_partials.
(* both the orthogonal and the normalised polar frame meet all hypotheses, and
   have a connection *)
Example C37_case norm : exists dga, [/\ make_diff_ga e0 None (polar_m norm) = Some dga,
  partials (me_diff e0), shape 2 2 (m_graw (polar_m norm)) /\ symmetric_mx (mx 2 2 (m_graw (polar_m norm))),
  det_declared (metric_ga (polar_m norm)) None & dg_connect dga].
Proof.
have der k : derivation (me_diff e0 k) by case: par.
have u' : gmat (metric_ga (polar_m norm)) \in unitmx by rewrite unitmxE polar_det.
have [dga E [cE _ _ _ _]] := @make_diffP _ rf_two e0 2 _ norm _ None der (polar_mk norm) (leqnn 2) (@sh norm) (@sy norm) u' I
  (polar_root (norm := norm)).
exists dga; split=> //; first by split; [exact: (@sh norm)|exact: (@sy norm)].
rewrite cE; have [_ _ [i [j [k h]]]] := polar_cases (polar_metric norm).
by do 3!(apply/existsP; eexists); exact: h.
Qed.

Notation m := (polar_m false).
Notation a := (metric_ga m).
Section Blind.
Variable dga : diff_ga F.
Hypothesis mkd : make_diff_ga e0 None m = Some dga.
Lemma blind_pDiff st A i : ds_flag st && (ds_slot st == (-1)%R) = false ->
  pDiff e0 m dga A i st = (st, Some (mk_mv a (diff_terms e0 i (obj A)))).
Proof. by rewrite /pDiff => ->. Qed.
Lemma blind_grad st d left A : ds_flag st && (ds_slot st == (-1)%R) = false -> (grad_mul e0 m dga d left A st).1 = st.
Proof.
move=> h; have pf (f : mv F -> nat -> prog F (mv F)) l x : (forall y b, (f y b st).1 = st) -> (pfold f l x st).1 = st.
  move=> fE; elim: l x => [//|b l IH] x /=; rewrite /bnd; have := fE x b.
  by case: (f x b st) => st' [y|] /= ->.
by apply: pf => y b; rewrite /bnd blind_pDiff.
Qed.
(* the unit vector of the angle along the radius: its derivative is not zero *)
Lemma theta_moves : exists P P', [/\ field m P, deriv e0 m dga P 0 = Some P',
   mk_mv a (diff_terms e0 0 (obj P)) = Mv [::] true & run_eq a P' (Mv [::] true) = Some false].
Proof.
have wf : wf_ga a := m_wf (polar_mk false) (@sh false).
have [P [P' [E1 E2 E3]]] := @C37_basis _ rf_two e0 2 _ false m None dga par (polar_mk false) (leqnn 2) (@sh false) (@sy false)
  (polar_root (norm := false)) (polar_det false) I mkd 0 1 1 isT isT isT.
have PE : P = basis_mv F 1.
  move: E1; rewrite /= /norm_factor /= => -[<-].
  by rewrite /mv_scale /mk_mv /= /canon /= mulr1 oner_eq0.
have [oP vP _ _] := @basis_ok F rf_two a (Ordinal (isT : (1 < 2)%N)).
have fP : field m P by rewrite PE /field mv_validE oP.
have [Q EQ fQ] := @C37_total _ rf_two e0 2 _ false m None dga par (polar_mk false) (leqnn 2) (@sh false) (@sy false)
  (polar_root (norm := false)) (polar_det false) I mkd P 0 fP isT.
move: EQ; rewrite E2 => -[EQ]; move: fQ; rewrite -{Q}EQ => fP'.
have oP' : mv_ok a P' by have := fP'; rewrite /field mv_validE => /andP[].
exists P, P'; split=> //.
  by rewrite PE /mk_mv /= /canon /= (drv1 (proj1 rf_partials 0%N)) eqxx.
rewrite /run_eq /= (mv_eqP rf_two wf oP') //; congr Some; apply/negbTE/eqP => v0.
have v0' : mvv rf_two a P' = 0 by rewrite v0 /mvv value_nil.
have := dot_zero wf _ oP' v0' E1 E3; rewrite PE => /(_ oP).
have d0 k : rf_diff k 0 = 0 by case: rf_partials => d _; exact: drv0.
rewrite /ment /= D0x2 !d0 addr0 subr0 -[_^-1]/(half F) halfK; last exact: rf_two.
move/eqP.
by rewrite (negbTE rf_x_neq0).
Qed.
(* Mlt.pdiff and Mlt.contract leave the slot number on the algebra: afterwards the
   derivative of the same vector field is another one *)
Theorem C38_multilinear_refuted : exists A i, field m A /\ forall slot X, slot != 0 :> int ->
  exists B C, [/\ (pDiff e0 m dga A i (ds_init dga)).2 = Some B,
    (pDiff e0 m dga A i (history e0 m dga [:: CMltDiff slot X] (ds_init dga))).2 = Some C &
    run_eq a B C = Some false].
Proof.
have [P [P' [fP E1 E2 E3]]] := theta_moves; exists P, 0%N; split=> // slot X ns.
exists P', (Mv [::] true); split=> //.
rewrite /= drop_fst /mlt_pdiff blind_grad /= ?blind_pDiff //= ?E2 //.
all: by rewrite subr_eq addNr (negbTE ns) andbF.
Qed.
(* so does a call of Lt.tr in which the evaluation of the transformation raises:
   the flag for the connection stays off *)
Theorem C38_trace_refuted : exists A i, field m A /\
  exists B C, [/\ (pDiff e0 m dga A i (ds_init dga)).2 = Some B,
    (pDiff e0 m dga A i (history e0 m dga [:: CTrace None] (ds_init dga))).2 = Some C &
    run_eq a B C = Some false].
Proof.
have [P [P' [fP E1 E2 E3]]] := theta_moves; exists P, 0%N; split=> //.
by exists P', (Mv [::] true); split=> //; rewrite blind_pDiff //= E2.
Qed.
Lemma polar_connect : dg_connect dga.
Proof. by have [d [E _ _ _ c]] := C37_case false; move: E; rewrite mkd => -[->]. Qed.
(* Mv.diff raises for every argument once there is a connection *)
Theorem C37_diff_refuted A i : (mv_diff e0 m A i (ds_init dga)).2 = None.
Proof. by rewrite /mv_diff /= polar_connect. Qed.
(* the same request again raises, whatever it was *)
Theorem C52_repeat_refuted : exists rb I d left x, [/\ wfI 2 I,
  (connection m dga rb (mk_blade I) d left (ds_init dga)).2 = Some x &
  (connection m dga rb (mk_blade I) d left (connection m dga rb (mk_blade I) d left (ds_init dga)).1).2 = None].
Proof.
have q : quiet e0 m dga [::] (ds_init dga) by [].
have [x [rs [ds [E _ _ _]]]] := @C52_first_call_partial _ rf_two e0 2 _ false m None dga par (polar_mk false) (leqnn 2) (@sh false)
  (@sy false) (polar_root (norm := false)) (polar_det false) I mkd [::] [::] [:: 1%N] MDot true q polar_connect isT isT.
exists [::], [:: 1%N], MDot, true, x; split=> //.
have := @conn_new _ m dga (ds_init dga) [::] (mk_blade [:: 1%N]) MDot true (clean_init m dga) polar_connect erefl.
move: E; rewrite /=; case: connection => st' o /= -> [_ _ /(_ x erefl) k _].
by rewrite /connection polar_connect /= -/(ckey [::] (mk_blade [:: 1%N]) MDot true) k.
Qed.
End Blind.
End Cases.

(* the second of two equal requests raises in every connected algebra *)
Theorem C52_second_call_raises (R : comUnitRingType) (m : metric R) dga rb kb d left st x :
  (connection m dga rb kb d left st).2 = Some x ->
  (connection m dga rb kb d left (connection m dga rb kb d left st).1).2 = None.
Proof.
rewrite {1 3}/connection; case co: (dg_connect dga) => //=; set k := (_, _, _).
case E: (dget (ds_conn st) k) => [v|] //=.
rewrite /bnd /=; case: (r_basis _) => [rs|] //=.
case: pfold => st' [C|] //= _; rewrite /connection co /= -/k dget_dset eqxx //.
Qed.
Print Assumptions C38_independent_partial.
Print Assumptions C37_defined.
Print Assumptions C37_total.
Print Assumptions C37_additive.
Print Assumptions C37_scalar.
Print Assumptions C37_product.
Print Assumptions C37_grade.
Print Assumptions C37_basis.
Print Assumptions C37_gradient.
Print Assumptions C52_first_call_partial.
Print Assumptions C38_multilinear_refuted.
Print Assumptions C38_trace_refuted.
Print Assumptions C37_diff_refuted.
Print Assumptions C52_repeat_refuted.
Print Assumptions C52_second_call_raises.
