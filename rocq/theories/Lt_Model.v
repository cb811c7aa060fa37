(* Lt_Model.v -- model of linear transformations (galgebra/lt.py, class Lt).

   Matrices are lists of rows.  The stored dictionary lt_dict maps the number of a
   basis vector to an expression.
   Simplification: expand/collect/simplify/doit preserve values and are the
   identity up to merging of terms; the values of lt_dict are expressions (the
   constructor from a dictionary accepts any object); self.mat caches the result
   of matrix(), self.versor is never set. *)
From mathcomp Require Import all_ssreflect all_algebra.
From Verif Require Import PyBase Ga_Model Mv_Model Mv_Expr Dual_Model Coef_Model Metric_Model Diff_Model.
Set Implicit Arguments.
Unset Strict Implicit.
Unset Printing Implicit Defensive.
Import GRing.Theory.
Local Open Scope ring_scope.
Local Open Scope py_scope.

(* ---- sympy matrices: product, transpose, inverse (None = not invertible).
   The inverse is the one of mathcomp ---- *)
Section Matrix.
Variable R : comUnitRingType.
Definition mat : Type := seq (seq R).
Definition mat_at (M : mat) (i j : nat) : R := nth 0 (nth [::] M i) j.
Definition mat_mk (r c : nat) (f : nat -> nat -> R) : mat := [seq [seq f i j | j <- iota 0 c] | i <- iota 0 r].
Definition mat_dims (M : mat) : nat * nat := (size M, size (head [::] M)).
Definition mat_mul (M N : mat) : option mat :=
  let: (r, k) := mat_dims M in let: (k', c) := mat_dims N in
  if k == k' then Some (mat_mk r c (fun i j => foldr (fun l s => mat_at M i l * mat_at N l j + s) 0 (iota 0 k))) else None.
Definition mat_T (M : mat) : mat := let: (r, c) := mat_dims M in mat_mk c r (fun i j => mat_at M j i).
Definition to_mx (n : nat) (M : mat) : 'M[R]_n := \matrix_(i, j) mat_at M i j.
Definition mat_inv (M : mat) : option mat :=
  let: (r, c) := mat_dims M in
  if (r == c) && (\det (to_mx r M) \is a GRing.unit) then
    Some [seq [seq invmx (to_mx r M) i j | j <- enum 'I_r] | i <- enum 'I_r]
  else None.
End Matrix.

Section Lt.
Variables (R : comUnitRingType) (a : ga R).
Notation expr := (expr R).
Notation mv := (mv R).
Let n := ga_n a.
(* lt.py:161-190: the field lt_dict *)
Definition lt : Type := seq (nat * expr).
Implicit Types (L : lt) (x : expr) (X : mv).
Definition basis_word (i : nat) : word := mk_blade [:: i].
Definition basis_words : seq word := [seq basis_word i | i <- iota 0 n].

(* lt.py:125-136 Matrix_to_dictionary *)
Definition Matrix_to_dictionary (M : mat R) : option lt :=
  if mat_dims M == (n, n) then
    Some [seq (col, [seq (mat_at M row col, basis_word row) | row <- iota 0 n]) | col <- iota 0 n]
  else None.
(* lt.py:140-157 Dictionary_to_Matrix *)
Fixpoint fill_column (ts : expr) (col : seq R) : option (seq R) :=
  if ts is (c, b) :: ts' then
    LET i := py_index basis_words b IN fill_column ts' (set_nth 0 col i c)
  else Some col.
Definition dict_column L (j : nat) : option (seq R) :=
  LET v := dget L j IN
  if canon v == [::] then Some (nseq n 0) else fill_column (linear_expand v) (nseq n 0).
Definition Dictionary_to_Matrix L : option (mat R) :=
  LET columns := omapM (dict_column L) (iota 0 n) IN Some (mat_T columns).
(* lt.py:606-625 matrix *)
Definition lt_matrix L : option (mat R) := Dictionary_to_Matrix L.

(* sympy xreplace on the terms of an expression *)
Definition xreplace (d : word -> option expr) x : expr :=
  flatten [seq (if d t.2 is Some v then escale t.1 v else [:: t]) | t <- x].
Definition lt_lookup L (w : word) : option expr :=
  if w is [:: (false, [:: i])] then dget L i else None.
(* lt.py:372-385 mv_dict *)
Definition image L (i : nat) : expr := xreplace (lt_lookup L) [:: (1, basis_word i)].
Definition blade_image L (I : seq nat) : option expr :=
  foldl (fun o i => LET x := o IN ga_wedge a x (image L i)) (Some [:: (1, [::])]) I.
Definition mv_dict L : option (seq (word * expr)) :=
  omapM (fun kv : seq nat * word => LET v := blade_image L kv.1 IN Some (kv.2, v)) (indexes_to_blades n).
(* lt.py:387-438 __call__ with obj=True: on a multivector and on an expression *)
Definition call_obj L X : option expr :=
  LET v := is_vector a X IN
  if v then Some (xreplace (lt_lookup L) (obj X))
  else LET d := mv_dict L IN Some (xreplace (dget d) (obj X)).
Definition call_expr L x : option expr :=
  LET d := mv_dict L IN Some (xreplace (dget d) (obj (mk_mv a x))).
(* lt.py:387-438 __call__ *)
Definition lt_call L X : option mv := LET x := call_obj L X IN Some (mk_mv a x).

(* lt.py:244-370 __init__ *)
(* list of lists: the rows are the images; zip stops at the shorter list *)
Definition row_expr (row : seq R) : expr := canon [seq (cb.1, basis_word cb.2) | cb <- zip row (iota 0 n)].
Definition lt_of_lists (rows : mat R) : lt := [seq (rb.2, row_expr rb.1) | rb <- zip rows (iota 0 n)].
(* list of vectors; lt.py:1016-1024 sym *)
Definition sym_expr X : option expr :=
  LET cs := mv_blade_coefs a X (Some [seq mv_basis_vec R i | i <- iota 0 n]) IN Some [seq (nth 0 cs j, basis_word j) | j <- iota 0 n].
Definition lt_of_vectors (Xs : seq mv) : option lt :=
  omapM (fun xb : mv * nat => LET x := sym_expr xb.1 IN Some (xb.2, x)) (zip Xs (iota 0 n)).
Definition lt_of_matrix (M : mat R) : option lt := Matrix_to_dictionary M.
(* a function; A, B are the vectors with symbolic coefficients of the linearity test *)
Definition lt_of_function (A B : mv) (F : mv -> option mv) : option lt :=
  LET s := mv_add a A B IN LET Fs := F s IN
  LET FA := F A IN LET FB := F B IN LET t := mv_add a FA FB IN
  LET e := mv_eq a Fs t IN
  if ~~ e then None
  else omapM (fun i => LET out := F (mv_basis_vec R i) IN LET v := is_vector a out IN
               if ~~ v && ~~ is_zero out then None else Some (i, obj out)) (iota 0 n).
(* a versor; the test "not mat_rep.is_versor" is about a bound method and never true *)
Definition lt_of_versor (A B V : mv) : option lt :=
  LET Vg := mv_invol a V IN LET Vi := mv_inv a V IN
  lt_of_function A B (fun X => LET p := mv_mul a Vg X IN mv_mul a p Vi).

(* lt.py:440-464 __add__, __sub__ *)
Definition lt_merge (f : expr -> expr -> expr) (g : expr -> expr) L1 L2 : lt :=
  foldl (fun d (kv : nat * expr) =>
    dset d kv.1 (if dget d kv.1 is Some v then f v kv.2 else g kv.2)) L1 L2.
Definition lt_add := lt_merge (fun x y => canon (x ++ y)) id.
Definition lt_minus := lt_merge (fun x y => canon (x ++ eneg y)) (@eneg R).
(* lt.py:466-492 __mul__, __rmul__ *)
Definition lt_mul L1 L2 : option lt :=
  omapM (fun kv : nat * expr =>
    LET x := call_expr L2 [:: (1, basis_word kv.1)] IN
    LET y := call_expr L1 x IN Some (kv.1, canon y)) L2.
Definition lt_scale (c : R) L : lt := [seq (kv.1, escale c kv.2) | kv <- L].

(* lt.py:495-502 det *)
Definition lt_det L : option R :=
  LET x := lt_call L (ga_e a) IN LET i := mv_inv a (ga_e a) IN
  LET p := mv_mul a x i IN Some (mv_scalar p).
(* lt.py:539-548 adj; g is Ga.g, gi is Ga.g_inv *)
Definition lt_adj (gsym : option R) L : option lt :=
  LET gi := g_inv gsym a IN LET M := lt_matrix L IN
  LET p := mat_mul gi (mat_T M) IN LET q := mat_mul p (ga_g a) IN lt_of_matrix q.
(* lt.py:551-555 is_singular *)
Definition lt_is_singular L : option bool :=
  LET x := lt_call L (ga_e a) IN LET i := mv_inv a (ga_e a) IN
  LET p := mv_lc a x i IN Some (mv_scalar p == 0).
(* lt.py:558-567 inv *)
Definition lt_inv L : option lt :=
  LET s := lt_is_singular L IN
  if ~~ s then LET M := lt_matrix L IN LET N := mat_inv M IN lt_of_matrix N else None.
(* lt.py:570-582 _sympystr: the value printed for a basis vector *)
Definition lt_printed L (i : nat) : mv := mk_mv a (if dget L i is Some v then v else [::]).
End Lt.

(* lt.py:505-516 tr, on a new algebra with coordinates xs (ga.py:728-735 coord_vec) *)
Definition coord_vec (R : comUnitRingType) (m : metric R) (xs : seq R) : expr R :=
  [seq (xb.1, basis_word xb.2) | xb <- zip xs (iota 0 (m_n m))].
Definition lt_trace (R : comUnitRingType) (me : metric_env R) (m : metric R) (dga : diff_ga R) (xs : seq R) (L : lt R) : option R :=
  let F_x := LET x := call_expr (metric_ga m) L (coord_vec m xs) IN Some (mk_mv (metric_ga m) x) in
  (lt_tr me m dga F_x (ds_init dga)).2.
