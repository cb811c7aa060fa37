(* Metric_Model.v -- model of class Metric (galgebra/metric.py) and of the
   metric of a submanifold (galgebra/ga.py, class Sm).

   Scalars are the elements of a commutative ring R as in Ga_Model.v; what the
   code asks of sympy about scalars is collected in [metric_env].
   Simplification: simplify, trigsimp, expand and Simp.apply preserve values and
   are the identity.  Exceptions are None. *)
From Coq Require Import String Ascii ZArith.
From mathcomp Require Import all_ssreflect all_algebra.
From Verif Require Import PyBase PyStr Ga_Model Mv_Model Dual_Model.
Set Implicit Arguments.
Unset Strict Implicit.
Unset Printing Implicit Defensive.
Import GRing.Theory.
Local Open Scope ring_scope.

Record metric_env (R : Type) := MetricEnv {
  me_diff : nat -> R -> R;             (* diff(f, coords[k]) *)
  me_rational : string -> option R;    (* Rational(s); None = not a rational *)
  me_dot : nat -> nat -> R;            (* DotProductSymbol(basis[i], basis[j]) *)
  me_gfun : nat -> nat -> R;           (* Function('g_{}_{}'.format(x_i, x_j))(coords) *)
  me_root : R -> R;                    (* metric.py:146-175 square_root_of_expr *)
  me_number : R -> bool;               (* f.is_number *)
  me_pos : R -> bool }.                (* f > 0, for numbers *)

(* Python's all(f(x) for x in l) with exceptions *)
Fixpoint py_all (T : Type) (f : T -> option bool) (l : seq T) : option bool :=
  if l is x :: l' then LET b := f x IN if b then py_all f l' else Some false else Some true.
(* k * s and s[:-1] for strings, s.strip() *)
Fixpoint str_rep (k : nat) (s : string) : string :=
  if k is k'.+1 then s +++ str_rep k' s else EmptyString.
Fixpoint str_init (s : string) : string :=
  if s is String c s' then (if s' is EmptyString then EmptyString else String c (str_init s')) else EmptyString.
Definition py_strip (s : string) : string := rstrip (lstrip s).

Section Metric.
Variables (R : comUnitRingType) (me : metric_env R).
Notation matrix := (seq (seq R)).
Notation D := (me_diff me).

(* M[i, j] on a sympy matrix; None = IndexError *)
Definition mget (g : matrix) (i j : nat) : option R :=
  if (i < size g)%N && (j < size (nth [::] g i))%N then Some (nth 0 (nth [::] g i) j) else None.
Definition ment (g : matrix) (i j : nat) : R := nth 0 (nth [::] g i) j.
Definition mk_rows (n m : nat) (f : nat -> nat -> R) : matrix :=
  [seq [seq f i j | j <- iota 0 m] | i <- iota 0 n].
(* the pairs (i, j) with i < j in the order of the generator expressions *)
Definition upper_pairs (n : nat) : seq (nat * nat) :=
  [seq p <- [seq (i, j) | i <- iota 0 n, j <- iota 0 n] | (p.1 < p.2)%N].

(* metric.py:363-400 dot_orthogonal with g = None *)
Definition dot_orthogonal (V1 V2 : seq R) : R :=
  foldl (fun dot (v : R * R) => dot + v.1 * v.2) 0 (zip V1 V2).

(* metric.py:402-410 _build_metric_element *)
Definition build_element (s : string) (i1 i2 : nat) : option R :=
  if s == "#"%string then Some (if (i1 <= i2)%N then me_dot me i1 i2 else me_dot me i2 i1)
  else me_rational me s.
(* [f(i, x) for i, x in enumerate(l)] *)
Definition enumM (A B : Type) (f : nat -> A -> option B) (l : seq A) : option (seq B) :=
  omapM (fun p : nat * A => f p.1 p.2) (zip (iota 0 (size l)) l).
(* metric.py:412-461 metric_symbols_list *)
Definition default_metric_string (n : nat) : string :=
  let s := str_rep n "# "%string in
  let s1 := str_rep n (str_init s +++ ",")%string in str_init s1.
Definition metric_symbols_list (n : nat) (arg : option string) : option matrix :=
  let s := if arg is Some s then s else default_metric_string n in
  let rows := split "," s in
  if size rows == 1%N then
    LET m := enumM (fun i t => build_element t i i) (split " " s) IN
    if size m != n then None
    else Some (mk_rows n n (fun i j => if i == j then nth 0 m i else 0))
  else
    LET m := omapM (fun row => let cols := split " " (py_strip row) in
                    if size rows != size cols then None else Some cols) rows IN
    if size m != n then None
    else enumM (fun i1 row => enumM (fun i2 t => build_element t i1 i2) row) m.

(* metric.py:747-795: the forms of the argument g (and X) *)
Inductive garg :=
  | GNone                       (* neither g nor X *)
  | GManifold of seq R          (* g is None, X = list of components *)
  | GGeneral                    (* g = 'g' *)
  | GString of string           (* any other string *)
  | GMatrix of matrix           (* a Matrix, or a list of lists *)
  | GDiagonal of seq R.         (* a list of scalars *)
(* metric.py:775-782: a string g *)
Definition garg_of_string (s : string) : garg := if s == "g"%string then GGeneral else GString s.
Definition diagonal (l : seq R) : matrix :=
  mk_rows (size l) (size l) (fun i j => if i == j then nth 0 l i else 0).
(* coords = Some m: m coordinates.  Matrix(rows) needs rows of one length *)
Definition build_g (n : nat) (coords : option nat) (g : garg) : option matrix :=
  match g with
  | GNone => metric_symbols_list n None
  | GManifold X =>
      LET m := coords IN
      let dX := [seq [seq D k x | x <- X] | k <- iota 0 m] in
      Some [seq [seq dot_orthogonal dx1 dx2 | dx2 <- dX] | dx1 <- dX]
  | GGeneral => LET m := coords IN Some (mk_rows m m (me_gfun me))
  | GString s => metric_symbols_list n (Some s)
  | GMatrix rows =>
      if all (fun row => size row == size (head [::] rows)) rows then Some rows else None
  | GDiagonal l => Some (diagonal l)
  end.

(* fields of the object after Metric.__init__ (metric.py:676-843) *)
Record metric := Metric { m_n : nat; m_coords : option nat; m_g : matrix; m_graw : matrix;
                          m_ortho : bool; m_enorm : option (seq R) }.
(* metric.py:804-809 is_ortho *)
Definition ortho_test (n : nat) (g : matrix) : option bool :=
  py_all (fun p : nat * nat => LET x := mget g p.1 p.2 IN Some (x == 0)) (upper_pairs n).
(* metric.py:818-832, 622-626 normalisation: e_norm and the new g *)
Definition norm_list (n : nat) (g : matrix) : option (seq R) :=
  omapM (fun i => LET x := mget g i i IN Some (me_root me x)) (iota 0 n).
Definition norm_g (n : nat) (N : seq R) (g : matrix) : option matrix :=
  if all (fun x => x \is a GRing.unit) N then
    Some [seq [seq (if (i < n)%N && (j < n)%N then ment g i j / (nth 0 N i * nth 0 N j) else ment g i j)
              | j <- iota 0 (size (nth [::] g i))] | i <- iota 0 (size g)]
  else None.
Definition make_metric (n : nat) (coords : option nat) (g : garg) (norm : bool) : option metric :=
  LET gm := build_g n coords g IN
  LET o := ortho_test n gm IN
  if norm then
    if ~~ o then None
    else LET N := norm_list n gm IN
         LET g' := norm_g n N gm IN Some (Metric n coords g' gm o (Some N))
  else Some (Metric n coords gm gm o None).
(* the product kernel of the algebra uses n and g *)
Definition metric_ga (m : metric) : ga R := Ga (m_n m) (m_g m).

(* metric.py:472-480 dg: a cached property, first read before the metric is
   normalised, hence of the original metric.  Simplification: with fewer
   coordinates than basis vectors, or a metric smaller than the basis, the
   tables do not exist (the code raises IndexError when it gets there). *)
Definition dims_ok (m : metric) : bool :=
  [&& (size (m_graw m) >= m_n m)%N, all (fun row => m_n m <= size row)%N (m_graw m)
    & if m_coords m is Some c then (m_n m <= c)%N else false].
Definition dg (m : metric) (i j k : nat) : R := D k (ment (m_graw m) i j).
(* metric.py:482-493 connect_flg *)
Definition connect_flg (m : metric) : option bool :=
  if m_coords m is None then Some false
  else if ~~ dims_ok m then None
  else Some (has (fun i => has (fun j => has (fun k => dg m i j k != 0) (iota 0 (m_n m)))
                    (iota 0 (m_n m))) (iota 0 (m_n m))).
(* metric.py:545-597 Christoffel_symbols; the inner None is the None returned
   when there is no connection *)
Definition mk_table (n : nat) (f : nat -> nat -> nat -> R) : seq matrix :=
  [seq mk_rows n n (f i) | i <- iota 0 n].
Definition tab (T : seq matrix) (i j k : nat) : R := ment (nth [::] T i) j k.
Definition Gamma1 (m : metric) (i j k : nat) : R :=
  half R * (dg m j k i + dg m i k j - dg m i j k).
Definition Gamma2 (m : metric) (ginv : matrix) (i j k : nat) : R :=
  foldr (fun l s => Gamma1 m i j l * ment ginv l k + s) 0 (iota 0 (m_n m)).
(* ga.py:1923-1938: self.g_inv of a geometric algebra is computed from g *)
Definition Christoffel_symbols (gsym : option R) (m : metric) (mode : nat) : option (option (seq matrix)) :=
  LET c := connect_flg m IN
  if ~~ c then Some None
  else if mode == 1%N then Some (Some (mk_table (m_n m) (Gamma1 m)))
  else if mode == 2%N then
    LET gi := g_inv gsym (metric_ga m) IN Some (Some (mk_table (m_n m) (Gamma2 m gi)))
  else None.

(* metric.py:629-662 signature; the field sig is an int or a string before *)
Inductive sighint := SigInt of int | SigStr of string.
Fixpoint sig_loop (g : seq R) (p q : nat) : nat * nat :=
  if g is x :: g' then
    if me_number me x then (if me_pos me x then sig_loop g' p.+1 q else sig_loop g' p q.+1)
    else (p, q)
  else (p, q).
Definition signature (m : metric) (sig : sighint) : option (int * int) :=
  let n := m_n m in
  let hint := match sig with
    | SigInt s => if (s <= Posz n)%R then Some (s, Posz n - s) else None
    | SigStr s =>
        if s == "e"%string then Some (Posz n, Posz 0)
        else if s == "m+"%string then Some (Posz n - 1, Posz 1)
        else if s == "m-"%string then Some (Posz 1, Posz n - 1)
        else None
    end in
  if m_ortho m then
    let: (p, q) := sig_loop [seq ment (m_g m) i i | i <- iota 0 n] 0 0 in
    if (p + q == n)%N then Some (Posz p, Posz q) else hint
  else hint.

(* ga.py:2256-2325 Sm.__init__ with a list u of functions: the metric.  [dsub]
   is differentiation by the new coordinates, [subs] the substitution of the
   base coordinates by u; nsub the number of new coordinates. *)
Definition sm_metric (dsub : nat -> R -> R) (subs : R -> R) (base : metric) (u : seq R) (nsub : nat) :
    option matrix :=
  if size u != m_n base then None
  else if m_coords base is None then None
  else
    let n := m_n base in
    let dxdu := [seq [seq dsub j x | j <- iota 0 nsub] | x <- u] in
    Some (mk_rows nsub nsub (fun i j =>
      foldl (fun s k => foldl (fun s l => s + ment dxdu k i * ment dxdu l j * subs (ment (m_graw base) k l))
                              s (iota 0 n)) 0 (iota 0 n))).
End Metric.
