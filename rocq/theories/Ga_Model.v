(* Ga_Model.v -- executable model of the product kernel of galgebra/ga.py.

   Scalars.  sympy expressions that are commutative are modelled as the
   elements of an arbitrary commutative ring R with decidable equality (and a
   partial inverse).  This idealises sympy in one way: equality of scalars is
   semantic, as if expand()/simplify() always reached a normal form.

   Symbols.  A non-scalar basis blade symbol is [(false, I)], a basis base
   symbol (geometric product of basis vectors) is [(true, I)], where I is the
   tuple of basis-vector indices.  As in atoms.py a graded symbol of one basis
   vector is that vector, and of no basis vector the number 1, so a word
   (product of noncommutative symbols) of length 0 stands for S.One.
   Distinct symbols are assumed to have distinct names.

   Expressions.  An expanded sympy expression is a list of terms
   (coefficient, word).

   Exceptions (KeyError, ValueError) are the value None. *)
From mathcomp Require Import all_ssreflect all_algebra.
From Verif Require Import PyBase.
Set Implicit Arguments.
Unset Strict Implicit.
Unset Printing Implicit Defensive.
Import GRing.Theory.
Local Open Scope ring_scope.

Definition sym : Type := (bool * seq nat)%type.
Definition word : Type := seq (bool * seq nat).

Section Model.
Variable R : comUnitRingType.

Definition expr : Type := seq (R * seq (bool * seq nat)).

(* ---- atoms.py:36-56 (_GradedSymbol.__new__), ga.py:970-1000
   (_build_basis_blade_symbol, _build_basis_base_symbol) ---- *)
Definition mk_blade (I : seq nat) : word := if I is [::] then [::] else [:: (false, I)].
Definition mk_base (I : seq nat) : word :=
  match I with
  | [::] => [::]
  | [:: _] => [:: (false, I)]
  | _ => [:: (true, I)]
  end.

(* ---- sympy Add / expand: like terms are merged, zero terms dropped ---- *)
Fixpoint addterm (e : expr) (c : R) (w : word) : expr :=
  if e is (c', w') :: e' then
    if w' == w then (c' + c, w') :: e' else (c', w') :: addterm e' c w
  else [:: (c, w)].
Definition merge_terms (e : expr) : expr := foldl (fun acc t => addterm acc t.1 t.2) [::] e.
Definition canon (e : expr) : expr := [seq t <- merge_terms e | t.1 != 0].
Definition escale (c : R) (e : expr) : expr := [seq (c * t.1, t.2) | t <- e].
Definition eneg (e : expr) : expr := [seq (- t.1, t.2) | t <- e].
(* noncommutative product of two expressions, expanded *)
Definition emul (a b : expr) : expr :=
  flatten [seq [seq (t.1 * u.1, t.2 ++ u.2) | u <- b] | t <- a].

(* metric.py:32-77 linear_expand, as the list of pairs zip(coefs, bases).
   The base of a term is its first noncommutative factor (nc[0]). *)
Definition first_sym (w : word) : word := if w is s :: _ then [:: s] else [::].
Definition linear_expand (e : expr) : expr :=
  let e' := canon e in
  if e' is [::] then [:: (0, [::])]
  else merge_terms [seq (t.1, first_sym t.2) | t <- e'].

(* ga.py:120-151 nc_subs, on the list of terms of an expanded expression *)
Definition nc_subs (e : expr) (d : seq (seq (bool * seq nat) * expr)) : expr :=
  canon (flatten [seq
    if t.2 is [::] then [:: t]
    else if dget d t.2 is Some v then escale t.1 v else [:: t]
  | t <- e]).

(* ---- the algebra: dimension and metric (metric.py:676-843) ---- *)
Record ga := Ga { ga_n : nat; ga_g : seq (seq R) }.
(* self.g[i, j] on a sympy Matrix given by rows *)
Definition gij (a : ga) (i j : nat) : R := nth 0 (nth [::] (ga_g a) i) j.
(* metric.py:804-809 is_ortho *)
Definition is_ortho (a : ga) : bool :=
  all (fun i => all (fun j => (i < j)%N ==> (gij a i j == 0)) (iota 0 (ga_n a)))
      (iota 0 (ga_n a)).

(* ga.py:1048-1055 indexes, grade by grade, and .flat (ga.py:158-184) *)
Definition indexes (n : nat) : seq (seq (seq nat)) :=
  [seq combinations (iota 0 n) k | k <- iota 0 n.+1].
Definition indexes_flat (n : nat) : seq (seq nat) := flatten (indexes n).
(* ga.py:1057-1086 blades *)
Definition blades (n : nat) : seq (seq word) := [seq [seq mk_blade I | I <- l] | l <- indexes n].
Definition blades_flat (n : nat) : seq word := flatten (blades n).
(* ga.py:1101-1121 bases *)
Definition bases_flat (n : nat) : seq word := [seq mk_base I | I <- indexes_flat n].
(* ga.py:1088-1091 indexes_to_blades_dict and .inverse (ga.py:187-200) *)
Definition indexes_to_blades (n : nat) : seq (seq nat * word) :=
  dict_of (zip (indexes_flat n) (blades_flat n)).
Definition blades_to_indexes (n : nat) : seq (word * seq nat) :=
  dict_of [seq (kv.2, kv.1) | kv <- zip (indexes_flat n) (blades_flat n)].
(* ga.py:1093-1099 blades_to_grades_dict *)
Definition blades_to_grades (n : nat) : seq (word * nat) :=
  dict_of (flatten [seq [seq (b, k) | b <- nth [::] (blades n) k]
                   | k <- iota 0 (size (blades n))]).
(* ga.py:1123-1126 indexes_to_bases_dict and .inverse *)
Definition indexes_to_bases (n : nat) : seq (seq nat * word) :=
  dict_of (zip (indexes_flat n) (bases_flat n)).
Definition bases_to_indexes (n : nat) : seq (word * seq nat) :=
  dict_of [seq (kv.2, kv.1) | kv <- zip (indexes_flat n) (bases_flat n)].

(* ---- ga.py:1398-1419 blade_reduce ---- *)
(* the inner while loop: shift entries larger than [save] to the right *)
Fixpoint shift (l : seq nat) (save j : nat) (sgn : bool) : seq nat * nat * bool :=
  if j is j'.+1 then
    if (save < nth 0%N l j')%N then shift (set_nth 0%N l j (nth 0%N l j')) save j' (~~ sgn)
    else (l, j, sgn)
  else (l, 0%N, sgn).
(* sgn = true stands for -1; result None stands for (S.Zero, None) *)
Fixpoint blade_reduce_loop (ks : seq nat) (l : seq nat) (sgn : bool) : option (bool * seq nat) :=
  if ks is i :: ks' then
    let save := nth 0%N l i in
    let: (l1, j, sgn1) := shift l save i sgn in
    let l2 := set_nth 0%N l1 j save in
    if nth 0%N l2 j == pyprev l2 j then None
    else blade_reduce_loop ks' l2 sgn1
  else Some (sgn, l).
Definition blade_reduce (l : seq nat) : option (bool * seq nat) :=
  blade_reduce_loop (iota 1 (size l).-1) l false.

Definition sgnR (b : bool) : R := if b then -1 else 1.

(* ---- ga.py:387-417 _GeometricProductFunction.of_basis_blades,
   orthogonal branch ---- *)
Fixpoint ortho_sort (ks : seq nat) (l rep : seq nat) (sgn : bool) : seq nat * seq nat * bool :=
  if ks is i :: ks' then
    let save := nth 0%N l i in
    let: (l1, j, sgn1) := shift l save i sgn in
    let l2 := set_nth 0%N l1 j save in
    let rep' := if nth 0%N l2 j == pyprev l2 j then rcons rep save else rep in
    ortho_sort ks' l2 rep' sgn1
  else (l, rep, sgn).
Fixpoint remove_repeats (a : ga) (rep l : seq nat) (res : R) : option (seq nat * R) :=
  if rep is i :: rep' then
    LET l1 := pyremove l i IN
    LET l2 := pyremove l1 i IN
    remove_repeats a rep' l2 (res * gij a i i)
  else Some (l, res).
Definition mul_ortho (a : ga) (b1 b2 : word) : option expr :=
  LET i1 := dget (blades_to_indexes (ga_n a)) b1 IN
  LET i2 := dget (blades_to_indexes (ga_n a)) b2 IN
  let l := i1 ++ i2 in
  let: (l', rep, sgn) := ortho_sort (iota 1 (size l).-1) l [::] false in
  LET lr := remove_repeats a rep l' (sgnR sgn) IN
  if (0 < size lr.1)%N then
    LET w := dget (indexes_to_blades (ga_n a)) lr.1 IN Some [:: (lr.2, w)]
  else Some [:: (lr.2, [::])].

(* ---- ga.py:329-384 result grades and the wedge product ---- *)
Inductive prodkind := Hestenes | ScalarProd | LeftC | RightC | WedgeK.
Definition result_grade (n : nat) (k : prodkind) (r s : nat) : option nat :=
  match k with
  | Hestenes => if (r == 0%N) || (s == 0%N) then None else Some (if (s <= r)%N then r - s else s - r)%N
  | ScalarProd => Some 0%N
  | LeftC => if (s < r)%N then None else Some (s - r)%N
  | RightC => if (r < s)%N then None else Some (r - s)%N
  | WedgeK => if (n < r + s)%N then None else Some (r + s)%N
  end.

(* ga.py:368-384 _WedgeProductFunction.of_basis_blades *)
Definition wedge_bb (a : ga) (b1 b2 : word) : option expr :=
  LET i1 := dget (blades_to_indexes (ga_n a)) b1 IN
  LET i2 := dget (blades_to_indexes (ga_n a)) b2 IN
  if result_grade (ga_n a) WedgeK (size i1) (size i2) is None then Some [::]
  else if blade_reduce (i1 ++ i2) is Some (sgn, l) then
    LET w := dget (indexes_to_blades (ga_n a)) l IN Some [:: (sgnR sgn, w)]
  else Some [::].

(* ---- ga.py:247-290 _of_basis_blades_ortho: bubble passes ----
   One pass of the inner while loop over index[i1], index[i2].  [lft] is
   index[:i2] reversed, [rgt] is index[i2:], n = len(index) throughout.
   Result None: "return zero" from inside the loop. *)
Fixpoint bpass (a : ga) (grade : nat) (lft rgt : seq nat) (sgn : bool) (res : R)
    (ordered : bool) {struct rgt} : option (seq nat * bool * R * bool) :=
  match rgt with
  | [::] => Some (rev lft, sgn, res, ordered)
  | y :: rgt' =>
    match lft with
    | [::] => Some (rgt, sgn, res, ordered)
    | x :: lft' =>
      if x == y then
        if (size lft' + size rgt' < grade)%N then None
        else
          (* i2 is unchanged: the next element becomes index[i1] *)
          if rgt' is z :: rgt'' then
            bpass a grade (z :: lft') rgt'' sgn (res * gij a x x) ordered
          else Some (rev lft', sgn, res * gij a x x, ordered)
      else if (y < x)%N then
        bpass a grade (x :: y :: lft') rgt' (~~ sgn) res false
      else bpass a grade (y :: x :: lft') rgt' sgn res ordered
    end
  end.
(* the outer while loop: BZero = "return zero", BOk = loop left with these
   values, BStuck = the model ran out of fuel (excluded by a theorem) *)
Inductive bres := BZero | BStuck | BOk of seq nat & bool & R.
Fixpoint bubble (a : ga) (fuel grade : nat) (index : seq nat) (sgn : bool) (res : R) : bres :=
  if (grade < size index)%N then
    if fuel is f.+1 then
      match bpass a grade (take 1 index) (drop 1 index) sgn res true with
      | Some (index', sgn', res', ordered) =>
        if ordered then BOk index' sgn' res'
        else bubble a f grade index' sgn' res'
      | None => BZero
      end
    else BStuck
  else BOk index sgn res.
Definition single_ortho (a : ga) (k : prodkind) (b1 b2 : word) : option expr :=
  LET i1 := dget (blades_to_indexes (ga_n a)) b1 IN
  LET i2 := dget (blades_to_indexes (ga_n a)) b2 IN
  let index := i1 ++ i2 in
  if result_grade (ga_n a) k (size i1) (size i2) is Some grade then
    match bubble a (size index * size index).+1 grade index false 1 with
    | BStuck => None
    | BZero => Some [::]
    | BOk l sgn res =>
      if (grade < size l)%N then Some [::]
      else if l is [::] then Some [:: (sgnR sgn * res, [::])]
      else LET w := dget (indexes_to_blades (ga_n a)) l IN Some [:: (sgnR sgn * res, w)]
    end
  else Some [::].

(* ---- ga.py:1342-1393 reduce_basis_loop ---- *)
Inductive rbl_res :=
  | RDone                                           (* True *)
  | RContract of R & seq nat & bool                 (* (c, blst, flg) *)
  | RRevise of R & seq nat & bool & seq nat.        (* (a1, blst1, flg1, blst) *)
(* the scan: [pre] = blst[:istep], x = blst[istep], rest = blst[jstep:] *)
Fixpoint rbl_scan (a : ga) (pre : seq nat) (x : nat) (rest : seq nat) : rbl_res :=
  if rest is y :: rest' then
    if x == y then
      let l := pre ++ rest' in
      RContract (gij a x x) l ((size l <= 1)%N || nilp rest')
    else if (y < x)%N then
      let l1 := pre ++ rest' in
      RRevise (2%:R * gij a y x) l1 (size l1 <= 1)%N (pre ++ y :: x :: rest')
    else rbl_scan a (rcons pre x) y rest'
  else RDone.
Definition reduce_basis_loop (a : ga) (blst : seq nat) : rbl_res :=
  if blst is x :: rest then rbl_scan a [::] x rest else RDone.

(* ---- ga.py:1273-1339 reduce_basis ---- *)
Definition rterm : Type := (R * seq nat * bool)%type.
(* one entry of the for loop: the revised entry and the appended one *)
Definition rb_step (a : ga) (t : rterm) : rterm * seq rterm :=
  let: (c, l, flg) := t in
  if flg then (t, [::]) else
  match reduce_basis_loop a l with
  | RDone => ((c, l, true), [::])
  | RContract c1 l1 f1 => ((c1 * c, l1, f1), [::])
  | RRevise a1 l1 f1 l2 => ((- c, l2, false), [:: (- (- c) * a1, l1, f1)])
  end.
Definition rb_pass (a : ga) (ts : seq rterm) : seq rterm :=
  [seq (rb_step a t).1 | t <- ts] ++ flatten [seq (rb_step a t).2 | t <- ts].
Fixpoint rb_loop (a : ga) (fuel : nat) (ts : seq rterm) : option (seq rterm) :=
  if all (fun t : rterm => t.2) ts then Some ts
  else if fuel is f.+1 then rb_loop a f (rb_pass a ts) else None.
(* merging of repeated index lists (no removal of zero coefficients) *)
Fixpoint rb_add (acc : seq (R * seq nat)) (c : R) (l : seq nat) : seq (R * seq nat) :=
  if acc is (c', l') :: acc' then
    if l' == l then (c' + c, l') :: acc' else (c', l') :: rb_add acc' c l
  else [:: (c, l)].
Definition rb_fuel (blst : seq nat) : nat := (size blst * size blst + size blst).+1.
(* result: zip(blst_coef, blst_expand); None would mean non-termination *)
Definition reduce_basis (a : ga) (blst : seq nat) : option (seq (R * seq nat)) :=
  if blst is [::] then Some [:: (1, [::])]
  else LET ts := rb_loop a (rb_fuel blst) [:: (1, blst, false)] IN
       Some (foldl (fun acc (t : rterm) => rb_add acc t.1.1 t.1.2) [::] ts).

(* ---- ga.py:427-449 _BaseGeometricProductFunction ---- *)
Definition of_basis_bases (a : ga) (b1 b2 : word) : option expr :=
  LET i1 := dget (bases_to_indexes (ga_n a)) b1 IN
  LET i2 := dget (bases_to_indexes (ga_n a)) b2 IN
  LET r := reduce_basis a (i1 ++ i2) IN
  LET ts := omapM (fun t : R * seq nat =>
              LET w := dget (indexes_to_bases (ga_n a)) t.2 IN Some (t.1, w)) r IN
  Some (canon ts).
Definition basic_table (a : ga) : option (seq (seq (bool * seq nat) * expr)) :=
  LET items := omapM (fun p : word * word =>
                 LET v := of_basis_bases a p.1 p.2 IN Some (p.1 ++ p.2, v))
               [seq (b1, b2) | b1 <- bases_flat (ga_n a), b2 <- bases_flat (ga_n a)] IN
  Some (dict_of items).
Definition basic_mul (a : ga) (x y : expr) : option expr :=
  LET d := basic_table a IN Some (canon (nc_subs (canon (emul x y)) d)).

(* ---- ga.py:1498-1521 blade_expansion_dict ---- *)
Definition bed_step (a : ga) (od : option (seq (seq (bool * seq nat) * expr))) (index : seq nat) :
    option (seq (seq (bool * seq nat) * expr)) :=
  LET d := od IN
  let blade := mk_blade index in
  if (size index <= 1)%N then Some (dset d blade [:: (1, blade)])
  else
    LET va := dget (indexes_to_blades (ga_n a)) (take 1 index) IN
    LET vA := dget (indexes_to_blades (ga_n a)) (drop 1 index) IN
    LET Ae := dget d vA IN
    LET p := basic_mul a [:: (1, va)] Ae IN
    LET q := basic_mul a Ae [:: (1, va)] IN
    Some (dset d blade
      (canon (escale (2%:R^-1) (p ++ escale (- ((-1) ^+ size index)) q)))).
Definition blade_expansion_dict (a : ga) : option (seq (seq (bool * seq nat) * expr)) :=
  foldl (bed_step a) (Some [::]) (indexes_flat (ga_n a)).

(* ---- ga.py:1524-1541 base_expansion_dict ----
   sympy's e.subs(d) on a sum of symbols with scalar coefficients is the
   termwise replacement nc_subs (the replacement values contain no key other
   than basis vectors, which map to themselves). *)
Definition bsd_step (a : ga) (bed : seq (seq (bool * seq nat) * expr))
    (od : option (seq (seq (bool * seq nat) * expr))) (index : seq nat) :
    option (seq (seq (bool * seq nat) * expr)) :=
  LET d := od IN
  let base := mk_base index in
  let blade := mk_blade index in
  if (size index <= 1)%N then Some (dset d base [:: (1, base)])
  else
    LET tmp := dget bed blade IN
    let tmp1 := nc_subs tmp [:: (base, [:: (-1, blade)])] in
    let tmp2 := eneg (nc_subs tmp1 d) in
    Some (dset d base (canon tmp2)).
Definition base_expansion_dict (a : ga) : option (seq (seq (bool * seq nat) * expr)) :=
  LET bed := blade_expansion_dict a IN
  foldl (bsd_step a bed) (Some [::]) (indexes_flat (ga_n a)).

(* ---- ga.py:1559-1573 ---- *)
Definition base_to_blade_rep (a : ga) (x : expr) : option expr :=
  if is_ortho a then Some x
  else LET d := base_expansion_dict a IN Some (nc_subs (canon x) d).
Definition blade_to_base_rep (a : ga) (x : expr) : option expr :=
  if is_ortho a then Some x
  else LET d := blade_expansion_dict a IN Some (nc_subs (canon x) d).

(* ---- ga.py:93-117 update_and_substitute ---- *)
Definition update_and_substitute (x y : expr) (tab : word -> word -> option expr) : option expr :=
  LET ts := omapM (fun p : (R * word) * (R * word) =>
              LET v := tab p.1.2 p.2.2 IN Some (escale (p.1.1 * p.2.1) v))
            [seq (t, u) | t <- linear_expand x, u <- linear_expand y] IN
  Some (canon (flatten ts)).

(* ---- ga.py:387-420 _GeometricProductFunction ---- *)
Definition mul_bb (a : ga) (b1 b2 : word) : option expr :=
  if is_ortho a then mul_ortho a b1 b2
  else
    LET x1 := blade_to_base_rep a [:: (1, b1)] IN
    LET x2 := blade_to_base_rep a [:: (1, b2)] IN
    LET x12 := basic_mul a x1 x2 IN
    base_to_blade_rep a x12.
Definition ga_mul (a : ga) (x y : expr) : option expr :=
  update_and_substitute x y (mul_bb a).
Definition ga_wedge (a : ga) (x y : expr) : option expr :=
  update_and_substitute x y (wedge_bb a).

(* ---- ga.py:1642-1675 grade_decomposition (of an expression) ---- *)
Fixpoint gd_loop (n : nat) (ts : expr) (d : seq (nat * expr)) : option (seq (nat * expr)) :=
  if ts is (c, b) :: ts' then
    LET k := (if b is [::] then Some 0%N else dget (blades_to_grades n) b) IN
    gd_loop n ts' (if dget d k is Some v then dset d k (v ++ [:: (c, b)])
                   else dset d k [:: (c, b)])
  else Some d.
Definition grade_decomposition (a : ga) (x : expr) : option (seq (nat * expr)) :=
  gd_loop (ga_n a) (linear_expand x) [::].

(* ---- ga.py:292-322 _of_basis_blades_non_ortho, of_basis_blades ---- *)
Definition single_non_ortho (a : ga) (k : prodkind) (b1 b2 : word) : option expr :=
  LET r := dget (blades_to_grades (ga_n a)) b1 IN
  LET s := dget (blades_to_grades (ga_n a)) b2 IN
  if result_grade (ga_n a) k r s is Some grade then
    LET bed := blade_expansion_dict a IN
    LET x1 := dget bed b1 IN
    LET x2 := dget bed b2 IN
    LET x12 := ga_mul a x1 x2 IN
    LET y12 := base_to_blade_rep a x12 IN
    LET gd := grade_decomposition a y12 IN
    Some (if dget gd grade is Some v then canon v else [::])
  else Some [::].
Definition single_bb (a : ga) (k : prodkind) (b1 b2 : word) : option expr :=
  if k is WedgeK then wedge_bb a b1 b2
  else if is_ortho a then single_ortho a k b1 b2
  else single_non_ortho a k b1 b2.
Definition ga_single (a : ga) (k : prodkind) (x y : expr) : option expr :=
  update_and_substitute x y (single_bb a k).

(* ---- ga.py:1701-1830 helpers on expressions ---- *)
(* ga.py:1722-1740 scalar_part *)
Definition scalar_part (x : expr) : R :=
  foldr (fun (t : R * word) s => if nilp t.2 then t.1 + s else s) 0 (canon x).
(* ga.py:1749-1767 grades: sorted list of a set *)
Definition ga_grades (a : ga) (x : expr) : option (seq nat) :=
  LET y := base_to_blade_rep a x IN
  let y' := canon y in
  LET gs := omapM (fun t : R * word => dget (blades_to_grades (ga_n a)) (first_sym t.2))
                  (if y' is [::] then [:: (0, [::])] else y') IN
  Some (sort leq (undup gs)).
(* ga.py:1769-1799 reverse: accumulate by grade, then signs *)
Fixpoint rev_loop (n : nat) (ts : expr) (d : seq (nat * expr)) : option (seq (nat * expr)) :=
  if ts is (c, w) :: ts' then
    LET k := (if w is [::] then Some 0%N else dget (blades_to_grades n) (first_sym w)) IN
    rev_loop n ts' (if dget d k is Some v then dset d k (v ++ [:: (c, w)])
                    else dset d k [:: (c, w)])
  else Some d.
Definition ga_reverse (a : ga) (x : expr) : option expr :=
  LET d := rev_loop (ga_n a) (canon x) [::] IN
  Some (canon (flatten [seq
    if ((kv.1 * (kv.1 - 1))./2 %% 2 == 0)%N then kv.2 else eneg kv.2 | kv <- d])).
(* ga.py:1801-1807 get_grade *)
Definition ga_get_grade (a : ga) (x : expr) (r : nat) : option expr :=
  LET ts := omapM (fun t : R * word =>
              LET k := dget (blades_to_grades (ga_n a)) t.2 IN
              Some (if k == r then [:: t] else [::])) (linear_expand x) IN
  Some (canon (flatten ts)).
(* ga.py:1809-1831 even_odd *)
Definition ga_even_odd (a : ga) (x : expr) (even : bool) : option expr :=
  LET ts := omapM (fun t : R * word =>
              if t.2 is [::] then Some (if even then [:: t] else [::])
              else LET k := dget (blades_to_grades (ga_n a)) (first_sym t.2) IN
                   Some (if odd k == ~~ even then [:: (t.1, first_sym t.2)] else [::]))
            (canon x) IN
  Some (canon (flatten ts)).

End Model.
