(* Coef_Model.v -- model of coefficient access, construction, comparison and
   classification of multivectors (galgebra/mv.py), with the cached fields of
   an object, and of the identity of algebras (galgebra/ga.py, metric.py). *)
From Coq Require Import String Ascii.
From mathcomp Require Import all_ssreflect all_algebra.
From Verif Require Import PyBase PyStr Ga_Model Mv_Model Mv_Expr Names_Model.
Set Implicit Arguments.
Unset Strict Implicit.
Unset Printing Implicit Defensive.
Import GRing.Theory.
Local Open Scope ring_scope.

(* l[i] for a Python int i (negative = from the end, None = IndexError) *)
Definition py_nth (T : Type) (l : seq T) (i : int) : option T :=
  match i with
  | Posz k => nth None (map Some l) k
  | Negz k => if (k < size l)%N then nth None (map Some l) (size l - k.+1) else None
  end.
(* l.index(x) (None = ValueError) *)
Definition py_index (T : eqType) (l : seq T) (x : T) : option nat :=
  if x \in l then Some (index x l) else None.

Section Coef.
Variable R : comUnitRingType.
Notation expr := (expr R).
Notation ga := (ga R).
Notation mv := (mv R).
Implicit Types (a : ga) (X Y : mv) (x : expr).
Local Open Scope py_scope.

(* mv.py:1039-1042 components *)
Definition mv_components a X : option (seq mv) :=
  LET ks := omapM (fun t : R * word => LET i := py_index (blades_flat (ga_n a)) t.2 IN Some (i, t))
              (linear_expand (obj X)) IN
  Some [seq mk_mv a [:: (k.2 : R * word)] | k <- sort (fun u v : nat * (R * word) => (u.1 <= v.1)%N) ks].

(* mv.py:1044-1067 get_coefs *)
Fixpoint get_coefs_loop (bl : seq word) (ts : expr) (cs : seq R) : option (seq R) :=
  if ts is (c, b) :: ts' then
    if c == 0 then get_coefs_loop bl ts' cs
    else LET i := py_index bl b IN get_coefs_loop bl ts' (set_nth 0 cs i (nth 0 cs i + c))
  else Some cs.
Definition mv_get_coefs a X (grade : int) : option (seq R) :=
  LET bl := py_nth (blades (ga_n a)) grade IN
  get_coefs_loop bl (linear_expand (obj X)) (nseq (size bl) 0).

(* mv.py:975-977 is_base *)
Definition is_base X : bool := [seq t.1 | t <- linear_expand (obj X)] == [:: 1].

(* ---- the object with its cached fields (mv.py:341-350) ---- *)
Record cmv := CMv { cobj : expr; cbrep : bool; char : bool; i_grade : option nat;
                    grades : option (seq nat); blade_flg : option bool; versor_flg : option bool }.
(* mv.py:117-169 characterise_Mv *)
Fixpoint char_loop (n : nat) (ts : expr) (gs : seq nat) : option (seq nat) :=
  if ts is t :: ts' then
    if t.2 is [::] then char_loop n ts' (if 0%N \in gs then gs else rcons gs 0%N)
    else if dget (blades_to_grades n) (first_sym t.2) is Some g then
      char_loop n ts' (if g \in gs then gs else rcons gs g)
    else None
  else Some gs.
Definition characterise a (o : cmv) : cmv :=
  if char o then o
  else
    let x := canon (cobj o) in
    if all (fun t : R * word => nilp t.2) x then   (* commutative *)
      CMv (cobj o) true (char o) (Some 0%N) (Some [:: 0%N]) (blade_flg o) (versor_flg o)
    else if (if x is [:: (c, w)] then (c == 1) && (w \in blades_flat (ga_n a)) else false) then
      let g := if x is [:: (c, w)] then dget (blades_to_grades (ga_n a)) w else None in
      CMv (cobj o) true true g (omap (fun k => [:: k]) g) (Some true) (versor_flg o)
    else if char_loop (ga_n a) x [::] is Some gs then
      CMv (cobj o) true true (if gs is [:: g] then Some g else None) (Some gs) (blade_flg o) (versor_flg o)
    else CMv (cobj o) false true None (grades o) (blade_flg o) (versor_flg o).
(* mv.py:352-372 Mv(expr) *)
Definition new_mv a x : cmv := characterise a (CMv (canon x) true false None None None None).
Definition forget (o : cmv) : mv := Mv (cobj o) (cbrep o).

(* mv.py:979-1012 is_versor, the computation.  The generic vector _XOX has
   independent symbols as coefficients, so the blades of
   V.g_invol()*_XOX*V.rev() are those of V.g_invol()*e_i*V.rev() for the basis
   vectors e_i; without basis vectors _XOX does not exist (AttributeError). *)
Definition mv_basis_vec (i : nat) : mv := Mv [:: (1, mk_blade [:: i])] true.
Definition versor_image a X : option expr :=
  LET ps := omapM (fun i => LET p := run a (Invol X *. mv_basis_vec i *. Rev X) IN Some (obj p))
              (iota 0 (ga_n a)) IN
  Some (flatten ps).
Definition versor_grades a (x : expr) : option (seq nat) :=
  LET gs := omapM (fun t : R * word => dget (blades_to_grades (ga_n a)) (first_sym t.2))
              (if x is [::] then [:: (0, [::])] else x) IN
  Some (sort leq (undup gs)).
Definition versor_value a X : option bool :=
  LET r := mv_rev a X IN
  LET p := mv_mul a X r IN
  LET s := is_scalar a p IN
  if ~~ (s && ~~ is_zero p) then Some false
  else if ga_n a == 0%N then None
  else LET x := versor_image a X IN LET gs := versor_grades a x IN Some (gs == [:: 1%N]).
Definition is_versor a (o : cmv) : cmv * option bool :=
  if versor_flg o is Some b then (o, Some b)
  else
    let o1 := characterise a o in
    if versor_value a (forget o1) is Some b then
      (CMv (cobj o1) (cbrep o1) (char o1) (i_grade o1) (grades o1) (blade_flg o1) (Some b), Some b)
    else (o1, None).
(* mv.py:928-973 is_blade *)
Definition set_blade (o : cmv) (b : bool) : cmv * option bool :=
  (CMv (cobj o) (cbrep o) (char o) (i_grade o) (grades o) (Some b) (versor_flg o), Some b).
Definition is_blade a (o : cmv) : cmv * option bool :=
  if blade_flg o is Some b then (o, Some b)
  else
    let o1 := characterise a o in
    if i_grade o1 is Some r then
      if canon (cobj o1) == [::] then set_blade o1 false
      else if (r <= 1)%N then
        (* characterise_Mv may already have set the flag: assigning True again *)
        set_blade o1 true
      else
        let: (o2, v) := is_versor a o1 in
        match v with
        | Some true => set_blade o2 true
        | Some false =>
            if mv_wedge a (forget o2) (forget o2) is Some w then set_blade o2 (is_zero w) else (o2, None)
        | None => (o2, None)
        end
    else set_blade o1 false.
(* mv.py:1533-1542 pure_grade: the result is an int; None = TypeError/IndexError *)
Definition pure_grade a (o : cmv) : cmv * option int :=
  let o1 := characterise a o in
  (o1, if i_grade o1 is Some g then Some (Posz g)
       else if grades o1 is Some (g :: gs) then Some (- Posz (last g gs)) else None).
(* mv.py:452-470 base_rep, blade_rep: copies with all cached fields *)
Definition cbase_rep a (o : cmv) : option cmv :=
  if ~~ cbrep o then Some o
  else LET x := blade_to_base_rep a (cobj o) IN
       Some (CMv x false (char o) (i_grade o) (grades o) (blade_flg o) (versor_flg o)).
Definition cblade_rep a (o : cmv) : option cmv :=
  if cbrep o then Some o
  else LET x := base_to_blade_rep a (cobj o) IN
       Some (CMv x true (char o) (i_grade o) (grades o) (blade_flg o) (versor_flg o)).
(* mv.py:1272-1282 set_coef.  "if self.blade_rep" tests a bound method, which is
   true, so the base is always a blade; no cached field is touched. *)
Definition set_coef a (o : cmv) (igrade ibase : int) (value : R) : option cmv :=
  LET bl := py_nth (blades (ga_n a)) igrade IN
  LET b := py_nth bl ibase IN
  let ts := linear_expand (cobj o) in
  let old := if b \in [seq t.2 | t <- ts] then nth 0 [seq t.1 | t <- ts] (index b [seq t.2 | t <- ts]) else 0 in
  Some (CMv (canon (cobj o ++ [:: (value - old, b)])) (cbrep o) (char o) (i_grade o) (grades o) (blade_flg o) (versor_flg o)).

(* mv.py:1069-1090 blade_coefs; None as blade list = all blades *)
Definition basis_blade_ok a X : option bool :=
  if ~~ is_base X then Some false else (is_blade a (new_mv a (obj X))).2.
Definition mv_blade_coefs a X (l : option (seq mv)) : option (seq R) :=
  LET bs := (if l is Some ys then
               LET oks := omapM (basis_blade_ok a) ys IN
               if all id oks then Some [seq obj y | y <- ys] else None
             else Some [seq [:: (1, b)] | b <- blades_flat (ga_n a)]) IN
  let ts := linear_expand (obj X) in
  Some [seq (let w := if b is [:: (_, w)] then w else [::] in
             if w \in [seq t.2 | t <- ts] then nth 0 [seq t.1 | t <- ts] (index w [seq t.2 | t <- ts]) else 0)
       | b <- bs].
(* mv.py:1092-1102 proj *)
Definition mv_proj a X (l : seq mv) : mv :=
  mk_mv a [seq t <- linear_expand (obj X) | [:: (1, t.2)] \in [seq obj y | y <- l]].

(* mv.py:1549-1578 compare; the first None is ZeroDivision, not reachable *)
Fixpoint compare_loop (c : R) (ts us : expr) : R :=
  match ts, us with
  | (ac, ab) :: ts', (bc, bb) :: us' =>
      if (bc != 0) && (ab == bb) then
        if ac / bc != c then 0 else compare_loop c ts' us'
      else 0
  | _, _ => c
  end.
Definition mv_compare X Y : R :=
  let ts := linear_expand (obj X) in let us := linear_expand (obj Y) in
  if size ts != size us then 0
  else if [seq t.2 | t <- ts] != [seq u.2 | u <- us] then 0
  else match ts, us with
       | (ac, ab) :: ts', (bc, bb) :: us' =>
           if (bc != 0) && (ab == bb) then compare_loop (ac / bc) ts' us' else 0
       | _, _ => 0
       end.

(* mv.py:472-477 __hash__: what is hashed; sympy's hash of a sum is a function of
   the set of its terms *)
Definition hash_input a (name : string) X : option ((option string) * expr) :=
  LET s := is_scalar a X IN Some (if s then None else Some name, canon (obj X)).
End Coef.

(* ---- mv.py:180-274 constructors ---- *)
Section Make.
Variables (R : comUnitRingType) (sym : string -> R).
Local Open Scope string_scope.
(* ga.py:1136-1146 basis_super_scripts without coordinates / with coordinates *)
Fixpoint str_index (c : ascii) (s : string) : nat :=
  if s is String x s' then if x == c then 0%N else (str_index c s').+1 else 0%N.
Fixpoint str_drop (k : nat) (s : string) : string :=
  if k is k'.+1 then (if s is String _ s' then str_drop k' s' else EmptyString) else s.
Definition basis_super_scripts (basis : seq string) (coords : option (seq string)) : seq string :=
  if coords is Some l then l
  else let b0 := head EmptyString basis in
       if has_char "_" b0 then [seq str_drop (str_index "_" b0).+1 b | b <- basis]
       else [seq str_nat i.+1 | i <- iota 0 (size basis)].
(* ga.py:1148-1152 blade_super_scripts of one blade *)
Definition blade_super_script (ss : seq string) (I : seq nat) : string :=
  foldr (fun i s => nth EmptyString ss i +++ s) EmptyString I.
(* mv.py:184-187 add_superscript *)
Definition add_superscript (root s : string) : string := if s == "" then root else root +++ "__" +++ s.
(* mv.py:180-214 _make_grade with a name: coefficient names with their blades;
   None = IndexError (Python indexing: a negative grade counts from the end) *)
Definition make_grade_names (n : nat) (ss : seq string) (name : string) (grade : int) : option (seq (string * word)) :=
  LET l := py_nth (indexes n) grade IN
  Some [seq (add_superscript name (blade_super_script ss I), mk_blade I) | I <- l].
Definition to_expr (l : seq (string * word)) : expr R := [seq (sym p.1, p.2) | p <- l].
(* ... with a list of coefficients *)
Definition make_grade_list (n : nat) (coeffs : seq R) (grade : int) : option (expr R) :=
  LET l := py_nth (blades n) grade IN
  if (size coeffs <= size l)%N then Some (zip coeffs l) else None.
(* mv.py:240-270 _make_mv, _make_even (_make_spinor), _make_odd *)
Definition make_grades_names (n : nat) (ss : seq string) (name : string) (gs : seq nat) : option (seq (string * word)) :=
  LET ls := omapM (fun g => make_grade_names n ss name (Posz g)) gs IN Some (flatten ls).
(* mv.py:373-395: the category argument *)
Definition make_named (n : nat) (ss : seq string) (name category : string) : option (seq (string * word)) :=
  if category == "scalar" then make_grade_names n ss name 0
  else if category == "vector" then make_grade_names n ss name 1
  else if (category == "bivector") || (category == "grade2") then make_grade_names n ss name 2
  else if category == "pseudo" then make_grade_names n ss name (Posz n)
  else if category == "mv" then make_grades_names n ss name (iota 0 n.+1)
  else if (category == "even") || (category == "spinor") then
    make_grades_names n ss name [seq g <- iota 0 n.+1 | ~~ odd g]
  else if category == "odd" then make_grades_names n ss name [seq g <- iota 0 n.+1 | odd g]
  else None.
End Make.

(* ---- identity of algebras ---- *)
Section Ident.
Local Open Scope string_scope.
(* metric.py:342, 710-711: the class counter starts at 1; the name is taken and
   the counter advanced before anything can fail *)
Definition ga_construct (count : nat) (rest_ok : bool) : nat * option string :=
  (count.+1, if rest_ok then Some ("GA" +++ str_nat count) else None).
Fixpoint ga_history (count : nat) (h : seq bool) : seq (option string) :=
  if h is b :: h' then let: (c, r) := ga_construct count b in r :: ga_history c h' else [::].
(* ga.py:637-641 __eq__, __hash__ *)
Definition ga_eq (n1 n2 : string) : bool := n1 == n2.
(* multivector objects carry their algebra (field Ga), identified by its name *)
Record tagged (R : comUnitRingType) := Tagged { owner : string; body : mv R }.
Inductive binop := OpAdd | OpSub | OpMul | OpWedge | OpDot | OpLC | OpRC | OpCom | OpAnticom | OpEq.
(* what the operator computes inside one algebra; == has no multivector result,
   here its result is the truth value as a multivector 1 or 0 *)
Definition plain_op (R : comUnitRingType) (a : ga R) (k : binop) (X Y : mv R) : option (mv R) :=
  match k with
  | OpAdd => mv_add a X Y | OpSub => mv_sub a X Y | OpMul => mv_mul a X Y
  | OpWedge => mv_wedge a X Y | OpDot => mv_dot a X Y | OpLC => mv_lc a X Y | OpRC => mv_rc a X Y
  | OpCom => mv_com a X Y | OpAnticom => mv_anticom a X Y
  | OpEq => LET b := mv_eq a X Y IN Some (mv_const a (if b then 1 else 0))
  end.
(* mv.py:524, 557, 792, 815, 865, 885: every operator first compares the algebras
   (>>, << through *, == through -) *)
Definition tagged_op (R : comUnitRingType) (a : ga R) (k : binop) (X Y : tagged R) : option (mv R) :=
  if ~~ ga_eq (owner X) (owner Y) then None else plain_op a k (body X) (body Y).
End Ident.
