(* Diff_Model.v -- model of differentiation of multivector fields in
   galgebra/ga.py (blade_derivation, pDiff, connection, grads) and
   galgebra/mv.py (Mv.diff), with the mutable fields they use.

   A computation reads and writes the state of the algebra object and may raise;
   the state written before the exception is kept.  Simplification: coordinate
   symbols are given by their number; simplify/expand/Simp.apply are the
   identity on values. *)
From mathcomp Require Import all_ssreflect all_algebra.
From Verif Require Import PyBase Ga_Model Mv_Model Mv_Expr Dual_Model Metric_Model.
Set Implicit Arguments.
Unset Strict Implicit.
Unset Printing Implicit Defensive.
Import GRing.Theory.
Local Open Scope ring_scope.

(* the operators '*', '^', '|', '<', '>' *)
Inductive dmode := MMul | MWedge | MDot | MLt | MGt.
Definition mode_code (d : dmode) : nat :=
  match d with MMul => 0 | MWedge => 1 | MDot => 2 | MLt => 3 | MGt => 4 end.

Section Diff.
Variables (R : comUnitRingType) (me : metric_env R) (gsym : option R) (m : metric R).
Notation expr := (expr R).
Notation mv := (mv R).
Notation D := (me_diff me).
Let a := metric_ga m.
Let n := m_n m.

(* ---- metric.py:495-521 de: linear combinations of the reciprocal symbols e^k
   (true, k) and of the basis symbols e_j (false, j) ---- *)
Definition rexpr : Type := seq (R * (bool * nat)).
Definition de_first (i j : nat) : rexpr := [seq (Gamma1 me m i j k, (true, k)) | k <- iota 0 n].
(* metric.py:599-616 normalize_metric: e^k -> e^k/N_k, minus dN_j e_j, over N_j *)
Definition de_norm (N : seq R) (i j : nat) : rexpr :=
  let renorm := [seq (if t.2.1 then (t.1 / nth 0 N t.2.2, t.2) else t) | t <- de_first i j] in
  [seq (t.1 / nth 0 N j, t.2) | t <- renorm ++ [:: (- D i (nth 0 N j), (false, j))]].
Definition de_metric (i j : nat) : rexpr :=
  if m_enorm m is Some N then de_norm N i j else de_first i j.
(* ga.py:1910-1921 _update_de_from_rbasis: substitute the reciprocal vectors and
   divide by e_sq if the basis is not orthogonal *)
Definition subs_rbasis (rs : seq expr) (e : rexpr) : expr :=
  flatten [seq if t.2.1 then escale t.1 (nth [::] rs t.2.2) else [:: (t.1, mk_blade [:: t.2.2])] | t <- e].
Definition de_entry (rs : seq expr) (i j : nat) : option expr :=
  if m_ortho m then Some (canon (subs_rbasis rs (de_metric i j)))
  else LET s := ga_e_sq gsym a IN LET d := sinv s IN
       Some (canon (escale d (subs_rbasis rs (de_metric i j)))).
(* the field de after Ga.__init__; the inner None: no connection *)
Definition ga_de : option (option (seq (seq expr))) :=
  LET c := connect_flg me m IN
  if ~~ c then Some None
  else LET rs := r_basis a IN
       LET t := omapM (fun i => omapM (de_entry rs i) (iota 0 n)) (iota 0 n) IN Some (Some t).

(* ---- ga.py:643-725 the object: tables fixed by the constructor.  Simplification:
   r_basis is only used when there are coordinates ---- *)
Record diff_ga := DiffGa { dg_connect : bool; dg_de : seq (seq expr); dg_grad : seq mv }.
(* ga.py:940-951 _build_grads *)
Definition build_grads : option (seq mv) :=
  LET rs := r_basis_mv a IN
  LET rs1 := (if m_ortho m then Some rs
              else LET s := ga_e_sq gsym a IN omapM (fun x => mv_divc a x s) rs) IN
  if m_enorm m is Some N then omapM (fun p : mv * R => mv_divc a p.1 p.2) (zip rs N) else Some rs1.
Definition make_diff_ga : option diff_ga :=
  LET c := connect_flg me m IN
  LET de := ga_de IN
  LET gr := build_grads IN
  Some (DiffGa c (if de is Some t then t else [::]) gr).

(* ---- mutable state: _dbases, connect, dslot and the flag connect_flg, which
   Lt.tr overwrites ---- *)
Record dstate := DState {
  ds_bases : seq ((nat * word) * expr);
  ds_conn : seq ((nat * bool * word) * expr);
  ds_slot : int;
  ds_flag : bool }.
Variable dga : diff_ga.
(* ga.py:717, 1252-1262 *)
Definition ds_init : dstate := DState [::] [::] (-1)%R (dg_connect dga).

Definition prog (A : Type) : Type := dstate -> dstate * option A.
Definition ret A (x : A) : prog A := fun st => (st, Some x).
Definition fail A : prog A := fun st => (st, None).
Definition lift A (o : option A) : prog A := fun st => (st, o).
Definition bnd A B (p : prog A) (f : A -> prog B) : prog B :=
  fun st => let: (st', o) := p st in if o is Some x then f x st' else (st', None).
Fixpoint pfold A (B : eqType) (f : A -> B -> prog A) (l : seq B) (x : A) : prog A :=
  if l is b :: l' then bnd (f x b) (fun y => pfold f l' y) else ret x.

(* ga.py:1975-2014: the new value of the cache entry *)
Definition blade_deriv_new (blade : word) (ib : nat) : option expr :=
  if (ib < n)%N then
    LET index := dget (blades_to_indexes n) blade IN
    LET ts := omapM (fun i =>
        LET l := dget (indexes_to_blades n) (take i index) IN
        LET r := dget (indexes_to_blades n) (drop i.+1 index) IN
        let d := nth [::] (nth [::] (dg_de dga) ib) (nth 0%N index i) in
        LET w := ga_wedge a [:: (1, l)] d IN
        ga_wedge a w [:: (1, r)]) (iota 0 (size index)) IN
    Some (canon (flatten ts))
  else None.
(* ga.py:1975-2014 blade_derivation; _dbases exists only with a connection *)
Definition blade_derivation (blade : word) (ib : nat) : prog expr := fun st =>
  if ~~ dg_connect dga then (st, None)
  else if dget (ds_bases st) (ib, blade) is Some v then (st, Some v)
  else if blade_deriv_new blade ib is Some v then
    (DState (dset (ds_bases st) (ib, blade) v) (ds_conn st) (ds_slot st) (ds_flag st), Some v)
  else (st, None).

(* ga.py:2016-2059 pDiff by one coordinate, of a multivector *)
Definition diff_terms (ib : nat) (x : expr) : expr := [seq (D ib t.1, t.2) | t <- x].
Definition pDiff_term (ib : nat) (dA : mv) (t : R * word) : prog mv :=
  bnd (blade_derivation (first_sym t.2) ib) (fun x =>
  ret (if canon x == [::] then dA else mk_mv a (obj dA ++ escale t.1 x))).
Definition pDiff (A : mv) (ib : nat) : prog mv := fun st =>
  let dA := mk_mv a (diff_terms ib (obj A)) in
  if ds_flag st && (ds_slot st == (-1)%R) then
    (bnd (lift (is_scalar a A)) (fun s =>
       if s then ret dA
       else pfold (pDiff_term ib) [seq t <- canon (obj A) | ~~ nilp t.2] dA)) st
  else (st, Some dA).
(* ga.py:2023-2039: a list of orders, one for each coordinate *)
Fixpoint pDiff_times (A : mv) (ib k : nat) : prog mv :=
  if k is k'.+1 then bnd (pDiff A ib) (fun B => pDiff_times B ib k') else ret A.
Definition pDiff_list (A : mv) (orders : seq nat) : prog mv :=
  if (n <= size orders)%N then pfold (fun B ib => pDiff_times B ib (nth 0%N orders ib)) (iota 0 n) A
  else fail mv.
(* mv.py:1180-1201 Mv.diff by a coordinate: pDiff receives the expression; with
   a connection the test A.is_scalar() calls a boolean: TypeError *)
Definition mv_diff (A : mv) (ib : nat) : prog mv := fun st =>
  if ds_flag st && (ds_slot st == (-1)%R) then (st, None)
  else (st, Some (mk_mv a (diff_terms ib (obj A)))).

(* mv.py:94-115 Mv.Mul; ga.py:1584-1596 Ga.Mul on expressions *)
Definition mv_op (d : dmode) : mv -> mv -> option mv :=
  match d with
  | MMul => mv_mul a | MWedge => mv_wedge a | MDot => mv_dot a | MLt => mv_lc a | MGt => mv_rc a
  end.
Definition ga_Mul (d : dmode) : expr -> expr -> option expr :=
  match d with
  | MMul => ga_mul a | MWedge => ga_wedge a
  | MDot => ga_single a Hestenes | MLt => ga_single a LeftC | MGt => ga_single a RightC
  end.
(* mv.py:1789-1800 with the terms (r_i, Pdop(x_i)) of grad: grad op A, A op rgrad *)
Definition grad_mul (d : dmode) (left : bool) (A : mv) : prog mv :=
  pfold (fun s i =>
    bnd (pDiff A i) (fun dA =>
    let r := nth (mv_const a 0) (dg_grad dga) i in
    lift (LET q := (if left then mv_op d r dA else mv_op d dA r) IN mv_add a s q)))
    (iota 0 n) (mv_const a 0).

(* ga.py:2114-2138 connection *)
Definition connection (rbase key_base : word) (d : dmode) (left : bool) : prog expr := fun st =>
  let key := (mode_code d, left, if left then rbase ++ key_base else key_base ++ rbase) in
  if ~~ dg_connect dga then (st, None)      (* no field connect: AttributeError *)
  else if dget (ds_conn st) key is Some _ then (st, None)    (* return C: C is unbound *)
  else
    bnd (lift (r_basis a)) (fun rs =>
    bnd (pfold (fun C ib =>
           bnd (blade_derivation key_base ib) (fun x =>
           let x' := if m_enorm m is Some N then escale (nth 0 N ib)^-1 x else x in
           let er := nth [::] rs ib in
           lift (LET p := (if left then ga_Mul d er x' else ga_Mul d x' er) IN Some (canon (C ++ p)))))
         (iota 0 n) [::]) (fun C st' =>
    (DState (ds_bases st') (dset (ds_conn st') key C) (ds_slot st') (ds_flag st'), Some C))) st.

(* lt.py:930-931 Mlt.pdiff: grad * mv(fvalue) after setting dslot, F = mv(fvalue) *)
Definition mlt_pdiff (slot : int) (F : mv) : prog mv := fun st =>
  grad_mul MMul true F (DState (ds_bases st) (ds_conn st) (slot - 1)%R (ds_flag st)).
(* lt.py:505-516 Lt.tr; F_x is the value of the transformation on the coordinate
   vector, None when computing it raises *)
Definition lt_tr (F_x : option mv) : prog R := fun st =>
  let st1 := DState (ds_bases st) (ds_conn st) (ds_slot st) false in
  bnd (lift F_x) (fun F =>
  bnd (grad_mul MDot true F) (fun r st2 =>
  (DState (ds_bases st2) (ds_conn st2) (ds_slot st2) (ds_flag st), Some (mv_scalar r)))) st1.
End Diff.
