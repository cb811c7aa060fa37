(* Names_Model.v -- model of the construction of basis names
   (galgebra/metric.py:symbols_list, Metric.__init__) and of the Cl factories
   (galgebra/interop/_cl.py, galgebra/interop/kingdon.py). *)
From Coq Require Import String Ascii ZArith.
From mathcomp Require Import all_ssreflect all_algebra.
From Verif Require Import PyBase PyStr Ga_Model Dual_Model.
Set Implicit Arguments.
Unset Strict Implicit.
Unset Printing Implicit Defensive.
Local Open Scope string_scope.

(* metric.py:178-298 symbols_list, for a string s: the names of the symbols.
   indices = Some l gives the strings str(i) for i in the list argument.
   None = ValueError (wrong number of '*', or an index that is no integer). *)
Definition symbols_list (s : string) (indices : option (seq string)) (sub : bool) : option (seq string) :=
  let pos := if sub then "_" else "__" in
  if indices is Some l then Some [seq s +++ pos +++ i | i <- l]
  else if has_char "*" s then
    if split "*" s is [:: base; index] then
      if has_char "|" s then Some [seq base +++ pos +++ i | i <- split "|" index]
      else if py_int index is Some z then Some [seq base +++ pos +++ str_nat i | i <- py_range z]
      else None
    else None
  else
    let s_lst :=
      if s == "" then [::]
      else if has_char "," s then
        let l := split "," s in if last "" l == "" then take (size l).-1 l else l
      else split " " s in
    Some (if sub then s_lst else [seq replace1 "_" "__" x | x <- s_lst]).

(* metric.py:722-739 the basis and reciprocal basis names of an algebra;
   coords = Some l gives the strings str(x) of the coordinates *)
Definition basis_names (basis : string) (coords : option (seq string)) : option (seq string * seq string) :=
  if has_char " " basis || has_char "," basis || has_char "*" basis || (basis == "") then
    LET b := symbols_list basis None true IN
    LET r := symbols_list basis None false IN Some (b, r)
  else if coords is Some l then
    LET b := symbols_list basis (Some l) true IN
    LET r := symbols_list basis (Some l) false IN Some (b, r)
  else None.

Section Cl.
Variable R : comUnitRingType.
Local Open Scope ring_scope.

(* metric.py:788-794 a metric given as a list of numbers: eye(m) with that diagonal *)
Definition diag_matrix (g : seq R) : seq (seq R) :=
  [seq [seq (if i == j then nth 0 g i else 0) | j <- iota 0 (size g)] | i <- iota 0 (size g)].
(* metric.py:716-809 Metric.__init__ with a list g and no coordinates: names and
   algebra; None when the basis string is rejected or when an entry of g beyond
   its size is read (IndexError) *)
Definition make_ga (basis : string) (g : seq R) : option (seq string * ga R) :=
  LET bs := basis_names basis None IN
  let n := size bs.1 in
  if (size g < n)%N && (1 < n)%N then None else Some (bs.1, Ga n (diag_matrix g)).

(* state: the class attribute Ga.dual_mode_value (ga.py:568) *)
Definition dual_mode_default : string := "I+".
(* ga.py:576-600 dual_mode; the boolean tells whether ValueError is raised *)
Definition dual_mode (st : string) (mode : string) : string * bool :=
  if set_dual_mode mode is Some m then (m, false) else (st, true).

(* _cl.py:8-76 Cl, kingdon.py:13-88 Cl.  first = number of the first basis
   vector (1 or 0), few = largest n for which root*...|... is used *)
Definition cl_basis (first few : nat) (root : string) (n : nat) : string :=
  if (n <= few)%N then root +++ "*" +++ join "|" [seq str_nat (i + first) | i <- iota 0 n]
  else join " " [seq root +++ "_" +++ str_nat (i + first) | i <- iota 0 n].
Definition cl_metric (p q r : nat) : seq R := nseq p 1 ++ nseq q (-1) ++ nseq r 0.
Definition cl_factory (first few : nat) (mode : string) (st : string) (p q r : nat) (root : string) :
    string * option (seq string * ga R) :=
  let n := (p + q + r)%N in
  if n == 0%N then (st, None)
  else
    let (st', err) := dual_mode st mode in
    if err then (st', None)
    else (st', make_ga (cl_basis first few root n) (cl_metric p q r)).
Definition interop_Cl := cl_factory 1 9 "I+".
Definition kingdon_Cl := cl_factory 0 10 "Iinv+".
End Cl.

(* the operations that touch the class attribute *)
Inductive mode_op :=
  | OpDualMode of string              (* Ga.dual_mode(mode) *)
  | OpCl of nat & nat & nat & string  (* interop.Cl(p, q, r, root) *)
  | OpKingdon of nat & nat & nat & string. (* interop.kingdon.Cl(p, q, r, root) *)
Definition mode_step (R : comUnitRingType) (st : string) (op : mode_op) : string :=
  match op with
  | OpDualMode m => (dual_mode st m).1
  | OpCl p q r root => (interop_Cl R st p q r root).1
  | OpKingdon p q r root => (kingdon_Cl R st p q r root).1
  end.
