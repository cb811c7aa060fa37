(* MltPrint_Model.v -- the components of a multilinear function and its LaTeX form:
   Mlt.expand_expr and Mlt._latex (galgebra/lt.py:708-801).

   A SymPy expression is a tree: slot symbols (numbered by their position in
   ga._mlt_acoefs), other atoms, products, sums and other functions of symbols that are
   not slot symbols (a power, a function of the coordinates), of which only the value and
   the arguments are kept.  Coefficients are computed as values. *)
From Coq Require Import Ascii String.
From mathcomp Require Import all_ssreflect all_algebra.
From Verif Require Import PyBase PyStr Parser_Model.
Set Implicit Arguments.
Unset Strict Implicit.
Unset Printing Implicit Defensive.
Import GRing.Theory.
Local Open Scope ring_scope.

Section Expand.
Variable R : comUnitRingType.
Inductive sx := SSlot of nat | SAtom of R | SMul of seq sx | SAdd of seq sx | SFun of R & seq sx.
(* the attribute args of an expression *)
Definition sargs (e : sx) : seq sx :=
  match e with SSlot _ | SAtom _ => [::] | SMul l | SAdd l | SFun _ l => l end.
(* the value of an expression for given values of the slot symbols *)
Fixpoint value (rho : nat -> R) (e : sx) : R :=
  match e with
  | SSlot i => rho i
  | SAtom c => c
  | SMul l => foldr (fun x v => value rho x * v) 1 l
  | SAdd l => foldr (fun x v => value rho x + v) 0 l
  | SFun c _ => c
  end.
Variable rho : nat -> R.
(* lt.py:772-782: the coefficient and the slot symbols of one term *)
Definition term_of (t : sx) : R * seq nat :=
  foldl (fun s f => if f is SSlot i then (s.1, rcons s.2 i) else (s.1 * value rho f, s.2)) (1, [::]) (sargs t).
(* tuple <= tuple in Python *)
Fixpoint tuple_le (x y : seq nat) : bool :=
  match x, y with
  | [::], _ => true
  | _, [::] => false
  | i :: x', j :: y' => (i < j)%N || ((i == j) && tuple_le x' y')
  end.
(* lt.py:785-801: terms with the same symbols are added up.  None for the symbols is the
   initial value (-1,) of previous *)
Definition group_step (s : seq (R * seq nat) * option (R * seq nat)) (t : R * seq nat) :=
  if s.2 is Some (c, k) then
    if k == t.2 then (s.1, Some (c + t.1, k)) else (rcons s.1 (c, k), Some t)
  else (s.1, Some t).
(* lt.py:769-801 expand_expr of an expanded expression; None = UnboundLocalError *)
Definition expand_expr (e : sx) : option (seq (R * seq nat)) :=
  let lst := sort (fun x y : R * seq nat => tuple_le x.2 y.2) [seq term_of t | t <- sargs e] in
  let r := foldl group_step ([::], None) lst in
  if r.2 is Some ca then Some (rcons r.1 ca) else None.
End Expand.

(* ---- LaTeX ---- *)
(* a component: str(coef), latex of coef, whether coef is a sum, latex of the symbols *)
Record comp := Comp { c_str : text; c_latex : text; c_add : bool; c_syms : seq text }.
Section Latex.
Definition tx (s : string) : text := list_ascii_of_string s.
Arguments tx s%string.
(* lt.py:718-728 *)
Definition piece (first : bool) (c : comp) : text :=
  let l := if c_add c then tx "\left ( " ++ c_latex c ++ tx "\right ) " else c_latex c in
  let l := if first then l
           else if (head " "%char (c_str c) != "-"%char) || c_add c then tx " + " ++ l else l in
  l ++ flatten [seq x ++ tx " " | x <- c_syms c].
(* lt.py:717-737: the state is (latex_str, first, cnt) *)
Definition latex_step (lcnt : nat) (s : text * bool * nat) (c : comp) : text * bool * nat :=
  let: (str, first, cnt) := s in
  let p := piece first c in
  let str := if cnt == 1%N then str ++ tx " & " ++ p else str ++ p in
  if (cnt %% lcnt == 0)%N then (str ++ tx "\\ ", false, 1%N) else (str, false, cnt.+1).
(* lt.py:708-741 _latex; one = latex of the value, used for at most one argument.
   None = ZeroDivisionError *)
Definition mlt_latex (nargs lcnt : nat) (one : text) (cs : seq comp) : option text :=
  if (nargs <= 1)%N then Some one
  else if lcnt == 0%N then None
  else
    let: (str, _, _) := foldl (latex_step lcnt) (tx "\begin{aligned} ", true, 1%N) cs in
    let str := if (lcnt == size cs) || (lcnt == 1%N) then take (size str - 3) str else str in
    Some (str ++ tx " \end{aligned} ").
End Latex.
