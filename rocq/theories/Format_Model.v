(* Format_Model.v -- printing of multivectors: Mv._sympystr and Mv._latex (galgebra/mv.py),
   Mv.Fmt, and Fmt() for containers (galgebra/printer.py).

   [args] stands for the arguments of the sum expand(obj) after simplification: terms
   coefficient * symbols in any order (a single term is a list of length one, zero the
   empty list).  How sympy writes a coefficient times a symbol is a parameter. *)
From Coq Require Import String Ascii.
From mathcomp Require Import all_ssreflect all_algebra.
From Verif Require Import PyBase PyStr Ga_Model Parser_Model.
Set Implicit Arguments.
Unset Strict Implicit.
Unset Printing Implicit Defensive.
Import GRing.Theory.
Local Open Scope ring_scope.
Local Notation ch c := (c%char : ascii).

(* the argument of Fmt: an int, or a str as in the docstring (mv.py:1284-1300) *)
Inductive fmtarg := FInt of nat | FStr of text.
(* galgebra_mv_fmt == k *)
Definition fmt_is (f : fmtarg) (k : nat) : bool := if f is FInt j then j == k else false.
Definition newline : ascii := ascii_of_nat 10.

Section Format.
Variable R : comUnitRingType.
Notation expr := (expr R).
Notation ga := (ga R).
Implicit Types (a : ga) (args : expr).

(* ga.py:1093-1099, 1128-1134: blades_to_grades_dict and bases_to_grades_dict, the grade of
   each entry of blades.flat and bases.flat *)
Definition flat_grades (n : nat) : seq nat := [seq size I | I <- indexes_flat n].
(* mv.py:621-626, 708-713: the symbols looked for; is_blade_rep of the fresh Mv as in
   Mv_Model.mk_mv *)
Definition base_keys a args : seq word :=
  if all (fun t : R * word => first_sym t.2 \in blades_flat (ga_n a)) args || is_ortho a
  then blades_flat (ga_n a) else bases_flat (ga_n a).

(* a value of the dictionary terms: (coefficient, base, grade) *)
Definition entry : Type := (nat * (R * word * nat))%type.
(* mv.py:631-645, 717-731: one argument.  The state is the dictionary and grade0.  (Keys
   are positions in base_keys; position 0 is the number 1, which is no symbol.) *)
Definition term_step a (keys : seq word) (st : seq entry * R) (t : R * word) : seq entry * R :=
  if t.2 is s :: _ then
    let base := [:: s] in
    if base \in keys then
      let i := index base keys in
      if dget st.1 i is Some (c, b, g) then (dset st.1 i (c + t.1, b, g), st.2)
      else (dset st.1 i (t.1, base, nth 0%N (flat_grades (ga_n a)) i), st.2)
    else st
  else (st.1, st.2 + t.1).
(* mv.py:629-648, 715-736: the collected terms, sorted by position.  The key of the scalar
   term is -1 in the code, here 0; its grade is -1 in _sympystr and 0 in _latex, here 0
   (only compared with the grades of symbols, which are positive). *)
Definition sorted_terms a args : seq entry :=
  let st := foldl (term_step a (base_keys a args)) ([::], 0) args in
  let terms := if st.2 != 0 then rcons st.1 (0%N, (st.2, [::], 0%N)) else st.1 in
  sort (fun p q : entry => (p.1 <= q.1)%N) terms.

(* ---- text ---- *)
Section Text.
(* str(c * base) *)
Variable prt : R -> word -> text.
(* mv.py:663-666; the empty text raises IndexError *)
Definition sign_term (t : text) : option text :=
  if t is c :: t' then Some (if c == ch "-" then txt " - " ++ t' else txt " + " ++ t) else None.
(* mv.py:658-670 *)
Fixpoint text_loop (fmt : fmtarg) (s : text) (old : nat) (ts : seq entry) : option text :=
  if ts is (_, (c, b, g)) :: ts' then
    let brk := fmt_is fmt 2 && (old != g) in
    let s := if brk then rcons s newline else s in
    LET t := sign_term (prt c b) IN
    text_loop fmt (s ++ (if fmt_is fmt 3 then rcons t newline else t)) (if brk then g else old) ts'
  else Some s.
(* mv.py:611-675 Mv._sympystr *)
Definition mv_text a (fmt : fmtarg) args : option text :=
  if all (fun t : R * word => nilp t.2) args then Some (prt (foldl (fun s (t : R * word) => s + t.1) 0 args) [::])
  else if args is [:: t] then Some (prt t.1 t.2)
  else if sorted_terms a args is (_, (c, b, g)) :: ts then
    let s := prt c b in
    let s := if fmt_is fmt 3 then ch " " :: rcons s newline else if fmt_is fmt 2 then ch " " :: s else s in
    LET s := text_loop fmt s g ts IN
    if s is x :: s' then Some (if last x s' == newline then belast x s' else s) else None
  else None.
End Text.

(* ---- LaTeX ---- *)
Section Latex.
(* the LaTeX of a coefficient and of a base, and isinstance(coef, Add) *)
Variables (lco : R -> text) (lba : word -> text) (isadd : R -> bool).
Fixpoint lstrip_text (s : text) : text := if s is c :: s' then if is_space c then lstrip_text s' else s else [::].
Definition strip_text (s : text) : text := rev (lstrip_text (rev (lstrip_text s))).
(* mv.py:684-694 append_plus *)
Definition append_plus (first : bool) (s : text) : option text :=
  if first then Some s
  else let s := strip_text s in
    if s is c :: _ then Some ((if c == ch "-" then txt " " else txt " + ") ++ s) else None.
(* mv.py:746-760 cb_str *)
Definition cb_str (c : R) (b : word) : text :=
  let l := lco c in
  let l := if (l == txt "1") && ~~ nilp b then [::] else l in
  let l := if (l == txt "-1") && ~~ nilp b then txt "-" else l in
  let lb := if nilp b then [::] else lba b in
  if isadd c then txt "\left ( " ++ l ++ txt "\right ) " ++ lb else l ++ txt " " ++ lb.
(* mv.py:744-773; the state: first_line, lines, s, old_grade (None for -1) *)
Fixpoint latex_loop (fmt : fmtarg) (first : bool) (lines : seq text) (s : text) (old : option nat)
    (ts : seq entry) : option (seq text * text) :=
  if ts is (_, (c, b, g)) :: ts' then
    LET p := append_plus first (cb_str c b) IN
    if fmt_is fmt 3 then latex_loop fmt false (rcons lines p) s old ts'
    else if fmt_is fmt 2 then
      if Some g != old then latex_loop fmt false (if first then lines else rcons lines s) p (Some g) ts'
      else latex_loop fmt false lines (s ++ p) old ts'
    else latex_loop fmt false lines (s ++ p) old ts'
  else Some (lines, s).
(* mv.py:776-782 *)
Definition aligned (lines : seq text) : text :=
  if lines is [:: l] then l
  else
    let s := foldl (fun s l => s ++ txt " & " ++ l ++ txt " \\ ") (txt " \begin{aligned}[t] ") lines in
    take (size s - 3) s ++ txt " \end{aligned} ".
(* mv.py:677-783 Mv._latex *)
Definition mv_latex a (fmt : fmtarg) args : option text :=
  if nilp args then Some (txt "0")
  else
    let ts := sorted_terms a args in
    if (size ts == 1)%N && (if ts is (_, (_, _, g)) :: _ then g == 0%N else false)
    then if ts is (_, (c, _, _)) :: _ then Some (lco c) else None
    else
      LET r := latex_loop fmt true [::] [::] None ts IN
      let lines := if fmt_is fmt 2 then rcons r.1 r.2 else r.1 in
      match fmt with
      | FInt k => Some (if (2 <= k)%N then aligned lines else r.2)
      | FStr _ => None          (* '2' >= 2: TypeError *)
      end.
End Latex.
End Format.

(* mv.py:1284-1306 Mv.Fmt with a title, printer.py:1216-1246 *)
Definition with_title (title : option text) (s : text) : text :=
  if title is Some t then t ++ txt " = " ++ s else s.

(* ---- printer.py:1160-1207 Fmt(obj, fmt) for list, tuple and dict, outside of notebooks;
   [cells]: the LaTeX of the elements (of the keys, for a dict), [vals]: of the values ---- *)
Inductive container := PyList | PyTuple | PyDict.
Definition ldelim (k : container) : text :=
  match k with PyList => txt "[" | PyTuple => txt "(" | PyDict => txt "\{" end.
Definition rdelim (k : container) : text :=
  match k with PyList => txt "]" | PyTuple => txt ")" | PyDict => txt "\}" end.
(* latex_cell.replace('\n', ' ') *)
Definition one_line (s : text) : text := [seq if c == newline then ch " " else c | c <- s].
(* printer.py:1173-1187 *)
Definition fmt_row (k : container) (cells vals : seq text) : text :=
  let cell (p : text * text) := one_line (if k is PyDict then p.1 ++ txt " : " ++ p.2 else p.1) ++ txt ", & " in
  let s := foldl (fun s p => s ++ cell p)
    (txt " \left " ++ ldelim k ++ txt " \begin{array}{" ++ nseq (size cells) (ch "c") ++ txt "} ") (zip cells vals) in
  take (size s - 4) s ++ txt "\\ \end{array} \right " ++ rdelim k ++ txt " " ++ [:: newline].
(* printer.py:1188-1202 *)
Fixpoint column_loop (k : container) (n i : nat) (s : text) (cells : seq text) : text :=
  if cells is c :: cells' then
    let c := one_line c in
    column_loop k n i.+1 (s ++
      (if (i == 1)%N then txt "\begin{array}{c} \left " ++ ldelim k ++ txt " " ++ c ++ txt ", \right. \\ "
       else if i == n then txt " \left. " ++ c ++ txt "\right " ++ rdelim k ++ txt " \\ \end{array}"
       else txt " " ++ c ++ txt ", \\")) cells'
  else s.
Definition fmt_column (k : container) (cells : seq text) : text := column_loop k (size cells) 1 [::] cells.
(* printer.py:1160-1207: the items of a list or tuple have no second component *)
Definition fmt_items (k : container) (fmt : nat) (items : seq (text * text)) : text :=
  if fmt == 1%N then fmt_row k (unzip1 items) (unzip2 items) else fmt_column k (unzip1 items).
