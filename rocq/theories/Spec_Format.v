(* Spec_Format.v -- what a printed multivector looks like (property C58), written without
   reference to the printing code *)
From Coq Require Import String Ascii.
From mathcomp Require Import all_ssreflect all_algebra.
From Verif Require Import PyStr.
Set Implicit Arguments.
Unset Strict Implicit.
Unset Printing Implicit Defensive.
Import GRing.Theory.
Local Open Scope ring_scope.
Local Notation ch c := (c%char : ascii).
Local Notation text := (seq ascii).
Local Notation symbols := (seq (bool * seq nat)).
Definition str (s : string) : text := list_ascii_of_string s.
Definition eol : ascii := ascii_of_nat 10.

Section Terms.
Variable R : comUnitRingType.
(* the coefficient of a blade in a sum of terms *)
Definition coefficient (terms : seq (R * symbols)) (b : symbols) : R := \sum_(t <- terms | t.2 == b) t.1.
(* the terms to be shown, in the order of the given list of blades: every blade that
   occurs, once, with its whole coefficient; the scalar part ([::]) only if it is not 0 *)
Definition shown (blades : seq symbols) (terms : seq (R * symbols)) : seq (R * symbols) :=
  [seq (coefficient terms b, b) | b <- blades &
    if nilp b then coefficient terms b != 0 else b \in [seq t.2 | t <- terms]].
End Terms.
(* the number of basis vectors of a blade *)
Definition grade_of (b : symbols) : nat := if b is s :: _ then size s.2 else 0%N.

(* a further term of a sum: its minus sign, or a plus sign *)
Definition further (t : text) : text :=
  if ohead t == Some (ch "-") then str " - " ++ behead t else str " + " ++ t.
(* the first text as it is, the others with their sign *)
Definition as_sum (sign : text -> text) (ts : seq text) : seq text :=
  if ts is t :: ts' then t :: map sign ts' else [::].
(* the lines of a text *)
Fixpoint lines (s : text) : seq text :=
  if s is c :: s' then
    if c == eol then [::] :: lines s'
    else if lines s' is l :: ls then (c :: l) :: ls else [:: [:: c]]
  else [:: [::]].
(* one line for each grade: the texts of that grade *)
Definition by_grade (l : seq (text * nat)) : seq text :=
  [seq flatten [seq p.1 | p <- l & p.2 == g] | g <- undup [seq p.2 | p <- l]].
(* white space removed at both ends *)
Definition trim (s : text) : text :=
  let cut (s : text) := drop (find (fun c => ~~ is_space c) s) s in rev (cut (rev (cut s))).
Definition further_latex (t : text) : text :=
  let t := trim t in (if ohead t == Some (ch "-") then str " " else str " + ") ++ t.
(* several lines in LaTeX *)
Fixpoint intercalate (sep : text) (ls : seq text) : text :=
  match ls with [::] => [::] | [:: l] => l | l :: ls' => l ++ sep ++ intercalate sep ls' end.
Definition aligned_lines (ls : seq text) : text :=
  if ls is [:: l] then l
  else str " \begin{aligned}[t] " ++ intercalate (str "\\ ") [seq str " & " ++ l ++ str " " | l <- ls] ++ str " \end{aligned} ".

(* ---- lists, tuples and dicts in LaTeX (property C59) ---- *)
(* one row, the cells separated by commas, between brackets *)
Definition row_layout (left right : text) (cells : seq text) : text :=
  str " \left " ++ left ++ str " \begin{array}{" ++ nseq (size cells) (ch "c") ++ str "} " ++
  intercalate (str ", & ") cells ++ str "\\ \end{array} \right " ++ right ++ str " " ++ [:: eol].
(* one column: a first, any number of middle cells, a last *)
Definition column_layout (left right first : text) (middle : seq text) (last : text) : text :=
  str "\begin{array}{c} \left " ++ left ++ str " " ++ first ++ str ", \right. \\ " ++
  flatten [seq str " " ++ c ++ str ", \\" | c <- middle] ++
  str " \left. " ++ last ++ str "\right " ++ right ++ str " \\ \end{array}".
(* line breaks in a cell are replaced by spaces *)
Definition flat_text (s : text) : text := [seq if c == eol then ch " " else c | c <- s].
(* s occurs in t *)
Definition occurs (s t : text) : bool := has (fun i => take (size s) (drop i t) == s) (iota 0 (size t).+1).
