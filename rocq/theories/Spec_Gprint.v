(* Spec_Gprint.v -- what gprint is meant to show (gprinter.py).

   The arguments are shown one after the other: strings as they are, classes and other
   values surrounded by blanks.  A \\ in a string other than the first argument starts a new
   equation. *)
From Coq Require Import String Ascii.
From mathcomp Require Import all_ssreflect.
From Verif Require Import PyBase PyStr Parser_Model Symbol_Model Gprint_Model.
Set Implicit Arguments.
Unset Strict Implicit.
Unset Printing Implicit Defensive.
Local Open Scope seq_scope.

(* the parts of a text between consecutive \\ *)
Fixpoint rows (s : text) : seq text :=
  match s with
  | [::] => [:: [::]]
  | c :: s' =>
      match s' with
      | d :: s'' =>
          if (c == bs) && (d == bs) then [::] :: rows s''
          else if rows s' is r :: rs then (c :: r) :: rs else [::]
      | [::] => [:: [:: c]]
      end
  end.
(* two lists of rows one after the other: the last row of the first goes on in the first
   row of the second *)
Fixpoint glue (p q : seq text) : seq text :=
  match p with
  | [::] => q
  | [:: r] => if q is r' :: q' then (r ++ r') :: q' else [:: r]
  | r :: p' => r :: glue p' q
  end.
(* one argument; tex: LaTeX is on; first: it is the first argument *)
Definition arg_rows (tex first : bool) (x : arg) : seq text :=
  match x with
  | AStr s => if first then [:: s] else rows s
  | AType t => [:: if tex then txt " " ++ bs :: txt "text{" ++ t ++ txt "} " else t]
  | AVal l s => [:: txt " " ++ (if tex then l else s) ++ txt " "]
  end.
(* the equations shown by gprint(x1, ..., xk) *)
Definition equations (tex : bool) (xs : seq arg) : seq text :=
  if xs is x :: xs' then foldl glue (arg_rows tex true x) (map (arg_rows tex false) xs') else [:: [::]].
(* one equation in LaTeX *)
Definition equation (r : text) : text := txt "\begin{equation*} " ++ r ++ txt "\end{equation*}".
(* no % among the characters of the strings and of the names of classes *)
Definition no_percent (x : arg) : bool :=
  match x with AStr s => percent_sign \notin s | AType t => percent_sign \notin t | AVal _ _ => true end.
(* no @ at all *)
Definition no_at (x : arg) : bool :=
  match x with AStr s => at_sign \notin s | AType t => at_sign \notin t | AVal l _ => at_sign \notin l end.

(* the source of a program in a grey box, with a heading for its output *)
Definition source_box (src : text) : text :=
  txt "\begin{lstlisting}[language=Python,showspaces=false,showstringspaces=false,backgroundcolor=\color{gray},frame=single]" ++
  src ++ txt "\end{lstlisting}\text{Code Output:}".
(* what a statement contributes to the document *)
Definition contribution (st : stmt) : text :=
  match st with
  | SPrint xs => joined [:: newline] (map equation (equations true xs)) ++ [:: " "%char; newline]
  | SSource src => source_box src
  | _ => [::]
  end.
Definition good (st : stmt) : bool :=
  match st with SPrint xs => all no_percent xs | _ => true end.
Definition is_xpdf (st : stmt) : bool := if st is SXpdf _ then true else false.
(* a document class line and the size of the page, with pt points *)
Definition heading (p : paper) (pt cls : text) : text :=
  let page w h w1 h1 := txt "\usepackage[vcentering]{geometry}" ++ [:: newline] ++
    txt "\geometry{papersize={" ++ w ++ txt "in," ++ h ++ txt "in},total={" ++ w1 ++ txt "in," ++ h1 ++
    txt "in}}" ++ [:: newline] in
  [:: newline] ++ txt "\documentclass[" ++ pt ++ txt ",fleqn]{" ++ cls ++ txt "}" ++ [:: newline] ++
  match p with
  | PLetter => [::]
  | PLandscape => page (txt "11") (txt "8.5") (txt "10") (txt "7.5")
  | PSize w h w1 h1 => page w h w1 h1
  end.
Definition page_ok (p : paper) : bool :=
  if p is PSize w h w1 h1 then all (fun t : text => at_sign \notin t) [:: w; h; w1; h1] else true.
