(* Printer_Model.v -- model of the LaTeX capture and post-processing of galgebra/printer.py
   (GaLatexPrinter.redirect/restore, Format, LatexFormat, _texify, tex). *)
From Coq Require Import String Ascii ZArith.
From mathcomp Require Import all_ssreflect.
From Verif Require Import PyBase PyStr.
Set Implicit Arguments.
Unset Strict Implicit.
Unset Printing Implicit Defensive.
Local Open Scope string_scope.

Definition nl : ascii := ascii_of_nat 10.
Definition newline : string := String nl "".

(* ---------- the string operations of tex ---------- *)
(* s.startswith(p) *)
Fixpoint starts (p s : string) : bool :=
  match p, s with
  | EmptyString, _ => true
  | String c p', String d s' => (c == d) && starts p' s'
  | _, _ => false
  end.
(* s[k:] *)
Fixpoint drops (k : nat) (s : string) : string :=
  if k is k'.+1 then (if s is String _ s' then drops k' s' else EmptyString) else s.
(* sub in s *)
Fixpoint contains (sub s : string) : bool :=
  starts sub s || (if s is String _ s' then contains sub s' else false).
(* s.replace(sub, '', 1) for a non-empty sub *)
Fixpoint remove_first (sub s : string) : string :=
  if starts sub s then drops (length sub) s
  else if s is String c s' then String c (remove_first sub s') else EmptyString.
(* s.rsplit(c, 1) when c occurs in s *)
Fixpoint rsplit1 (c : ascii) (s : string) : string * string :=
  if s is String x s' then
    if has_char c s' then (let p := rsplit1 c s' in (String x p.1, p.2))
    else (EmptyString, s')
  else (EmptyString, EmptyString).
(* s.replace('\n\n', '\n') *)
Fixpoint squeeze (s : string) : string :=
  match s with
  | String a ((String b s') as t) => if (a == nl) && (b == nl) then String nl (squeeze s') else String a (squeeze t)
  | _ => s
  end.
(* s.strip() *)
Definition strip (s : string) : string := rstrip (lstrip s).

(* ---------- printer.py:839-861 _texify ---------- *)
(* \w, for the boundaries \b; ASCII only *)
Definition word (c : ascii) : bool :=
  let k := nat_of_ascii c in [|| (48 <= k <= 57)%N, (65 <= k <= 90)%N, (97 <= k <= 122)%N | k == 95%N].
(* the next character is not part of a word *)
Definition word_end (s : string) : bool := if s is String c _ then ~~ word c else true.
(* the alternatives of the pattern in their order: length of the match and replacement.
   prev tells whether the previous character belongs to a word *)
Definition alternative (prev : bool) (s : string) : option (nat * string) :=
  if starts "|" s then Some (1, "\cdot ")
  else if starts "^" s && ~~ starts "{" (drops 1 s) then Some (1, "\W ")
  else if starts "*" s then Some (1, " ")
  else if ~~ prev && starts "rgrad" s && word_end (drops 5 s) then Some (5, "\bar{\boldsymbol{\nabla}} ")
  else if ~~ prev && starts "grad" s && word_end (drops 4 s) then Some (4, "\boldsymbol{\nabla} ")
  else if starts ">>" s then Some (2, " \times ")
  else if starts "<<" s then Some (2, " \bar{\times} ")
  else if starts "<" s then Some (1, "\rfloor ")
  else if starts ">" s then Some (1, "\lfloor ")
  else None.
(* re.sub: left to right, matches do not overlap; skip counts the characters of
   the current match that are still to be passed over *)
Fixpoint texify_from (skip : nat) (prev : bool) (s : string) : string :=
  if s is String c s' then
    if skip is k.+1 then texify_from k (word c) s'
    else if alternative prev s is Some (m, r) then r +++ texify_from m.-1 (word c) s'
    else String c (texify_from 0 (word c) s')
  else EmptyString.
Definition texify (s : string) : string := texify_from 0 false s.

(* ---------- printer.py:917-945, one line of the loop in tex ---------- *)
Definition wrap (l : string) : string :=
  if contains "\begin{align*}" l then "\begin{align*} " +++ lstrip (remove_first "\begin{align*}" l)
  else "\begin{equation*} " +++ strip l +++ " \end{equation*}".
Definition tex_line (code_flg : bool) (l : string) : bool * string :=
  if l == "" then (code_flg, l)
  else if starts "##" l then (~~ code_flg, drops 2 l)
  else if code_flg then (code_flg, l)
  else if starts "#" l && ~~ starts "#%" l then (code_flg, drops 1 l)
  else (code_flg, wrap (if starts "%" l then drops 1 l
                        else if starts "#%" l then drops 2 l
                        else if has_char "=" l then (let p := rsplit1 "=" l in texify p.1 +++ "=" +++ p.2)
                        else l)).
Definition tex_loop (lines : seq string) : bool * string :=
  foldl (fun st l => let r := tex_line st.1 l in (r.1, st.2 +++ r.2 +++ newline)) (false, "") lines.
(* printer.py:912-948; the text between the preamble and \end{document} *)
Definition tex_body (text : string) : string := squeeze (tex_loop (split nl text)).2.

(* ---------- the state of the capture ---------- *)
(* a stream is the original standard output (0; it has no getvalue) or the k-th
   io.StringIO that was made (k.+1) *)
Record pstate := PState {
  terminal : string;        (* what the original standard output has received *)
  buffers : seq string;     (* the contents of the io.StringIO objects *)
  stdout : nat;             (* sys.stdout *)
  saved : option nat;       (* GaLatexPrinter.stdout, None before it is first set *)
  latex_flg : bool;         (* printer.py:444 *)
  latex_str : string;       (* printer.py:445 *)
  ipy : bool;               (* printer.py:446 *)
  format_cnt : nat          (* printer.py:119 *)
}.
Definition fresh : pstate := PState "" [::] 0 None false "" false 0.
(* print(s) *)
Definition do_print (s : string) (st : pstate) : pstate :=
  if stdout st is k.+1 then
    PState (terminal st) (set_nth "" (buffers st) k (nth "" (buffers st) k +++ s +++ newline)) (stdout st) (saved st) (latex_flg st) (latex_str st) (ipy st) (format_cnt st)
  else PState (terminal st +++ s +++ newline) (buffers st) (stdout st) (saved st) (latex_flg st) (latex_str st) (ipy st) (format_cnt st).
(* sys.stdout.getvalue(), None = AttributeError *)
Definition getvalue (st : pstate) : option string :=
  if stdout st is k.+1 then Some (nth "" (buffers st) k) else None.
(* printer.py:502-509 *)
Definition redirect (st : pstate) : pstate :=
  if ipy st then PState (terminal st) (buffers st) (stdout st) (saved st) true (latex_str st) (ipy st) (format_cnt st)
  else PState (terminal st) (rcons (buffers st) "") (size (buffers st)).+1 (Some (stdout st)) true (latex_str st) (ipy st) (format_cnt st).
(* printer.py:511-518 *)
Definition restore (st : pstate) : option pstate :=
  if latex_flg st then
    if ipy st then Some (PState (terminal st) (buffers st) (stdout st) (saved st) false (latex_str st) (ipy st) (format_cnt st))
    else LET v := getvalue st IN LET s := saved st IN
         Some (PState (terminal st) (buffers st) s (saved st) false (latex_str st +++ v) (ipy st) (format_cnt st))
  else Some st.
(* printer.py:795-836.  Simplification: the settings of the printer and init_printing are left out *)
Definition do_format (st : pstate) : pstate :=
  if format_cnt st == 0 then
    redirect (PState (terminal st) (buffers st) (stdout st) (saved st) true (latex_str st) (ipy st) (format_cnt st).+1)
  else st.
(* printer.py:1055-1063 *)
Definition latex_format (b : bool) (st : pstate) : pstate :=
  redirect (PState (terminal st) (buffers st) (stdout st) (saved st) (latex_flg st) (latex_str st) b (format_cnt st)).
(* printer.py:864-981 with prog=False and debug=False.  Simplification: the preamble
   (paper size and macros), a text that does not depend on what was captured, is left out *)
Definition tex (st : pstate) : option (pstate * string) :=
  LET v := getvalue st IN
  LET st' := restore (PState (terminal st) (buffers st) (stdout st) (saved st) (latex_flg st) "" (ipy st) (format_cnt st)) IN
  Some (st', tex_body (latex_str st +++ v)).

(* a program that prints and uses the capture; the texts are what the calls of tex return *)
Inductive call := Print of string | Format | LatexFormat of bool | Restore | Tex.
Definition exec (st : pstate) (c : call) : option (pstate * seq string) :=
  match c with
  | Print s => Some (do_print s st, [::])
  | Format => Some (do_format st, [::])
  | LatexFormat b => Some (latex_format b st, [::])
  | Restore => LET st' := restore st IN Some (st', [::])
  | Tex => LET r := tex st IN Some (r.1, [:: r.2])
  end.
Fixpoint exec_all (st : pstate) (cs : seq call) : option (pstate * seq string) :=
  if cs is c :: cs' then LET r := exec st c IN LET r' := exec_all r.1 cs' IN Some (r'.1, (r.2 ++ r'.2)%SEQ)
  else Some (st, [::]).
