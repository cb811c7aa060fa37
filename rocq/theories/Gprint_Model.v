(* Gprint_Model.v -- galgebra/gprinter.py: gFormat, gprint, gPrint_Function, paper_format
   and gxpdf.

   A str is a list of characters.  The values given to gprint are represented by the texts
   latex(x) and str(x).  The preamble LaTeX.latex_preamble is an input.  isinteractive() is
   constant.  The commands given to subprocess.call are recorded, their effect is not
   modelled; neither is init_printing and the display of LaTeX.ip_cmds in a notebook. *)
From Coq Require Import String Ascii.
From mathcomp Require Import all_ssreflect.
From Verif Require Import PyBase PyStr Parser_Model Symbol_Model.
Set Implicit Arguments.
Unset Strict Implicit.
Unset Printing Implicit Defensive.
Local Open Scope seq_scope.

Definition newline : ascii := ascii_of_nat 10.
Definition percent_sign : ascii := ascii_of_nat 37.
Definition at_sign : ascii := ascii_of_nat 64.
Definition tex_begin : text := bs :: txt "begin{equation*} ".
Definition tex_end : text := bs :: txt "end{equation*}".

(* an argument of gprint: a string, a class (with its str), another value (latex and str) *)
Inductive arg := AStr of text | AType of text | AVal of text & text.

(* f % tuple(xs) for a tuple of strings.  %s and %% are modelled; FOther is any other
   conversion *)
Inductive formatted := FText of text | FRaises | FOther.
Definition put_before (p : text) (r : formatted) : formatted :=
  if r is FText t then FText (p ++ t) else r.
Fixpoint percent (f : text) (xs : seq text) : formatted :=
  match f with
  | [::] => if nilp xs then FText [::] else FRaises
  | c :: f' =>
      if c == percent_sign then
        match f' with
        | d :: f'' =>
            if d == "s"%char then (if xs is x :: xs' then put_before x (percent f'' xs') else FRaises)
            else if d == percent_sign then put_before [:: c] (percent f'' xs)
            else FOther
        | [::] => FRaises
        end
      else put_before [:: c] (percent f' xs)
  end.
(* s.split(c) *)
Fixpoint split_at (c : ascii) (s : text) : seq text :=
  if s is x :: s' then
    if x == c then [::] :: split_at c s'
    else if split_at c s' is w :: ws then (x :: w) :: ws else [:: [:: x]]
  else [:: [::]].

(* the state: LaTeX.latex_flg, the copy of Format_cnt in this module, LaTeX.latex_str, the
   settings of the printer, what was printed, displayed, written to files, and the commands *)
Record gstate := GState { latex_flg : bool; fmt_cnt : nat; latex_str : text;
  settings : option (bool * bool * text);
  printed : seq text; displayed : seq text; files : seq (text * text); commands : seq (seq text) }.
(* gprinter.py:1, 20-26.  cnt: the value of printer.Format_cnt when this module was imported *)
Definition start (cnt : nat) : gstate := GState false cnt [::] None [::] [::] [::] [::].

Section Gprint.
Variable interactive : bool.

(* gprinter.py:105-141 *)
Definition gFormat (fmode dmode : bool) (inverse : text) (s : gstate) : gstate :=
  GState (if fmt_cnt s == 0 then true else latex_flg s) (if fmt_cnt s == 0 then 1 else fmt_cnt s)
    (latex_str s) (Some (dmode, fmode, inverse)) (printed s) (displayed s) (files s) (commands s).

(* gprinter.py:156-160 *)
Definition row_break : text :=
  if interactive then tex_end ++ at_sign :: tex_begin else tex_end ++ newline :: tex_begin.
(* gprinter.py:149-180: the loop; x and fstr, i is the position.  new_eq_flg is never read *)
Fixpoint gprint_loop (flg : bool) (i : nat) (x : seq text) (fstr : text) (xargs : seq arg) : seq text * text :=
  match xargs with
  | [::] => (x, fstr)
  | AStr xi :: r =>
      gprint_loop flg i.+1 x
        (fstr ++ if infix [:: bs; bs] xi && (0 < i) then replace [:: bs; bs] row_break xi else xi) r
  | AType t :: r =>
      gprint_loop flg i.+1 x (fstr ++ if flg then txt " " ++ bs :: txt "text{" ++ t ++ txt "} " else t) r
  | AVal l s :: r =>
      gprint_loop flg i.+1 (rcons x (if flg then l else s)) (fstr ++ txt " %s ") r
  end.
(* gprinter.py:185-191: lines[0] = ... + lines[0], then lines[-1] += ... *)
Definition open_first (ls : seq text) : seq text := if ls is l :: ls' then (tex_begin ++ l) :: ls' else ls.
Fixpoint close_last (ls : seq text) : seq text :=
  match ls with [::] => [::] | [:: l] => [:: l ++ tex_end] | l :: ls' => l :: close_last ls' end.
(* gprinter.py:144-197; None: an exception or a conversion that is not modelled *)
Definition gprint (xargs : seq arg) (s : gstate) : option gstate :=
  let: (x, fstr) := gprint_loop (latex_flg s) 0 [::] [::] xargs in
  if percent fstr x is FText t then
    Some (if latex_flg s then
      if interactive then
        let shown := if at_sign \in t then close_last (open_first (split_at at_sign t)) else [:: t] in
        GState true (fmt_cnt s) (latex_str s) (settings s) (printed s) (displayed s ++ shown) (files s) (commands s)
      else
        GState true (fmt_cnt s) (latex_str s ++ tex_begin ++ t ++ tex_end ++ [:: " "%char; newline]) (settings s)
          (printed s) (displayed s) (files s) (commands s)
    else GState false (fmt_cnt s) (latex_str s) (settings s) (rcons (printed s) t) (displayed s) (files s) (commands s))
  else None.

(* gprinter.py:290-300; src is the source text of the calling function *)
Definition stars : text := nseq 80 "*"%char.
Definition listing (src : text) : text :=
  bs :: txt "begin{lstlisting}[language=Python,showspaces=false,showstringspaces=false,backgroundcolor=" ++
  bs :: txt "color{gray},frame=single]" ++ src ++ bs :: txt "end{lstlisting}" ++ bs :: txt "text{Code Output:}".
Definition gPrint_Function (src : text) (s : gstate) : gstate :=
  if latex_flg s then
    GState true (fmt_cnt s) (latex_str s ++ listing src) (settings s) (printed s) (displayed s) (files s) (commands s)
  else
    GState false (fmt_cnt s) (latex_str s) (settings s)
      (printed s ++ [:: newline :: stars; src; txt "Code output:" ++ [:: newline]]) (displayed s) (files s) (commands s).

(* gprinter.py:268-287.  PSize w h w1 h1: paper[0], paper[1], paper[0]-1, paper[1]-1 as
   printed by str *)
Inductive paper := PLetter | PLandscape | PSize of text & text & text & text.
Definition geometry (w h w1 h1 : text) : text :=
  bs :: txt "geometry{papersize={" ++ w ++ txt "in," ++ h ++ txt "in},total={" ++ w1 ++ txt "in," ++ h1 ++
  txt "in}}" ++ [:: newline].
Definition class_line (documentclass : text) : text :=
  newline :: bs :: txt "documentclass[@10pt@,fleqn]{" ++ documentclass ++ txt "}" ++ [:: newline].
Definition paper_format (p : paper) (pt documentclass : text) : text :=
  let paper_size :=
    match p with
    | PLetter => class_line documentclass
    | PLandscape => class_line documentclass ++ bs :: txt "usepackage[vcentering]{geometry}" ++
                    newline :: geometry (txt "11") (txt "8.5") (txt "10") (txt "7.5")
    | PSize w h w1 h1 => class_line documentclass ++ bs :: txt "usepackage[vcentering]{geometry}" ++
                    newline :: geometry w h w1 h1
    end in
  replace (txt "@10pt@") pt paper_size.

(* gprinter.py:200-265.  The keyword arguments of gxpdf; sys_rm, sys_evince, sys_null are
   the entries of SYS_CMD for the platform, argv0 is sys.argv[0] *)
Record options := Options { o_filename : option text; o_paper : paper; o_crop : bool; o_png : bool;
  o_debug : bool; o_pt : text; o_pdfprog : option text; o_evince : bool; o_rm : bool; o_null : bool; o_class : text }.
Variables (preamble argv0 sys_rm sys_evince sys_null : text).
Definition root_of (o : options) : text :=
  if o_filename o is Some f then replace (txt ".tex") [::] f else replace (txt ".py") [::] argv0.
Definition tex_of (o : options) : text := if o_filename o is Some f then f else root_of o ++ txt ".tex".
Definition pdf_of (o : options) : text :=
  if o_filename o is Some f then replace (txt ".tex") (txt ".pdf") f else root_of o ++ txt ".pdf".
Definition gxpdf_commands (o : options) : seq (seq text) :=
  if o_pdfprog o is Some prog then
    (if o_debug o then [::]
     else if o_null o then [:: [:: prog; tex_of o; sys_null]] else [:: [:: prog; tex_of o]]) ++
    (if o_evince o then [:: [:: sys_evince; pdf_of o]] else [::]) ++
    (if o_rm o then
       if o_debug o then [:: [:: sys_rm; root_of o ++ txt ".aux "; root_of o ++ txt ".log"]]
       else [:: [:: sys_rm; root_of o ++ txt ".aux "; root_of o ++ txt ".log "; root_of o ++ txt ".tex"]]
     else [::]) ++
    (if o_crop o then [:: [:: txt "pdfcrop"; pdf_of o]; [:: txt "rm"; pdf_of o];
                          [:: txt "mv"; root_of o ++ txt "-crop.pdf"; pdf_of o]] else [::]) ++
    (if o_png o then [:: [:: txt "Pdf2Png"; root_of o]] else [::])
  else [::].
(* with debug=True the names are printed as well (not modelled) *)
Definition gxpdf (o : options) (s : gstate) : gstate :=
  let doc := paper_format (o_paper o) (o_pt o) (o_class o) ++ preamble ++ latex_str s ++ bs :: txt "end{document}" in
  GState (latex_flg s) (fmt_cnt s) [::] (settings s) (printed s) (displayed s)
    (rcons (files s) (tex_of o, doc)) (commands s ++ gxpdf_commands o).

(* a program that uses the module *)
Inductive stmt :=
| SFormat of bool & bool & text
| SPrint of seq arg
| SSource of text
| SXpdf of options.
Definition exec (st : stmt) (s : gstate) : option gstate :=
  match st with
  | SFormat f d i => Some (gFormat f d i s)
  | SPrint xs => gprint xs s
  | SSource t => Some (gPrint_Function t s)
  | SXpdf o => Some (gxpdf o s)
  end.
Fixpoint exec_all (p : seq stmt) (s : gstate) : option gstate :=
  if p is st :: p' then LET s' := exec st s IN exec_all p' s' else Some s.
End Gprint.
