(* Props_Gprint.v -- property C69: gprint, gFormat, gxpdf (gprinter.py).

   [equations tex xs]: the equations gprint(xs) is meant to show (Spec_Gprint.v); [equation r]
   is \begin{equation*} r\end{equation*}; [exec_all inter pre argv0 rm ev nul p s] runs the
   program p, in a notebook if inter. *)
From Coq Require Import String Ascii.
From mathcomp Require Import all_ssreflect.
From Verif Require Import PyBase PyStr Parser_Model Symbol_Model Symbol_Proof Gprint_Model Spec_Gprint Gprint_Proof.
Set Implicit Arguments.
Unset Strict Implicit.
Unset Printing Implicit Defensive.
Local Open Scope seq_scope.

(* ---- gprint in a script, LaTeX on: the equations go to the document ---- *)
Theorem C69_script (xs : seq arg) (s : gstate) : latex_flg s -> all no_percent xs ->
  exists s', [/\ gprint false xs s = Some s',
    latex_str s' = latex_str s ++ joined [:: newline] (map equation (equations true xs)) ++ [:: " "%char; newline],
    (printed s', displayed s', files s', commands s') = (printed s, displayed s, files s, commands s) &
    (latex_flg s', fmt_cnt s', settings s') = (true, fmt_cnt s, settings s)].
Proof.
move=> fl np; have := formatE false true np; rewrite /gprint fl.
case: gprint_loop => x f ->; eexists; split=> //.
by rewrite -scriptE ?equations_nil //= -!catA.
Qed.
(* ---- in a notebook, LaTeX on: each equation is displayed ---- *)
Theorem C69_notebook (xs : seq arg) (s : gstate) : latex_flg s -> all no_percent xs ->
  all (fun r : text => at_sign \notin r) (equations true xs) ->
  exists s', [/\ gprint true xs s = Some s',
    displayed s' = displayed s ++
      (if equations true xs is [:: r] then [:: r] else map equation (equations true xs)),
    (printed s', files s', commands s') = (printed s, files s, commands s) &
    (latex_flg s', fmt_cnt s', latex_str s', settings s') = (true, fmt_cnt s, latex_str s, settings s)].
Proof.
move=> fl np na; have := formatE true true np; rewrite /gprint fl.
case: gprint_loop => x f ->; eexists; split=> //.
by rewrite -shownE ?equations_nil.
Qed.
(* ---- LaTeX off: one printed line when no string after the first has a \\ ---- *)
Theorem C69_text inter (xs : seq arg) (s : gstate) (r : text) : latex_flg s = false -> all no_percent xs ->
  equations false xs = [:: r] ->
  exists s', [/\ gprint inter xs s = Some s', printed s' = rcons (printed s) r &
    (latex_flg s', fmt_cnt s', latex_str s', settings s', displayed s', files s', commands s') =
    (false, fmt_cnt s, latex_str s, settings s, displayed s, files s, commands s)].
Proof.
move=> fl np e; have := formatE inter false np; rewrite /gprint fl e.
by case: gprint_loop => x f ->; eexists; split.
Qed.
(* strings without \\ do not break the equation: everything is shown in a row *)
Theorem C69_one_row tex (xs : seq arg) :
  all (fun x => if x is AStr t then ~~ infix (txt "\\") t else true) (behead xs) ->
  equations tex xs = [:: flatten [seq match x with
     | AStr t => t
     | AType t => if tex then txt " \text{" ++ t ++ txt "} " else t
     | AVal l t => txt " " ++ (if tex then l else t) ++ txt " " end | x <- xs]].
Proof.
case: xs => [|x xs] // h; rewrite /equations.
set f := (X in flatten (map X _)).
have e0 : arg_rows tex true x = [:: f x] by case: (x).
have es y : (if y is AStr t then ~~ infix (txt "\\") t else true) -> arg_rows tex false y = [:: f y].
  by case: y => //= t; exact: rows_one.
rewrite e0 /=; elim: xs (f x) h => [|y ys IH] u /=; first by rewrite cats0.
by case/andP=> /es e h; rewrite e /= IH // catA.
Qed.

(* ---- the document written by gxpdf ---- *)
Section Document.
Variables (preamble argv0 sys_rm sys_evince sys_null : text).
Notation exec_all := (exec_all false preamble argv0 sys_rm sys_evince sys_null).
Notation exec := (exec false preamble argv0 sys_rm sys_evince sys_null).

Lemma exec_cat p q s : exec_all (p ++ q) s = if exec_all p s is Some s' then exec_all q s' else None.
Proof. by elim: p s => [|st p IH] s //=; case: (exec st s). Qed.
Lemma exec_good st s : latex_flg s -> good st -> exists s', [/\ exec st s = Some s', latex_flg s',
  latex_str s' = if is_xpdf st then [::] else latex_str s ++ contribution st &
  files s' = if st is SXpdf o then rcons (files s) (tex_of argv0 o,
      paper_format (o_paper o) (o_pt o) (o_class o) ++ preamble ++ latex_str s ++ txt "\end{document}") else files s].
Proof.
case: st => [f d i|xs|src|o] fl g; rewrite [exec _ _]/=.
- by eexists; split; rewrite ?[latex_str _]/= ?cats0 // /gFormat /= fl; case: ifP.
- by have [s' [-> e1 [_ _ e2 _] [e3 _ _]]] := C69_script fl g; exists s'; rewrite e3 e2.
- by eexists; split=> //; rewrite /gPrint_Function fl.
- by eexists; split.
Qed.
Lemma exec_run p s : latex_flg s -> all good p -> exists s', exec_all p s = Some s' /\ latex_flg s'.
Proof.
elim: p s => [|st p IH] s fl; first by exists s.
by case/andP=> g gp; have [s1 [e fl1 _ _]] := exec_good fl g; rewrite [exec_all _ _]/= e; exact: IH.
Qed.
Lemma exec_prints p s : latex_flg s -> all good p -> all (fun st => ~~ is_xpdf st) p ->
  exists s', [/\ exec_all p s = Some s', latex_flg s',
    latex_str s' = latex_str s ++ flatten (map contribution p) & files s' = files s].
Proof.
elim: p s => [|st p IH] s fl; first by exists s; rewrite cats0.
case/andP=> g gp /andP[x nx]; have [s1 [e fl1 l1 f1]] := exec_good fl g.
have [s2 [e2 fl2 l2 f2]] := IH s1 fl1 gp nx; exists s2; rewrite [exec_all _ _]/= e; split=> //.
  by rewrite l2 l1 (negbTE x) -catA.
by rewrite f2 f1; case: (st) x.
Qed.
(* the document has exactly what was printed since the last gxpdf, in order *)
Theorem C69_document (f d : bool) (i : text) (p1 : option (seq stmt * options)) (p2 : seq stmt) (o : options) :
  (if p1 is Some (p, _) then all good p else true) -> all good p2 -> all (fun st => ~~ is_xpdf st) p2 ->
  exists s fs, exec_all (SFormat f d i :: (if p1 is Some (p, o1) then rcons p (SXpdf o1) else [::]) ++ rcons p2 (SXpdf o))
      (start 0) = Some s /\ latex_str s = [::] /\
    files s = rcons fs (tex_of argv0 o, paper_format (o_paper o) (o_pt o) (o_class o) ++ preamble ++
      flatten (map contribution p2) ++ txt "\end{document}").
Proof.
move=> g1 g2 n2; rewrite [exec_all (_ :: _) _]/= exec_cat.
set s0 := gFormat _ _ _ _; have fl0 : latex_flg s0 by [].
have [s1 [-> fl1 l1]] : exists s1, [/\ exec_all (if p1 is Some (p, o1) then rcons p (SXpdf o1) else [::]) s0 = Some s1,
    latex_flg s1 & latex_str s1 = [::]].
  case: p1 g1 => [[p o1]|] g1; last by exists s0.
  have [s1 [e fl1]] := exec_run fl0 g1; rewrite -cats1 exec_cat e; eexists; split; first reflexivity; by [].
have [s2 [e2 fl2 l2 f2]] := exec_prints fl1 g2 n2; rewrite -cats1 exec_cat e2.
eexists; exists (files s2); split; first reflexivity; split=> //.
by rewrite /= l2 l1.
Qed.
(* the settings of the printer are those of the last gFormat *)
Theorem C69_settings cnt (p q : seq stmt) (f d : bool) (i : text) s :
  exec_all (p ++ SFormat f d i :: q) (start cnt) = Some s ->
  all (fun st => if st is SFormat _ _ _ then false else true) q -> settings s = Some (d, f, i).
Proof.
rewrite exec_cat; case: (exec_all p _) => [s1|] //=.
have : settings (gFormat f d i s1) = Some (d, f, i) by [].
elim: q (gFormat f d i s1) => [|st q IH] s0 h0 /=; first by case=> <-.
case E: (exec st s0) => [s2|] //= H /andP[n nq]; apply: (IH s2) => //.
case: st n E => //= [xs|src|o] _.
- rewrite /gprint; case: gprint_loop => x fs; case: percent => // t [<-].
  by case: (latex_flg s0).
- by rewrite /gPrint_Function; case: (latex_flg s0) => -[<-].
- by case=> <-.
Qed.
End Document.

(* ---- the heading: paper size, document class, size of the font ---- *)
Lemma at_pass u r : at_sign \notin u -> forall a b, u = a ++ b -> b != [::] -> ~~ prefix (txt "@10pt@") (b ++ r).
Proof.
move=> nu a [|c b] // e _; apply: contra nu; rewrite e mem_cat inE [prefix _ _]/= => /andP[/eqP<- _].
by rewrite orbT.
Qed.
Lemma no_at_same u pt : at_sign \notin u -> replace (txt "@10pt@") pt u = u.
Proof.
move=> nu; rewrite -[u]cats0 rep_pass //.
by move=> a b e nb; exact: (at_pass [::] nu e nb).
Qed.
Lemma one_at u v pt : at_sign \notin u -> at_sign \notin v ->
  replace (txt "@10pt@") pt (u ++ txt "@10pt@" ++ v) = u ++ pt ++ v.
Proof.
move=> nu nv; rewrite rep_pass; last exact: at_pass.
by rewrite rep_hit // no_at_same.
Qed.
Theorem C69_heading (p : paper) (pt cls : text) : at_sign \notin cls -> page_ok p ->
  paper_format p pt cls = heading p pt cls.
Proof.
move=> nc np.
have H v : at_sign \notin v -> replace (txt "@10pt@") pt (class_line cls ++ v) =
    [:: newline] ++ txt "\documentclass[" ++ pt ++ txt ",fleqn]{" ++ cls ++ txt "}" ++ [:: newline] ++ v.
  move=> nv; have -> : class_line cls ++ v =
      ([:: newline] ++ txt "\documentclass[") ++ txt "@10pt@" ++ (txt ",fleqn]{" ++ cls ++ txt "}" ++ [:: newline] ++ v).
    by rewrite /class_line /= -!catA.
  rewrite one_at //.
  apply/negP; rewrite mem_cat => /orP[//|]; rewrite mem_cat => /orP[a|]; first by case/negP: nc.
  by rewrite mem_cat => /orP[//|]; rewrite mem_cat => /orP[//|a]; case/negP: nv.
case: p np => [_||w h w1 h1 np].
- by rewrite /paper_format -[class_line cls]cats0 H.
- by move=> _; rewrite /paper_format H.
rewrite /paper_format H //.
case/and5P: np => n1 n2 n3 n4 _.
set g := txt "\geometry{papersize={".
have -> : bs :: txt "usepackage[vcentering]{geometry}" ++ newline :: geometry w h w1 h1 =
  (txt "\usepackage[vcentering]{geometry}" ++ [:: newline] ++ g) ++ w ++ txt "in," ++ h ++ txt "in},total={" ++
  w1 ++ txt "in," ++ h1 ++ txt "in}}" ++ [:: newline] by [].
apply/negP; do 8 (rewrite mem_cat => /orP[a|]; first by [|case/negP: n1|case/negP: n2|case/negP: n3|case/negP: n4]).
by [].
Qed.

(* ---- the names of the files and the commands ---- *)
Lemma dot_pass (e u r : text) : "."%char \notin u -> forall a b, u = a ++ b -> b != [::] -> ~~ prefix ("."%char :: e) (b ++ r).
Proof.
move=> nu a [|c b] // E _; apply: contra nu; rewrite E mem_cat inE [prefix _ _]/= => /andP[/eqP<- _].
by rewrite orbT.
Qed.
Lemma replace_suffix (e new root : text) : "."%char \notin root ->
  replace ("."%char :: e) new (root ++ "."%char :: e) = root ++ new.
Proof.
move=> nr; rewrite rep_pass; last exact: dot_pass.
by rewrite -[X in replace _ _ X]cats0 rep_hit // /replace /= cats0.
Qed.
(* gxpdf(filename=root.tex), and gxpdf() in the script root.py *)
Theorem C69_names (o : options) (root argv0 : text) : "."%char \notin root ->
  o_filename o = Some (root ++ txt ".tex") \/ (o_filename o = None /\ argv0 = root ++ txt ".py") ->
  [/\ tex_of argv0 o = root ++ txt ".tex", pdf_of argv0 o = root ++ txt ".pdf" & root_of argv0 o = root].
Proof.
by move=> nr [e|[e e']]; rewrite /tex_of /pdf_of /root_of e ?e' !replace_suffix // cats0.
Qed.
(* with pdfprog=None only the tex file is written *)
Theorem C69_only_tex (o : options) (argv0 rm ev nul : text) :
  o_pdfprog o = None -> gxpdf_commands argv0 rm ev nul o = [::].
Proof. by rewrite /gxpdf_commands => ->. Qed.

(* ---- findings ---- *)
(* finding: the strings are used as a format: a % at the end of a string raises, %s raises,
   and %% is shown as % *)
Theorem C69_percent_refuted inter (s : gstate) :
  [/\ gprint inter [:: AStr (txt "100%")] s = None,
      gprint inter [:: AStr (txt "%s = ")] s = None &
      exists s', gprint false [:: AStr (txt "a%%b")] (gFormat true true [::] (start 0)) = Some s' /\
        latex_str s' = equation (txt "a%b") ++ [:: " "%char; newline]].
Proof.
split; [by rewrite /gprint /=|by rewrite /gprint /=|]; eexists; split; first by vm_compute.
by vm_compute.
Qed.
(* finding: without gFormat(), a \\ in a string prints LaTeX code in plain text *)
Theorem C69_plain_text_refuted : exists s',
  gprint false [:: AStr (txt "a"); AStr (txt "\\b")] (start 0) = Some s' /\
  printed s' = [:: txt "a\end{equation*}" ++ [:: newline] ++ txt "\begin{equation*} b"].
Proof. by eexists; split; vm_compute. Qed.
(* finding: in a notebook an @ tears the equation into two pieces that are no equations *)
Theorem C69_at_refuted : exists s',
  gprint true [:: AStr (txt "a@b")] (gFormat true true [::] (start 0)) = Some s' /\
  displayed s' = [:: txt "\begin{equation*} a"; txt "b\end{equation*}"].
Proof. by eexists; split; vm_compute. Qed.
(* finding: the module has its own copy of Format_cnt.  When printer.Format() was called
   before the import, the copy starts at 1 and gFormat() never switches LaTeX on *)
Theorem C69_import_refuted inter pre argv0 rm ev nul (p : seq stmt) (s : gstate) :
  exec_all inter pre argv0 rm ev nul p (start 1) = Some s -> latex_flg s = false /\ latex_str s = [::].
Proof.
suff H s0 : fmt_cnt s0 = 1 -> latex_flg s0 = false -> latex_str s0 = [::] ->
    exec_all inter pre argv0 rm ev nul p s0 = Some s -> latex_flg s = false /\ latex_str s = [::] by exact: H.
elim: p s0 => [|st p IH] s0 c f l /=; first by case=> <-.
case E: (exec _ _ _ _ _ _ st s0) => [s1|] //= H.
apply: (IH s1) => //; case: st E => /= [a b i|xs|src|o].
1,5,9: by case=> <- /=; rewrite ?c.
- by rewrite /gprint; case: gprint_loop => x fs; case: percent => // t [<-]; rewrite f.
- by rewrite /gPrint_Function f => -[<-].
- by case=> <-.
- by rewrite /gprint; case: gprint_loop => x fs; case: percent => // t [<-]; rewrite f.
- by rewrite /gPrint_Function f => -[<-].
- by case=> <-.
- by rewrite /gprint; case: gprint_loop => x fs; case: percent => // t [<-]; rewrite f.
- by rewrite /gPrint_Function f => -[<-].
- by case=> <-.
Qed.
Definition default_options : options :=
  Options (Some (txt "doc.tex")) (PSize (txt "14") (txt "11") (txt "13") (txt "10")) false false false (txt "10pt")
    (Some (txt "pdflatex")) true true true (txt "book").
(* finding: the auxiliary files are not removed, their names are given with a blank at the
   end; the tex file is removed; the redirection is given to pdflatex as an argument *)
Theorem C69_remove_refuted :
  gxpdf_commands [::] (txt "rm") (txt "evince") (txt " > /dev/null") default_options =
  [:: [:: txt "pdflatex"; txt "doc.tex"; txt " > /dev/null"]; [:: txt "evince"; txt "doc.pdf"];
      [:: txt "rm"; txt "doc.aux "; txt "doc.log "; txt "doc.tex"]].
Proof. by []. Qed.

(* ---- examples ---- *)
Definition ex_args : seq arg := [:: AStr (txt "A ="); AVal (txt "x^{2}") (txt "x**2"); AStr (txt ",\\B ="); AVal (txt "50\%") (txt "50%")].
Example C69_ex : all no_percent ex_args /\
  equations true ex_args = [:: txt "A = x^{2} ,"; txt "B = 50\% "].
Proof. by split; vm_compute. Qed.
Example C69_ex_document : exists s, exec_all false (txt "PRE") [::] (txt "rm") (txt "evince") [::]
    [:: SFormat true true [::]; SPrint [:: AStr (txt "old")]; SXpdf default_options; SPrint ex_args; SXpdf default_options]
    (start 0) = Some s /\
  (last ([::], [::]) (files s)).2 = [:: newline] ++ txt "\documentclass[10pt,fleqn]{book}" ++ [:: newline] ++
    txt "\usepackage[vcentering]{geometry}" ++ [:: newline] ++
    txt "\geometry{papersize={14in,11in},total={13in,10in}}" ++ [:: newline] ++
    txt "PRE\begin{equation*} A = x^{2} ,\end{equation*}" ++ [:: newline] ++
    txt "\begin{equation*} B = 50\% \end{equation*} " ++ [:: newline] ++ txt "\end{document}".
Proof. by eexists; split; vm_compute. Qed.

Print Assumptions C69_script.
Print Assumptions C69_notebook.
Print Assumptions C69_text.
Print Assumptions C69_one_row.
Print Assumptions C69_document.
Print Assumptions C69_settings.
Print Assumptions C69_heading.
Print Assumptions C69_names.
Print Assumptions C69_only_tex.
Print Assumptions C69_percent_refuted.
Print Assumptions C69_plain_text_refuted.
Print Assumptions C69_at_refuted.
Print Assumptions C69_import_refuted.
Print Assumptions C69_remove_refuted.
