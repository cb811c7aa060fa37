(* Spec_Printer.v -- what a program that uses the capture of LaTeX output expects. *)
From Coq Require Import String Ascii.
From mathcomp Require Import all_ssreflect.
From Verif Require Import PyStr Printer_Model.
Set Implicit Arguments.
Unset Strict Implicit.
Unset Printing Implicit Defensive.
Local Open Scope string_scope.

(* The calls of a program, with "capturing" and "Format was called" for the state before.
   The program is orderly (the result is not None) if it starts a capture only when
   none is running, asks for a text only while one is running and does not use the
   notebook mode.  Result: is a capture running at the end, the text printed while one
   was running, the text printed otherwise. *)
Fixpoint orderly (capturing formatted : bool) (cs : seq call) : option (bool * (string * string)) :=
  if cs is c :: cs' then
    match c with
    | Print s => if orderly capturing formatted cs' is Some (b, (inside, outside)) then
                   Some (b, if capturing then (s +++ newline +++ inside, outside) else (inside, s +++ newline +++ outside))
                 else None
    | Format => if formatted then orderly capturing formatted cs'
                else if capturing then None else orderly true true cs'
    | LatexFormat ipy => if capturing || ipy then None else orderly true formatted cs'
    | Restore => orderly false formatted cs'
    | Tex => if capturing then orderly false formatted cs' else None
    end
  else Some (capturing, ("", "")).
Definition calls_tex (c : call) : bool := if c is Tex then true else false.

(* The texts that the calls of tex() work on: everything of the earlier captures that is
   still held, and the current capture.  (One would expect that nothing is held after
   tex(); but the text of the capture it ends is.) *)
Fixpoint returned (capturing formatted : bool) (earlier current : string) (cs : seq call) : seq string :=
  if cs is c :: cs' then
    match c with
    | Print s => returned capturing formatted earlier (if capturing then current +++ s +++ newline else current) cs'
    | Format => if formatted then returned capturing formatted earlier current cs' else returned true true earlier "" cs'
    | LatexFormat _ => returned true formatted earlier "" cs'
    | Restore => if capturing then returned false formatted (earlier +++ current) "" cs'
                 else returned false formatted earlier current cs'
    | Tex => (earlier +++ current) :: returned false formatted current "" cs'
    end
  else [::].

(* the text that print() makes of some lines *)
Definition text (lines : seq string) : string := foldr (fun l s => l +++ newline +++ s) "" lines.

(* ---------- the documented treatment of lines by tex() ---------- *)
(* one LaTeX environment around a line; a label in front of an align environment moves inside *)
Inductive wrapped : string -> string -> Prop :=
  | WrapAlign before after :
      (forall before' after', before +++ "\begin{align*}" +++ after = before' +++ "\begin{align*}" +++ after' -> length before <= length before')%N ->
      wrapped (before +++ "\begin{align*}" +++ after) ("\begin{align*} " +++ lstrip (before +++ after))
  | WrapEquation l : (forall before after, l <> before +++ "\begin{align*}" +++ after) ->
      wrapped l ("\begin{equation*} " +++ strip l +++ " \end{equation*}").
(* the first character is none of these *)
Definition not_after (cs : seq ascii) (l : string) : bool := if l is String c _ then c \notin cs else true.
(* lines_tex b lines outs: inside a ## block or not, what becomes of the lines *)
Inductive lines_tex : bool -> seq string -> seq string -> Prop :=
  | LNone b : lines_tex b [::] [::]
  | LBlank b ls os : lines_tex b ls os -> lines_tex b ("" :: ls) ("" :: os)
  | LToggle b l ls os : lines_tex (~~ b) ls os -> lines_tex b (("##" +++ l) :: ls) (l :: os)
  | LVerbatim l ls os : ~~ starts "##" l -> lines_tex true ls os -> lines_tex true (l :: ls) (l :: os)
  | LHash l ls os : not_after [:: "#"; "%"]%char l -> lines_tex false ls os -> lines_tex false (("#" +++ l) :: ls) (l :: os)
  | LPercent l o ls os : wrapped l o -> lines_tex false ls os -> lines_tex false (("%" +++ l) :: ls) (o :: os)
  | LHashPercent l o ls os : wrapped l o -> lines_tex false ls os -> lines_tex false (("#%" +++ l) :: ls) (o :: os)
  | LPlain l o ls os : l <> "" -> not_after [:: "#"; "%"]%char l -> ~~ has_char "=" l -> wrapped l o ->
      lines_tex false ls os -> lines_tex false (l :: ls) (o :: os)
  | LEqual x y o ls os : not_after [:: "#"; "%"]%char (x +++ "=" +++ y) -> ~~ has_char "=" y -> wrapped (texify x +++ "=" +++ y) o ->
      lines_tex false ls os -> lines_tex false ((x +++ "=" +++ y) :: ls) (o :: os).
