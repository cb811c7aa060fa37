(* Spec_Power.v -- what the LaTeX text of a power and of a function application must be *)
From Coq Require Import String Ascii.
From mathcomp Require Import all_ssreflect all_algebra.
From Verif Require Import PyBase PyStr Parser_Model Symbol_Model Gprint_Model Power_Model.
Set Implicit Arguments.
Unset Strict Implicit.
Unset Printing Implicit Defensive.
Local Open Scope seq_scope.

(* ---- double superscripts ----
   A LaTeX text is read from left to right.  The mark (s, p) says whether the last atom has a
   superscript (s) and whether a ^ or _ still waits for its argument (p).  A group {..} is one
   atom, or the argument of the script before it.  A second superscript on the same atom is an
   error, and so is a script without argument and an unbalanced brace.  A control sequence is
   read letter by letter. *)
Definition mark : Type := bool * bool.
Definition after_atom (m : mark) : mark := if m.2 then (m.1, false) else (false, false).
Fixpoint scripts (m : mark) (st : seq mark) (t : text) : option (mark * seq mark) :=
  if t is c :: t' then
    if c == "{"%char then scripts (false, false) (m :: st) t'
    else if c == "}"%char then
      if m.2 then None else if st is m' :: st' then scripts (after_atom m') st' t' else None
    else if c == "^"%char then if m.1 || m.2 then None else scripts (true, true) st t'
    else if c == "_"%char then if m.2 then None else scripts (m.1, true) st t'
    else if is_space c then scripts m st t'
    else scripts (after_atom m) st t'
  else Some (m, st).
(* well formed: no double superscript, every script has its argument, the braces balance *)
Definition well_formed (t : text) : bool :=
  if scripts (false, false) [::] t is Some ((_, false), [::]) then true else false.
(* the last atom carries a superscript *)
Definition ends_raised (t : text) : bool :=
  if scripts (false, false) [::] t is Some ((s, _), _) then s else false.

(* ---- powers ----
   A base that may stand alone before a superscript: a symbol, a number or a function call,
   whose text has no scripts of its own or is a dot product in parentheses *)
Definition alone (b : base) : bool :=
  (b_function b || ~~ b_brackets b) &&
  ((("_"%char \notin b_text b) && ("^"%char \notin b_text b)) || infix (txt "cdot") (b_text b)).
Definition grouped (b : base) (g : text) : Prop :=
  [\/ g = txt "{" ++ b_text b ++ txt "}", g = txt "{\left ( " ++ b_text b ++ txt " \right )}",
      g = txt "\left(" ++ b_text b ++ txt "\right)" | alone b /\ g = b_text b].
(* an integer in decimal digits, with its sign *)
Definition int_text (p : int) : text := (if (p < 0)%R then txt "-" else [::]) ++ txt (str_nat `|p|%N).
Section Shown.
Variable rtex : int -> nat -> text.
(* the text of the exponent *)
Definition exponent_text (e : expo) : text := match e with ERat p q => rtex p q | EOther t => t end.
(* t shows the base b raised to the power e *)
Inductive shows (b : base) : expo -> text -> Prop :=
| Shows_script e g : grouped b g -> shows b e (g ++ txt "^{" ++ exponent_text e ++ txt "}")
| Shows_slash p q g : grouped b g ->
    shows b (ERat p q) (g ++ txt "^{" ++ int_text p ++ txt "/" ++ txt (str_nat q) ++ txt "}")
| Shows_sqrt : shows b (ERat 1 2) (txt "\sqrt{" ++ b_text b ++ txt "}")
| Shows_root q : shows b (ERat 1 q) (txt "\sqrt[" ++ txt (str_nat q) ++ txt "]{" ++ b_text b ++ txt "}")
| Shows_itex q : shows b (ERat 1 q) (txt "\root{" ++ txt (str_nat q) ++ txt "}{" ++ b_text b ++ txt "}")
| Shows_one : shows b (ERat 1 1) (b_text b)
| Shows_inverse p q t : shows b (ERat p q) t -> shows b (ERat (- p)%R q) (txt "\frac{1}{" ++ t ++ txt "}").
End Shown.
(* sympy's text of -1*expr for a power b**(-1) is a minus sign and the fraction, as _print_Mul
   writes it *)
Definition minus_inverse (b : base) (neg : text) : Prop :=
  neg = txt "- \frac{1}{" ++ b_text b ++ txt "}".

(* ---- functions: name, exponent and arguments ---- *)
Definition parentheses (args : seq text) : text := txt "{\left (" ++ joined (txt ",") args ++ txt " \right )}".
Section Names.
Variables (accepted : seq text) (sym : text -> text).
(* a function known to LaTeX, or a name typeset like a symbol *)
Definition head (f : text) : text := if f \in accepted then txt "\" ++ f else sym f ++ txt " ".
(* the name with an exponent: a name with sub- or superscripts is put in parentheses *)
Definition raised (f e : text) : text :=
  if f \in accepted then txt "\" ++ f ++ txt "^{" ++ e ++ txt "}"
  else if ("_"%char \in f) || ("^"%char \in f) then txt "{\left ( " ++ sym f ++ txt " \right ) }^{" ++ e ++ txt "}"
  else sym f ++ txt " ^{" ++ e ++ txt "}".
Definition named (f : text) (exp : option text) : text := if exp is Some e then raised f e else head f.
End Names.
