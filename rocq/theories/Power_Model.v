(* Power_Model.v -- galgebra/printer.py: GaLatexPrinter._print_Pow and
   GaLatexPrinter._print_Function.

   A str is a list of characters.  What sympy prints for the parts of the expression is an
   input: the text of the base, of a rational number, of the product -1*expr and of the
   symbol named like the function; so are the answers of is_Function, is_commutative,
   _needs_brackets and _needs_function_brackets. *)
From Coq Require Import String Ascii.
From mathcomp Require Import all_ssreflect all_algebra.
From Verif Require Import PyBase PyStr Parser_Model Symbol_Model Gprint_Model.
Set Implicit Arguments.
Unset Strict Implicit.
Unset Printing Implicit Defensive.
Local Open Scope seq_scope.

(* the exponent: the rational number p/q in lowest terms with q > 0, or another expression
   with its LaTeX text *)
Inductive expo := ERat of int & nat | EOther of text.
(* the base: self._print(expr.base), expr.base.is_Function, self._needs_brackets(expr.base) *)
Record base := Base { b_text : text; b_function : bool; b_brackets : bool }.
(* str(p) of an integer *)
Definition str_int (p : int) : text :=
  match p with Posz k => txt (str_nat k) | Negz k => txt "-" ++ txt (str_nat k.+1) end.
(* s.strip() *)
Fixpoint strip_left (s : text) : text :=
  if s is c :: s' then if is_space c then strip_left s' else s else [::].
Definition strip (s : text) : text := rev (strip_left (rev (strip_left s))).

Section Pow.
Variables (itex fold_frac_powers : bool).   (* the settings *)
Variable rtex : int -> nat -> text.         (* self._print of the rational number p/q *)
Definition etex (e : expo) : text := match e with ERat p q => rtex p q | EOther t => t end.

(* printer.py:521-525 *)
Definition pow_mode (b : text) : bool := (("_"%char \in b) || ("^"%char \in b)) && ~~ infix (txt "cdot") b.
(* printer.py:532-542 *)
Definition pow_root (b : text) (p : int) (q : nat) : text :=
  let tex :=
    if q == 2 then txt "\sqrt{" ++ b ++ txt "}"
    else if itex then txt "\root{" ++ txt (str_nat q) ++ txt "}{" ++ b ++ txt "}"
    else txt "\sqrt[" ++ txt (str_nat q) ++ txt "]{" ++ b ++ txt "}" in
  if (p < 0)%R then txt "\frac{1}{" ++ tex ++ txt "}" else tex.
(* printer.py:546-550 *)
Definition pow_slash (b : text) (p : int) (q : nat) : text :=
  if pow_mode b then txt "{\left ( " ++ b ++ txt " \right )}^{" ++ str_int p ++ txt "/" ++ txt (str_nat q) ++ txt "}"
  else b ++ txt "^{" ++ str_int p ++ txt "/" ++ txt (str_nat q) ++ txt "}".
(* printer.py:570-579 *)
Definition pow_script (b : base) (e : expo) : text :=
  let t := b_text b in
  if b_brackets b then txt "\left(" ++ t ++ txt "\right)^{" ++ etex e ++ txt "}"
  else if pow_mode t then txt "{\left ( " ++ t ++ txt " \right )}^{" ++ etex e ++ txt "}"
  else t ++ txt "^{" ++ etex e ++ txt "}".
Definition is_minus_one (e : expo) : bool := if e is ERat p q then (p == (-1)%R) && (q == 1) else false.
(* printer.py:557-579.  comm: expr.is_commutative; neg: self._print(S.NegativeOne * expr) *)
Definition pow_general (comm : bool) (neg : text) (b : base) (e : expo) : text :=
  if b_function b then txt "{" ++ b_text b ++ txt "}^{" ++ etex e ++ txt "}"
  else if comm && is_minus_one e then
    let tex := strip neg in
    if take 1 tex == txt "-" then strip (drop 1 tex) else pow_script b e
  else pow_script b e.
(* printer.py:520-579.  rec e: self._print(Pow(expr.base, e)) *)
Definition pow_body (rec : expo -> text) (comm : bool) (neg : text) (b : base) (e : expo) : text :=
  match e with
  | ERat p q =>
      if (`|p|%N == 1) && (q != 1) then pow_root (b_text b) p q
      else if fold_frac_powers && (q != 1) then pow_slash (b_text b) p q
      else if (p < 0)%R && b_function b then txt "\frac{1}{" ++ rec (ERat (- p)%R q) ++ txt "}"
      else pow_general comm neg b e
  | EOther _ => pow_general comm neg b e
  end.
(* the recursive call has a positive exponent and makes no further one; Pow(base, 1) is base *)
Definition print_pow (comm : bool) (neg : text) (b : base) (e : expo) : text :=
  pow_body (fun e' => if e' is ERat 1%R 1 then b_text b else pow_body (fun _ => [::]) comm neg b e') comm neg b e.
End Pow.

(* printer.py:651 *)
Definition inv_trig_table : seq text := map txt
  [:: "asin"; "acos"; "atan"; "acot"; "acosh"; "asinh"; "atanh"]%string.

Section Function.
Variable accepted : seq text.               (* sympy's accepted_latex_functions *)
Variable sym : text -> text.                (* latex(Symbol(name)) *)
Variables (style : text) (fold_func_brackets omit_function_args : bool).   (* the settings *)

(* printer.py:654-665: the name shown, and inv_trig_power_case *)
Definition fun_name (func : text) : text * bool :=
  if func \in inv_trig_table then
    if style == txt "abbreviated" then (func, false)
    else if style == txt "full" then (txt "arc" ++ drop 1 func, false)
    else if style == txt "power" then (drop 1 func, true)
    else (func, false)
  else (func, false).
(* printer.py:667-690; the exp of the last branch is None *)
Definition fun_head (func : text) (power : bool) (exp : option text) : text :=
  if power then
    if func \in accepted then txt "\" ++ func ++ txt "^{-1}" else txt "\operatorname{" ++ func ++ txt "}^{-1}"
  else if exp is Some e then
    if func \in accepted then txt "\" ++ func ++ txt "^{" ++ e ++ txt "}"
    else let name := sym func ++ txt " " in
      if ("_"%char \in func) || ("^"%char \in func) then txt "{\left ( " ++ name ++ txt "\right ) }^{" ++ e ++ txt "}"
      else name ++ txt "^{" ++ e ++ txt "}"
  else if func \in accepted then txt "\" ++ func else sym func ++ txt " ".
(* printer.py:633-713.  own: the result of self._print_<func>, if there is such a method;
   needs: self._needs_function_brackets(expr.args[0]) *)
Definition print_function (own : option text) (func0 : text) (args : seq text) (needs : bool) (exp : option text) : formatted :=
  if own is Some t then FText t
  else
    let: (func, power) := fun_name func0 in
    let can_fold := [&& fold_func_brackets, size args == 1 & ~~ needs] && ~~ (power && isSome exp) in
    let shown := (func \in accepted) || ~~ omit_function_args in
    let name := fun_head func power exp in
    let name :=
      if can_fold then
        if func \in accepted then name ++ txt " {%s}" else if ~~ omit_function_args then name ++ txt "%s" else name
      else if shown then name ++ txt "{\left (%s \right )}" else name in
    let name := if power then (if exp is Some e then name ++ txt "^{" ++ e ++ txt "}" else name) else name in
    if shown then percent name [:: if args is [:: x] then x else joined (txt ",") args] else FText name.
End Function.
