(* Symbol_Model.v -- how printer.py writes the names of symbols and the derivatives:
   GaLatexPrinter._print_Symbol and _print_Derivative, GaPrinter._print_Derivative.

   A str is a list of characters.  sympy's split_super_sub (the name, the superscripts and
   the subscripts of a symbol's name), its lists greeks and other_symbols, and the printing
   of the variables and of the differentiated expression are inputs of the model. *)
From Coq Require Import String Ascii.
From mathcomp Require Import all_ssreflect.
From Verif Require Import PyBase PyStr Parser_Model.
Set Implicit Arguments.
Unset Strict Implicit.
Unset Printing Implicit Defensive.
Local Open Scope seq_scope.

Definition bs : ascii := ascii_of_nat 92.

(* sympy.core.alphabets.greeks and sympy.printing.latex.other_symbols (not in /repo) *)
Definition greeks : seq text := map txt
  [:: "alpha"; "beta"; "gamma"; "delta"; "epsilon"; "zeta"; "eta"; "theta"; "iota"; "kappa"; "lamda"; "mu";
      "nu"; "xi"; "omicron"; "pi"; "rho"; "sigma"; "tau"; "upsilon"; "phi"; "chi"; "psi"; "omega"]%string.
Definition other_symbols : seq text := map txt
  [:: "aleph"; "beth"; "daleth"; "gimel"; "ell"; "eth"; "hbar"; "hslash"; "mho"; "wp"]%string.
(* printer.py:498-500: the characters are sorted by decreasing length; the order among
   names of one length depends on the iteration order of a set, so the list is an input *)
Definition glyphs : seq text := greeks ++ other_symbols ++ [:: txt "infty"].
Definition special_alphabet (al : seq text) : Prop :=
  perm_eq al glyphs /\ sorted (fun p q => size q <= size p) al.
Definition greek_translated : seq (text * text) :=
  [:: (txt "lamda", txt "lambda"); (txt "Lamda", txt "Lambda")].

(* printer.py:588-599: the glyphs found in the name are replaced by ????1, ????2, ... *)
Definition parse_sym (i : nat) : text := txt "????" ++ txt (str_nat i).
Fixpoint hide_glyphs (al : seq text) (i : nat) (dict : seq (text * text)) (tmp : text) : seq (text * text) * text :=
  if al is g :: al' then
    if infix g tmp then
      let tg := if infix (bs :: g) tmp then g else bs :: g ++ txt " " in
      hide_glyphs al' i.+1 (rcons dict (parse_sym i, tg)) (replace g (parse_sym i) tmp)
    else hide_glyphs al' i dict tmp
  else (dict, tmp).
(* printer.py:601-602 *)
Definition show_glyphs (dict : seq (text * text)) (tmp : text) : text :=
  foldl (fun t kv => replace kv.1 kv.2 t) tmp dict.
(* printer.py:604-606 *)
Definition rename_glyphs (tmp : text) : text :=
  foldl (fun t kv => if infix kv.1 t then replace kv.1 kv.2 t else t) tmp greek_translated.
(* printer.py:585-608 *)
Definition translate (al : seq text) (s : text) : text :=
  let: (dict, tmp) := hide_glyphs al 1 [::] s in rename_glyphs (show_glyphs dict tmp).

(* sep.join(ws) *)
Fixpoint joined (sep : text) (ws : seq text) : text :=
  match ws with [::] => [::] | [:: w] => w | w :: ws' => w ++ sep ++ joined sep ws' end.
(* printer.py:610-626, after split_super_sub *)
Definition str_symbol (al : seq text) (bold : bool) (name : text) (supers subs : seq text) : text :=
  let name := translate al name in
  let name := if bold then bs :: txt "boldsymbol{" ++ name ++ txt "}" else name in
  let name := if 0 < size supers then name ++ txt "^{" ++ joined (txt " ") (map (translate al) supers) ++ txt "}" else name in
  if 0 < size subs then name ++ txt "_{" ++ joined (txt " ") (map (translate al) subs) ++ txt "}" else name.

Section Derivative.
Variable V : eqType.      (* the variables of differentiation *)
Variable pr : V -> text.  (* self._print of a variable *)

(* printer.py:724-733: runs of equal variables *)
Fixpoint mult_loop (acc : seq (V * nat)) (current : V) (i : nat) (vs : seq V) : seq (V * nat) :=
  if vs is v :: vs' then
    if v == current then mult_loop acc current i.+1 vs'
    else mult_loop (rcons acc (current, i)) v 1 vs'
  else rcons acc (current, i).
(* printer.py:735-741 *)
Definition tex_omit (m : seq (V * nat)) : text :=
  foldl (fun t xi => if xi.2 == 1 then t ++ bs :: txt "partial_{" ++ pr xi.1 ++ txt "}"
                     else t ++ bs :: txt "partial^{" ++ txt (str_nat xi.2) ++ txt "}_{" ++ pr xi.1 ++ txt "}") [::] m.
(* printer.py:743-747 *)
Definition tex_frac (m : seq (V * nat)) : text :=
  foldl (fun t xi => if xi.2 == 1 then t ++ bs :: txt "partial " ++ pr xi.1
                     else t ++ bs :: txt "partial^{" ++ txt (str_nat xi.2) ++ txt "} " ++ pr xi.1) [::] m.
(* printer.py:715-755; vs is expr.variables (IndexError when empty), assoc is
   isinstance(expr.expr, AssocOp), body the printed expression *)
Definition latex_derivative (omit assoc : bool) (vs : seq V) (body : text) : option text :=
  let finish tex := if assoc then tex ++ bs :: txt "left(" ++ body ++ bs :: txt "right)" else tex ++ txt " " ++ body in
  match vs with
  | [::] => None
  | [:: x] => Some (finish (if omit then bs :: txt "partial_{" ++ pr x ++ txt "}"
                            else bs :: txt "frac{" ++ bs :: txt "partial}{" ++ bs :: txt "partial " ++ pr x ++ txt "}"))
  | x :: vs' =>
      let m := mult_loop [::] x 1 vs' in
      Some (finish (if omit then tex_omit m
                    else bs :: txt "frac{" ++ bs :: txt "partial^{" ++ txt (str_nat (size vs)) ++ txt "}}{" ++ tex_frac m ++ txt "} "))
  end.

(* printer.py:329-336: xi holds printed strings, no variable is equal to a string, so the
   test x in xi is always false and nothing is merged *)
Fixpoint text_args (xi : seq text) (ni : seq nat) (args : seq (V * nat)) : seq text * seq nat :=
  if args is (x, n) :: args' then text_args (rcons xi (pr x)) (rcons ni n) args' else (xi, ni).
(* printer.py:322-344 without colour *)
Definition text_derivative (args : seq (V * nat)) (body : text) : text :=
  let: (xi, ni) := text_args [::] [::] args in
  foldl (fun s xn => let s := s ++ txt "{" ++ xn.1 ++ txt "}" in
                     if 1 < xn.2 then s ++ txt "^" ++ txt (str_nat xn.2) else s) (txt "D") (zip xi ni) ++ body.
End Derivative.
