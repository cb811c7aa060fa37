(* Ltprint_Model.v -- the printed forms of a linear transformation: Lt._sympystr and Lt._latex
   (galgebra/lt.py:570-600).

   The texts of a basis symbol and of a multivector are inputs ([base] and [show], the printer).
   Simplification: self.versor is never set (lt.py:301), so the branches for it are left out. *)
From Coq Require Import String Ascii.
From mathcomp Require Import all_ssreflect all_algebra.
From Verif Require Import PyBase PyStr Parser_Model Ga_Model Mv_Model Lt_Model.
Set Implicit Arguments.
Unset Strict Implicit.
Unset Printing Implicit Defensive.
Import GRing.Theory.
Local Open Scope seq_scope.

Section Print.
Variables (R : comUnitRingType) (a : ga R) (base : nat -> text) (show : mv R -> text).
Let n := ga_n a.
Implicit Types L : lt R.
(* lt.py:577-581: one turn of the loop *)
Definition str_step L (s : text) (i : nat) : text :=
  if dget L i is Some _ then s ++ txt "Lt(" ++ base i ++ txt ") = " ++ show (lt_printed a L i) ++ [:: "010"%char]
  else s ++ txt "Lt(" ++ base i ++ txt ") = 0" ++ [:: "010"%char].
(* lt.py:570-582 _sympystr; s[:-1] *)
Definition lt_str L : text := let s := foldl (str_step L) [::] (iota 0 n) in take (size s).-1 s.
(* sep.join(parts) *)
Fixpoint text_join (sep : text) (ws : seq text) : text :=
  if ws is w :: ws' then w ++ (if ws' is [::] then [::] else sep ++ text_join sep ws') else [::].
(* lt.py:585-600 _latex *)
Definition latex_part L (i : nat) : text :=
  base i ++ txt " &\mapsto " ++ show (mk_mv a (odflt [::] (dget L i))).
Definition lt_latex L : text :=
  txt "\left\{ \begin{aligned} " ++ text_join (txt " \\ ") [seq latex_part L i | i <- iota 0 n] ++ txt " \end{aligned} \right\}".
End Print.
