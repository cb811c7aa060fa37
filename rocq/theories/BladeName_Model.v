(* BladeName_Model.v -- model of the names of basis blades (galgebra/atoms.py) and of
   the dictionary of blades by name (galgebra/ga.py, Ga.bases_dict).

   Simplification: str() of a basis vector symbol is its name; isdigit() is taken on
   ASCII characters; a blade is given by its tuple of indices. *)
From Coq Require Import String Ascii.
From mathcomp Require Import all_ssreflect all_algebra.
From Verif Require Import PyBase PyStr Ga_Model.
Set Implicit Arguments.
Unset Strict Implicit.
Unset Printing Implicit Defensive.
Local Open Scope string_scope.

(* ''.join(l) *)
Fixpoint concat (l : seq string) : string := if l is x :: l' then x +++ concat l' else "".
(* atoms.py:22-23 _all_same *)
Definition all_same (l : seq string) : bool := all (fun x => x == head "" l) l.
(* atoms.py:105-118 _split_name; None = ValueError *)
Definition split_name (args : seq string) : option (string * string) :=
  LET parts := omapM (fun x => if split "_" x is [:: root; sub] then Some (root, sub) else None) args IN
  let roots := [seq p.1 | p <- parts] in
  if all_same roots then Some (head "" roots, concat [seq p.2 | p <- parts]) else None.
(* atoms.py:120-125 the wedgeless printers *)
Definition wedgeless_str (args : seq string) : option string :=
  LET rs := split_name args IN Some (rs.1 +++ "_" +++ rs.2).
(* ga.py:1030-1035 _build_basis_blade_symbol; atoms.py:47-58 _GradedSymbol.__new__;
   atoms.py:68-72, 95-99 str() of a blade *)
Definition blade_str (wedge : bool) (names : seq string) (I : seq nat) : option string :=
  let args := [seq nth "" names i | i <- I] in
  match args with
  | [::] => Some "1"
  | [:: x] => Some x
  | _ => if wedge then Some (join "^" args) else wedgeless_str args
  end.
(* ga.py:1024-1028 _build_basis_base_symbol; atoms.py:68-72, 88-92 str() of a base *)
Definition base_str (names : seq string) (I : seq nat) : string :=
  let args := [seq nth "" names i | i <- I] in if nilp args then "1" else join "*" args.
(* ''.join([k for k in s if k.isdigit()]) *)
Fixpoint digits_of (s : string) : string :=
  if s is String c s' then (if digit c is Some _ then String c (digits_of s') else digits_of s') else "".
(* ga.py:923-938 bases_dict *)
Definition bases_dict (wedge : bool) (prefix : option string) (names : seq string) : option (seq (string * seq nat)) :=
  let pre := if prefix is Some p then p else "e" in
  let bl := behead (indexes_flat (size names)) in
  LET strs := omapM (blade_str wedge names) bl IN
  Some (dict_of (zip [seq pre +++ digits_of s | s <- strs] bl)).
