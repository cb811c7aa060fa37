(* Flatten_Model.v -- flatten and isstr (galgebra/utils.py:26-38).

   Simplifications: a value is a string, a list (for any iterable that is no string and can be iterated
   again) or something that is not iterable, given by a number.  collections.Iterable exists up to
   Python 3.9 only; the flag old tells whether it does.  An exception is None. *)
From mathcomp Require Import all_ssreflect.
From Coq Require Import String Ascii.
From Verif Require Import PyBase.
Set Implicit Arguments.
Unset Strict Implicit.
Unset Printing Implicit Defensive.

Inductive pyval := PStr (s : string) | PNum (k : nat) | PList (l : seq pyval).
(* utils.py:37-38 isstr *)
Definition isstr (x : pyval) : bool := if x is PStr _ then true else false.
(* iteration over a string gives strings of one character *)
Fixpoint py_chars (s : string) : seq pyval :=
  if s is String c r then PStr (String c EmptyString) :: py_chars r else [::].
(* utils.py:26-34 flatten; the test isinstance(x, Iterable) is about x, not el, so that it holds whenever
   the loop runs; it raises AttributeError if there is no collections.Iterable *)
Fixpoint py_flatten (old : bool) (x : pyval) : option (seq pyval) :=
  match x with
  | PNum _ => None
  | PStr s => if old || nilp (py_chars s) then Some (py_chars s) else None
  | PList l => (fix go l := match l with
      | [::] => Some [::]
      | el :: r => if ~~ old then None else
          LET h := (if ~~ isstr el then py_flatten old el else Some [:: el]) IN
          LET t := go r IN Some (h ++ t)
      end) l
  end.
