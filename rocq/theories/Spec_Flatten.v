(* Spec_Flatten.v -- the values at the ends of nested lists, for property C78. *)
From mathcomp Require Import all_ssreflect.
From Coq Require Import String.
From Verif Require Import Flatten_Model.
Set Implicit Arguments.
Unset Strict Implicit.
Unset Printing Implicit Defensive.

(* the leaves of a nested list, from left to right *)
Fixpoint leaves (x : pyval) : seq pyval := if x is PList l then flatten (map leaves l) else [:: x].
(* every value which is not a list is a string *)
Definition only_strings (x : pyval) : bool := all (fun v => if v is PStr _ then true else false) (leaves x).
(* x in d further lists of one element *)
Fixpoint wrap (d : nat) (x : pyval) : pyval := if d is d'.+1 then PList [:: wrap d' x] else x.
