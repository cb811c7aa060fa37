(* Spec_Comps.v -- the index tuples in the order of an odometer, and the lines of the listing. *)
From Coq Require Import String Ascii.
From mathcomp Require Import all_ssreflect.
From Verif Require Import PyBase PyStr Parser_Model.
Set Implicit Arguments.
Unset Strict Implicit.
Unset Printing Implicit Defensive.

(* the k digits of i in base n, the most significant first *)
Definition digits (n k i : nat) : seq nat := [seq (i %/ n ^ (k - j.+1)) %% n | j <- iota 0 k].

(* the text of a tuple: its items with ", " between them, in parentheses; a comma closes the tuple of
   one item *)
Definition tuple_text (ix : seq nat) : text :=
  (txt "(" ++ drop 2 (flatten [seq txt ", " ++ txt (str_nat j) | j <- ix]) ++ (if size ix == 1 then txt "," else [::]) ++ txt ")")%SEQ.
(* line i of the listing: "i:(i_1, ..., i_k):value" and the end of the line *)
Definition comps_line (n k i : nat) (value : text) : text :=
  (txt (str_nat i) ++ txt ":" ++ tuple_text (digits n k i) ++ txt ":" ++ value ++ [:: "010"%char])%SEQ.
