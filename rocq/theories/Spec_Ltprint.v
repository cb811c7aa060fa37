(* Spec_Ltprint.v -- the table of a linear transformation. *)
From Coq Require Import String Ascii.
From mathcomp Require Import all_ssreflect.
From Verif Require Import PyBase PyStr Parser_Model.
Set Implicit Arguments.
Unset Strict Implicit.
Unset Printing Implicit Defensive.

(* texts with a separator between two of them, none at the ends *)
Definition separated (sep : text) (ws : seq text) : text := drop (size sep) (flatten [seq sep ++ w | w <- ws])%SEQ.
(* the lines of the text and of the LaTeX for a basis symbol and the text of its image *)
Definition text_line (b v : text) : text := (txt "Lt(" ++ b ++ txt ") = " ++ v)%SEQ.
Definition latex_line (b v : text) : text := (b ++ txt " &\mapsto " ++ v)%SEQ.
