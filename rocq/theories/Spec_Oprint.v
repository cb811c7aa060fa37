(* Spec_Oprint.v -- the documented layout of a table of titles and values, for property C79. *)
From Coq Require Import String Ascii.
From mathcomp Require Import all_ssreflect.
From Verif Require Import PyBase Parser_Model.
Set Implicit Arguments.
Unset Strict Implicit.
Unset Printing Implicit Defensive.
Local Open Scope seq_scope.

(* a row: the title, and the text of the value, if there is one *)
Definition row : Type := (text * option text)%type.
Definition one_line (s : text) : bool := all (fun c => ~~ Ascii.eqb c "010"%char) s.
(* rows with a value on one line *)
Definition short (r : row) : bool := if r.2 is Some s then one_line s else false.
(* the column of the equality signs: the length of the longest title of such a row *)
Definition column (rs : seq row) : nat := \max_(r <- rs | short r) size r.1.
Definition layout (k : nat) (r : row) : text :=
  match r.2 with
  | None => r.1
  | Some s => if one_line s then r.1 ++ nseq (k - size r.1) " "%char ++ txt " = " ++ s
              else r.1 ++ txt ":" ++ "010"%char :: s
  end.
