(* Oprint_Model.v -- the table of titles and values printed by oprint (galgebra/printer.py:183-219).

   Simplifications: an argument is given by the text that the printer makes of it (ostr, printer.py:164-165);
   the result is the list of printed texts, print adds a line break to each of them.  An exception is None:
   what was printed before it is not kept. *)
From Coq Require Import String Ascii.
From mathcomp Require Import all_ssreflect.
From Verif Require Import PyBase Parser_Model.
Set Implicit Arguments.
Unset Strict Implicit.
Unset Printing Implicit Defensive.
Local Open Scope seq_scope.

(* a string, None, another object *)
Inductive oarg := OStr (t : text) | ONone | OObj (t : text).
(* the text of an argument; str(None) is None *)
Definition ostr (o : oarg) : text := match o with OStr t => t | ONone => txt "None" | OObj t => t end.
Definition nl : ascii := "010"%char.
(* '\n' in s *)
Definition has_nl (s : text) : bool := has (Ascii.eqb nl) s.
(* args[0::2] and args[1::2] *)
Fixpoint even_args (T : Type) (l : seq T) : seq T :=
  match l with [::] => [::] | [:: x] => [:: x] | x :: _ :: r => x :: even_args r end.
Definition odd_args (T : Type) (l : seq T) : seq T := even_args (drop 1 l).
(* printer.py:198-201 strs *)
Definition ostrs (objs : seq oarg) : seq (option text) :=
  [seq (if o is ONone then None else Some (ostr o)) | o <- objs].
(* len(title): TypeError if the title is not a string *)
Definition title_text (o : oarg) : option text := if o is OStr t then Some t else None.
(* printer.py:202-206 n *)
Fixpoint pad_width (l : seq (oarg * option text)) : option nat :=
  match l with
  | [::] => Some 0
  | (title, s) :: r =>
      if (if s is Some s' then ~~ has_nl s' else false) then
        LET t := title_text title IN LET k := pad_width r IN Some (maxn (size t) k)
      else pad_width r
  end.
(* printer.py:208-216: one turn of the loop; a negative number of blanks is none *)
Definition oprint_line (n : nat) (p : oarg * option text) : option text :=
  match p.2 with
  | None => Some (ostr p.1)
  | Some s =>
      LET t := title_text p.1 IN
      let npad := n - size t in
      if has_nl s then Some (t ++ txt ":" ++ [:: nl] ++ s)
      else Some (t ++ nseq npad " "%char ++ txt " = " ++ s)
  end.
Fixpoint oprint_lines (n : nat) (l : seq (oarg * option text)) : option (seq text) :=
  if l is p :: r then LET t := oprint_line n p IN LET ts := oprint_lines n r IN Some (t :: ts) else Some [::].
(* printer.py:183-219 oprint; args[0] raises IndexError if there are no arguments *)
Definition oprint (args : seq oarg) : option (seq text) :=
  match args with
  | [::] => None
  | OObj _ :: _ => Some [seq ostr o | o <- args]
  | _ =>
      let l := zip (even_args args) (ostrs (odd_args args)) in
      LET n := pad_width l IN oprint_lines n l
  end.
