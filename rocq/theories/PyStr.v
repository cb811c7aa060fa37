(* PyStr.v -- the Python string operations used by the modelled code.
   A str is a Coq string (8-bit characters; Python's are Unicode code points,
   none of the modelled operations distinguishes characters other than the
   ASCII ones named in the code). *)
From Coq Require Import String Ascii DecimalString DecimalNat ZArith.
From mathcomp Require Import all_ssreflect.
Set Implicit Arguments.
Unset Strict Implicit.
Unset Printing Implicit Defensive.

Lemma string_eqP : Equality.axiom String.eqb.
Proof. exact: String.eqb_spec. Qed.
Canonical string_eqType := Eval hnf in EqType string (EqMixin string_eqP).
Lemma ascii_eqP : Equality.axiom Ascii.eqb.
Proof. exact: Ascii.eqb_spec. Qed.
Canonical ascii_eqType := Eval hnf in EqType ascii (EqMixin ascii_eqP).

Infix "+++" := String.append (right associativity, at level 60).

(* c in s, for a one-character string c *)
Fixpoint has_char (c : ascii) (s : string) : bool :=
  if s is String x s' then (x == c) || has_char c s' else false.

(* s.split(c) *)
Fixpoint split (c : ascii) (s : string) : seq string :=
  if s is String x s' then
    if x == c then EmptyString :: split c s'
    else if split c s' is w :: ws then String x w :: ws else [:: String x EmptyString]
  else [:: EmptyString].

(* sep.join(ws) *)
Fixpoint join (sep : string) (ws : seq string) : string :=
  match ws with
  | [::] => EmptyString
  | [:: w] => w
  | w :: ws' => w +++ sep +++ join sep ws'
  end.

(* s.replace(c, t, 1) for a one-character string c *)
Fixpoint replace1 (c : ascii) (t : string) (s : string) : string :=
  if s is String x s' then if x == c then t +++ s' else String x (replace1 c t s') else EmptyString.

(* str(i) for a non-negative int *)
Definition str_nat (i : nat) : string := NilZero.string_of_uint (Nat.to_uint i).

(* int(s): optional white space, sign, digits with single underscores between
   them (None = ValueError).  White space is ' ', tab, newline, CR, VT, FF. *)
Definition is_space (c : ascii) : bool :=
  let k := nat_of_ascii c in (k == 32) || (9 <= k <= 13).
Definition digit (c : ascii) : option Z :=
  let k := nat_of_ascii c in if 48 <= k <= 57 then Some (Z.of_nat (k - 48)) else None.
Fixpoint lstrip (s : string) : string :=
  if s is String x s' then if is_space x then lstrip s' else s else EmptyString.
Fixpoint all_space (s : string) : bool :=
  if s is String x s' then is_space x && all_space s' else true.
Fixpoint rstrip (s : string) : string :=
  if s is String x s' then if all_space s then EmptyString else String x (rstrip s') else EmptyString.
Fixpoint int_digits (s : string) (prev : bool) (acc : Z) : option Z :=
  if s is String x s' then
    if digit x is Some d then int_digits s' true (10 * acc + d)%Z
    else if (x == "_"%char) && prev then int_digits s' false acc else None
  else if prev then Some acc else None.
Definition py_int (s : string) : option Z :=
  let t := rstrip (lstrip s) in
  if t is String x t' then
    if x == "+"%char then int_digits t' false 0%Z
    else if x == "-"%char then (if int_digits t' false 0%Z is Some z then Some (- z)%Z else None)
    else int_digits t false 0%Z
  else None.
(* range(z): empty when z is negative *)
Definition py_range (z : Z) : seq nat := iota 0 (Z.to_nat z).
