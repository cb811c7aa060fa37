(* Spec_Symbol.v -- what C67 says, without the model.

   A name is written as a list of pieces, each a run of letters (word) or a run of other
   characters (gap); two words never meet, so a word is a maximal run of letters. *)
From Coq Require Import String Ascii.
From mathcomp Require Import all_ssreflect.
From Verif Require Import PyStr.
Set Implicit Arguments.
Unset Strict Implicit.
Unset Printing Implicit Defensive.
Local Open Scope seq_scope.

Definition chars (s : string) : seq ascii := list_ascii_of_string s.
Definition backslash : ascii := ascii_of_nat 92.
Definition letter (c : ascii) : bool :=
  let k := nat_of_ascii c in ((65 <= k <= 90) || (97 <= k <= 122))%N.
Definition word (p : seq ascii) : bool := (p != [::]) && all letter p.
Definition gap (p : seq ascii) : bool := (p != [::]) && all (predC letter) p.
Definition gap_next (ps : seq (seq ascii)) : bool := if ps is q :: _ then gap q else true.
Fixpoint cut (ps : seq (seq ascii)) : bool :=
  if ps is p :: ps' then (gap p || word p && gap_next ps') && cut ps' else true.

(* the letters written as LaTeX commands *)
Definition letters_of_alphabet : seq (seq ascii) := map chars
  [:: "alpha"; "beta"; "gamma"; "delta"; "epsilon"; "zeta"; "eta"; "theta"; "iota"; "kappa"; "lamda"; "mu";
      "nu"; "xi"; "omicron"; "pi"; "rho"; "sigma"; "tau"; "upsilon"; "phi"; "chi"; "psi"; "omega";
      "aleph"; "beth"; "daleth"; "gimel"; "ell"; "eth"; "hbar"; "hslash"; "mho"; "wp"; "infty"]%string.
(* lamda is spelled lambda in LaTeX *)
Definition spelled (p : seq ascii) : seq ascii := if p == chars "lamda" then chars "lambda" else p.
Definition latex_word (p : seq ascii) : seq ascii :=
  if p \in letters_of_alphabet then backslash :: spelled p ++ chars " " else p.
Definition latex_words (ps : seq (seq ascii)) : seq ascii := flatten (map latex_word ps).

(* a name that can be read in one way: its words are letters of the alphabet or contain none
   of them, and it has no question mark *)
Definition plain_word (p : seq ascii) : bool :=
  all (fun g => ~~ infix g p) (chars "Lamda" :: letters_of_alphabet).
Definition readable (ps : seq (seq ascii)) : bool :=
  cut ps && all (fun p => word p ==> ((p \in letters_of_alphabet) || plain_word p)) ps &&
  (ascii_of_nat 63 \notin flatten ps).
(* the number of different letters of the alphabet in the name *)
Definition alphabet_count (ps : seq (seq ascii)) : nat := size (undup [seq p <- ps | p \in letters_of_alphabet]).

(* words separated by one blank *)
Definition spaced (ws : seq (seq ascii)) : seq ascii :=
  if ws is w :: ws' then w ++ flatten [seq chars " " ++ v | v <- ws'] else [::].
Definition latex_symbol (bold : bool) (name : seq (seq ascii)) (supers subs : seq (seq (seq ascii))) : seq ascii :=
  (if bold then backslash :: chars "boldsymbol{" ++ latex_words name ++ chars "}" else latex_words name) ++
  (if supers is [::] then [::] else chars "^{" ++ spaced (map latex_words supers) ++ chars "}") ++
  (if subs is [::] then [::] else chars "_{" ++ spaced (map latex_words subs) ++ chars "}").

(* the runs of equal variables in a list *)
Section Runs.
Variable V : eqType.
Definition runs (m : seq (V * nat)) (vs : seq V) : Prop :=
  [/\ vs = flatten [seq nseq xi.2 xi.1 | xi <- m], all (fun xi => 0 < xi.2)%N m &
      sorted (fun a b => a.1 != b.1) m].
Variable pr : V -> seq ascii.
(* the order is left out when it is 1 *)
Definition order (pre : string) (k : nat) (post : string) : seq ascii :=
  if k == 1 then [::] else chars pre ++ chars (str_nat k) ++ chars post.
Definition partial_sub (xi : V * nat) : seq ascii :=
  backslash :: chars "partial" ++ order "^{" xi.2 "}" ++ chars "_{" ++ pr xi.1 ++ chars "}".
Definition partial_frac (xi : V * nat) : seq ascii :=
  backslash :: chars "partial" ++ order "^{" xi.2 "}" ++ chars " " ++ pr xi.1.
Definition applied (assoc : bool) (body : seq ascii) : seq ascii :=
  if assoc then backslash :: chars "left(" ++ body ++ backslash :: chars "right)" else chars " " ++ body.
End Runs.
