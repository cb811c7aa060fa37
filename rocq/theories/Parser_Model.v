(* Parser_Model.v -- galgebra/_utils/parser.py and the part of GAeval (printer.py)
   that rewrites the expression string.

   A str is a list of characters.  The counter _parse_paren_calls is threaded through
   the functions; None is an exception (the counter value left behind by a failed call is
   not modelled: nothing but the names of the tokens depends on it).  eval() of the
   result is not modelled. *)
From Coq Require Import String Ascii.
From mathcomp Require Import all_ssreflect.
From Verif Require Import PyBase PyStr.
Set Implicit Arguments.
Unset Strict Implicit.
Unset Printing Implicit Defensive.

Definition text : Type := seq ascii.
Definition txt (s : string) : text := list_ascii_of_string s.
Local Notation ch c := (c%char : ascii).

(* parser.py:6-8: the characters of an operand, [A-Za-z0-9_#] *)
Definition operand (c : ascii) : bool :=
  let k := nat_of_ascii c in
  [|| (48 <= k <= 57), (65 <= k <= 90), (97 <= k <= 122), c == ch "_" | c == ch "#"].
(* parser.py:10-14: the three groups of operators *)
Inductive opclass := Inner | Outer | Geom.
Definition op_in (k : opclass) (c : ascii) : bool :=
  match k with
  | Inner => [|| c == ch "|", c == ch "<" | c == ch ">"]
  | Outer => c == ch "^"
  | Geom => c == ch "*"
  end.
(* the longest run of operand characters, and the rest *)
Fixpoint span (s : text) : text * text :=
  if s is c :: s' then
    if operand c then let: (w, r) := span s' in (c :: w, r) else ([::], s)
  else ([::], [::]).
(* OP ARG at the head of s: the matched text and the rest *)
Definition match_op (k : opclass) (s : text) : option (text * text) :=
  if s is c :: s' then
    if op_in k c then
      let: (w, r) := span s' in if nilp w then None else Some (c :: w, r)
    else None
  else None.
(* (OP ARG)* at the head of s, with at most m repetitions *)
Fixpoint match_ops (k : opclass) (m : nat) (s : text) : text * text :=
  if m is m'.+1 then
    if match_op k s is Some (w, r) then let: (w', r') := match_ops k m' r in (w ++ w', r') else ([::], s)
  else ([::], s).
(* parser.py:10-14, 121-123, 137, 143: re.sub(pattern, _sub_paren, line).  An operand is
   never followed by an operand character, so that a match starts at the beginning of a
   run of operand characters and takes the whole run.  The pattern for < > | has one
   operator, the others a chain.  fuel: the number of steps, at most the length. *)
Fixpoint re_sub_fuel (fuel : nat) (k : opclass) (s : text) : text :=
  if fuel is f.+1 then
    if s is c :: s' then
      if operand c then
        let: (w, r) := span s in
        if match_op k r is Some (w1, r1) then
          let: (w2, r2) := if k is Inner then ([::], r1) else match_ops k (size r1) r1 in
          ch "(" :: w ++ w1 ++ w2 ++ ch ")" :: re_sub_fuel f k r2
        else w ++ re_sub_fuel f k r
      else c :: re_sub_fuel f k s'
    else [::]
  else s.
Definition re_sub (k : opclass) (s : text) : text := re_sub_fuel (size s) k s.

(* str.replace(old, new) for a non-empty old *)
Fixpoint replace_from (old new : text) (skip : nat) (s : text) : text :=
  if s is c :: s' then
    if skip is k.+1 then replace_from old new k s'
    else if prefix old s then new ++ replace_from old new (size old).-1 s'
    else c :: replace_from old new 0 s'
  else [::].
Definition replace (old new s : text) : text := replace_from old new 0 s.
Definition slice (i j : nat) (s : text) : text := drop i (take j s).

(* a group of _parse_paren: [open, close, (parent,) text, token, current text] *)
Record group := Group { g_open : nat; g_close : nat; g_parent : nat; g_text : text; g_tok : text; g_new : text }.
Definition set_new (t : text) (g : group) : group :=
  Group (g_open g) (g_close g) (g_parent g) (g_text g) (g_tok g) t.

(* parser.py:34-56, the scan: the entries [level, open] or [level, open, close] of
   paren_lst, the most recent first, the level and the maximal level *)
Definition entry : Type := nat * nat * option nat.
Fixpoint close_entry (level ich : nat) (l : seq entry) : seq entry :=
  if l is (lv, o, c) :: l' then
    if lv == level then (lv, o, Some ich) :: l' else (lv, o, c) :: close_entry level ich l'
  else [::].
Fixpoint scan (level mx ich : nat) (l : seq entry) (s : text) : option (nat * nat * seq entry) :=
  if s is c :: s' then
    if c == ch "(" then scan level.+1 (maxn mx level.+1) ich.+1 ((level.+1, ich, None) :: l) s'
    else if c == ch ")" then
      if level is lv.+1 then scan lv (maxn mx lv) ich.+1 (close_entry level ich l) s' else None
    else scan level (maxn mx level) ich.+1 l s'
  else Some (level, mx, l).
(* parser.py:17-21 *)
Definition contains_interval (a b : nat * nat) : bool := (a.1 > b.1) && (a.2 < b.2).
(* parser.py:59-64: the intervals of one level, in the order of their opening.  (Every
   entry has been closed when level is 0 at the end.) *)
Definition level_intervals (l : seq entry) (level : nat) : seq (nat * nat) :=
  [seq (e.1.2, odflt 0 e.2) | e <- rev l & e.1.1 == level].
(* parser.py:65-77: the position in the level below of the enclosing group *)
Definition parent_of (down : seq (nat * nat)) (iv : nat * nat) : nat :=
  find (contains_interval iv) down.
(* parser.py:82: the token *)
Definition token (calls level igroup : nat) : text :=
  txt ("#" +++ str_nat calls +++ "_" +++ str_nat level +++ "_" +++ str_nat igroup +++ "#")%string.
(* parser.py:65-93: the groups of one level, before the texts of nested groups are replaced *)
Definition level_groups (calls : nat) (line : text) (l : seq entry) (level : nat) : seq group :=
  let ivs := level_intervals l level in
  let down := level_intervals l level.-1 in
  [seq let: (iv, i) := p in
       let t := slice iv.1 iv.2.+1 line in
       Group iv.1 iv.2 (parent_of down iv) t (token calls level i) t
  | p <- zip ivs (iota 0 (size ivs))].
(* parser.py:97-101: in the group around g, the text of g becomes its token *)
Definition hide_in (parents : seq group) (g : group) : seq group :=
  [seq let: (h, i) := p in
       if i == g_parent g then set_new (replace (g_text g) (g_tok g) (g_new h)) h else h
  | p <- zip parents (iota 0 (size parents))].
(* parser.py:94-102, from the innermost level down to level 2; [lvls] lists the levels 1, 2, ... *)
Fixpoint hide_levels (lvls : seq (seq group)) : seq (seq group) :=
  if lvls is gs :: rest then
    let rest' := hide_levels rest in
    (if rest' is gs' :: _ then foldl hide_in gs gs' else gs) :: rest'
  else [::].
(* parser.py:24-107: the line with tokens for its groups, and the groups of levels 1, 2, ... *)
Definition parse_paren (calls : nat) (line : text) : option (nat * (text * seq (seq group))) :=
  let calls := calls.+1 in
  if (ch "(" \notin line) || (ch ")" \notin line) then Some (calls, (line, [::]))
  else
    LET r := scan 0 0 0 [::] line IN
    let: (level, mx, l) := r in
    if level != 0 then None
    else
      let lvls := hide_levels [seq level_groups calls line l k | k <- iota 1 mx] in
      let line := foldl (fun s g => replace (g_text g) (g_tok g) s) line (head [::] lvls) in
      Some (calls, (line, lvls)).

(* parser.py:115-116 *)
Definition strip_double (s : text) : text :=
  if (take 2 s == txt "((") && (drop (size s - 2) s == txt "))") then slice 1 (size s - 1) s else s.
(* parser.py:110-118 *)
Definition unparse_paren (p : text * seq (seq group)) : text :=
  foldl (foldl (fun s g => replace (g_tok g) (strip_double (g_new g)) s)) p.1 p.2.
(* parser.py:133-140 *)
Definition map_groups (f : text -> text) (p : text * seq (seq group)) : text * seq (seq group) :=
  (f p.1, [seq [seq set_new (f (g_new g)) g | g <- gs] | gs <- p.2]).
(* parser.py:126-146 *)
Definition add_paren (k : opclass) (calls : nat) (line : text) : option (nat * text) :=
  if line is c :: _ then
    let flg := (c == ch "(") && (last c line == ch ")") in
    let line := if flg then slice 1 (size line - 1) line else line in
    LET r := (if (ch "(" \in line) || (ch ")" \in line) then
                LET p := parse_paren calls line IN Some (p.1, unparse_paren (map_groups (re_sub k) p.2))
              else Some (calls, re_sub k line)) IN
    Some (r.1, if flg then ch "(" :: rcons r.2 (ch ")") else r.2)
  else None.
(* parser.py:161-163 *)
Fixpoint add_parens (order : seq opclass) (calls : nat) (line : text) : option (nat * text) :=
  if order is k :: order' then LET r := add_paren k calls line IN add_parens order' r.1 r.2
  else Some (calls, line).
(* parser.py:158-166, over the groups of one level *)
Fixpoint parse_groups (order : seq opclass) (calls : nat) (gs : seq group) : option (nat * seq group) :=
  if gs is g :: gs' then
    LET r := add_parens order calls (g_new g) IN
    LET r' := parse_groups order r.1 gs' IN
    Some (r'.1, set_new r.2 g :: r'.2)
  else Some (calls, [::]).
Fixpoint parse_levels (order : seq opclass) (calls : nat) (lvls : seq (seq group)) : option (nat * seq (seq group)) :=
  if lvls is gs :: lvls' then
    LET r := parse_groups order calls gs IN
    LET r' := parse_levels order r.1 lvls' IN
    Some (r'.1, r.2 :: r'.2)
  else Some (calls, [::]).
(* parser.py:154-168 *)
Definition parse_line (order : seq opclass) (calls : nat) (line : text) : option (nat * text) :=
  let line := [seq c <- line | c != ch " "] in
  LET p := parse_paren calls line IN
  LET r := add_parens order p.1 p.2.1 IN
  LET q := parse_levels order r.1 p.2.2 IN
  Some (q.1, unparse_paren (r.2, q.2)).

(* parser.py:10-14, 149-151, printer.py:1103-1123: def_prec *)
Definition opclass_of (s : string) : option opclass :=
  if s == "<>|"%string then Some Inner else if s == "^"%string then Some Outer
  else if s == "*"%string then Some Geom else None.
Definition def_prec (op_ord : string) : option (seq opclass) :=
  omapM opclass_of (split (ch ",") op_ord).
(* printer.py:1126-1157: the string handed to eval() *)
Definition ga_eval (order : seq opclass) (calls : nat) (s : string) : option string :=
  LET r := parse_line order calls (txt s) IN Some (string_of_list_ascii r.2).
