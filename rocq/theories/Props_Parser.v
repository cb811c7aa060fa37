(* Props_Parser.v -- property C45: the rewriting of expression strings by GAeval().

   [parse_line order calls s]: the string that GAeval(s) evaluates, after def_prec with
   the precedence [order] (highest first); None is an exception.  [Inner], [Outer],
   [Geom] are the classes '<>|', '^' and '*'.  calls is the value of the token counter.

   Proved for all strings: spaces do not matter; mismatched parentheses raise; the
   precedence strings def_prec accepts.  Proved for sums of chains (words joined by
   operators of one class, the lowest of the order, without parentheses), and for a chain
   of any class in which one factor is such a sum in parentheses.  Missing: the other
   nested expressions, for which the rewriting is wrong in general (the _refuted theorems). *)
From Coq Require Import String Ascii.
From mathcomp Require Import all_ssreflect.
From Verif Require Import PyBase PyStr Parser_Model Parser_Proof Names_Proof.
Set Implicit Arguments.
Unset Strict Implicit.
Unset Printing Implicit Defensive.
Local Notation ch c := (c%char : ascii).

Definition default_order : seq opclass := [:: Inner; Outer; Geom].

(* ---- specification ---- *)
(* the first parenthesis that closes nothing, or one that stays open *)
Fixpoint balanced (depth : nat) (s : text) : bool :=
  if s is c :: s' then
    if c == ch "(" then balanced depth.+1 s'
    else if c == ch ")" then (0 < depth) && balanced depth.-1 s'
    else balanced depth s'
  else depth == 0.
(* a word: letters, digits, underscores *)
Definition letters : text :=
  txt "ABCDEFGHIJKLMNOPQRSTUVWXYZabcdefghijklmnopqrstuvwxyz0123456789_".
Definition word (w : text) : bool := (w != [::]) && all (mem letters) w.
(* w o1 w1 o2 w2 ...: words joined by operators of the class k; only one for < > | *)
Record chain := Chain { c_first : text; c_rest : seq (ascii * text) }.
Definition good_chain (k : opclass) (c : chain) : bool :=
  [&& word (c_first c), all (fun p => op_in k p.1 && word p.2) (c_rest c) &
      if k is Inner then size (c_rest c) <= 1 else true].
Definition show (c : chain) : text := c_first c ++ flatten [seq p.1 :: p.2 | p <- c_rest c].
(* the same with parentheses around it, unless it is a single word *)
Definition parens (c : chain) : text :=
  if nilp (c_rest c) then show c else txt "(" ++ show c ++ txt ")".
(* a separator of chains: a + or a - *)
Definition plus_minus (c : ascii) : bool := (c == ch "+") || (c == ch "-").
Definition show_sum (f : chain -> text) (c : chain) (l : seq (ascii * chain)) : text :=
  f c ++ flatten [seq p.1 :: f p.2 | p <- l].
Definition good_sum (k : opclass) (c : chain) (l : seq (ascii * chain)) : bool :=
  good_chain k c && all (fun p => plus_minus p.1 && good_chain k p.2) l.

(* ---- all strings ---- *)
Theorem C45_spaces order calls s :
  parse_line order calls s = parse_line order calls [seq c <- s | c != ch " "].
Proof. by rewrite /parse_line filter_id. Qed.

Lemma scan_balanced level mx ich l s :
  (if scan level mx ich l s is Some (lv, _, _) then lv == 0 else false) = balanced level s.
Proof.
elim: s level mx ich l => [|c s IH] level mx ich l //=.
by do 2 case: ifP => _ //; case: level => [|level] //=.
Qed.
(* a string with both kinds of parentheses, not balanced: ValueError *)
Theorem C45_mismatched order calls s : ch "(" \in s -> ch ")" \in s -> ~~ balanced 0 s ->
  parse_line order calls s = None.
Proof.
move=> o c; have fc x : x \in s -> x != ch " " -> x \in [seq c <- s | c != ch " "].
  by rewrite mem_filter => -> ->.
have bs : forall d, balanced d [seq c <- s | c != ch " "] = balanced d s.
  by elim: (s) => [|x t IH] d //=; case: (eqVneq x (ch " ")) => [->|xs] //=; rewrite !IH.
rewrite -bs /parse_line /parse_paren !fc //= -(scan_balanced 0 0 0 [::]).
by case: scan => [[[lv mx] l]|] //= /negbTE ->.
Qed.
Lemma opclass_ofP o : isSome (opclass_of o) = (o \in [:: "<>|"; "^"; "*"]%string).
Proof. by rewrite /opclass_of !inE; do 3 (case: ifP => //= _). Qed.
(* def_prec accepts the comma-separated lists of the three classes *)
Theorem C45_def_prec op_ord :
  (exists order, def_prec op_ord = Some order) <->
  all (fun o => o \in [:: "<>|"; "^"; "*"]%string) (split (ch ",") op_ord).
Proof.
rewrite /def_prec; elim: (split _ _) => [|o os IH] /=; first by split=> // _; exists [::].
rewrite -opclass_ofP; case: opclass_of => [k|] /=; last by split=> [[]|].
rewrite -IH; split=> [[order]|[order ->]]; last by exists (k :: order).
by case: omapM => //= order' _; exists order'.
Qed.

(* ---- sums of chains ---- *)
Definition plain (c : ascii) : bool := c \notin txt " ()".
Lemma word_operand w : word w = (w != [::]) && all (fun c => operand c && (c != ch "#")) w.
Proof.
rewrite /word; congr (_ && _); apply: eq_all => c /=.
by case: c => [[] [] [] [] [] [] [] []].
Qed.
Lemma word_plain w : word w -> all plain w /\ all operand w.
Proof.
rewrite word_operand; case/andP=> _ aw; split; apply: sub_all aw => c /andP[oc _] //.
by rewrite /plain !inE; apply/negP => /or3P[]/eqP e; rewrite e in oc.
Qed.
Lemma word_noop k w : word w -> all (fun c => ~~ op_in k c) w.
Proof. by rewrite word_operand; case/andP=> _; apply: sub_all => c /andP[oc _]; apply/negP => /op_operand; rewrite oc. Qed.
Lemma op_plain k c : op_in k c -> plain c.
Proof. by case: k => /=; [case/or3P=> /eqP ->|move/eqP => ->|move/eqP => ->]. Qed.
Lemma op_other j k c : j <> k -> op_in k c -> ~~ op_in j c.
Proof. by case: j; case: k => // _ /=; [| |case/or3P=> /eqP -> | |case/or3P=> /eqP -> |] => // /eqP ->. Qed.

Section Chains.
Variable k : opclass.
Lemma show_all (P : pred ascii) c : (forall w, word w -> all P w) -> (forall o, op_in k o -> P o) ->
  good_chain k c -> all P (show c).
Proof.
move=> Pw Po /and3P[w0 ws _]; rewrite /show all_cat Pw //=; elim: (c_rest c) ws => [|[o w] r IH] //=.
by case/andP=> /andP[ko hw] /IH h; rewrite Po // all_cat Pw // h.
Qed.
Lemma show_sum_all (P : pred ascii) c l : (forall w, word w -> all P w) -> (forall o, op_in k o -> P o) ->
  (forall o, plus_minus o -> P o) -> good_sum k c l -> all P (show_sum show c l).
Proof.
move=> Pw Po Ps /andP[gc gl]; rewrite /show_sum all_cat (show_all Pw Po gc) /=.
elim: l gl => [|[o d] r IH] //= /andP[/andP[ho gd] /IH h].
by rewrite Ps // all_cat (show_all Pw Po gd) h.
Qed.
Lemma re_sub_show c s : good_chain k c -> stops s -> no_op k s ->
  re_sub k (show c ++ s) = parens c ++ re_sub k s.
Proof.
case: c => w r /and3P[/= w0 ws ks] ss ns; have [_ aw] := word_plain w0.
rewrite [LHS](@re_sub_chain k w r s) //; first by rewrite /parens /show /paren_chain; case: r {ws ks} => [|p r] /=; rewrite ?cats0 // -cats1 -!catA.
- by case/andP: w0.
- by apply: sub_all ws => p /andP[-> hw] /=; have [_ ->] := word_plain hw; case/andP: hw => ->.
- by move=> kI; rewrite kI in ks.
Qed.
Lemma re_sub_sum c l : good_sum k c l -> re_sub k (show_sum show c l) = show_sum parens c l.
Proof.
case/andP=> gc gl; rewrite /show_sum.
have pm o : plus_minus o -> ~~ operand o && ~~ op_in k o.
  by case/orP=> /eqP -> /=; case: (k).
elim: l c gc gl => [|[o d] r IH] c gc /= gl; first by rewrite !cats0 -[show c]cats0 re_sub_show //= cats0.
case/andP: gl => /andP[ho gd] gr; case/andP: (pm _ ho) => no nk.
rewrite re_sub_show //=; congr (_ ++ _); rewrite re_subE // /step (negbTE no) /=.
by rewrite IH.
Qed.
End Chains.

Lemma add_paren_plain k calls s : s != [::] -> all plain s ->
  add_paren k calls s = Some (calls, re_sub k s).
Proof.
case: s => // c s _ ap; have no x : x \in txt "()" -> x \notin c :: s.
  by move=> hx; apply/negP => /(allP ap); rewrite /plain !inE; move: hx; rewrite !inE => /orP[]/eqP ->.
rewrite /add_paren; have -> : (c == ch "(") = false.
  by apply/negP => /eqP e; move: (no (ch "(") isT); rewrite inE e eqxx.
by rewrite andFb (negbTE (no _ _)) // (negbTE (no _ _)).
Qed.
Lemma scan_close mx ich l p s : all plain p -> scan 0 mx ich l (p ++ ch ")" :: s) = None.
Proof.
elim: p mx ich => [|c p IH] mx ich //= /andP[pc ap].
have -> : (c == ch "(") = false by apply/negP => /eqP e; rewrite e in pc.
have -> : (c == ch ")") = false by apply/negP => /eqP e; rewrite e in pc.
exact: IH.
Qed.
Lemma add_paren_strip k calls m : add_paren k calls (ch "(" :: rcons m (ch ")")) =
  LET r := (if (ch "(" \in m) || (ch ")" \in m) then
              LET p := parse_paren calls m IN Some (p.1, unparse_paren (map_groups (re_sub k) p.2))
            else Some (calls, re_sub k m)) IN
  Some (r.1, ch "(" :: rcons r.2 (ch ")")).
Proof.
rewrite /add_paren [last _ _]/= last_rcons eqxx andbT.
have -> : slice 1 (size (ch "(" :: rcons m (ch ")")) - 1) (ch "(" :: rcons m (ch ")")) = m.
  by rewrite /slice [size _]/= size_rcons subSS subn0 [take _ _]/= -cats1 take_size_cat // [drop _ _]/= drop0.
by [].
Qed.
(* a sum of chains of the lowest class: exactly the chains get parentheses *)
Theorem C45_lowest_class_partial pre k calls c l : k \notin pre -> good_sum k c l ->
  exists calls', parse_line (rcons pre k) calls (show_sum show c l) = Some (calls', show_sum parens c l).
Proof.
move=> kp g; have ap : all plain (show_sum show c l).
  apply: show_sum_all g => [w /word_plain[]|o|o] //; first exact: op_plain.
  by case/orP=> /eqP ->.
have s0 : show_sum show c l != [::].
  by case/andP: g => /and3P[/andP[w0 _] _ _] _; rewrite /show_sum /show; case: (c_first c) w0.
rewrite /parse_line; have -> : [seq c <- show_sum show c l | c != ch " "] = show_sum show c l.
  by apply/all_filterP; apply: sub_all ap => x; rewrite /plain !inE negb_or => /andP[].
have no : ch "(" \notin show_sum show c l by apply/negP => /(allP ap).
rewrite /parse_paren no /=; have -> : add_parens (rcons pre k) calls.+1 (show_sum show c l) = Some (calls.+1, show_sum parens c l).
  elim: pre kp => [|j pre IH] /=; first by rewrite add_paren_plain //= re_sub_sum.
  rewrite inE negb_or => /andP[/eqP jk kp]; rewrite add_paren_plain //= re_sub_id ?IH //.
  apply: show_sum_all g => [w|o|o]; [exact: word_noop|by apply: op_other => e; apply: jk|].
  by case/orP=> /eqP ->; case: (j).
by exists calls.+1.
Qed.

(* ---- one parenthesised sum among the factors of a chain ---- *)
(* the factors before and after an operand t *)
Definition around (a : seq (text * ascii)) (t : text) (b : seq (ascii * text)) : text :=
  flatten [seq rcons p.1 p.2 | p <- a] ++ t ++ flatten [seq p.1 :: p.2 | p <- b].
Definition good_around (j : opclass) (a : seq (text * ascii)) (b : seq (ascii * text)) : bool :=
  [&& all (fun p => word p.1 && op_in j p.2) a, all (fun p => op_in j p.1 && word p.2) b &
      if j is Inner then size a + size b <= 1 else true].
Definition compound (c : chain) : bool := ~~ nilp (c_rest c).
Definition in_parens (s : text) : text := txt "(" ++ s ++ txt ")".
(* a sum in parentheses after the rewriting; a single product does not get a second pair *)
Definition wrap (c : chain) (l : seq (ascii * chain)) : text :=
  if nilp l then in_parens (show c) else in_parens (show_sum parens c l).

Section Replace.
Variables (x : ascii) (old new : text).
Lemma replace_none s : x \notin s -> replace (x :: old) new s = s.
Proof.
rewrite /replace; elim: s => [|c s IH] //=; rewrite inE negb_or => /andP[/negbTE xc xs].
by rewrite xc /= IH.
Qed.
Lemma replace_skip m s : replace_from (x :: old) new m s = replace_from (x :: old) new 0 (drop m s).
Proof. by elim: s m => [|c s IH] [|m] //=. Qed.
Lemma replace_once p s : x \notin p -> x \notin s ->
  replace (x :: old) new (p ++ (x :: old) ++ s) = p ++ new ++ s.
Proof.
rewrite /replace => xp xs; elim: p xp => [|c p IH].
  move=> _ /=; rewrite eqxx /= prefix_prefix replace_skip drop_size_cat //.
  by congr (_ ++ _); exact: replace_none.
by rewrite inE negb_or /= => /andP[/negbTE -> xp] /=; rewrite IH.
Qed.
End Replace.

Lemma scan_plain lv mx ich l p s : lv <= mx -> all plain p ->
  scan lv mx ich l (p ++ s) = scan lv mx (ich + size p) l s.
Proof.
move=> h; elim: p ich => [|c p IH] ich /=; first by rewrite addn0.
case/andP=> pc ap; have -> : (c == ch "(") = false by apply/negP => /eqP e; rewrite e in pc.
have -> : (c == ch ")") = false by apply/negP => /eqP e; rewrite e in pc.
by rewrite (maxn_idPl h) IH // addSnnS.
Qed.
Lemma plain_noparen p : all plain p -> (ch "(" \notin p) && (ch ")" \notin p).
Proof. by move=> ap; apply/andP; split; apply/negP => /(allP ap). Qed.
Lemma parse_paren_one calls A m B : all plain A -> all plain m -> all plain B ->
  let g := txt "(" ++ m ++ txt ")" in let tok := token calls.+1 1 0 in
  parse_paren calls (A ++ g ++ B) =
  Some (calls.+1, (A ++ tok ++ B, [:: [:: Group (size A) (size A + (size m).+1) 0 g tok g]])).
Proof.
move=> pA pm pB g tok; have Eg : A ++ g ++ B = A ++ ch "(" :: m ++ ch ")" :: B by rewrite /g -!catA.
rewrite /parse_paren {1 2}Eg !mem_cat !inE !mem_cat !inE !eqxx !orbT /=.
have -> : scan 0 0 0 [::] (A ++ g ++ B) = Some (0, 1, [:: (1, size A, Some (size A + (size m).+1))]).
  rewrite Eg scan_plain //= scan_plain //= -[B]cats0 scan_plain //= add0n addSnnS.
  by [].
have sl : slice (size A) (size A + (size m).+1).+1 (A ++ g ++ B) = g.
  rewrite /slice; have -> : (size A + (size m).+1).+1 = size (A ++ g) by rewrite /g !size_cat /= addn1 add1n !addnS.
  by rewrite catA take_size_cat // drop_size_cat.
rewrite /= /level_groups /level_intervals /= sl; congr (Some (_, (_, _))).
case/andP: (plain_noparen pA) => oA _; case/andP: (plain_noparen pB) => oB _.
exact: replace_once.
Qed.

Lemma digits_txt s : only_digits s -> all (fun c => operand c && (c != ch "#")) (txt s).
Proof.
elim: s => [|c s IH] // od; rewrite [all _ _]/= IH; last by move=> d hd; apply: od; rewrite /= hd orbT.
have : digit c <> None by apply: od; rewrite /= eqxx.
by rewrite andbT; case: c {od} => [[] [] [] [] [] [] [] []].
Qed.
Lemma token_shape calls level i : exists t, token calls level i = ch "#" :: t /\ all operand t.
Proof.
have oo s : only_digits s -> all operand (txt s) by move/digits_txt; apply: sub_all => c /andP[].
have tc s t : txt (s +++ t)%string = txt s ++ txt t by elim: s => [|c s IH] //=; rewrite IH.
eexists; rewrite /token tc /=; split; first by [].
by do 3 (rewrite /= ?tc ?all_cat /= oo; last exact: digits_str).
Qed.
Lemma word_nohash w : word w -> ch "#" \notin w.
Proof. by rewrite word_operand => /andP[_ aw]; apply/negP => /(allP aw); rewrite eqxx andbF. Qed.

(* [around] as a chain *)
Fixpoint link (a : seq (text * ascii)) (t : text) (b : seq (ascii * text)) : text * seq (ascii * text) :=
  if a is (w, o) :: a' then let: (v, r) := link a' t b in (w, (o, v) :: r) else (t, b).
Lemma link_show a t b : around a t b = show_chain (link a t b).1 (link a t b).2.
Proof.
rewrite /around; elim: a => [|[w o] a IH] //=.
rewrite /show_chain -catA IH; case: (link a t b) => v r /=.
by rewrite /show_chain /tail /= -cats1 -catA.
Qed.
Lemma link_good j a t b : t != [::] -> all operand t -> good_around j a b ->
  [/\ (link a t b).1 != [::], all operand (link a t b).1, good_tail j (link a t b).2 &
      size (link a t b).2 = size a + size b].
Proof.
move=> t0 at_ /and3P[ga gb _]; elim: a ga => [|[w o] a IH] /=.
  move=> _; split=> //; apply: sub_all gb => p /andP[-> hw] /=.
  by have [_ ->] := word_plain hw; case/andP: hw => ->.
case/andP=> /andP[hw ho] /IH; case: (link a t b) => v r /= [v0 av gr sr].
by have [_ aw] := word_plain hw; split; rewrite ?aw ?ho ?v0 ?av ?gr ?sr //; case/andP: hw.
Qed.
Lemma re_sub_around j a t b : t != [::] -> all operand t -> good_around j a b ->
  re_sub j (around a t b) = if nilp a && nilp b then around a t b else in_parens (around a t b).
Proof.
move=> t0 at_ g; have [w0 aw gt sz] := link_good t0 at_ g.
have -> : (nilp a && nilp b) = nilp (link a t b).2 by rewrite /nilp sz addn_eq0.
rewrite link_show -[X in re_sub _ X]cats0 re_sub_chain //; last first.
  by move=> jI; case/and3P: g => _ _; rewrite jI sz.
rewrite cats0 /paren_chain; case: (link a t b).2 => [|p r]; first by rewrite /show_chain cats0.
by rewrite /in_parens /show_chain [nilp _]/= -cats1.
Qed.
Lemma around_all (P : pred ascii) j a t b : (forall w, word w -> all P w) -> (forall o, op_in j o -> P o) ->
  all P t -> good_around j a b -> all P (around a t b).
Proof.
move=> Pw Po Pt /and3P[ga gb _]; rewrite /around !all_cat Pt /=; apply/andP; split.
  elim: a ga => [|[w o] a IH] //= /andP[/andP[hw ho] /IH h].
  by rewrite -cats1 !all_cat Pw //= Po.
by elim: b gb => [|[o w] b IH] //= /andP[/andP[ho hw] /IH h]; rewrite Po //= all_cat Pw.
Qed.

Local Arguments in_parens : simpl never.
Local Arguments add_paren : simpl never.
Local Arguments token : simpl never.
Lemma slice_parens s : in_parens s = ch "(" :: rcons s (ch ")").
Proof. by rewrite /in_parens /= -cats1. Qed.
Lemma add_paren_in k calls m : all plain m -> add_paren k calls (in_parens m) = Some (calls, in_parens (re_sub k m)).
Proof.
move=> pm; case/andP: (plain_noparen pm) => o c.
by rewrite !slice_parens add_paren_strip (negbTE o) (negbTE c).
Qed.
Lemma add_parens_none order calls s : s != [::] -> all plain s ->
  (forall k, k \in order -> all (fun c => ~~ op_in k c) s) ->
  add_parens order calls s = Some (calls, s) /\
  add_parens order calls (in_parens s) = Some (calls, in_parens s).
Proof.
move=> s0 ps; elim: order => [|k order IH] no //=.
rewrite add_paren_plain // add_paren_in // re_sub_id; last by apply: no; rewrite inE eqxx.
by apply: IH => j hj; apply: no; rewrite inE hj orbT.
Qed.
Lemma add_parens_cat o1 o2 calls s :
  add_parens (o1 ++ o2) calls s = LET r := add_parens o1 calls s IN add_parens o2 r.1 r.2.
Proof. by elim: o1 calls s => [|k o1 IH] calls s //=; case: add_paren => //= r; rewrite IH. Qed.
Lemma add_parens_outer order j calls a t b : uniq order -> j \in order -> t != [::] -> all operand t ->
  good_around j a b -> add_parens order calls (around a t b) =
  Some (calls, if nilp a && nilp b then around a t b else in_parens (around a t b)).
Proof.
move=> u jo t0 at_ g; case/splitPr: jo u => p q u.
have pt : all plain t.
  apply: sub_all at_ => c oc; rewrite /plain !inE.
  by apply/negP => /or3P[]/eqP e; rewrite e in oc.
have ap : all plain (around a t b) by apply: around_all g => // [w /word_plain[]//|o]; exact: op_plain.
have a0 : around a t b != [::].
  by rewrite -size_eq0 /around !size_cat !addn_eq0 !size_eq0 (negbTE t0) /= andbF.
have no k : k \in p ++ q -> all (fun c => ~~ op_in k c) (around a t b).
  move=> hk; apply: around_all g => [w|o|]; first exact: word_noop.
    apply: op_other => e; move: u; rewrite -cat1s uniq_catCA cons_uniq -e hk //.
  by apply: sub_all at_ => c oc; apply/negP => /op_operand; rewrite oc.
have [p1 _] := @add_parens_none p calls _ a0 ap (fun k hk => no k (etrans (mem_cat _ _ _) (introT orP (or_introl hk)))).
have [q1 q2] := @add_parens_none q calls _ a0 ap (fun k hk => no k (etrans (mem_cat _ _ _) (introT orP (or_intror hk)))).
rewrite add_parens_cat p1 /= add_paren_plain //= re_sub_around //.
by case: ifP.
Qed.

Lemma strip_doubleE c m : strip_double (in_parens (c :: m)) =
  if (c == ch "(") && (last c m == ch ")") then c :: m else in_parens (c :: m).
Proof.
rewrite slice_parens /strip_double; have -> : take 2 (ch "(" :: rcons (c :: m) (ch ")")) = [:: ch "("; c].
  by rewrite /= take0.
have -> : drop (size (ch "(" :: rcons (c :: m) (ch ")")) - 2) (ch "(" :: rcons (c :: m) (ch ")")) = [:: last c m; ch ")"].
  have -> : ch "(" :: rcons (c :: m) (ch ")") = (ch "(" :: belast c m) ++ [:: last c m; ch ")"].
    by rewrite {1}(lastI c m) -!cats1 /= -catA.
  by rewrite size_cat addnK drop_size_cat.
have -> : ([:: ch "("; c] == txt "((") = (c == ch "(") by rewrite /= !eqseq_cons eqxx andbT.
have -> : ([:: last c m; ch ")"] == txt "))") = (last c m == ch ")") by rewrite /= !eqseq_cons !andbT.
case: ifP => // _; rewrite /slice [size _]/= size_rcons subSS subn0 [take _ _]/= drop1 /= -cats1.
by rewrite take_size_cat.
Qed.
Lemma word_ends w x : word w -> ~~ operand x -> head (ch "a") w != x /\ last (ch "a") w != x.
Proof.
rewrite word_operand => /andP[w0 aw] no; have h y : y \in w -> y != x.
  by move=> /(allP aw)/andP[oy _]; apply/eqP => e; rewrite e (negbTE no) in oy.
by case: w w0 h {aw} => [|c w] //= _ h; split; apply: h; rewrite ?inE ?eqxx // -in_cons mem_last.
Qed.

Lemma show_ends c : forall k, good_chain k c -> exists x s, [/\ show c = x :: s, operand x & operand (last x s)].
Proof.
case: c => w r k /and3P[/=]; rewrite word_operand => /andP[w0 aw] gr _; case: w w0 aw => // x w _ /= /andP[/andP[ox _] aw].
exists x, (w ++ flatten [seq p.1 :: p.2 | p <- r]); split=> //.
have ow : operand (last x w).
  by have := mem_last x w; rewrite inE => /predU1P[-> //|/(allP aw)/andP[]].
rewrite last_cat; elim: r (last x w) ow gr => [|[o v] r IH] y oy //=; rewrite word_operand => /andP[/andP[_ /andP[v0 av]] gr].
rewrite last_cat; apply: IH gr; case: v v0 av => // z v _ /= /andP[/andP[oz _] av].
by have := mem_last z v; rewrite inE => /predU1P[-> //|/(allP av)/andP[]].
Qed.
Lemma parens_ends k c : good_chain k c -> exists x s, [/\ parens c = x :: s,
  (x == ch "(") = compound c & (last x s == ch ")") = compound c].
Proof.
move=> g; have [x [s [E ox ol]]] := show_ends g; rewrite /parens /compound; case: nilp.
  exists x, s; split=> //; apply/negP => /eqP e; first by rewrite e in ox.
  by rewrite e in ol.
by exists (ch "("), (show c ++ txt ")"); split; rewrite // last_cat eqxx.
Qed.
Lemma strip_wrap k c l : good_sum k c l -> ~~ [&& ~~ nilp l, compound c & compound (last c (unzip2 l))] ->
  strip_double (in_parens (show_sum parens c l)) = wrap c l.
Proof.
case/andP=> gc gl nb; have [x [s [E ex el]]] := parens_ends gc.
rewrite /show_sum E [(x :: s) ++ _]/= strip_doubleE ex.
have -> : (last x (s ++ flatten [seq p.1 :: parens p.2 | p <- l]) == ch ")") = compound (last c (unzip2 l)).
  rewrite last_cat; move: (last x s) el => y; elim: l c gc gl {nb E ex} y => [|[o d] l IH] c gc //=.
  case/andP=> /andP[_ gd] gl y _; have [x' [s' [E' _ el']]] := parens_ends gd.
  by rewrite last_cat E' /=; apply: IH.
rewrite /wrap -[x :: _]/((x :: s) ++ _) -E /=.
case: l nb {gl} => [|p l] /=; last by move=> /negbTE ->.
by rewrite /show_sum cats0 /parens /compound andbb; case: nilp.
Qed.
(* one sum in parentheses, of the lowest class, as a factor in a chain of any class *)
Theorem C45_group_partial pre k j calls a b c l :
  uniq (rcons pre k) -> j \in rcons pre k -> good_around j a b -> good_sum k c l ->
  ~~ [&& ~~ nilp l, compound c & compound (last c (unzip2 l))] ->
  exists calls', parse_line (rcons pre k) calls (around a (in_parens (show_sum show c l)) b) =
    Some (calls', if nilp a && nilp b then wrap c l else in_parens (around a (wrap c l) b)).
Proof.
move=> u jo ga g nb; have ps : all plain (show_sum show c l).
  apply: show_sum_all g => [w /word_plain[]|o|o] //; first exact: op_plain.
  by case/orP=> /eqP ->.
have s0 : show_sum show c l != [::].
  by case/andP: g => /and3P[/andP[w0 _] _ _] _; rewrite /show_sum /show; case: (c_first c) w0.
have [tok [Et at_]] := token_shape calls.+1 1 0.
have atok : all operand (token calls.+1 1 0) by rewrite Et /= at_.
have pg : all plain (around a [::] b) by apply: around_all ga => // [w /word_plain[]//|o]; exact: op_plain.
have hg : ch "#" \notin around a [::] b.
  apply/negP => hin; have : all (fun c => c != ch "#") (around a [::] b).
    apply: around_all ga => // [w /word_nohash hw|o].
      by apply/allP => z hz; apply: contraNneq hw => <-.
    by case: (j) => /=; [case/or3P=> /eqP ->|move/eqP => ->|move/eqP => ->].
  by move/allP/(_ _ hin); rewrite eqxx.
move: pg hg; rewrite /around cat0s all_cat mem_cat negb_or => /andP[pA pB] /andP[hA hB].
set A := flatten _ in pA hA *; set B := flatten _ in pB hB *.
rewrite /parse_line; have -> : [seq x <- A ++ in_parens (show_sum show c l) ++ B | x != ch " "] = A ++ in_parens (show_sum show c l) ++ B.
  apply/all_filterP; have pl s : all plain s -> all (fun x => x != ch " ") s.
    by apply: sub_all => x; rewrite /plain !inE negb_or => /andP[].
  by rewrite /in_parens all_cat (pl _ pA) all_cat (pl _ pB) all_cat all_cat (pl _ ps).
rewrite [parse_paren _ _]parse_paren_one //; move: (token calls.+1 1 0) Et atok => T Et atok.
rewrite [LET p := Some _ IN _]/=.
have -> : add_parens (rcons pre k) calls.+1 (A ++ T ++ B) =
  Some (calls.+1, if nilp a && nilp b then A ++ T ++ B else in_parens (A ++ T ++ B)).
  by apply: add_parens_outer u jo _ atok ga; rewrite Et.
have Eg : add_parens (rcons pre k) calls.+1 (txt "(" ++ show_sum show c l ++ txt ")") = Some (calls.+1, in_parens (show_sum parens c l)).
  rewrite -cats1 add_parens_cat; have [|_ h2] := @add_parens_none pre calls.+1 _ s0 ps.
    move=> i hi; apply: show_sum_all g => [w|o|o]; [exact: word_noop| |by case/orP=> /eqP ->; case: (i)].
    by apply: op_other => e; move: u; rewrite rcons_uniq -e hi.
  by rewrite [add_parens pre _ _]h2 /= add_paren_in //= re_sub_sum.
exists calls.+1; rewrite [LET r := _ IN _]/=; rewrite [txt _ ++ _]/= in Eg; rewrite Eg /=; congr (Some (_, _)).
rewrite /unparse_paren /= (strip_wrap g nb) Et.
have R p s : ch "#" \notin p -> ch "#" \notin s -> replace (ch "#" :: tok) (wrap c l) (p ++ (ch "#" :: tok) ++ s) = p ++ wrap c l ++ s by exact: replace_once.
case: ifP => [/andP[/nilP a0 /nilP b0]|_].
  by rewrite [LHS](R A B) // /A /B a0 b0 cats0.
have -> : in_parens (A ++ (ch "#" :: tok) ++ B) = (txt "(" ++ A) ++ (ch "#" :: tok) ++ (B ++ txt ")") by rewrite /in_parens -!catA.
rewrite [LHS](R (txt "(" ++ A) (B ++ txt ")")) ?inE //; last by rewrite mem_cat (negbTE hB).
by rewrite /in_parens -!catA.
Qed.

(* ---- findings ---- *)
(* a sum that begins and ends with an outer product, like a^b + c^d, raises ValueError,
   whatever the names: the outer parentheses (a^b)+(c^d) are taken for a pair *)
Theorem C45_ends_refuted calls c l d : good_sum Outer c (rcons l d) ->
  c_rest c <> [::] -> c_rest d.2 <> [::] ->
  parse_line default_order calls (show_sum show c (rcons l d)) = None.
Proof.
move=> g nc nd; have ap : all plain (show_sum show c (rcons l d)).
  apply: show_sum_all g => [w /word_plain[]|o|o] //; first exact: op_plain.
  by case/orP=> /eqP ->.
have s0 : show_sum show c (rcons l d) != [::].
  by case/andP: g => /and3P[/andP[w0 _] _ _] _; rewrite /show_sum /show; case: (c_first c) w0.
rewrite /parse_line; have -> : [seq x <- show_sum show c (rcons l d) | x != ch " "] = show_sum show c (rcons l d).
  by apply/all_filterP; apply: sub_all ap => x; rewrite /plain !inE negb_or => /andP[].
have no : ch "(" \notin show_sum show c (rcons l d) by apply/negP => /(allP ap).
rewrite /parse_paren no /= add_paren_plain //= re_sub_id; last first.
  apply: show_sum_all g => [w|o|o]; [exact: word_noop|exact: op_other|].
  by case/orP=> /eqP ->.
rewrite add_paren_plain //= re_sub_sum //.
have pc : all plain (show c).
  by apply: show_all (proj1 (andP g)) => [w /word_plain[]|o] //; exact: op_plain.
have [m Em] : exists m, show_sum parens c (rcons l d) = ch "(" :: rcons (show c ++ ch ")" :: m) (ch ")") /\ ch "(" \in m.
  exists (flatten [seq p.1 :: parens p.2 | p <- l] ++ d.1 :: ch "(" :: show d.2).
  rewrite /show_sum {1}/parens; case: (c_rest c) nc => // _ _ _ /=; split.
    rewrite map_rcons flatten_rcons /= -!catA /=; congr (_ :: _); rewrite rcons_cat /= rcons_cat /=.
    rewrite /parens; case: (c_rest d.2) nd => // _ _ _ /=; by rewrite -?cats1 -?catA /= -?catA.
  by rewrite mem_cat !inE eqxx !orbT.
case: Em => -> hm; rewrite add_paren_strip !mem_cat !inE hm eqxx !orbT /parse_paren !mem_cat !inE hm eqxx !orbT /=.
by rewrite scan_close.
Qed.
(* the parentheses of a sum in which the first and the last term get parentheses are
   dropped: the sum is torn apart *)
Theorem C45_nested_sum_refuted :
  ga_eval default_order 0 "e*(a*b+c*d)" = Some "(e*(a*b)+(c*d))"%string.
Proof. by vm_compute. Qed.
(* two inner products in a row: the second one is evaluated after the geometric product,
   although its precedence is higher *)
Theorem C45_inner_chain_refuted :
  ga_eval default_order 0 "x*a|b|c" = Some "(x*(a|b))|c"%string.
Proof. by vm_compute. Qed.
(* four operands of inner products are grouped two by two, not from the left *)
Theorem C45_left_assoc_refuted :
  ga_eval [:: Inner] 0 "a|b|c|d" = Some "(a|b)|(c|d)"%string /\ ga_eval [:: Inner] 0 "a|b|c" = Some "(a|b)|c"%string.
Proof. by split; vm_compute. Qed.

(* ---- examples ---- *)
Example C45_ex_documentation : ga_eval default_order 0 "X|Y^Z*W" = Some "(((X|Y)^Z)*W)"%string /\
  def_prec "<>|,^,*" = Some default_order.
Proof. by split; vm_compute. Qed.
Example C45_ex_sum : exists c l, [/\ good_sum Geom c l, Geom \notin [:: Inner; Outer],
  show_sum show c l = txt "a*b*c-x+u1*v_2" & show_sum parens c l = txt "(a*b*c)-x+(u1*v_2)"].
Proof.
exists (Chain (txt "a") [:: (ch "*", txt "b"); (ch "*", txt "c")]),
  [:: (ch "-", Chain (txt "x") [::]); (ch "+", Chain (txt "u1") [:: (ch "*", txt "v_2")])].
by split; vm_compute.
Qed.
Example C45_ex_ends : exists c d, [/\ good_sum Outer c (rcons [::] d), c_rest c <> [::], c_rest d.2 <> [::] &
  show_sum show c (rcons [::] d) = txt "a^b+c^d"].
Proof.
by exists (Chain (txt "a") [:: (ch "^", txt "b")]), (ch "+", Chain (txt "c") [:: (ch "^", txt "d")]); split.
Qed.
Example C45_ex_group : exists c l, [/\ good_sum Geom c l,
  good_around Outer [:: (txt "x", ch "^")] [:: (ch "^", txt "z")],
  ~~ [&& ~~ nilp l, compound c & compound (last c (unzip2 l))],
  around [:: (txt "x", ch "^")] (in_parens (show_sum show c l)) [:: (ch "^", txt "z")] = txt "x^(a*b+c)^z" &
  in_parens (around [:: (txt "x", ch "^")] (wrap c l) [:: (ch "^", txt "z")]) = txt "(x^((a*b)+c)^z)"].
Proof.
exists (Chain (txt "a") [:: (ch "*", txt "b")]), [:: (ch "+", Chain (txt "c") [::])].
by split; vm_compute.
Qed.
Example C45_ex_mismatched : ~~ balanced 0 (txt "a)*(b") && ~~ balanced 0 (txt "((a)").
Proof. by vm_compute. Qed.
Print Assumptions C45_spaces.
Print Assumptions C45_mismatched.
Print Assumptions C45_def_prec.
Print Assumptions C45_lowest_class_partial.
Print Assumptions C45_group_partial.
Print Assumptions C45_ends_refuted.
Print Assumptions C45_nested_sum_refuted.
Print Assumptions C45_inner_chain_refuted.
Print Assumptions C45_left_assoc_refuted.
