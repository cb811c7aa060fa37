(* Props_Format.v -- property C58: printed multivectors show every term, once, in the order
   of the blades; Fmt only changes the line breaks.

   [mv_text prt a fmt args] is str(A) with A.Fmt(fmt), [mv_latex lco lba isadd a fmt args] its
   LaTeX, for a multivector whose expanded expression is the sum of [args]; how sympy writes
   a single coefficient or symbol is a parameter.  None is an exception. *)
From Coq Require Import String Ascii.
From mathcomp Require Import all_ssreflect all_algebra.
From Verif Require Import PyBase PyStr Ga_Model Ga_Proof_Tables Ga_Proof_Rep Parser_Model Format_Model Spec_Format Format_Proof.
Set Implicit Arguments.
Unset Strict Implicit.
Unset Printing Implicit Defensive.
Import GRing.Theory.
Local Open Scope ring_scope.
Local Notation ch c := (c%char : ascii).

Section Keys.
Variable R : comUnitRingType.
Variable a : ga R.
Implicit Type args : expr R.
(* the arguments are terms with blades, or with bases (products of basis vectors) in a
   non-orthogonal algebra *)
Definition in_blades args : bool := all (fun t : R * word => t.2 \in blades_flat (ga_n a)) args.
Definition in_bases args : bool := all (fun t : R * word => t.2 \in bases_flat (ga_n a)) args.
Definition well_formed args : bool := in_blades args || (~~ is_ortho a && in_bases args).
Definition flat args : seq word := if in_blades args then blades_flat (ga_n a) else bases_flat (ga_n a).

Lemma flat_map (f : seq nat -> word) : injective f -> f [::] = [::] -> (forall I, (size (f I) <= 1)%N) ->
  let ks := [seq f I | I <- indexes_flat (ga_n a)] in
  [/\ uniq ks, ohead ks = Some [::] & all (fun w : word => size w <= 1)%N ks].
Proof.
move=> inj f0 f1 ks; split.
- by rewrite map_inj_uniq ?indexes_flat_uniq.
- by rewrite /ks /indexes_flat /indexes /=; case: (iota 0 (ga_n a)) => /= *; rewrite f0.
- by apply/allP => _ /mapP[I _ ->].
Qed.
Lemma mk_blade_inj : injective mk_blade.
Proof. by case=> [|i I] [|j J] //= [-> ->]. Qed.
Lemma mk_base_inj : injective mk_base.
Proof. by case=> [|i [|i' I]] [|j [|j' J]] //=; [case=> ->|case=> -> -> ->]. Qed.
Lemma flatP args : let ks := flat args in
  [/\ uniq ks, ohead ks = Some [::] & all (fun w : word => size w <= 1)%N ks].
Proof.
rewrite /flat; case: ifP => _; rewrite ?blades_flatE.
  by apply: flat_map => // [|[|i I]] //; exact: mk_blade_inj.
by apply: flat_map => // [|[|i [|j I]]] //; exact: mk_base_inj.
Qed.
Lemma flat_in args : well_formed args -> all (fun t : R * word => t.2 \in flat args) args.
Proof. by rewrite /well_formed /flat; case: ifP => //= _ /andP[]. Qed.
Lemma first_sym_flat args (t : R * word) : t.2 \in flat args -> first_sym t.2 = t.2.
Proof. by have [_ _ /allP h] := flatP args; move/h; case: t.2 => [|s []]. Qed.
Lemma flat_keys args : well_formed args -> base_keys a args = flat args.
Proof.
move=> w; have := flat_in w; rewrite /base_keys /flat.
have -> : all (fun t : R * word => first_sym t.2 \in blades_flat (ga_n a)) args = in_blades args.
  by apply: eq_in_all => t tin /=; rewrite (@first_sym_flat args) // (allP (flat_in w)).
by case: ifP => //= ib _; move: w; rewrite /well_formed ib /= => /andP[/negbTE ->].
Qed.
Lemma flat_grade args i : (i < size (flat args))%N ->
  nth 0%N (flat_grades (ga_n a)) i = grade_of (nth [::] (flat args) i).
Proof.
rewrite /flat /flat_grades; case: ifP => _; rewrite ?blades_flatE size_map => h.
  by rewrite !(nth_map [::]) //; case: (nth _ _ i).
by rewrite !(nth_map [::]) //; case: (nth _ _ i) => [|? []].
Qed.
(* the collected terms are the terms to be shown *)
Lemma collected args : well_formed args ->
  [seq e.2 | e <- sorted_terms a args] = [seq (p.1, p.2, grade_of p.2) | p <- shown (flat args) args].
Proof.
move=> w; have [u k0 k1] := flatP args; have ka := flat_in w.
rewrite (sorted_termsE k0 k1 (flat_keys w) ka) /shown -!map_comp.
set ks := flat args in u k0 k1 ka *.
have ix (t : R * word) i : t \in args -> (i < size ks)%N -> (index t.2 ks == i) = (t.2 == nth [::] ks i).
  by move=> tin hi; have kt := allP ka _ tin; apply/eqP/eqP => [<-|->]; rewrite ?nth_index // index_uniq.
have tot i : (i < size ks)%N -> total ks args i = coefficient args (nth [::] ks i).
  move=> hi; rewrite /total /coefficient big_seq_cond [RHS]big_seq_cond; apply: eq_bigl => t.
  by case tin: (t \in args) => //=; rewrite ix.
rewrite -[in RHS](mkseq_nth [::] ks) /mkseq filter_map -map_comp.
have -> : [seq i <- iota 0 (size ks) | shown_at ks args i] =
  [seq i <- iota 0 (size ks) | preim (nth [::] ks) (fun b : word => if nilp b then coefficient args b != 0 else b \in [seq t.2 | t <- args]) i].
  apply: eq_in_filter => i; rewrite mem_iota /= add0n => hi.
  case: i hi => [|i] hi /=; first by rewrite tot //; case: (ks) k0 => //= k l [->].
  have nn : ~~ nilp (nth [::] ks i.+1).
    apply/negP => /nilP e; have : nth [::] ks i.+1 == nth [::] ks 0 by rewrite e; case: (ks) k0 => //= k l [->].
    by rewrite nth_uniq // (leq_ltn_trans _ hi).
  rewrite (negbTE nn); apply/hasP/mapP => -[t tin].
    by rewrite ix // => /andP[_ /eqP e]; exists t.
  by move=> e; exists t => //; rewrite ix // -e nn eqxx.
apply/eq_in_map => i; rewrite mem_filter mem_iota /= add0n => /andP[_ hi].
by rewrite /value tot // (@flat_grade args).
Qed.
End Keys.

(* ---- lists of texts ---- *)
Lemma lines_one u : eol \notin u -> lines u = [:: u].
Proof. by elim: u => [|c u IH] //=; rewrite inE negb_or eq_sym => /andP[/negbTE -> /IH ->]. Qed.
Lemma lines_cat u v : eol \notin u -> lines (u ++ eol :: v) = u :: lines v.
Proof. by elim: u => [|c u IH] //=; rewrite inE negb_or eq_sym => /andP[/negbTE -> /IH ->]. Qed.
Lemma by_grade_same u t g (l : seq (text * nat)) : by_grade ((u, g) :: (t, g) :: l) = by_grade ((u ++ t, g) :: l).
Proof.
rewrite /by_grade /= inE eqxx /=; apply: eq_map => h /=.
by case: eqP => //= _; rewrite catA.
Qed.
Lemma by_grade_next u g (l : seq (text * nat)) : all (fun p => g < p.2)%N l -> l != [::] ->
  by_grade ((u, g) :: l) = u :: by_grade l.
Proof.
move=> al _; rewrite /by_grade /=.
have ng : g \notin [seq p.2 | p <- l] by apply/mapP => -[p /(allP al)] h e; rewrite e ltnn in h.
rewrite (negbTE ng) /= eqxx /=; congr (_ :: _).
  have -> : [seq p <- l | p.2 == g] = [::]; last by rewrite /= cats0.
  by apply/eqP; rewrite -(negbK (_ == _)) -has_filter; apply/hasPn => p /(allP al); rewrite neq_ltn => ->; rewrite orbT.
apply/eq_in_map => h; rewrite mem_undup => hin.
by case: eqP => // e; rewrite e hin in ng.
Qed.
Lemma by_grade_some p (l : seq (text * nat)) : by_grade (p :: l) != [::].
Proof.
by rewrite -size_eq0 size_map -lt0n -has_predT; apply/hasP; exists p.2; rewrite // mem_undup inE eqxx.
Qed.
(* texts with grades in ascending order, a line break before each new grade *)
Fixpoint breaks (old : nat) (l : seq (text * nat)) : text :=
  if l is (t, g) :: l' then (if old != g then [:: eol] else [::]) ++ t ++ breaks g l' else [::].
Lemma breaksP u g (l : seq (text * nat)) : eol \notin u -> all (fun p => eol \notin p.1) l ->
  path leq g [seq p.2 | p <- l] -> lines (u ++ breaks g l) = by_grade ((u, g) :: l).
Proof.
elim: l u g => [|[t h] l IH] u g nu /=; first by move=> _ _; rewrite cats0 lines_one // /by_grade /= eqxx /= cats0.
case/andP=> nt al /andP[gh pl]; case: (eqVneq g h) => [->|gnh] /=.
  by rewrite catA IH ?by_grade_same // ?mem_cat ?negb_or ?nu.
rewrite lines_cat // IH // [RHS]by_grade_next //=.
have lt : (g < h)%N by rewrite ltn_neqAle gnh.
rewrite lt /=; apply/allP => p pin; have := order_path_min leq_trans pl => /allP/(_ p.2).
by rewrite map_f // => /(_ isT); apply: leq_trans.
Qed.
Lemma eol_newline : newline = eol. Proof. by []. Qed.

Section Text.
Variable R : comUnitRingType.
Variable a : ga R.
Variable prt : R -> word -> text.
(* sympy never writes nothing, and no line break *)
Hypothesis prt_some : forall c b, prt c b != [::].
Hypothesis prt_line : forall c b, eol \notin prt c b.
Implicit Type args : expr R.
Local Notation txt_of := (fun p : R * word => prt p.1 p.2).

Lemma signE t : t != [::] -> sign_term t = Some (further t).
Proof. by case: t => // c t _; rewrite /sign_term /further /=; case: eqP => [->|h] //; case: eqP => // -[]. Qed.
Lemma further_line t : eol \notin t -> eol \notin further t.
Proof.
rewrite /further => n; case: ifP => _; rewrite mem_cat negb_or //=.
by apply: contra n; exact: mem_behead.
Qed.
Lemma text_loop1 fmt s old (ts : seq (entry R)) (l : seq (R * word)) : ~~ fmt_is fmt 2 -> ~~ fmt_is fmt 3 ->
  [seq e.2 | e <- ts] = [seq (p.1, p.2, grade_of p.2) | p <- l] ->
  text_loop prt fmt s old ts = Some (s ++ flatten [seq further (txt_of p) | p <- l]).
Proof.
move=> /negbTE f2 /negbTE f3; elim: ts l s old => [|[i [[c b] g]] ts IH] [|[c' b'] l] // s old; first by rewrite /= cats0.
by case=> -> -> _ /IH h; rewrite /= f2 f3 signE //= h catA.
Qed.
Lemma text_loop3 s old (ts : seq (entry R)) (l : seq (R * word)) :
  [seq e.2 | e <- ts] = [seq (p.1, p.2, grade_of p.2) | p <- l] ->
  text_loop prt (FInt 3) s old ts = Some (s ++ flatten [seq rcons (further (txt_of p)) newline | p <- l]).
Proof.
elim: ts l s old => [|[i [[c b] g]] ts IH] [|[c' b'] l] // s old; first by rewrite /= cats0.
by case=> -> -> _ /IH h; rewrite /= signE //= h catA.
Qed.
Lemma text_loop2 s old (ts : seq (entry R)) (l : seq (R * word)) :
  [seq e.2 | e <- ts] = [seq (p.1, p.2, grade_of p.2) | p <- l] ->
  text_loop prt (FInt 2) s old ts = Some (s ++ breaks old [seq (further (txt_of p), grade_of p.2) | p <- l]).
Proof.
elim: ts l s old => [|[i [[c b] g]] ts IH] [|[c' b'] l] // s old; first by rewrite /= cats0.
case=> -> -> -> /IH h; rewrite /= signE //= h; case: (eqVneq old (grade_of b')) => [->|_] /=; first by rewrite -catA.
by rewrite -cats1 -!catA.
Qed.
Lemma shown_grades args : well_formed a args -> sorted leq [seq grade_of p.2 | p <- shown (flat a args) args].
Proof.
move=> _; rewrite /shown -map_comp.
have s : sorted leq [seq grade_of b | b <- flat a args].
  have gE f : (forall I, grade_of (f I) = size I) -> sorted leq [seq grade_of b | b <- [seq f I | I <- indexes_flat (ga_n a)]].
    move=> fE; rewrite -map_comp sorted_map; apply: pairwise_sorted.
    by apply: sub_pairwise (indexes_flat_pairwise (ga_n a)) => I J; rewrite /= !fE.
  by rewrite /flat; case: ifP => _; rewrite ?blades_flatE; apply: gE; case=> [|i [|j I]].
rewrite !sorted_map in s *; apply: sorted_filter s; by move=> y x z; exact: leq_trans.
Qed.

(* a sum with a term that is not a scalar *)
Definition proper_sum args : bool := (1 < size args)%N && has (fun t : R * word => ~~ nilp t.2) args.
Lemma proper_shown args : well_formed a args -> proper_sum args -> exists p l, shown (flat a args) args = p :: l.
Proof.
move=> w /andP[_ /hasP[t tin t0]]; have: (coefficient args t.2, t.2) \in shown (flat a args) args.
  by apply: map_f; rewrite mem_filter (negbTE t0) map_f // (allP (flat_in w)).
by case: shown => // p l _; exists p, l.
Qed.
Lemma mv_textE fmt args : well_formed a args -> proper_sum args -> exists p l ts,
  [/\ shown (flat a args) args = p :: l, [seq e.2 | e <- ts] = [seq (q.1, q.2, grade_of q.2) | q <- l] &
  mv_text prt a fmt args =
    let s := if fmt_is fmt 3 then ch " " :: rcons (txt_of p) newline else if fmt_is fmt 2 then ch " " :: txt_of p else txt_of p in
    LET s := text_loop prt fmt s (grade_of p.2) ts IN
    if s is x :: s' then Some (if last x s' == newline then belast x s' else s) else None].
Proof.
move=> w ps; have [p [l E]] := proper_shown w ps; have := collected w; rewrite E.
rewrite /mv_text; case/andP: ps => s1 /hasP[t tin t0].
have -> : all (fun t : R * word => nilp t.2) args = false by apply/allP => /(_ t tin); rewrite (negbTE t0).
case: args s1 w E t tin t0 => [|x [|y args]] // _ w E _ _ _.
case: (sorted_terms a _) => [|[i [[c b] g]] ts] //= [-> -> -> h].
by exists p, l, ts.
Qed.
Lemma last_eol (s : text) : s != [::] -> last eol s != eol ->
  (if s is x :: s' then Some (if last x s' == newline then belast x s' else s) else None) = Some s.
Proof. by case: s => //= x s _ /negbTE ->. Qed.
Lemma line_last s : s != [::] -> eol \notin s -> last eol s != eol.
Proof. by case: s => // x s _ n; apply: contraNneq n => /= <-; exact: mem_last. Qed.
Lemma further0 t : further t != [::]. Proof. by rewrite /further; case: ifP. Qed.
Lemma last_flat s (ls : seq text) : s != [::] -> eol \notin s -> all (fun t => (t != [::]) && (eol \notin t)) ls ->
  s ++ flatten ls != [::] /\ last eol (s ++ flatten ls) != eol.
Proof.
move=> s0 ns; elim/last_ind: ls => [|ls t IH] al.
  by rewrite /= cats0; split=> //; exact: line_last.
move: al; rewrite all_rcons flatten_rcons catA => /andP[/andP[t0 nt] _].
by case: t t0 nt => // x t _ nt; split; [case: (s ++ _)|rewrite last_cat; apply: (@line_last (x :: t))].
Qed.

(* one line: the terms in the order of the blades, with their signs; any format but 2 and 3 *)
Theorem C58_text fmt args : well_formed a args -> proper_sum args -> fmt <> FInt 2 -> fmt <> FInt 3 ->
  mv_text prt a fmt args = Some (flatten (as_sum further [seq txt_of p | p <- shown (flat a args) args])).
Proof.
move=> w ps f2 f3; have n2 : ~~ fmt_is fmt 2 by case: fmt f2 {f3} => // k h; apply/eqP => e; apply: h; rewrite e.
have n3 : ~~ fmt_is fmt 3 by case: fmt f3 {f2 n2} => // k h; apply/eqP => e; apply: h; rewrite e.
have [p [l [ts [-> h ->]]]] := mv_textE fmt w ps.
rewrite (negbTE n2) (negbTE n3) /= (text_loop1 _ _ n2 n3 h) /=.
have [|||] := @last_flat (txt_of p) [seq further (txt_of p) | p <- l]; rewrite ?prt_some ?prt_line //.
  by apply/allP => _ /mapP[q _ ->]; rewrite further0 further_line.
by move=> c0 cl; rewrite [LHS]last_eol // -map_comp.
Qed.
Lemma lines_rcons x (r : seq text) : eol \notin x -> all (fun t => eol \notin t) r ->
  exists2 u, flatten [seq rcons y eol | y <- x :: r] = rcons u eol & lines u = x :: r.
Proof.
elim: r x => [|y r IH] x nx /=; first by move=> _; exists x; rewrite ?cats0 // lines_one.
case/andP=> ny /(IH y ny)[u E Eu]; exists (x ++ eol :: u); last by rewrite lines_cat // Eu.
by rewrite -[rcons y eol ++ _]/(flatten [seq rcons y eol | y <- y :: r]) E -cats1 -catA /= -rcons_cons rcons_cat.
Qed.
Lemma strip_eol u : (if rcons u eol is x :: s' then Some (if last x s' == newline then belast x s' else rcons u eol) else None) = Some u.
Proof. by case: u => [|x u] //=; rewrite last_rcons eqxx belast_rcons. Qed.
(* the first text of a list gets a leading space *)
Definition indented (l : seq text) : seq text := if l is t :: l' then (ch " " :: t) :: l' else [::].
(* format 3: one line for each term *)
Theorem C58_text_bases args : well_formed a args -> proper_sum args ->
  exists2 s, mv_text prt a (FInt 3) args = Some s &
    lines s = indented (as_sum further [seq txt_of p | p <- shown (flat a args) args]).
Proof.
move=> w ps; have [p [l [ts [-> h ->]]]] := mv_textE (FInt 3) w ps.
rewrite [fmt_is _ _]/= /= (text_loop3 _ _ h) /= {h}.
have [||u E Eu] := @lines_rcons (ch " " :: txt_of p) [seq further (txt_of p) | p <- l].
- by rewrite inE negb_or prt_line.
- by apply/allP => _ /mapP[q _ ->]; exact: further_line.
exists u; last by rewrite Eu -map_comp.
move: E; rewrite /= -map_comp => E; rewrite -[ch " " :: _ ++ _]/((ch " " :: rcons (prt p.1 p.2) eol) ++ _) -[RHS]strip_eol -E.
by [].
Qed.
(* format 2: one line for each grade, in ascending order, with the terms of that grade *)
Theorem C58_text_grades args : well_formed a args -> proper_sum args ->
  exists2 s, mv_text prt a (FInt 2) args = Some s &
    lines s = by_grade (zip (indented (as_sum further [seq txt_of p | p <- shown (flat a args) args]))
                            [seq grade_of p.2 | p <- shown (flat a args) args]).
Proof.
move=> w ps; have sg := shown_grades w; have [p [l [ts [E h ->]]]] := mv_textE (FInt 2) w ps.
rewrite E in sg *; rewrite /= in sg; rewrite [fmt_is _ _]/= /= (text_loop2 _ _ h) /= {h}.
set L := [seq (further (txt_of p), grade_of p.2) | p <- l].
have aL : all (fun p => eol \notin p.1) L by apply/allP => _ /mapP[q _ ->]; exact: further_line.
have np : eol \notin ch " " :: prt p.1 p.2 by rewrite inE negb_or prt_line.
have Ll : lines ((ch " " :: prt p.1 p.2) ++ breaks (grade_of p.2) L) = by_grade ((ch " " :: prt p.1 p.2, grade_of p.2) :: L).
  by apply: breaksP => //; rewrite /L -map_comp.
exists ((ch " " :: prt p.1 p.2) ++ breaks (grade_of p.2) L); last first.
  by rewrite Ll; congr (by_grade (_ :: _)); rewrite -map_comp /L; elim: (l) => //= q r ->.
apply: (@last_eol ((ch " " :: prt p.1 p.2) ++ breaks (grade_of p.2) L)) => //.
have lb g (K : seq (text * nat)) u : u != [::] -> last eol u != eol -> all (fun p => (p.1 != [::]) && (eol \notin p.1)) K ->
  last eol (u ++ breaks g K) != eol.
  elim: K g u => [|[t k] K IH] g u u0 lu; first by rewrite /= cats0.
  case/andP=> /andP[/= t0 nt] aK; rewrite /= catA catA.
  have t1 : last eol ((u ++ (if g != k then [:: eol] else [::])) ++ t) != eol.
    by case: t t0 nt => // x t _ nt; rewrite last_cat; apply: (@line_last (x :: t)).
  by apply: IH => //; case: (u) u0.
apply: (lb _ L (ch " " :: prt p.1 p.2)) => //; first exact: (@line_last (ch " " :: prt p.1 p.2)).
by apply/allP => q qL; rewrite (allP aL _ qL) andbT; case/mapP: qL => r _ -> /=; exact: further0.
Qed.
(* a scalar is its own text, a single term as well *)
Theorem C58_text_single fmt args : well_formed a args -> ~~ proper_sum args ->
  mv_text prt a fmt args = Some (if args is [:: t] then prt t.1 t.2 else prt (coefficient args [::]) [::]).
Proof.
move=> w np; rewrite /mv_text; case: ifP => [al|/negbT].
  have E : foldl (fun s (t : R * word) => s + t.1) 0 args = coefficient args [::].
    have fs (l : expr R) c : foldl (fun s (t : R * word) => s + t.1) c l = c + \sum_(t <- l) t.1.
      elim: l c => [|t r IH] c /=; first by rewrite big_nil addr0.
      by rewrite IH big_cons addrA.
    rewrite fs add0r /coefficient [RHS]big_mkcond /= big_seq [RHS]big_seq; apply: eq_bigr => t /(allP al)/nilP ->.
    by rewrite eqxx.
  rewrite E; case: args al E {w np} => [|[c b] [|u r]] //= /andP[/nilP -> _] _.
  by rewrite /coefficient big_cons big_nil eqxx /= addr0.
rewrite -has_predC => hs; case: args w np hs => [|t [|u r]] // _ np hs.
by case/negP: np; rewrite /proper_sum.
Qed.
(* the order in which sympy lists the terms does not matter *)
Theorem C58_text_order fmt args args' : well_formed a args -> proper_sum args -> perm_eq args args' ->
  mv_text prt a fmt args' = mv_text prt a fmt args.
Proof.
move=> w ps pe; have fE : flat a args' = flat a args by rewrite /flat /in_blades (perm_all _ pe).
have w' : well_formed a args' by move: w; rewrite /well_formed /in_blades /in_bases !(perm_all _ pe).
have ps' : proper_sum args' by move: ps; rewrite /proper_sum (perm_size pe) (perm_has _ pe).
have sE : shown (flat a args') args' = shown (flat a args) args.
  have cE b : coefficient args' b = coefficient args b by rewrite /coefficient (perm_big _ pe).
  rewrite fE /shown; have -> : [seq b <- flat a args | if nilp b then coefficient args' b != 0 else b \in [seq t.2 | t <- args']] =
    [seq b <- flat a args | if nilp b then coefficient args b != 0 else b \in [seq t.2 | t <- args]].
    by apply: eq_filter => b; rewrite cE (perm_mem (perm_map _ pe)).
  by apply: eq_map => b; rewrite cE.
have [p [l [ts [E h ->]]]] := mv_textE fmt w ps; have [p' [l' [ts' [E' h' ->]]]] := mv_textE fmt w' ps'.
move: E'; rewrite sE E => -[<- ll]; rewrite -{}ll in h' *.
have tl s o : text_loop prt fmt s o ts' = text_loop prt fmt s o ts.
  rewrite -h in h'; elim: ts ts' h' s o {h} => [|[i x] ts IH] [|[i' x'] ts'] //= [<- h'] s o.
  by case: x' => -[c b] g; case: sign_term => //= t; rewrite IH.
by rewrite /= tl.
Qed.
End Text.

(* ---- LaTeX ---- *)
Section Latex.
Variable R : comUnitRingType.
Variable a : ga R.
Variables (lco : R -> text) (lba : word -> text) (isadd : R -> bool).
Implicit Type args : expr R.
(* a term: the coefficients 1 and -1 are not written before a symbol, sums are in parentheses *)
Definition latex_term (p : R * word) : text :=
  let c := if nilp p.2 then lco p.1 else if lco p.1 == str "1" then [::]
           else if lco p.1 == str "-1" then str "-" else lco p.1 in
  let b := if nilp p.2 then [::] else lba p.2 in
  if isadd p.1 then str "\left ( " ++ c ++ str "\right ) " ++ b else c ++ str " " ++ b.
(* something other than white space is written for every term *)
Hypothesis latex_some : forall p, trim (latex_term p) != [::].

Lemma cb_strE c b : cb_str lco lba isadd c b = latex_term (c, b).
Proof.
rewrite /cb_str /latex_term /=; case: (nilp b) => /=; rewrite ?andbF //= !andbT.
by case: (eqVneq (lco c) (txt "1")) => //= e; rewrite e.
Qed.
Lemma cut_lstrip s : lstrip_text s = drop (find (fun c => ~~ is_space c) s) s.
Proof. by elim: s => [|c s IH] //=; case: is_space. Qed.
Lemma strip_trim s : strip_text s = trim s.
Proof. by rewrite /strip_text /trim !cut_lstrip. Qed.
Lemma append_first p : append_plus true (cb_str lco lba isadd p.1 p.2) = Some (latex_term p).
Proof. by rewrite cb_strE; case: p. Qed.
Lemma append_further p : append_plus false (cb_str lco lba isadd p.1 p.2) = Some (further_latex (latex_term p)).
Proof.
rewrite cb_strE /append_plus strip_trim /further_latex; have := latex_some p.
case: p => c b /=; case: (trim _) => //= x s _.
Qed.
Local Arguments append_plus : simpl never.
Local Arguments cb_str : simpl never.
Notation pieces l := [seq further_latex (latex_term p) | p <- l].
Lemma loop1 fmt lines s old (ts : seq (entry R)) (l : seq (R * word)) : ~~ fmt_is fmt 2 -> ~~ fmt_is fmt 3 ->
  [seq e.2 | e <- ts] = [seq (p.1, p.2, grade_of p.2) | p <- l] ->
  latex_loop lco lba isadd fmt false lines s old ts = Some (lines, s ++ flatten (pieces l)).
Proof.
move=> /negbTE f2 /negbTE f3; elim: ts l s old => [|[i [[c b] g]] ts IH] [|p l] // s old; first by rewrite /= cats0.
by case=> -> -> _ /IH h; rewrite /= append_further /= f2 f3 h /= catA.
Qed.
Lemma loop3 lines s old (ts : seq (entry R)) (l : seq (R * word)) :
  [seq e.2 | e <- ts] = [seq (p.1, p.2, grade_of p.2) | p <- l] ->
  latex_loop lco lba isadd (FInt 3) false lines s old ts = Some (lines ++ pieces l, s).
Proof.
elim: ts l lines old => [|[i [[c b] g]] ts IH] [|p l] // lines old; first by rewrite /= cats0.
by case=> -> -> _ /IH h; rewrite /= append_further /= h /= cat_rcons.
Qed.
Lemma loop2 lines s g (ts : seq (entry R)) (l : seq (R * word)) :
  [seq e.2 | e <- ts] = [seq (p.1, p.2, grade_of p.2) | p <- l] -> path leq g [seq grade_of p.2 | p <- l] ->
  exists2 r, latex_loop lco lba isadd (FInt 2) false lines s (Some g) ts = Some r &
    rcons r.1 r.2 = lines ++ by_grade ((s, g) :: [seq (further_latex (latex_term p), grade_of p.2) | p <- l]).
Proof.
elim: ts l lines s g => [|[i [[c b] k]] ts IH] [|p l] // lines s g.
  by move=> _ _; exists (lines, s); rewrite //= /by_grade /= eqxx /= cats0 cats1.
case=> -> -> -> /IH h /andP[gk pl]; rewrite /= append_further /=.
case: (eqVneq (Some (grade_of p.2)) (Some g)) => [[e]|ne].
  by rewrite -e by_grade_same; apply: h.
have [r -> E] := h (rcons lines s) (further_latex (latex_term p)) _ pl; exists r => //.
rewrite E cat_rcons; congr (_ ++ _); rewrite [RHS]by_grade_next //=.
have lt : (g < grade_of p.2)%N by rewrite ltn_neqAle gk andbT; apply: contra ne => /eqP ->.
rewrite lt /=; apply/allP => q /mapP[u ul ->] /=; have /allP al := order_path_min leq_trans pl.
by apply: leq_trans lt _; apply: al; exact: (map_f (fun p : R * word => grade_of p.2) ul).
Qed.
Lemma alignedE ls : ls != [::] -> aligned ls = aligned_lines ls.
Proof.
rewrite /aligned /aligned_lines; case: ls => [|l [|l' ls]] // _.
have F s L : foldl (fun s l => s ++ txt " & " ++ l ++ txt " \\ ") s L = s ++ flatten [seq txt " & " ++ l ++ txt " \\ " | l <- L].
  by elim: L s => [|x L IH] s /=; rewrite ?cats0 // IH -catA.
have I (u v w : text) (L : seq text) x : flatten [seq u ++ l ++ v ++ w | l <- x :: L] =
    intercalate w [seq u ++ l ++ v | l <- x :: L] ++ w.
  elim: L x => [|y L IH] x; first by rewrite /= cats0 -!catA.
  by move: (IH y) => /= e; rewrite e -!catA.
rewrite F (I (txt " & ") (txt " ") (txt "\\ ") (l' :: ls) l) catA.
set s := _ ++ intercalate _ _; rewrite size_cat addnK take_size_cat // /s -catA //.
Qed.
Local Arguments aligned : simpl never.
Local Arguments aligned_lines : simpl never.

(* not zero, and not a scalar *)
Definition not_scalar args : bool := has (fun t : R * word => ~~ nilp t.2) args.
Lemma latex_terms args : well_formed a args -> not_scalar args -> exists p l e ts,
  [/\ shown (flat a args) args = p :: l, sorted_terms a args = e :: ts, e.2 = (p.1, p.2, grade_of p.2),
      [seq e.2 | e <- ts] = [seq (q.1, q.2, grade_of q.2) | q <- l] & (size ts == 0)%N ==> (grade_of p.2 != 0%N)].
Proof.
move=> w /hasP[t tin t0].
have sin : (coefficient args t.2, t.2) \in shown (flat a args) args.
  by apply: map_f; rewrite mem_filter (negbTE t0) map_f // (allP (flat_in w)).
have := collected w; case E: (shown _ _) sin => [|p l] // sin; case: (sorted_terms a args) => [|e ts] // -[eE tE].
exists p, l, e, ts; split=> //; apply/implyP => ts0.
have l0 : l = [::] by apply/nilP; rewrite /nilp -(size_map (fun q : R * word => (q.1, q.2, grade_of q.2))) -tE size_map.
move: sin; rewrite l0 inE => /eqP <- /=.
have : t.2 \in flat a args by exact: (allP (flat_in w)).
have g0 f : (forall I, grade_of (f I) = size I) -> (f [::] = [::] :> word) -> t.2 \in [seq f I | I <- indexes_flat (ga_n a)] -> grade_of t.2 != 0%N.
  by move=> fE f0 /mapP[I _ e']; rewrite e' fE; apply/negP => /nilP h; rewrite e' h f0 in t0.
by rewrite /flat; case: ifP => _; rewrite ?blades_flatE; apply: g0 => //; case=> [|i [|j I]].
Qed.
Lemma mv_latexE fmt args : well_formed a args -> not_scalar args -> exists p l ts,
  [/\ shown (flat a args) args = p :: l, [seq e.2 | e <- ts] = [seq (q.1, q.2, grade_of q.2) | q <- l] &
  mv_latex lco lba isadd a fmt args =
    LET r := (if fmt_is fmt 3 then latex_loop lco lba isadd fmt false [:: latex_term p] [::] None ts
              else latex_loop lco lba isadd fmt false [::] (latex_term p) (if fmt_is fmt 2 then Some (grade_of p.2) else None) ts) IN
    let lines := if fmt_is fmt 2 then rcons r.1 r.2 else r.1 in
    match fmt with FInt k => Some (if (2 <= k)%N then aligned lines else r.2) | FStr _ => None end].
Proof.
move=> w ns; have [p [l [[i [[c b] g]] [ts [E Es [ec eb eg] tE nz]]]]] := latex_terms w ns; exists p, l, ts; split=> //.
rewrite /mv_latex; have -> : nilp args = false by case: (args) ns.
rewrite Es [size _]/= eqSS; have -> : (size ts == 0)%N && (g == 0%N) = false.
  by apply/negP => /andP[h]; rewrite eg => e; move: nz; rewrite h e.
rewrite /= cb_strE; have -> : (c, b) = p by rewrite ec eb; case: (p).
case: ifP => f3 //; case: ifP => f2 //.
by rewrite eg.
Qed.

(* one line *)
Theorem C58_latex k args : well_formed a args -> not_scalar args -> (k < 2)%N ->
  mv_latex lco lba isadd a (FInt k) args = Some (flatten (as_sum further_latex [seq latex_term p | p <- shown (flat a args) args])).
Proof.
move=> w ns k2; have [p [l [ts [-> h ->]]]] := mv_latexE (FInt k) w ns.
have f2 : ~~ fmt_is (FInt k) 2 by rewrite /= neq_ltn k2.
have f3 : ~~ fmt_is (FInt k) 3 by rewrite /= neq_ltn (ltn_trans k2).
by rewrite (negbTE f2) (negbTE f3) (loop1 _ _ _ f2 f3 h) /= leqNgt k2 /= -map_comp.
Qed.
(* format 3: one line for each term *)
Theorem C58_latex_bases args : well_formed a args -> not_scalar args ->
  mv_latex lco lba isadd a (FInt 3) args =
  Some (aligned_lines (as_sum further_latex [seq latex_term p | p <- shown (flat a args) args])).
Proof.
move=> w ns; have [p [l [ts [-> h ->]]]] := mv_latexE (FInt 3) w ns.
by rewrite [fmt_is _ _]/= (loop3 _ _ _ h) /= alignedE //= -map_comp.
Qed.
(* format 2: one line for each grade *)
Theorem C58_latex_grades args : well_formed a args -> not_scalar args ->
  mv_latex lco lba isadd a (FInt 2) args =
  Some (aligned_lines (by_grade (zip (as_sum further_latex [seq latex_term p | p <- shown (flat a args) args])
                                     [seq grade_of p.2 | p <- shown (flat a args) args]))).
Proof.
move=> w ns; have sg := shown_grades w; have [p [l [ts [E h ->]]]] := mv_latexE (FInt 2) w ns.
rewrite E in sg *; have [r /= -> /= Er] := loop2 [::] (latex_term p) h sg.
rewrite Er alignedE ?by_grade_some //; congr (Some (aligned_lines (by_grade _))).
by rewrite /= -map_comp; congr (_ :: _); elim: (l) => //= q r' ->.
Qed.
(* scalars *)
Theorem C58_latex_scalar fmt args : well_formed a args -> ~~ not_scalar args -> coefficient args [::] != 0 ->
  mv_latex lco lba isadd a fmt args = Some (lco (coefficient args [::])).
Proof.
move=> w ns c0; have a0 : nilp args = false by apply/negP => /nilP e; rewrite e /coefficient big_nil eqxx in c0.
rewrite /mv_latex a0; have := collected w.
have -> : shown (flat a args) args = [:: (coefficient args [::], [::])].
  have [u k0 _] := flatP a args; rewrite /shown; case: (flat a args) u k0 => //= k ks /andP[ku _] [ke].
  rewrite ke /= c0; have -> : [seq b <- ks | if nilp b then coefficient args b != 0 else b \in [seq t.2 | t <- args]] = [::] => //.
  apply/eqP; rewrite -(negbK (_ == _)) -has_filter; apply/hasPn => b bin; case: ifP => [/nilP e|b0].
    by rewrite e in bin; rewrite ke bin in ku.
  apply/mapP => -[t tin e]; move/hasPn: ns => /(_ t tin); rewrite -e b0 //.
by case: (sorted_terms a args) => [|[i [[c b] g]] [|]] //= [-> _ ->].
Qed.
Theorem C58_latex_zero fmt : mv_latex lco lba isadd a fmt [::] = Some (str "0").
Proof. by []. Qed.
(* finding: the format given as a string, as in the documentation, raises *)
Theorem C58_latex_string_refuted s args : well_formed a args -> not_scalar args ->
  mv_latex lco lba isadd a (FStr s) args = None.
Proof. by move=> w ns; have [p [l [ts [_ _ ->]]]] := mv_latexE (FStr s) w ns; rewrite /=; case: latex_loop. Qed.
End Latex.
(* finding: a format above 3 is accepted, and the LaTeX no longer depends on the multivector *)
Theorem C58_latex_format_refuted (R : comUnitRingType) (a : ga R) lco lba isadd k args :
  (forall p, trim (latex_term lco lba isadd p) != [::]) -> well_formed a args -> not_scalar args -> (3 < k)%N ->
  mv_latex lco lba isadd a (FInt k) args = Some (str " \begin{aligned}[ \end{aligned} ").
Proof.
move=> some w ns k3; have [p [l [ts [_ h ->]]]] := mv_latexE lco lba isadd (FInt k) w ns.
have f2 : ~~ fmt_is (FInt k) 2 by rewrite /= neq_ltn (ltn_trans _ k3) ?orbT.
have f3 : ~~ fmt_is (FInt k) 3 by rewrite /= neq_ltn k3 orbT.
by rewrite (negbTE f2) (negbTE f3) (loop1 some _ _ _ f2 f3 h) /= (ltn_trans _ k3).
Qed.

(* ---- C59: lists, tuples and dicts ---- *)
Definition left_of (k : container) : text := match k with PyList => str "[" | PyTuple => str "(" | PyDict => str "\{" end.
Definition right_of (k : container) : text := match k with PyList => str "]" | PyTuple => str ")" | PyDict => str "\}" end.
(* the cell of an item: a dict shows key and value *)
Definition cell_of (k : container) (p : text * text) : text :=
  flat_text (if k is PyDict then p.1 ++ str " : " ++ p.2 else p.1).

Lemma ziptI (l : seq (text * text)) : zip (unzip1 l) (unzip2 l) = l.
Proof. by elim: l => [|[x y] l IH] //=; rewrite IH. Qed.
Theorem C59_row k items : items != [::] ->
  fmt_items k 1 items = row_layout (left_of k) (right_of k) [seq cell_of k p | p <- items].
Proof.
case: items => // p l _; rewrite /fmt_items /fmt_row ziptI /row_layout !size_map.
have F (f : text * text -> text) s L : foldl (fun s p => s ++ f p) s L = s ++ flatten [seq f p | p <- L].
  by elim: L s => [|x L IH] s /=; rewrite ?cats0 // IH -catA.
have I (f : text * text -> text) w L x : flatten [seq f p ++ w | p <- x :: L] = intercalate w [seq f p | p <- x :: L] ++ w.
  elim: L x => [|y L IH] x; first by rewrite /= cats0.
  by move: (IH y) => /= e; rewrite e -!catA.
rewrite eqxx F (I (cell_of k)); set h := txt " \left " ++ _; set b := intercalate _ _.
have -> : take (size (h ++ b ++ txt ", & ") - 4) (h ++ b ++ txt ", & ") = h ++ b.
  by rewrite catA size_cat (_ : size (txt ", & ") = 4%N) // addnK take_size_cat.
rewrite /h {h}; move: b => b.
by rewrite -!catA; case: k.
Qed.
Lemma column_loopE k n i s (m : seq text) z : (1 < i)%N -> n = (i + size m)%N ->
  column_loop k n i s (rcons m z) = s ++ flatten [seq str " " ++ flat_text c ++ str ", \\" | c <- m] ++
    str " \left. " ++ flat_text z ++ str "\right " ++ right_of k ++ str " \\ \end{array}".
Proof.
move=> i1 ->; elim: m i s i1 => [|c m IH] i s i1.
  by rewrite /= addn0 eqxx; case: eqP i1 => [->|_ _] //; case: k.
rewrite [rcons _ _]/= [size (c :: m)]/= -[LHS]/(column_loop k (i + (size m).+1) i.+1 (s ++ _) (rcons m z)) -{1}addSnnS IH; last exact: leqW.
have -> : (i == 1)%N = false by apply/negbTE; rewrite neq_ltn i1 orbT.
have -> : (i == i + (size m).+1)%N = false by rewrite -{1}[i]addn0 eqn_add2l.
rewrite -[flatten [seq _ | c0 <- c :: m]]/((str " " ++ flat_text c ++ str ", \\") ++ flatten _).
by rewrite -!catA.
Qed.
Theorem C59_column k fmt p (m : seq (text * text)) q : fmt != 1%N ->
  fmt_items k fmt (p :: rcons m q) =
  column_layout (left_of k) (right_of k) (flat_text p.1) [seq flat_text c.1 | c <- m] (flat_text q.1).
Proof.
move=> /negbTE f1; rewrite /fmt_items f1 /fmt_column /unzip1 map_cons map_rcons /= size_rcons.
rewrite (@column_loopE k _ 2 _ [seq c.1 | c <- m] q.1) ?size_map //.
by rewrite /column_layout -!map_comp; case: k => /=; rewrite ?catA // -?catA.
Qed.
(* findings *)
(* a list of one element in the default format: the array is opened and never closed *)
Theorem C59_single_refuted :
  occurs (str "\begin{array}") (fmt_items PyList 0 [:: (str "x", [::])]) /\
  ~~ occurs (str "\end{array}") (fmt_items PyList 0 [:: (str "x", [::])]).
Proof. by vm_compute. Qed.
(* the empty list as a row: the end of the array's specification is cut off *)
Theorem C59_empty_refuted : fmt_items PyList 1 [::] = str " \left [ \begin{array\\ \end{array} \right ] " ++ [:: eol].
Proof. by vm_compute. Qed.
(* a dict in the default format: the values are not shown *)
Theorem C59_dict_refuted fmt items items' : fmt != 1%N -> unzip1 items = unzip1 items' ->
  fmt_items PyDict fmt items = fmt_items PyDict fmt items'.
Proof. by rewrite /fmt_items => /negbTE -> ->. Qed.

(* ---- examples: e_x, e_y and e_x^e_y over the integers ---- *)
Local Notation Z := [comUnitRingType of int].
Definition fm_ga : ga Z := @Ga Z 2 [:: [:: 1; 0]; [:: 0; 1]].
Definition fm_name (b : word) : text := if b is (_, J) :: _ then str "e" ++ nseq (size J) (ch "x") else str "1".
Definition fm_prt (c : Z) (b : word) : text :=
  (if (c < 0)%R then str "-" else [::]) ++ (if (c == 1) || (c == -1) then [::] else str "2*") ++ fm_name b.
Definition fm_lco (c : Z) : text := if c == 1 then str "1" else if c == -1 then str "-1" else str "2".
Definition fm_args : expr Z := [:: (2%:R, mk_blade [:: 0; 1]%N); (3%:R, [::]); (-1, mk_blade [:: 1]%N); (-1, [::])].
Lemma fm_prt_some c b : fm_prt c b != [::].
Proof. by rewrite /fm_prt; case: (c < 0) => //; case: (_ || _) => //; case: b => [|[? ?] ?]. Qed.
Lemma fm_prt_line c b : eol \notin fm_prt c b.
Proof.
rewrite /fm_prt !mem_cat !negb_or /fm_name; case: (c < 0); case: (_ || _) => //=; case: b => [|[? J] ?] //=;
  by rewrite inE mem_nseq andbF.
Qed.
Lemma fm_latex_some p : trim (latex_term fm_lco fm_name (fun=> false) p) != [::].
Proof.
have tr (u : text) : has (fun c => ~~ is_space c) u -> trim u != [::].
  move=> h; rewrite /trim -size_eq0 size_rev -lt0n size_drop subn_gt0 -has_find has_rev.
  by rewrite (drop_nth (ch " ")) -?has_find //=; have /= -> := nth_find (ch " ") h.
apply: tr; rewrite /latex_term /= !has_cat /fm_lco /fm_name; case: p => c b /=.
by case: b => [|[? J] b] /=; case: (c == 1) => //=; case: (c == -1); rewrite ?orbT.
Qed.
Example C58_ex :
  [/\ well_formed fm_ga fm_args && proper_sum fm_args && not_scalar fm_args,
      mv_text fm_prt fm_ga (FInt 1) fm_args = Some (str "2*1 - ex + 2*exx"),
      omap lines (mv_text fm_prt fm_ga (FInt 2) fm_args) = Some [:: str " 2*1"; str " - ex"; str " + 2*exx"],
      mv_latex fm_lco fm_name (fun=> false) fm_ga (FInt 1) fm_args = Some (str "2  - ex + 2 exx") &
      mv_latex fm_lco fm_name (fun=> false) fm_ga (FInt 3) fm_args =
        Some (str " \begin{aligned}[t]  & 2  \\  &  - ex \\  &  + 2 exx  \end{aligned} ")].
Proof. by split; vm_compute. Qed.
Example C58_ex_theorems : 
  (mv_text fm_prt fm_ga (FInt 1) fm_args = Some (flatten (as_sum further [seq fm_prt p.1 p.2 | p <- shown (flat fm_ga fm_args) fm_args]))) /\
  (mv_latex fm_lco fm_name (fun=> false) fm_ga (FInt 1) fm_args =
   Some (flatten (as_sum further_latex [seq latex_term fm_lco fm_name (fun=> false) p | p <- shown (flat fm_ga fm_args) fm_args]))).
Proof.
split; first by apply: (C58_text fm_prt_some fm_prt_line).
by apply: (C58_latex fm_latex_some).
Qed.
Example C59_ex : fmt_items PyDict 1 [:: (str "a", str "1"); (str "b", str "2")] =
    str " \left \{ \begin{array}{cc} a : 1, & b : 2\\ \end{array} \right \} " ++ [:: eol] /\
  fmt_items PyTuple 0 [:: (str "a", [::]); (str "b", [::]); (str "c", [::])] =
    str "\begin{array}{c} \left ( a, \right. \\  b, \\ \left. c\right ) \\ \end{array}".
Proof. by vm_compute. Qed.

Print Assumptions C58_text.
Print Assumptions C58_text_bases.
Print Assumptions C58_text_grades.
Print Assumptions C58_text_single.
Print Assumptions C58_text_order.
Print Assumptions C58_latex.
Print Assumptions C58_latex_bases.
Print Assumptions C58_latex_grades.
Print Assumptions C58_latex_scalar.
Print Assumptions C58_latex_string_refuted.
Print Assumptions C58_latex_format_refuted.
Print Assumptions C59_row.
Print Assumptions C59_column.
Print Assumptions C59_single_refuted.
Print Assumptions C59_empty_refuted.
Print Assumptions C59_dict_refuted.
