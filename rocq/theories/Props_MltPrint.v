(* Props_MltPrint.v -- C63: the components of a multilinear function and their LaTeX form. *)
From Coq Require Import Ascii String.
From mathcomp Require Import all_ssreflect all_algebra.
From Verif Require Import PyBase PyStr Parser_Model MltPrint_Model Spec_MltPrint.
Set Implicit Arguments.
Unset Strict Implicit.
Unset Printing Implicit Defensive.
Import GRing.Theory.
Local Open Scope ring_scope.

Lemma tuple_le_total : total tuple_le.
Proof.
elim=> [|i x IH] [|j y] //=; case: ltngtP => //= _; exact: IH.
Qed.
Lemma tuple_le_trans : transitive tuple_le.
Proof.
elim=> [|j y IH] [|i x] [|k z] //= /orP[ij|/andP[/eqP-> xy]] /orP[jk|/andP[/eqP<- yz]].
- by rewrite (ltn_trans ij jk).
- by rewrite ij.
- by rewrite jk.
- by rewrite eqxx (IH _ _ xy yz) orbT.
Qed.
Lemma tuple_leW x y : tuple_le x y -> x != y -> tuple_lt x y.
Proof.
elim: x y => [|i x IH] [|j y] //= /orP[->//|/andP[/eqP-> xy]]; rewrite eqseq_cons !eqxx /= => ne.
by rewrite (IH _ xy ne) orbT.
Qed.
Lemma tuple_lt_irr x : tuple_lt x x = false.
Proof. by elim: x => //= i x ->; rewrite ltnn eqxx. Qed.
Lemma tuple_lt_trans : transitive tuple_lt.
Proof.
elim=> [|j y IH] [|i x] [|k z] //= /orP[ij|/andP[/eqP-> xy]] /orP[jk|/andP[/eqP<- yz]].
- by rewrite (ltn_trans ij jk).
- by rewrite ij.
- by rewrite jk.
- by rewrite eqxx (IH _ _ xy yz) orbT.
Qed.

Section Expand.
Variables (R : comUnitRingType) (rho : nat -> R).
Implicit Type e : sx R.
Local Notation cmpk := (fun x y : R * seq nat => tuple_le x.2 y.2).

Lemma term_ofE e : term_of rho e = (coefficient rho e, slots e).
Proof.
rewrite /term_of /coefficient /slots; elim/last_ind: (sargs e) => [|l f IH]; first by rewrite big_nil.
rewrite foldl_rcons IH -cats1 big_cat big_cons big_nil pmap_cat /=.
by case: f => [i|c|l'|l'|c l'] /=; rewrite ?cats1 ?cats0 ?mulr1.
Qed.
(* the group loop on a sorted list *)
Lemma groupP ts c k out : sorted tuple_le (k :: [seq t.2 | t <- ts]) ->
  exists g, [/\ (let r := foldl (@group_step R) (out, Some (c, k)) ts in
                 if r.2 is Some ca then Some (rcons r.1 ca) else None) = Some (out ++ g),
    sorted tuple_lt [seq t.2 | t <- g], ohead [seq t.2 | t <- g] = Some k,
    [seq t.2 | t <- g] =i k :: [seq t.2 | t <- ts] &
    forall j, \sum_(t <- g | t.2 == j) t.1 = (if k == j then c else 0) + \sum_(t <- ts | t.2 == j) t.1].
Proof.
elim: ts c k out => [|[d h] ts IH] c k out /=.
  move=> _; exists [:: (c, k)]; split=> //= [|j]; first by rewrite cats1.
  by rewrite big_cons !big_nil !addr0.
case/andP=> kh sh; rewrite /group_step /=; case: eqP => [E|/eqP ne].
  have [|g [Eg sg hg mg cg]] := IH (c + d) k out; first by rewrite E.
  exists g; split=> // j; first by rewrite mg !inE E orbA orbb.
  rewrite cg big_cons /= -E; case: (k == j); last by rewrite !add0r.
  by rewrite addrA.
have [|g [Eg sg hg mg cg]] := IH d h (rcons out (c, k)); first by [].
exists ((c, k) :: g); split=> //= [||j|j].
- by move: Eg; rewrite /= cat_rcons.
- case: g hg sg {Eg mg cg} => [|x g] //= [->] ->; by rewrite tuple_leW.
- by rewrite inE mg !inE.
- by rewrite !big_cons /= cg; case: (k == j); case: (h == j); rewrite ?add0r.
Qed.
Lemma value_term e : is_product e -> value rho e = coefficient rho e * \prod_(i <- slots e) rho i.
Proof.
case: e => // l _; rewrite /coefficient /slots /=; elim: l => [|f l IH] /=; first by rewrite !big_nil mulr1.
rewrite IH big_cons; case: f => [i|c|l'|l'|c l'] /=; rewrite ?mulrA //.
by rewrite big_cons mulrA [rho i * _]mulrC -!mulrA.
Qed.
End Expand.

(* C63.  For a sum of at least one product, the components are listed by strictly increasing
   slot symbols, they are exactly the slot symbols of the terms, the coefficient of each is
   the sum of the coefficients of all the terms that have these slot symbols, and the listed
   components add up to the expression. *)
Theorem C63_components (R : comUnitRingType) (rho : nat -> R) (ts : seq (sx R)) :
  (0 < size ts)%N ->
  exists l, [/\ expand_expr rho (SAdd ts) = Some l,
    sorted tuple_lt [seq c.2 | c <- l],
    [seq c.2 | c <- l] =i [seq slots t | t <- ts],
    forall k, \sum_(c <- l | c.2 == k) c.1 = \sum_(t <- ts | slots t == k) coefficient rho t &
    all (@is_product R) ts ->
    value rho (SAdd ts) = \sum_(c <- l) c.1 * \prod_(i <- c.2) rho i].
Proof.
move=> ts0; rewrite /expand_expr /=.
set cmpk := fun x y : R * seq nat => tuple_le x.2 y.2.
set m := [seq term_of rho t | t <- ts].
have pm : perm_eq (sort cmpk m) m by rewrite perm_sort.
have sm : sorted tuple_le [seq t.2 | t <- sort cmpk m].
  by rewrite sorted_map; apply: sort_sorted => x y; apply: tuple_le_total.
have : sort cmpk m != [::] by rewrite -size_eq0 size_sort size_map -lt0n.
case Es: (sort cmpk m) pm sm => [//|[c k] s] pm sm _ /=.
have [g [Eg sg _ mg cg]] := groupP c [::] sm; exists g.
have mem_g : [seq x.2 | x <- g] =i [seq slots t | t <- ts].
  move=> x; rewrite mg (perm_mem (perm_map snd pm)) /m -map_comp.
  by congr (x \in _); apply: eq_map => t /=; rewrite term_ofE.
have cf j : \sum_(x <- g | x.2 == j) x.1 = \sum_(t <- ts | slots t == j) coefficient rho t.
  have H : \sum_(x <- (c, k) :: s | x.2 == j) x.1 = \sum_(x <- m | x.2 == j) x.1 by apply: perm_big.
  rewrite big_cons /= in H; rewrite cg.
  transitivity (\sum_(x <- m | x.2 == j) x.1); first by rewrite -H; case: (k == j); rewrite ?add0r.
  rewrite /m big_map; under eq_bigl do rewrite term_ofE /=.
  by apply: eq_bigr => t _; rewrite term_ofE.
split=> // prod_ts.
have ug : uniq [seq x.2 | x <- g].
  by apply: (sorted_uniq tuple_lt_trans tuple_lt_irr sg).
transitivity (\sum_(t <- m) t.1 * \prod_(i <- t.2) rho i).
  rewrite /m; elim: ts prod_ts {ts0 m pm sm Es Eg mem_g cf} => [|t ts IH] /=; first by rewrite big_nil.
  by case/andP=> pt /IH->; rewrite big_cons value_term // term_ofE.
have mem_m : [seq x.2 | x <- g] =i [seq x.2 | x <- m].
  move=> x; rewrite mem_g /m -map_comp.
  by congr (x \in _); apply: eq_map => t /=; rewrite term_ofE.
have cm j : \sum_(x <- g | x.2 == j) x.1 = \sum_(x <- m | x.2 == j) x.1.
  rewrite cf /m big_map; symmetry; under eq_bigl do rewrite term_ofE /=.
  by apply: eq_bigr => t _; rewrite term_ofE.
transitivity (\sum_(j <- [seq x.2 | x <- g]) (\sum_(x <- g | x.2 == j) x.1) * \prod_(i <- j) rho i).
  symmetry; under eq_bigr do rewrite cm big_distrl /=.
  rewrite (exchange_big_dep xpredT) //=; apply: eq_big_seq => t tin.
  have jin : t.2 \in [seq x.2 | x <- g] by rewrite mem_m map_f.
  by rewrite -big_filter (_ : [seq i <- _ | t.2 == i] = [:: t.2]) ?big_seq1 // (eq_filter (a2 := pred1 t.2)) ?filter_pred1_uniq // => z /=; rewrite eq_sym.
rewrite big_map; apply: eq_big_seq => x xin; congr (_ * _).
rewrite -big_filter (_ : [seq i <- g | i.2 == x.2] = [:: x]) ?big_seq1 //.
elim: g ug xin {Eg sg mg cg mem_g cf mem_m cm} => [//|y g IH] /= /andP[yn ug]; rewrite inE => /orP[/eqP->|xin].
  rewrite eqxx; congr (_ :: _); apply/eqP; rewrite -[_ == _]negbK -has_filter -all_predC.
  by apply/allP => z zin /=; apply: contra yn => /eqP<-; apply: map_f.
rewrite IH //; case: eqP => // E; by rewrite E (map_f snd xin) in yn.
Qed.
Print Assumptions C63_components.

(* FINDING: a multilinear function with one non-zero component is not listed.  expr.args is
   then the list of factors of that component, so the loop over the "terms" runs over the
   factors: the listing has one entry, with no slot symbol, whose coefficient is the number
   of factors.  T(a, b) = 5 a_x b_y is listed (and printed in LaTeX) as 3. *)
Theorem C63_factors_refuted (R : comUnitRingType) (rho : nat -> R) (fs : seq (sx R)) :
  (0 < size fs)%N -> all (fun f => nilp (sargs f)) fs ->
  expand_expr rho (SMul fs) = Some [:: ((size fs)%:R, [::])].
Proof.
case: fs => [//|f fs] _ /=; rewrite /expand_expr => /andP[nf nfs] /=.
have t1 g : nilp (sargs g) -> term_of rho g = (1, [::]) by move/nilP=> E; rewrite /term_of E.
rewrite t1 // (_ : [seq term_of rho t | t <- fs] = nseq (size fs) (1, [::])); last first.
  by elim: fs nfs => //= g l IH /andP[/t1-> /IH->].
rewrite -[_ :: nseq _ _]/(nseq (size fs).+1 _) sorted_sort; first last.
- by elim: (size fs) => //= -[].
- by move=> x y z; apply: tuple_le_trans.
have E : forall n m, foldl (@group_step R) ([::], Some (m%:R, [::])) (nseq n (1, [::])) = ([::], Some ((m + n)%:R, [::])).
  elim=> [|n IH] m /=; first by rewrite addn0.
  by rewrite /group_step /= -{2}[1]/(1%:R) -natrD IH addn1 addSnnS.
have := E (size fs) 1%N; rewrite /= => ->; by rewrite add1n.
Qed.
Print Assumptions C63_factors_refuted.
(* FINDING: the same on an example: T(a, b) = 5 a_x b_y is listed as 3. *)
Theorem C63_single_refuted : exists (fs : seq (sx rat_comUnitRing)), forall rho,
  [/\ value rho (SMul fs) = 5%:R * rho 0%N * rho 3%N, map (@sargs rat_comUnitRing) fs = [:: [::]; [::]; [::]]
    & expand_expr rho (SMul fs) = Some [:: (3%:R, [::])]].
Proof.
exists [:: SAtom 5%:R; SSlot _ 0; SSlot _ 3] => rho; split=> //=; by rewrite mulr1 mulrA.
Qed.
Print Assumptions C63_single_refuted.
(* FINDING: for the zero function the loop does not run and coef is not bound. *)
Theorem C63_zero_refuted (R : comUnitRingType) (rho : nat -> R) : expand_expr rho (SAtom 0) = None.
Proof. by []. Qed.
Print Assumptions C63_zero_refuted.

(* ---- LaTeX ---- *)
(* the printed components: the first one without a leading sign *)
Definition pieces (f : bool) (cs : seq comp) : seq text :=
  if cs is c :: r then piece f c :: map (piece false) r else [::].
Lemma size_pieces f cs : size (pieces f cs) = size cs.
Proof. by case: cs => //= c r; rewrite size_map. Qed.
Lemma pieces_cat f cs ds : cs <> [::] -> pieces f (cs ++ ds) = pieces f cs ++ pieces false ds.
Proof. by case: cs => //= c r _; rewrite map_cat; case: ds. Qed.

Section Latex.
Variables (m : nat).
Hypothesis m0 : (0 < m)%N.
Definition step := latex_step m.
(* a part of a line *)
Lemma line_part cs str f j : (j + size cs < m)%N ->
  foldl step (str, f, j.+1) cs =
  (str ++ (if (j == 0%N) && (0 < size cs)%N then tx " & " else [::]) ++ flatten (pieces f cs), f && nilp cs, (j + size cs).+1).
Proof.
elim: cs str f j => [|c cs IH] str f j /=; first by rewrite andbF !cats0 andbT addn0.
rewrite addnS => lt; rewrite modn_small ?(leq_ltn_trans _ lt) ?ltnS ?leq_addr //=.
rewrite IH ?addSn //= andbF /=.
have -> : pieces false cs = [seq piece false i | i <- cs] by case: (cs).
move: (piece f c) => p.
by case: j {IH lt} => [|j] /=; rewrite -!catA ?addnS.
Qed.
(* a full line *)
Lemma line_full cs str f : size cs = m ->
  foldl step (str, f, 1%N) cs = (str ++ tx " & " ++ flatten (pieces f cs) ++ tx "\\ ", false, 1%N).
Proof.
case/lastP: cs => [|cs c]; first by move=> E; move: m0; rewrite -E.
rewrite size_rcons => E; rewrite -cats1 foldl_cat line_part ?add0n -?E //=.
rewrite E modnn -E /=.
case: cs {E} => [|d cs]; last rewrite pieces_cat //= ?andbF flatten_cat /=.
  rewrite /= andbT; move: (piece f c) => p /=; by rewrite cats0 -!catA.
by move: (piece f d) (piece false c) => p q; rewrite cats0 -!catA /= -!catA.
Qed.
Definition ended (ln : seq text) : text := tx " & " ++ flatten ln ++ (if size ln == m then tx "\\ " else [::]).
Lemma loopE n cs str f : (size cs <= n)%N ->
  (foldl step (str, f, 1%N) cs).1.1 = str ++ flatten [seq ended ln | ln <- lines_fuel n m (pieces f cs)].
Proof.
elim: n cs str f => [|n IH] cs str f; first by case: cs => //=; rewrite cats0.
move=> le; have [/size0nil->|pos] := posnP (size cs); first by rewrite /= cats0.
have Ef : lines_fuel n.+1 m (pieces f cs) = take m (pieces f cs) :: lines_fuel n m (drop m (pieces f cs)).
  by case: (cs) pos.
rewrite Ef /=; case: (ltnP (size cs) m) => [lt|ge].
  rewrite (line_part str f (j := 0)) //= pos drop_oversize ?size_pieces 1?ltnW //.
  rewrite take_oversize ?size_pieces 1?ltnW // (ltn_eqF lt) !cats0.
  by rewrite (_ : lines_fuel n m [::] = [::]) ?cats0 //; case: (n).
have ne : take m cs <> [::] by move=> E; move: m0; rewrite -(size_takel ge) E.
have st : size (take m cs) = m by rewrite size_takel.
rewrite -[in LHS](cat_take_drop m cs) foldl_cat line_full // IH; last first.
  by rewrite size_drop leq_subLR (leq_trans le) // -add1n leq_add2r.
rewrite -[in RHS](cat_take_drop m cs) pieces_cat // take_size_cat ?size_pieces //.
rewrite drop_size_cat ?size_pieces // st eqxx.
by rewrite -?catA /= -?catA.
Qed.
End Latex.

Lemma pieceE f c : piece f c = shown f c.
Proof.
rewrite /piece /shown; case: f => //=.
case: (c_add c) => /=; rewrite ?andbF ?orbT //= ?orbF ?andbT -?catA //.
by case: eqP => //= _; rewrite catA.
Qed.
Lemma piecesE cs : pieces true cs = shown_all cs.
Proof. by case: cs => //= c r; rewrite pieceE (eq_map (pieceE false)). Qed.
Lemma lines_fuel0 (T : Type) n m : @lines_fuel T n m [::] = [::].
Proof. by case: n. Qed.
Lemma endedE m n s : (0 < m)%N -> (0 < size s <= n)%N ->
  flatten [seq ended m ln | ln <- lines_fuel n m s]
  = joint (tx "\\ ") [seq tx " & " ++ flatten ln | ln <- lines_fuel n m s] ++ (if (m %| size s)%N then tx "\\ " else [::]).
Proof.
move=> m0; elim: n s => [|n IH] s; first by case: s.
case/andP=> s0 sn.
have -> : lines_fuel n.+1 m s = take m s :: lines_fuel n m (drop m s) by case: (s) s0.
case: (ltnP m (size s)) => [lt|ge].
  have d0 : (0 < size (drop m s) <= n)%N.
    by rewrite size_drop subn_gt0 lt /= leq_subLR (leq_trans sn) // -add1n leq_add2r.
  have := IH _ d0; rewrite size_drop dvdn_subl ?dvdnn 1?ltnW // => {IH} E.
  rewrite map_cons /= in E *; rewrite E /ended size_takel 1?ltnW // eqxx.
  case El: (lines_fuel n m (drop m s)) => [|x l]; last by rewrite -?catA /= -?catA.
  by case: n {E sn} El d0 => [|n] /=; [rewrite andbC; case: (size _) | case: (drop m s)].
rewrite take_oversize // drop_oversize // lines_fuel0 /= cats0; do 3 congr (_ :: _); congr (_ ++ _).
move: ge; rewrite leq_eqVlt => /orP[/eqP->|lt]; first by rewrite eqxx dvdnn.
by rewrite (ltn_eqF lt) (gtnNdvd s0 lt).
Qed.

(* C63.  With lcnt components per line, the LaTeX form of a multilinear function of at least
   two arguments is an aligned environment whose lines hold the components, in order, lcnt to a
   line (the last line may hold fewer), each line with one alignment mark, the lines separated
   by line breaks.  After the last line there is no line break, unless that line is full and
   lcnt is neither 1 nor the number of components. *)
Theorem C63_latex nargs lcnt one cs : (1 < nargs)%N -> (0 < lcnt)%N -> (0 < size cs)%N ->
  mlt_latex nargs lcnt one cs =
  Some (txt "\begin{aligned} "
    ++ joint (txt "\\ ") [seq txt " & " ++ flatten ln | ln <- lines lcnt (shown_all cs)]
    ++ (if [&& lcnt %| size cs, lcnt != size cs & lcnt != 1]%N then txt "\\ " else [::])
    ++ txt " \end{aligned} ").
Proof.
move=> na l0 c0; rewrite /mlt_latex leqNgt na (gtn_eqF l0) -[txt]/tx.
have := loopE l0 (tx "\begin{aligned} ") true (leqnn (size cs)).
rewrite -[step _]/(latex_step lcnt).
move: (tx "\begin{aligned} ") (tx " \end{aligned} ") => B F.
case: (foldl _ _ cs) => -[str f] cnt; rewrite [LHS]/= => ->.
rewrite piecesE endedE //; last by rewrite -piecesE size_pieces c0 leqnn.
have sz : size (shown_all cs) = size cs by rewrite -piecesE size_pieces.
rewrite /lines sz; set J := joint _ _; congr Some; rewrite !catA; congr (_ ++ _).
have cut : take (size ((B ++ J) ++ tx "\\ ") - 3) ((B ++ J) ++ tx "\\ ") = B ++ J.
  by rewrite size_cat addnK take_size_cat.
have [l1|l1] := eqVneq lcnt 1%N; first by rewrite l1 dvd1n orbT !andbF cut cats0.
rewrite orbF andbT; have [le|le] := eqVneq lcnt (size cs); first by rewrite -le dvdnn cut cats0.
by rewrite andbT.
Qed.
Print Assumptions C63_latex.
Theorem C63_latex_one nargs lcnt one cs : (nargs <= 1)%N -> mlt_latex nargs lcnt one cs = Some one.
Proof. by rewrite /mlt_latex => ->. Qed.
Print Assumptions C63_latex_one.
Definition kcomp (k : string) : comp := Comp (txt k) (txt k) false [:: txt "a"; txt "b"].
(* FINDING: four components, two to a line: the environment ends with a line break and an empty
   line follows. *)
Theorem C63_trailing_refuted : exists lcnt cs body,
  [/\ (1 < lcnt < size cs)%N, (lcnt %| size cs)%N &
      forall one, mlt_latex 2 lcnt one cs = Some (body ++ txt "\\ " ++ txt " \end{aligned} ")].
Proof.
exists 2%N, [:: kcomp "2"; kcomp "3"; kcomp "-4"; kcomp "5"], (txt "\begin{aligned}  & 2a b  + 3a b \\  & -4a b  + 5a b ").
by split.
Qed.
Print Assumptions C63_trailing_refuted.

(* ---- the hypotheses are met ---- *)
(* T(a, b) = 5 a_x b_y + 7 a_y b_x - 2 a_x b_y with the slots numbered a_x, a_y, b_x, b_y *)
Example components_ex (rho : nat -> rat) :
  expand_expr rho (SAdd [:: SMul [:: SAtom (5%:R : rat_comUnitRing); SSlot _ 0; SSlot _ 3];
                            SMul [:: SAtom (7%:R : rat_comUnitRing); SSlot _ 1; SSlot _ 2];
                            SMul [:: SAtom (-2%:R : rat_comUnitRing); SSlot _ 0; SSlot _ 3]])
  = Some [:: (3%:R, [:: 0; 3]); (7%:R, [:: 1; 2])]%N.
Proof. by vm_compute. Qed.
Example latex_ex one : mlt_latex 2 2 one [:: kcomp "2"; kcomp "-3"; kcomp "4"]
  = Some (txt "\begin{aligned}  & 2a b -3a b \\  &  + 4a b  \end{aligned} ").
Proof. by []. Qed.
