(* Symbol_Proof.v -- str.replace on a text cut into words and gaps, and translate *)
From Coq Require Import String Ascii.
From mathcomp Require Import all_ssreflect.
From Verif Require Import PyBase PyStr Parser_Model Symbol_Model Spec_Symbol.
Set Implicit Arguments.
Unset Strict Implicit.
Unset Printing Implicit Defensive.
Local Open Scope seq_scope.

Lemma rep_skip old new m s : replace_from old new m s = replace_from old new 0 (drop m s).
Proof. by elim: s m => [|c s IH] [|m] //=. Qed.
Lemma rep_pass old new p r : (forall a b, p = a ++ b -> b != [::] -> ~~ prefix old (b ++ r)) ->
  replace old new (p ++ r) = p ++ replace old new r.
Proof.
rewrite /replace; elim: p => [|c p IH] // H; have /= := H [::] (c :: p) erefl isT => /negbTE H0.
by rewrite /= H0 IH // => a b E nb; apply: (H (c :: a)) => //; rewrite E.
Qed.
Lemma rep_hit old new r : old != [::] -> replace old new (old ++ r) = new ++ replace old new r.
Proof.
case: old => [|c old] // _; rewrite /replace /= eqxx prefix_prefix /=; congr cat.
by rewrite rep_skip drop_size_cat.
Qed.
Lemma inf_pass (old p r : text) : (forall a b, p = a ++ b -> b != [::] -> ~~ prefix old (b ++ r)) ->
  infix old (p ++ r) = infix old r.
Proof.
elim: p => [|c p IH] // H; have := H [::] (c :: p) erefl isT => /negbTE H0.
have -> : infix old ((c :: p) ++ r) = prefix old ((c :: p) ++ r) || infix old (p ++ r) by [].
rewrite H0 /= IH // => a b E nb; apply: (H (c :: a)) => //; by rewrite E.
Qed.

Definition nolet (r : text) : bool := if r is c :: _ then ~~ letter c else true.
Lemma nolet_next ps : gap_next ps -> nolet (flatten ps).
Proof. by case: ps => [|[|c p] ps] //= /and3P[]. Qed.
Lemma prefix_letters old b r : all letter old -> nolet r -> prefix old (b ++ r) -> prefix old b.
Proof.
elim: old b => [|c old IH] [|x b] //=.
  by case: r IH => [|y r] //= _ /andP[lc _] ly /andP[/eqP E _]; rewrite -E lc in ly.
by move=> /andP[_ lo] nr /andP[-> H]; rewrite (IH b).
Qed.
Lemma gap_pass old p r : word old -> gap p ->
  forall a b, p = a ++ b -> b != [::] -> ~~ prefix old (b ++ r).
Proof.
case: old => [|c old] // /andP[_ /= /andP[lc _]] /andP[_ gp] a [|x b] // E _ /=.
apply/negP => /andP[/eqP E2 _]; move: gp; rewrite E all_cat /= => /and3P[_ /= lx _].
by rewrite -E2 lc in lx.
Qed.
Lemma word_pass old p r : word old -> nolet r -> ~~ infix old p ->
  forall a b, p = a ++ b -> b != [::] -> ~~ prefix old (b ++ r).
Proof.
move=> /andP[_ lo] nr ni a b E _; apply: contra ni => /(prefix_letters lo nr) H.
by rewrite E infix_catl // prefixW.
Qed.

(* the words that contain old are old *)
Definition sole (old : text) (ps : seq text) : Prop := forall p, p \in ps -> word p -> p = old \/ ~~ infix old p.
Lemma sole_cons old p ps : sole old (p :: ps) -> sole old ps.
Proof. by move=> H q qp; apply: H; rewrite inE qp orbT. Qed.
Lemma gap_neq old p : word old -> gap p -> (p == old) = false.
Proof.
move=> /andP[no lo] /andP[_ gp]; apply/negP => /eqP E; move: gp lo no; rewrite E.
by case: old {E} => [|c o] //= /andP[/negbTE ->].
Qed.
Lemma rep_words old new ps : word old -> cut ps -> sole old ps ->
  replace old new (flatten ps) = flatten [seq if p == old then new else p | p <- ps].
Proof.
move=> wo; elim: ps => [|p ps IH] //= /andP[Hp Hc] so.
have {}IH := IH Hc (sole_cons so); case/orP: Hp => [gp|/andP[wp gn]].
  by rewrite (rep_pass _ (gap_pass _ wo gp)) IH gap_neq.
case: (altP (p =P old)) => [->|ne]; first by rewrite rep_hit ?IH //; case/andP: wo.
case: (so p (mem_head _ _) wp) => [E|ni]; first by rewrite E eqxx in ne.
by rewrite (rep_pass _ (word_pass wo (nolet_next gn) ni)) IH.
Qed.
Lemma inf_words old ps : word old -> cut ps -> sole old ps -> infix old (flatten ps) = (old \in ps).
Proof.
move=> wo; elim: ps => [|p ps IH] /=; first by case/andP: wo => /negbTE.
move=> /andP[Hp Hc] so; have {}IH := IH Hc (sole_cons so); rewrite inE eq_sym.
case/orP: Hp => [gp|/andP[wp gn]].
  by rewrite (inf_pass (gap_pass _ wo gp)) IH gap_neq.
case: (altP (p =P old)) => [->|ne]; first by rewrite prefix_infix.
case: (so p (mem_head _ _) wp) => [E|ni]; first by rewrite E eqxx in ne.
by rewrite (inf_pass (word_pass wo (nolet_next gn) ni)) IH.
Qed.

(* ---- the place holders ---- *)
Definition q_mark : ascii := ascii_of_nat 63.
Definition hole_ok (i : nat) : bool := (0 < i < 10)%N.
Lemma hole_gap i : hole_ok i -> gap (parse_sym i).
Proof. by case: i => [|[|[|[|[|[|[|[|[|[|i]]]]]]]]]]. Qed.
Lemma hole_bs i : hole_ok i -> bs \notin parse_sym i.
Proof. by case: i => [|[|[|[|[|[|[|[|[|[|i]]]]]]]]]]. Qed.
Lemma hole_q i : q_mark \in parse_sym i.
Proof. by []. Qed.
Lemma hole_inj i j : hole_ok i -> hole_ok j -> parse_sym i = parse_sym j -> i = j.
Proof. by case: i => [|[|[|[|[|[|[|[|[|[|i]]]]]]]]]] // _; case: j => [|[|[|[|[|[|[|[|[|[|j]]]]]]]]]] //. Qed.
Lemma hole_digit i : hole_ok i -> exists d, parse_sym i = [:: q_mark; q_mark; q_mark; q_mark; d] /\ d != q_mark.
Proof. by case: i => [|[|[|[|[|[|[|[|[|[|i]]]]]]]]]] // _; eexists; split; first by []. Qed.

Lemma hole_pass i p r : hole_ok i -> q_mark \notin p ->
  forall a b, p = a ++ b -> b != [::] -> ~~ prefix (parse_sym i) (b ++ r).
Proof.
move=> hi qp a [|x b] // E _; case: (hole_digit hi) => d [-> _] /=.
apply/negP => /andP[/eqP Ex _]; move: qp; rewrite E mem_cat !inE -Ex eqxx /=.
by rewrite orbT.
Qed.
Lemma other_pass i j r : hole_ok i -> hole_ok j -> j != i ->
  forall a b, parse_sym j = a ++ b -> b != [::] -> ~~ prefix (parse_sym i) (b ++ r).
Proof.
move=> hi hj ne; case: (hole_digit hi) (hole_digit hj) => d [Ei nd] [e [Ej ne']].
have de : d != e.
  by apply: contra ne => /eqP E; rewrite (hole_inj hj hi _) // Ei Ej E.
rewrite Ei Ej => a b.
have [e1 e2] : (q_mark == e) = false /\ (d == e) = false by split; [rewrite eq_sym; apply/negbTE|apply/negbTE].
case: a => [|? [|? [|? [|? [|? [|? a]]]]]] //= E nb; move: E; rewrite ?cat0s.
- by move=> <-; rewrite /= ?e1 ?e2 ?andbF.
- by case=> _ <-; rewrite /= ?e1 ?e2 ?andbF.
- by case=> _ _ <-; rewrite /= ?e1 ?e2 ?andbF.
- by case=> _ _ _ <-; rewrite /= ?e1 ?e2 ?andbF.
- by case=> _ _ _ _ <-; rewrite /= ?e1 ?e2 ?andbF.
- by case=> _ _ _ _ _ E; rewrite -E in nb.
Qed.
(* each piece is a place holder or has no question mark *)
Definition holed (ps : seq text) : Prop := forall p, p \in ps -> q_mark \notin p \/ exists2 j, hole_ok j & p = parse_sym j.
Lemma rep_hole i t ps : hole_ok i -> holed ps ->
  replace (parse_sym i) t (flatten ps) = flatten [seq if p == parse_sym i then t else p | p <- ps].
Proof.
move=> hi; elim: ps => [|p ps IH] //= Hh.
have {}IH : replace (parse_sym i) t (flatten ps) = flatten [seq if p == parse_sym i then t else p | p <- ps].
  by apply: IH => q qp; apply: Hh; rewrite inE qp orbT.
case: (altP (p =P parse_sym i)) => [->|ne]; first by rewrite rep_hit ?IH //.
case: (Hh p (mem_head _ _)) => [qp|[j hj E]].
  by rewrite (rep_pass _ (hole_pass _ hi qp)) IH.
rewrite E (rep_pass _ (other_pass _ hi hj _)) ?IH //.
by apply: contra ne => /eqP <-; rewrite E.
Qed.

Lemma cut_map f ps : (forall p, p \in ps -> gap p -> f p = p) -> (forall p, p \in ps -> word p -> gap (f p) \/ f p = p) ->
  cut ps -> cut (map f ps).
Proof.
elim: ps => [|p ps IH] //= Hg Hw /andP[Hp Hc].
have {IH}-> : cut (map f ps).
  by apply: IH => // q qp; [apply: Hg|apply: Hw]; rewrite inE qp orbT.
rewrite andbT; case/orP: Hp => [gp|/andP[wp gn]]; first by rewrite Hg ?mem_head // gp.
case: (Hw p (mem_head _ _) wp) => [->//|->]; rewrite wp /=; apply/orP; right.
case: ps Hg Hw Hc gn => [|q ps] //= Hg _ _ gq; by rewrite Hg // !inE eqxx orbT.
Qed.
Lemma gap_word p : gap p -> word p = false.
Proof. by move=> gp; apply/negP => /gap_neq/(_ gp); rewrite eqxx. Qed.
Definition put (g h p : text) : text := if p == g then h else p.
Lemma mem_put g h (ps : seq text) x : x != g -> x != h -> (x \in map (put g h) ps) = (x \in ps).
Proof.
move=> xg xh; apply/mapP/idP => [[p pp]|xp]; last by exists x => //; rewrite /put (negbTE xg).
by rewrite /put; case: eqP => [_ E|_ ->//]; rewrite E eqxx in xh.
Qed.

Lemma word_alphabet p : p \in letters_of_alphabet -> word p.
Proof. have H : all word letters_of_alphabet by vm_compute.
exact: (allP H). Qed.

Section Hide.
Variable esc : text -> bool.           (* the glyphs that are already escaped *)
Variable Inv : seq text -> Prop.
Hypothesis Hinv : forall ps g, Inv ps -> g \in ps -> g \in letters_of_alphabet -> infix (bs :: g) (flatten ps) = esc g.
Hypothesis Hstep : forall ps g i, Inv ps -> word g -> hole_ok i -> Inv (map (put g (parse_sym i)) ps).

Definition shown (g : text) : text := if esc g then g else bs :: g ++ txt " ".
Definition used (al ps : seq text) : seq text := [seq g <- al | g \in ps].
(* every word is a glyph or contains none *)
Definition clear_of (al ps : seq text) : Prop :=
  forall p, p \in ps -> word p -> p \in al \/ forall g, g \in al -> ~~ infix g p.
Lemma clear_sole g al ps : sorted (fun p q => size q <= size p)%N (g :: al) -> clear_of (g :: al) ps -> sole g ps.
Proof.
move=> so cl p pp wp; case: (cl p pp wp) => [|H]; last by right; apply: H; rewrite mem_head.
have leg : forall q, q \in g :: al -> (size q <= size g)%N.
  move=> q; rewrite inE => /orP[/eqP->//|qa]; move: so; rewrite /= path_sortedE; last first.
    by move=> a b c ab bc; exact: leq_trans bc ab.
  by case/andP=> /allP/(_ q qa).
move=> /leg ls; case: (boolP (infix g p)) => [/infixP[a [b E]]|]; [left|by right].
move: ls; rewrite E !size_cat; case: a {E} => [|x a]; last by rewrite /= addSn addnCA ltnNge leq_addr.
rewrite add0n; case: b => [|y b]; first by rewrite cats0.
by rewrite /= addnS ltnNge leq_addr.
Qed.
Lemma hole_word i : hole_ok i -> word (parse_sym i) = false.
Proof. by move/hole_gap/gap_word. Qed.

Lemma hideE al ps i dict : {subset al <= letters_of_alphabet} -> uniq al -> sorted (fun p q => size q <= size p)%N al ->
  cut ps -> clear_of al ps -> Inv ps -> (0 < i)%N -> (i + size (used al ps) <= 10)%N ->
  hide_glyphs al i dict (flatten ps) =
    (dict ++ [seq (parse_sym (i + index g (used al ps)), shown g) | g <- used al ps],
     flatten [seq if p \in used al ps then parse_sym (i + index p (used al ps)) else p | p <- ps]).
Proof.
elim: al ps i dict => [|g al IH] ps i dict wal ual sal cp cl iv i0 ib.
  by rewrite /= cats0 map_id.
have ga := wal g (mem_head _ _); have wg := word_alphabet ga.
have wal1 : {subset al <= letters_of_alphabet} by move=> h ha; apply: wal; rewrite inE ha orbT.
have wal' : all word al by apply/allP => h /wal1/word_alphabet.
case/andP: (ual) => nga ual'.
have so := clear_sole sal cl; have sal' : sorted (fun p q => size q <= size p)%N al by apply: path_sorted sal.
rewrite [hide_glyphs _ _ _ _]/= inf_words //; case: (boolP (g \in ps)) => gp; last first.
  have E : used (g :: al) ps = used al ps by rewrite /used /= (negbTE gp).
  rewrite E in ib *; apply: IH => // p pp wp; case: (cl p pp wp) => [|H]; last by right=> h ha; apply: H; rewrite inE ha orbT.
  by rewrite inE => /orP[/eqP E'|]; [rewrite -E' pp in gp|left].
have E : used (g :: al) ps = g :: used al ps by rewrite /used /= gp.
have hi : hole_ok i by rewrite /hole_ok i0 /=; move: ib; rewrite E /= addnS; apply: leq_trans; rewrite ltnS leq_addr.
set ps1 := map (put g (parse_sym i)) ps.
have E1 : used al ps1 = used al ps.
  apply: eq_in_filter => h ha; apply: mem_put; first by apply: contraNneq nga => <-.
  by apply: contraTneq (allP wal' h ha) => ->; rewrite hole_word.
have W : forall p, p \in ps1 -> word p -> p \in ps /\ p != g.
  move=> p /mapP[q qp ->]; rewrite /put; case: (altP (q =P g)) => [_|ne] //; by rewrite hole_word.
rewrite rep_words // -[map _ ps]/ps1 IH //; last 1 first.
- by rewrite E1; move: ib; rewrite E /= addnS addSn.
- rewrite E1 (Hinv iv gp ga) -/(shown g) cat_rcons; congr (_, _).
    rewrite E /= eqxx addn0; congr (_ ++ _ :: _); apply/eq_in_map => h; rewrite mem_filter => /andP[_ ha].
    case: (altP (g =P h)) => [Eh|_]; first by rewrite Eh ha in nga.
    by rewrite addnS addSn.
  congr flatten; rewrite /ps1 -map_comp; apply/eq_in_map => p pp.
  rewrite E inE [LHS]/= /put /= [g == p]eq_sym; case: (altP (p =P g)) => [->|ne] /=.
    rewrite addn0; case: ifP => //; rewrite mem_filter => /andP[_ ha].
    by move: (allP wal' _ ha); rewrite hole_word.
  by rewrite addnS addSn.
- apply: cut_map => // p pp; first by move=> gap_p; rewrite /put gap_neq.
  by move=> wp; rewrite /put; case: eqP => _; [left; exact: hole_gap|right].
- move=> p pp wp; case: (W p pp wp) => pps ne; case: (cl p pps wp) => [|H].
    by rewrite inE (negbTE ne) /= => ->; left.
  by right=> h ha; apply: H; rewrite inE ha orbT.
- exact: Hstep.
Qed.

(* ---- the place holders are filled in ---- *)
Definition fill (q : text) (kv : text * text) : text := if q == kv.1 then kv.2 else q.
Lemma showE (d : seq (text * text)) ps : (forall kv, kv \in d -> (exists2 j, hole_ok j & kv.1 = parse_sym j) /\ q_mark \notin kv.2) ->
  holed ps -> show_glyphs d (flatten ps) = flatten [seq foldl fill q d | q <- ps].
Proof.
rewrite /show_glyphs; elim: d ps => [|[k v] d IH] ps Hd Hh /=; first by rewrite map_id.
case: (Hd (k, v) (mem_head _ _)) => -[j hj /= Ek] qv; rewrite Ek rep_hole // IH.
- by rewrite -map_comp; congr flatten; apply: eq_map => q.
- by move=> kv kd; apply: Hd; rewrite inE kd orbT.
move=> q /mapP[p pp ->]; case: eqP => _; [by left|exact: Hh].
Qed.
Lemma fill_free (d : seq (text * text)) q : (forall kv, kv \in d -> q_mark \in kv.1) -> q_mark \notin q -> foldl fill q d = q.
Proof.
elim: d => [|kv d IH] //= Hd nq; rewrite {2}/fill; case: eqP => [E|_].
  by move: nq; rewrite E Hd // mem_head.
by apply: IH => // kv' kd; apply: Hd; rewrite inE kd orbT.
Qed.
Lemma fill_hole (us : seq text) i p : uniq us -> p \in us -> (0 < i)%N -> (i + size us <= 10)%N ->
  (forall g, g \in us -> q_mark \notin shown g) ->
  foldl fill (parse_sym (i + index p us)) [seq (parse_sym (i + index g us), shown g) | g <- us] = shown p.
Proof.
elim: us i => [|g us IH] //= i /andP[ng uu] pu i0 ib Hq; rewrite eqxx addn0.
have hol k : (k <= size us)%N -> hole_ok (i + k).
  by move=> ks; rewrite /hole_ok (leq_trans i0 (leq_addr _ _)) /= (leq_trans _ ib) // addnS ltnS leq_add2l.
have Em : [seq (parse_sym (i + (if g == h then 0 else (index h us).+1)), shown h) | h <- us] =
          [seq (parse_sym (i.+1 + index h us), shown h) | h <- us].
  apply/eq_in_map => h hu; case: (altP (g =P h)) => [Eh|_]; first by rewrite Eh hu in ng.
  by rewrite addSnnS.
rewrite Em; case: (altP (g =P p)) => [<-|ne].
  rewrite addn0 {2}/fill /= eqxx fill_free ?Hq ?mem_head // => kv /mapP[h _ ->]; exact: hole_q.
have pu' : p \in us by move: pu; rewrite inE eq_sym (negbTE ne).
have E : fill (parse_sym (i + (index p us).+1)) (parse_sym i, shown g) = parse_sym (i + (index p us).+1).
  rewrite /fill /=; case: eqP => // E; have h1 : hole_ok (i + (index p us).+1) by apply: hol; rewrite index_mem.
  have h2 : hole_ok i by rewrite -[i]addn0; exact: hol.
  by have /eqP := hole_inj h1 h2 E; rewrite -{2}[i]addn0 eqn_add2l.
rewrite E {E} addnS -addSn; apply: IH => //; first by rewrite addSn -addnS.
by move=> h hu; apply: Hq; rewrite inE hu orbT.
Qed.
End Hide.

(* ---- the spelling of lamda ---- *)
Lemma cut_words f ps : (forall p, p \in ps -> gap p -> f p = p) -> (forall p, p \in ps -> word p -> word (f p)) ->
  cut ps -> cut (map f ps).
Proof.
elim: ps => [|p ps IH] //= Hg Hw /andP[Hp Hc].
have {IH}-> : cut (map f ps).
  by apply: IH => // q qp; [apply: Hg|apply: Hw]; rewrite inE qp orbT.
rewrite andbT; case/orP: Hp => [gp|/andP[wp gn]]; first by rewrite Hg ?mem_head // gp.
rewrite Hw ?mem_head //=; apply/orP; right.
case: ps Hg Hw Hc gn => [|q ps] //= Hg _ _ gq; by rewrite Hg // !inE eqxx orbT.
Qed.
Lemma put_none (k v : text) ps : k \notin ps -> map (put k v) ps = ps.
Proof.
move=> nk; rewrite -[RHS]map_id; apply/eq_in_map => p pp; rewrite /put.
by case: eqP => // E; rewrite -E pp in nk.
Qed.
Lemma renamed k v ps : word k -> cut ps -> sole k ps ->
  (if infix k (flatten ps) then replace k v (flatten ps) else flatten ps) = flatten (map (put k v) ps).
Proof.
move=> wk cp so; rewrite inf_words //; case: ifP => kp; first by rewrite rep_words.
by rewrite put_none // kp.
Qed.
Lemma flatten_pieces (f : text -> text) (T : text -> seq text) ps :
  flatten (map f (flatten (map T ps))) = flatten [seq flatten (map f (T p)) | p <- ps].
Proof. by elim: ps => [|p ps IH] //=; rewrite map_cat flatten_cat IH. Qed.

Section Translate.
Variable esc : text -> bool.
Variable Inv : seq text -> Prop.
Hypothesis Hinv : forall ps g, Inv ps -> g \in ps -> g \in letters_of_alphabet -> infix (bs :: g) (flatten ps) = esc g.
Hypothesis Hstep : forall ps g i, Inv ps -> word g -> hole_ok i -> Inv (map (put g (parse_sym i)) ps).
Variables (al ps : seq text).
Hypotheses (Hal : special_alphabet al) (Hr : readable ps) (Hc : (alphabet_count ps < 10)%N) (Hi : Inv ps).

Lemma glyphsE : glyphs = letters_of_alphabet. Proof. by []. Qed.
Lemma mem_al : al =i letters_of_alphabet.
Proof. by case: Hal => /perm_mem H _ p; rewrite H. Qed.
Lemma sub_al : {subset al <= letters_of_alphabet}.
Proof. by move=> p; rewrite mem_al. Qed.
Lemma uniq_al : uniq al.
Proof. by case: Hal => /perm_uniq -> _; vm_compute. Qed.
Lemma cut_ps : cut ps. Proof. by case/andP: Hr => /andP[]. Qed.
Lemma free_ps p : p \in ps -> q_mark \notin p.
Proof.
case/andP: Hr => _ nq pp; apply: contra nq => qp; apply/flattenP; by exists p.
Qed.
Lemma words_ps p : p \in ps -> word p -> p \in letters_of_alphabet \/ plain_word p.
Proof. by case/andP: Hr => /andP[_ /allP H] _ /H /implyP H2 /H2 /orP. Qed.
Lemma clear_ps : clear_of al ps.
Proof.
move=> p pp wp; case: (words_ps pp wp) => [pa|/allP H]; first by left; rewrite mem_al.
by right=> g; rewrite mem_al => ga; apply: H; rewrite inE ga orbT.
Qed.
Lemma mem_used p : p \in ps -> (p \in used al ps) = (p \in letters_of_alphabet).
Proof. by move=> pp; rewrite mem_filter pp mem_al. Qed.
Lemma size_used : size (used al ps) = alphabet_count ps.
Proof.
rewrite /alphabet_count; apply: perm_size; apply: uniq_perm; rewrite ?undup_uniq ?filter_uniq ?uniq_al // => p.
by rewrite mem_undup !mem_filter mem_al andbC.
Qed.
Lemma used_ps g : g \in used al ps -> g \in ps. Proof. by rewrite mem_filter => /andP[]. Qed.
Lemma shown_free g : g \in used al ps -> q_mark \notin shown esc g.
Proof.
move=> /used_ps /free_ps nq; rewrite /shown; case: (esc g) => //.
by rewrite inE mem_cat; apply/negP => /or3P[|qg|] //; rewrite qg in nq.
Qed.
Definition final (p : text) : text := if p \in letters_of_alphabet then shown esc p else p.
Lemma shownE : (let: (dict, tmp) := hide_glyphs al 1 [::] (flatten ps) in show_glyphs dict tmp) = flatten (map final ps).
Proof.
have ib : (1 + size (used al ps) <= 10)%N by rewrite size_used.
have hol g : g \in used al ps -> hole_ok (1 + index g (used al ps)).
  by rewrite -index_mem => H; rewrite /hole_ok /= (leq_ltn_trans _ ib) // ltn_add2l.
rewrite (hideE Hinv Hstep [::] sub_al uniq_al) //; first last.
- exact: clear_ps.
- exact: cut_ps.
- by case: Hal.
rewrite cat0s showE; first last.
- move=> p /mapP[q qp ->]; case: ifP => [/hol hq|_]; first by right; eexists; first exact: hq.
  by left; exact: free_ps.
- move=> kv /mapP[g gu ->]; split; last exact: shown_free.
  by exists (1 + index g (used al ps)) => //; exact: hol.
congr flatten; rewrite -map_comp; apply/eq_in_map => p pp /=; rewrite /final -mem_used //.
case: ifP => pu; last first.
  apply: fill_free; last exact: free_ps.
  by move=> kv /mapP[g _ ->]; exact: hole_q.
by apply: (@fill_hole esc _ 1 p) => //; [exact: filter_uniq uniq_al|exact: shown_free].
Qed.

Definition split_final (p : text) : seq text :=
  if (p \in letters_of_alphabet) && ~~ esc p then [:: [:: bs]; p; txt " "] else [:: p].
Lemma finalE p : final p = flatten (split_final p).
Proof.
rewrite /final /split_final /shown; case: (p \in letters_of_alphabet) => /=; last by rewrite cats0.
by case: (esc p) => /=; rewrite ?cats0.
Qed.
Lemma cut_final qs : cut qs -> cut (flatten (map split_final qs)).
Proof.
elim: qs => [|p qs IH] //= /andP[Hp /IH {}IH].
have gn : gap_next qs -> gap_next (flatten (map split_final qs)).
  case: qs {Hp IH} => [|q qs] //= gq; rewrite /split_final.
  case: ifP => //= _; by rewrite gq.
rewrite {1}/split_final; case: ifP => [/andP[pa _]|_] /=; last first.
  by rewrite IH andbT; case/orP: Hp => [->//|/andP[-> /gn ->]]; rewrite orbT.
rewrite IH; rewrite (word_alphabet pa).
by rewrite orbT.
Qed.
Lemma word_final p : p \in flatten (map split_final ps) -> word p -> p \in ps.
Proof.
move=> /flattenP[s /mapP[q qp ->]]; rewrite /split_final; case: ifP => _; rewrite !inE.
  by case/or3P => /eqP -> //.
by move/eqP->.
Qed.
Lemma infix_alphabet k g : g \in letters_of_alphabet ->
  all (fun p => (p == k) || ~~ infix k p) letters_of_alphabet -> g = k \/ ~~ infix k g.
Proof. by move=> ga /allP/(_ _ ga)/orP[/eqP|]; [left|right]. Qed.
Lemma translateE : translate al (flatten ps) =
  flatten [seq if p \in letters_of_alphabet then (if esc p then spelled p else bs :: spelled p ++ txt " ") else p | p <- ps].
Proof.
rewrite /translate; have := shownE; case: (hide_glyphs _ _ _ _) => dict tmp E; rewrite E {dict tmp E}.
have -> : flatten (map final ps) = flatten (flatten (map split_final ps)).
  by rewrite (eq_map finalE); elim: (ps) => [|p qs IH] //=; rewrite flatten_cat IH.
set qs := flatten (map split_final ps).
have cq : cut qs by apply: cut_final; exact: cut_ps.
rewrite /rename_glyphs [foldl _ _ _]/= renamed //; last first.
  move=> p pq wp; case: (words_ps (word_final pq wp) wp) => [pa|/allP H].
    by apply: infix_alphabet pa _; vm_compute.
  by right; apply: H; vm_compute.
have wl : forall p, p \in qs -> word p -> word (put (txt "lamda") (txt "lambda") p).
  by move=> p _ wp; rewrite /put; case: eqP.
rewrite renamed //; first last.
- move=> p /mapP[q qq ->]; rewrite /put; case: eqP => [_ _|_ wq]; first by right; vm_compute.
  case: (words_ps (word_final qq wq) wq) => [pa|/allP H].
    have H : all (fun p => ~~ infix (txt "Lamda") p) letters_of_alphabet by vm_compute.
    by right; exact: (allP H).
  by right; apply: H; rewrite mem_head.
- apply: cut_words => // p pp gp; by rewrite /put gap_neq.
rewrite [map _ (map _ qs)]put_none; last first.
  apply/mapP => -[q qq]; rewrite /put; case: eqP => // _ E.
  have wq : word q by rewrite -E; vm_compute.
  case: (words_ps (word_final qq wq) wq) => [|/allP H]; first by rewrite -E; vm_compute.
  by have /negP[] := H (chars "Lamda") (mem_head _ _); rewrite -E infix_refl.
rewrite flatten_pieces; congr flatten; apply/eq_in_map => p pp; rewrite /split_final.
have nl : (p == txt "lamda") = (p == chars "lamda") by [].
case: (boolP (p \in letters_of_alphabet)) => pa /=; last first.
  rewrite cats0 /put; case: eqP => // E; by move: pa; rewrite E; vm_compute.
by case: (esc p) => /=; rewrite ?cats0 /put /spelled //=.
Qed.
End Translate.
