(* Props_BladeName.v -- property C62: names of the basis blades *)
From Coq Require Import String Ascii ZArith.
From mathcomp Require Import all_ssreflect all_algebra.
From Verif Require Import NatTac PyBase PyStr Spec_Index Ga_Model Ga_Proof_Tables Names_Model Names_Proof BladeName_Model.
Set Implicit Arguments.
Unset Strict Implicit.
Unset Printing Implicit Defensive.
Local Open Scope string_scope.

(* ---- specification ---- *)
Definition no (c : ascii) (s : string) : bool := ~~ has_char c s.
Definition chosen (l : seq string) (I : seq nat) : seq string := [seq nth "" l i | i <- I].
(* one after the other *)
Definition glued (l : seq string) : string := foldr append "" l.
Definition digit_char (c : ascii) : bool := (nat_of_ascii "0" <= nat_of_ascii c <= nat_of_ascii "9")%N.
Fixpoint each (p : ascii -> bool) (s : string) : bool := if s is String c s' then p c && each p s' else true.

Lemma gluedE l : concat l = glued l. Proof. by elim: l => //= x l ->. Qed.
Lemma digit_charE c : (if digit c is Some _ then true else false) = digit_char c.
Proof. by move: c; case=> [[] [] [] [] [] [] [] []]; vm_compute. Qed.
Lemma chosen_inj l I J : uniq l -> all (fun i => i < size l)%N I -> all (fun i => i < size l)%N J ->
  chosen l I = chosen l J -> I = J.
Proof.
move=> u; elim: I J => [|i I IH] [|j J] //= /andP[li lI] /andP[lj lJ] [/eqP e].
by move: e; rewrite nth_uniq // => /eqP-> /IH->.
Qed.
Lemma app_len a b c d : String.length a = String.length b -> a +++ c = b +++ d -> a = b /\ c = d.
Proof. by elim: a b => [|x a IH] [|y b] //= [sz] [-> /IH[]// -> ->]. Qed.
Lemma glued_inj k l m : (0 < k)%N -> all (fun s => String.length s == k) l -> all (fun s => String.length s == k) m ->
  glued l = glued m -> l = m.
Proof.
move=> k0; have ne x y : String.length x == k -> x +++ y <> "" by case: x => [/eqP e|] //; rewrite -e in k0.
elim: l m => [|x l IH] [|y m] //=.
- by move=> _ /andP[/ne h _] /esym/h.
- by move=> /andP[/ne h _] _ /h.
move=> /andP[/eqP sx al] /andP[/eqP sy am] /app_len[|-> /IH-> //].
by rewrite sx sy.
Qed.
Lemma joined_inj (c : ascii) names I J : uniq names -> all (no c) names -> "1" \notin names -> c <> "1"%char ->
  wfI (size names) I -> wfI (size names) J ->
  (if nilp I then "1" else join (String c "") (chosen names I)) = (if nilp J then "1" else join (String c "") (chosen names J)) -> I = J.
Proof.
move=> u nc n1 c1 /andP[_ aI] /andP[_ aJ].
have mem K : all (fun i => i < size names)%N K -> all (no c) (chosen names K).
  by move=> /allP h; apply/allP => _ /mapP[i /h li ->]; apply: (allP nc); exact: mem_nth.
have sp K : K != [::] -> all (fun i => i < size names)%N K -> split c (join (String c "") (chosen names K)) = chosen names K.
  by move=> K0 aK; apply: split_join; [case: K K0 {aK} | exact: mem].
have one K : K != [::] -> all (fun i => i < size names)%N K -> "1" <> join (String c "") (chosen names K).
  move=> K0 aK E; have := sp K K0 aK; rewrite -E split_none; last by rewrite /= orbF; apply/eqP => e; apply: c1.
  case: K aK {K0 E} => [|i [|]] //= /andP[li _] [e]; by move: n1; rewrite e mem_nth.
case: I aI => [|i I] aI; case: J aJ => [|j J] aJ // E.
- by case: (one (j :: J) isT aJ).
- by case: (one (i :: I) isT aI).
by apply: (chosen_inj u aI aJ); rewrite -(sp (i :: I)) // [join _ _]E sp.
Qed.
(* with wedges: distinct blades have distinct names *)
Theorem C62_wedge names I J : uniq names -> all (no "^") names -> "1" \notin names ->
  wfI (size names) I -> wfI (size names) J ->
  isSome (blade_str true names I) /\ (blade_str true names I = blade_str true names J -> I = J).
Proof.
move=> u nc n1 wI wJ.
have bE K : blade_str true names K = Some (if nilp K then "1" else join "^" (chosen names K)).
  by rewrite /blade_str; case: K => [|i [|j K]].
by rewrite !bE; split=> // -[]; exact: joined_inj.
Qed.
(* the products of basis vectors *)
Theorem C62_base names I J : uniq names -> all (no "*") names -> "1" \notin names ->
  wfI (size names) I -> wfI (size names) J -> base_str names I = base_str names J -> I = J.
Proof.
move=> u nc n1 wI wJ; have bE K : base_str names K = if nilp K then "1" else join "*" (chosen names K).
  by rewrite /base_str; case: K.
by rewrite !bE; exact: joined_inj.
Qed.

(* ---- without wedges ---- *)
Definition rooted (root : string) (subs : seq string) : seq string := [seq root +++ "_" +++ s | s <- subs].
Lemma chosen_rooted root subs I : all (fun i => i < size subs)%N I ->
  chosen (rooted root subs) I = rooted root (chosen subs I).
Proof.
move=> /allP h; rewrite /rooted /chosen -map_comp; apply/eq_in_map => i /h li /=.
by rewrite (nth_map "") .
Qed.
Lemma split_rooted root s : no "_" root -> no "_" s -> split "_" (root +++ "_" +++ s) = [:: root; s].
Proof. by move=> nr ns; rewrite split_cut // split_none. Qed.
Lemma omap_rooted root l : no "_" root -> all (no "_") l ->
  omapM (fun x => if split "_" x is [:: root; sub] then Some (root, sub) else None) (rooted root l) = Some [seq (root, s) | s <- l].
Proof. by move=> nr; elim: l => //= s l IH /andP[ns /IH E]; rewrite split_rooted //= E. Qed.
Lemma wedgeless_rooted root l : no "_" root -> all (no "_") l -> l != [::] ->
  wedgeless_str (rooted root l) = Some (root +++ "_" +++ glued l).
Proof.
move=> nr nl l0; rewrite /wedgeless_str /split_name omap_rooted //=.
have -> : [seq p.1 | p <- [seq (root, s) | s <- l]] = nseq (size l) root by elim: (l) => //= s l' ->.
have -> : [seq p.2 | p <- [seq (root, s) | s <- l]] = l by rewrite -map_comp map_id.
have -> : all_same (nseq (size l) root).
  by rewrite /all_same; case: l l0 {nl} => //= s l _; rewrite eqxx all_nseq eqxx orbT.
by rewrite /= gluedE; case: l l0 {nl}.
Qed.
(* every vector has a name root_subscript: a blade is printed as root_subscripts *)
Theorem C62_wedgeless root subs I : no "_" root -> all (no "_") subs -> wfI (size subs) I -> I != [::] ->
  blade_str false (rooted root subs) I = Some (root +++ "_" +++ glued (chosen subs I)).
Proof.
move=> nr ns /andP[_ aI] I0; rewrite /blade_str -/(chosen _ _) chosen_rooted //.
have nc : all (no "_") (chosen subs I).
  by apply/allP => _ /mapP[i /(allP aI) li ->]; apply: (allP ns); exact: mem_nth.
case: I I0 nc {aI} => [|i [|j I]] // _ nc; first by rewrite /= app_empty.
exact: wedgeless_rooted.
Qed.
(* distinct subscripts of one length: distinct blades have distinct names *)
Theorem C62_wedgeless_distinct root subs k I J : no "_" root -> all (no "_") subs -> uniq subs -> (0 < k)%N ->
  all (fun s => String.length s == k) subs -> wfI (size subs) I -> wfI (size subs) J ->
  blade_str false (rooted root subs) I = blade_str false (rooted root subs) J -> I = J.
Proof.
move=> nr ns us k0 lk wI wJ.
have one K : K != [::] -> wfI (size subs) K -> Some "1" <> blade_str false (rooted root subs) K.
  move=> K0 wK; rewrite C62_wedgeless // => -[] /(congr1 (has_char "_")).
  by rewrite has_app /= orbT.
have len K : wfI (size subs) K -> all (fun s => String.length s == k) (chosen subs K).
  move=> /andP[_ aK]; apply/allP => _ /mapP[i /(allP aK) li ->]; by apply: (allP lk); exact: mem_nth.
case: I wI => [|i I] wI; case: J wJ => [|j J] wJ // E.
- by case: (one (j :: J) isT wJ).
- by case: (one (i :: I) isT wI).
move: E; rewrite !C62_wedgeless // => -[] /app_injl[] E.
have /andP[_ aI] := wI; have /andP[_ aJ] := wJ.
by apply: (chosen_inj us aI aJ); exact: (glued_inj k0 (len _ wI) (len _ wJ) E).
Qed.
(* when the wedgeless name of a blade raises *)
Theorem C62_wedgeless_raises names I : (1 < size I)%N ->
  blade_str false names I = None <->
  ~ exists root subs, [/\ no "_" root, all (no "_") subs & chosen names I = rooted root subs].
Proof.
move=> s1; have -> : blade_str false names I = wedgeless_str (chosen names I) by case: I s1 => [|i [|j I]].
have ne : chosen names I != [::] by case: I s1.
split=> [E [root [subs [nr ns cE]]]|h].
  by move: E ne; rewrite cE => + ne; rewrite wedgeless_rooted //; case: subs ne {ns cE}.
case E: wedgeless_str => [s|] //; case: h; move: E; rewrite /wedgeless_str /split_name.
case E: omapM => [ps|] //=; case: ifP => // sm _.
exists (head "" [seq p.1 | p <- ps]), [seq p.2 | p <- ps].
have h : all (fun p => no "_" p.1 && no "_" p.2) ps /\ chosen names I = [seq p.1 +++ "_" +++ p.2 | p <- ps].
  elim: (chosen names I) ps E {sm ne} => [|x l IH] ps /=; first by case=> <-.
  case Ex: (split "_" x) => [|r [|s' [|]]] //=; case E: omapM => [qs|] //= [<-] /=.
  have [-> ->] := IH _ E; have := has_split "_" x; rewrite Ex /= => /and3P[n1 n2 _]; rewrite /no n1 n2; split=> //.
  by rewrite -(join_split "_" x) Ex.
case: h => ah ->; move: sm; rewrite /all_same => /allP sm; split.
- case: ps ah ne {sm E} => [|p ps] //= /andP[/andP[]] //.
- by apply/allP => _ /mapP[p /(allP ah)/andP[_ np] ->].
by rewrite /rooted -map_comp; apply/eq_in_map => p pin /=; rewrite (eqP (sm _ (map_f _ pin))).
Qed.
(* ---- the dictionary of blades ---- *)
Lemma digits_app a b : digits_of (a +++ b) = digits_of a +++ digits_of b.
Proof. by elim: a => //= c a ->; case: digit. Qed.
Lemma digits_none s : each (predC digit_char) s -> digits_of s = "".
Proof. by elim: s => //= c s IH /andP[]; rewrite -digit_charE; case: digit. Qed.
Lemma digits_all s : each digit_char s -> digits_of s = s.
Proof. by elim: s => //= c s IH /andP[]; rewrite -digit_charE; case: digit => // z _ /IH->. Qed.
Lemma digits_glued l : digits_of (glued l) = glued [seq digits_of s | s <- l].
Proof. by elim: l => //= s l IH; rewrite digits_app IH. Qed.
Lemma digits_join c l : digit c = None -> digits_of (join (String c "") l) = glued [seq digits_of s | s <- l].
Proof.
move=> dc; elim: l => [|s [|t l] IH] //; first by rewrite /= app_empty.
by rewrite join_cons !digits_app IH /= dc.
Qed.
Lemma no_underscore s : each digit_char s -> no "_" s.
Proof.
elim: s => //= c s IH /andP[dc /IH ns]; rewrite /no /= negb_or; apply/andP; split=> //; apply/eqP => e.
by move: dc; rewrite e.
Qed.
Lemma blade_digits wedge root subs I : no "_" root -> each (predC digit_char) root -> all (each digit_char) subs ->
  wfI (size subs) I -> I != [::] -> exists2 s, blade_str wedge (rooted root subs) I = Some s & digits_of s = glued (chosen subs I).
Proof.
move=> nr dr ds wI I0; have /andP[_ aI] := wI.
have dc : all (each digit_char) (chosen subs I).
  by apply/allP => _ /mapP[i /(allP aI) li ->]; apply: (allP ds); exact: mem_nth.
case: wedge; last first.
  rewrite C62_wedgeless //; last by apply: sub_all ds => s; exact: no_underscore.
  eexists; first reflexivity; rewrite !digits_app (digits_none dr) /= digits_glued; congr glued.
  by rewrite -[RHS]map_id; apply/eq_in_map => s /(allP dc)/digits_all.
have -> : blade_str true (rooted root subs) I = Some (join "^" (chosen (rooted root subs) I)).
  by case: I I0 {wI aI dc} => [|i [|j I]].
eexists; first reflexivity; rewrite digits_join // chosen_rooted // /rooted -map_comp; congr glued.
rewrite -[RHS]map_id; apply/eq_in_map => s /(allP dc)/digits_all sE /=.
by rewrite digits_app (digits_none dr) /= sE.
Qed.
Lemma behead_flat n I : (I \in behead (indexes_flat n)) = wfI n I && (I != [::]).
Proof.
have h : indexes_flat n = [::] :: behead (indexes_flat n) by rewrite /indexes_flat /indexes /=; case: (iota 0 n).
rewrite -mem_indexes_flat {2}h inE; have := indexes_flat_uniq n; rewrite h /= => /andP[nn _].
by case: (I =P [::]) => [->|] /=; rewrite ?andbT // (negbTE nn).
Qed.
Lemma omapM_ex (A B : Type) (f : A -> option B) (P : A -> B -> Prop) (l : seq A) :
  (forall x, List.In x l -> exists2 y, f x = Some y & P x y) -> exists2 r, omapM f l = Some r & List.Forall2 P l r.
Proof.
elim: l => [|x l IH] h /=; first by exists [::] => //; constructor.
have [|y -> py] := h x; first by left.
have [|r -> pr] := IH; first by move=> z zl; apply: h; right.
by exists (y :: r) => //; constructor.
Qed.
Lemma dget_in (K : eqType) (V : Type) (d : seq (K * V)) k v : uniq [seq p.1 | p <- d] -> List.In (k, v) d -> dget d k = Some v.
Proof.
elim: d => //= -[k' v'] d IH /andP[nk u] [[-> ->]|i]; first by rewrite eqxx.
case: eqP => [e|_]; last exact: IH.
by case/negP: nk; rewrite e /=; move: i {IH u e}; elim: d => //= p d IH [->|/IH]; rewrite inE ?eqxx // => ->; rewrite orbT.
Qed.
(* the dictionary: one entry for every blade that is not the scalar, under the prefix followed by the subscripts *)
Theorem C62_dict wedge prefix root subs k : no "_" root -> each (predC digit_char) root ->
  all (each digit_char) subs -> uniq subs -> (0 < k)%N -> all (fun s => String.length s == k) subs ->
  exists2 d, bases_dict wedge prefix (rooted root subs) = Some d &
    [/\ size d = (2 ^ size subs).-1, uniq [seq p.1 | p <- d] &
        forall I, wfI (size subs) I -> I != [::] ->
          dget d ((if prefix is Some p then p else "e") +++ glued (chosen subs I)) = Some I].
Proof.
move=> nr dr ds us k0 lk; rewrite /bases_dict; set pre := if prefix is Some _ then _ else _.
have sz : size (rooted root subs) = size subs by rewrite size_map.
rewrite sz; set bl := behead _.
have len K : wfI (size subs) K -> all (fun s => String.length s == k) (chosen subs K).
  move=> /andP[_ aK]; apply/allP => _ /mapP[i /(allP aK) li ->]; by apply: (allP lk); exact: mem_nth.
have inP I : List.In I bl -> wfI (size subs) I && (I != [::]).
  rewrite -behead_flat -/bl; elim: (bl) => //= J l IH [->|/IH]; rewrite inE ?eqxx // => ->; by rewrite orbT.
have [|strs E F] := @omapM_ex _ _ (blade_str wedge (rooted root subs)) (fun I s => digits_of s = glued (chosen subs I)) bl.
  by move=> I /inP/andP[wI I0]; exact: blade_digits.
rewrite E /=; have -> : [seq pre +++ digits_of s | s <- strs] = [seq pre +++ glued (chosen subs I) | I <- bl].
  by elim: {E inP} bl strs / F => //= I s l r -> _ ->.
set its := zip _ _; have itsE : its = [seq (pre +++ glued (chosen subs I), I) | I <- bl].
  by rewrite /its -{2}(map_id bl) zip_map.
have ub : uniq bl by have := indexes_flat_uniq (size subs); rewrite /bl; case: indexes_flat => //= I l /andP[].
have uk : uniq [seq p.1 | p <- its].
  rewrite itsE -map_comp map_inj_in_uniq // => I J; rewrite !behead_flat => /andP[wI _] /andP[wJ _] /= /app_injl e.
  have /andP[_ aI] := wI; have /andP[_ aJ] := wJ.
  by apply: (chosen_inj us aI aJ); exact: (glued_inj k0 (len _ wI) (len _ wJ) e).
rewrite dict_of_uniq //; exists its => //; split=> //.
  by rewrite itsE size_map /bl size_behead indexes_flat_size.
move=> I wI I0; apply: dget_in => //; rewrite itsE; apply/List.in_map_iff; exists I; split=> //.
have : I \in bl by rewrite behead_flat wI.
by elim: (bl) => //= J l IH; rewrite inE => /orP[/eqP->|/IH]; [left | right].
Qed.
Lemma last_flat n : last [::] (indexes_flat n) = iota 0 n.
Proof.
have full (T : Type) (l : seq T) : combinations l (size l) = [:: l].
  have big (m : seq T) j : (size m < j)%N -> combinations m j = [::].
    by elim: m j => [|x m IH] [|j] //= lt; rewrite !IH // ltnW.
  by elim: l => //= x l ->; rewrite big.
rewrite /indexes_flat /indexes -addn1 iotaD map_cat flatten_cat last_cat /= cats0.
by have := full _ (iota 0 n); rewrite size_iota => ->.
Qed.
Lemma dict_same (K : eqType) (V : Type) (p : K) (x : V) (l : seq V) :
  dict_of (zip (nseq (size l).+1 p) (x :: l)) = [:: (p, last x l)].
Proof.
rewrite /dict_of /=; elim: l x => [|y l IH] x //=; rewrite eqxx; exact: IH.
Qed.
(* names without digits: all blades go under the prefix alone; only the pseudoscalar is left *)
Theorem C62_no_digits_refuted prefix names : names != [::] -> all (each (predC digit_char)) names ->
  bases_dict true (Some prefix) names = Some [:: (prefix, iota 0 (size names))].
Proof.
move=> n0 nd; rewrite /bases_dict; set bl := behead _.
have [|strs E F] := @omapM_ex _ _ (blade_str true names) (fun I s => digits_of s = "") bl.
  move=> I iI; have wI : wfI (size names) I && (I != [::]).
    rewrite -behead_flat -/bl; move: iI; elim: (bl) => //= J l IH [->|/IH]; rewrite inE ?eqxx // => ->; by rewrite orbT.
  have -> : blade_str true names I = Some (join "^" (chosen names I)) by case/andP: wI; case: I {iI} => [|i [|j I]].
  eexists; first reflexivity; rewrite digits_join //.
  have : all (fun s => digits_of s == "") (chosen names I).
    by case/andP: wI => /andP[_ aI] _; apply/allP => _ /mapP[i /(allP aI) li ->]; rewrite digits_none // (allP nd) // mem_nth.
  by elim: (chosen names I) => //= s l IH /andP[/eqP-> /IH->].
rewrite E /=; have -> : [seq prefix +++ digits_of s | s <- strs] = nseq (size bl) prefix.
  by elim: {E} bl strs / F => //= I s l r -> _ ->; rewrite app_empty.
have := last_flat (size names); rewrite -/bl.
have -> : last [::] (indexes_flat (size names)) = last [::] bl.
  by rewrite /bl /indexes_flat /indexes /=; case: (iota 0 (size names)).
have : bl != [::].
  rewrite -size_eq0 /bl size_behead indexes_flat_size -lt0n -ltnS prednK ?expn_gt0 // -{1}(expn0 2).
  by rewrite ltn_exp2l // lt0n size_eq0.
by case: (bl) => [|I l] //= _ <-; rewrite dict_same.
Qed.
(* the basis of Cl(p,q,r) and its variant that starts at 0, with one digit in every subscript *)
Definition numbered (root : string) (first n : nat) : seq string := [seq root +++ "_" +++ str_nat i | i <- iota first n].
Theorem C62_dict_numbered wedge prefix root first n : no "_" root -> each (predC digit_char) root -> (first + n <= 10)%N ->
  exists2 d, bases_dict wedge prefix (numbered root first n) = Some d &
    [/\ size d = (2 ^ n).-1, uniq [seq p.1 | p <- d] &
        forall I, wfI n I -> I != [::] ->
          dget d ((if prefix is Some p then p else "e") +++ glued [seq str_nat (first + i) | i <- I]) = Some I].
Proof.
move=> nr dr le; have -> : numbered root first n = rooted root [seq str_nat i | i <- iota first n].
  by rewrite /rooted /numbered -map_comp.
have small i : i \in iota first n -> (i < 10)%N by rewrite mem_iota => /andP[_ h]; exact: leq_trans h le.
have all10 (P : string -> bool) : all (fun i => P (str_nat i)) (iota 0 10) -> all P [seq str_nat i | i <- iota first n].
  by move=> h; apply/allP => _ /mapP[i /small li ->]; apply: (allP h); rewrite mem_iota.
have [||||] := @C62_dict wedge prefix root [seq str_nat i | i <- iota first n] 1 nr dr => //.
- by apply: all10; vm_compute.
- by rewrite map_inj_uniq ?iota_uniq //; exact: str_nat_inj.
- by apply: all10; vm_compute.
rewrite size_map size_iota => d -> [h1 h2 h3]; exists d => //; split=> // I wI I0; rewrite -(h3 I wI I0).
congr (dget _ (_ +++ glued _)); apply/eq_in_map => i iI; have /andP[_ /allP h] := wI.
by rewrite (nth_map 0%N) ?size_iota ?nth_iota // h.
Qed.
(* with twelve vectors the vector e_12 and the blade e_1^e_2 have one key *)
Theorem C62_dict_refuted wedge prefix : exists I J, [/\ wfI 12 I, wfI 12 J, I != J &
  exists s t, [/\ blade_str wedge (numbered "e" 1 12) I = Some s, blade_str wedge (numbered "e" 1 12) J = Some t &
    (prefix : string) +++ digits_of s = prefix +++ digits_of t]].
Proof.
exists [:: 0; 1]%N, [:: 11]%N; split=> //; case: wedge.
  by exists "e_1^e_2", "e_12".
by exists "e_12", "e_12".
Qed.
(* without wedges e_1^e_2 and the vector e_12 are printed alike *)
Theorem C62_wedgeless_refuted : exists names I J, [/\ uniq names, wfI (size names) I, wfI (size names) J, I != J &
  blade_str false names I = blade_str false names J /\ blade_str false names I = Some "e_12"].
Proof. by exists [:: "e_1"; "e_2"; "e_12"], [:: 0; 1]%N, [:: 2]%N. Qed.
(* ---- concrete cases ---- *)
Example C62_wedge_ex : [/\ uniq [:: "e_x"; "e_y"; "e_z"], all (no "^") [:: "e_x"; "e_y"; "e_z"], "1" \notin [:: "e_x"; "e_y"; "e_z"] &
  blade_str true [:: "e_x"; "e_y"; "e_z"] [:: 0; 2]%N = Some "e_x^e_z"].
Proof. by []. Qed.
Example C62_base_ex : base_str [:: "e_x"; "e_y"; "e_z"] [:: 0; 2]%N = "e_x*e_z". Proof. by []. Qed.
Example C62_wedgeless_ex : blade_str false (rooted "e" [:: "x"; "y"; "z"]) [:: 0; 2]%N = Some "e_xz". Proof. by []. Qed.
Example C62_raises_ex : blade_str false [:: "a"; "b_1"] [:: 0; 1]%N = None /\ blade_str false [:: "a_1"; "b_1"] [:: 0; 1]%N = None.
Proof. by []. Qed.
Example C62_dict_ex : bases_dict true None (numbered "e" 1 2) = Some [:: ("e1", [:: 0]); ("e2", [:: 1]); ("e12", [:: 0; 1])]%N.
Proof. by vm_compute. Qed.
Example C62_no_digits_ex : bases_dict true (Some "e") [:: "x"; "y"] = Some [:: ("e", [:: 0; 1]%N)].
Proof. by vm_compute. Qed.
Print Assumptions C62_wedge.
Print Assumptions C62_base.
Print Assumptions C62_wedgeless.
Print Assumptions C62_wedgeless_distinct.
Print Assumptions C62_wedgeless_raises.
Print Assumptions C62_dict.
Print Assumptions C62_dict_numbered.
Print Assumptions C62_no_digits_refuted.
Print Assumptions C62_dict_refuted.
Print Assumptions C62_wedgeless_refuted.
