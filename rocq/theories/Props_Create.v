(* Props_Create.v -- C66: the calls ga.mv(...): several names and kinds in one call,
   functions of the coordinates, keyword arguments. *)
From Coq Require Import String Ascii.
From mathcomp Require Import all_ssreflect all_algebra.
From Verif Require Import NatTac Spec_Index PyBase PyStr Ga_Model Ga_Proof_Tables Names_Model Names_Proof Coef_Model Props_Make Create_Model.
Set Implicit Arguments.
Unset Strict Implicit.
Unset Printing Implicit Defensive.
Import GRing.Theory.
Local Open Scope ring_scope.
Local Open Scope string_scope.

(* ---- specification ---- *)
Definition no_blank (s : string) : bool := ~~ has_char " " s.
(* the names (or kinds) in one string, separated by single blanks *)
Definition listed (l : seq string) : string := join " " l.
Section Spec.
Variable R : comUnitRingType.
(* the answers to the calls: the first exception, or all results in order *)
Definition collects (whole : result (created R)) (calls : seq (result (created R))) : Prop :=
  (exists2 xs, whole = Ok (Many xs) & calls = [seq Ok (One x) | x <- xs]) \/
  (exists e ok rest, whole = Err e /\ calls = ([seq Ok (One x) | x <- ok] ++ Err e :: rest)%SEQ).
(* the coefficient that the keyword f asks for *)
Definition asked (coords : option (seq string)) (kw : kwargs) : option (string -> coef_ R) :=
  match [seq p.2 | p <- kw & p.1 == "f"] with
  | [::] | KBool false :: _ => Some (CSym R)
  | KBool true :: _ => if coords is Some cs then Some (fun s => CFun R s cs) else None
  | KVars vs :: _ => Some (fun s => CFun R s vs)
  | KOther :: _ => None
  end.
(* the keywords that ga.mv accepts *)
Definition accepted (kw : kwargs) : bool := all (fun p : string * kwval => p.1 \in [:: "f"; "recp"; "coords"]) kw.
Definition is_err (T : Type) (r : result T) : bool := if r is Err _ then true else false.
End Spec.

Section Props.
Variables (R : comUnitRingType) (a : alg).
Notation n := (al_n a).
Notation ga_mv := (ga_mv (R := R) a).
Notation mv_init := (mv_init (R := R) a).
Notation arg := (pyarg R).
Implicit Types (kw : kwargs).

Lemma rmap_collects (T : Type) (f : T -> result (cmvt R)) (l : seq T) :
  collects (rbind (rmap f l) (fun xs => Ok (Many xs))) [seq rbind (f x) (fun y => Ok (One y)) | x <- l].
Proof.
suff h : (exists2 xs, rmap f l = Ok xs & [seq rbind (f x) (fun y => Ok (One y)) | x <- l] = [seq Ok (One x) | x <- xs]) \/
    (exists e ok rest, rmap f l = Err e /\ [seq rbind (f x) (fun y => Ok (One y)) | x <- l] = ([seq Ok (One x) | x <- ok] ++ Err e :: rest)%SEQ).
  case: h => [[xs -> ->]|[e [ok [rest [-> ->]]]]]; first by left; exists xs.
  by right; exists e, ok, rest.
elim: l => [|x l IH] /=; first by left; exists [::].
case: (f x) => [y|e] /=; last by right; exists e, [::]; eexists; split.
case: IH => [[xs -> ->]|[e [ok [rest [-> ->]]]]] /=; first by left; exists (y :: xs).
by right; exists e, (y :: ok), rest.
Qed.
Lemma has_join l : (1 < size l)%N -> has_char " " (join " " l).
Proof.
case: l => [|x [|y l]] // _; rewrite join_cons //.
by elim: x => //= c x ->; rewrite orbT.
Qed.
Lemma singleE s args kw : no_blank s -> ~~ has_kw kw "ga" ->
  ga_mv (Some (AStr R s)) args kw = rbind (mv_init (AStr R s :: args) kw) (fun x => Ok (One x)).
Proof. by move=> nb /negPf g; rewrite /Create_Model.ga_mv g (negPf nb). Qed.

(* ga.mv('a b c', kind, ...) is ga.mv('a', kind, ...), ga.mv('b', kind, ...), ... *)
Theorem C66_names (names : seq string) kind (rest : seq arg) kw : (1 < size names)%N ->
  all no_blank names -> no_blank kind -> ~~ has_kw kw "ga" ->
  collects (ga_mv (Some (AStr R (listed names))) (AStr R kind :: rest) kw)
           [seq ga_mv (Some (AStr R s)) (AStr R kind :: rest) kw | s <- names].
Proof.
move=> sn nb nk g; rewrite /Create_Model.ga_mv (negPf g) /listed has_join // (negPf nk) /= split_join //; last by case: (names) sn.
rewrite (_ : map _ _ = [seq rbind (mv_init (AStr R s :: AStr R kind :: rest) kw) (fun y => Ok (One y)) | s <- names]).
  exact: rmap_collects.
by apply/eq_in_map => s /(allP nb) /negPf ->.
Qed.
(* ga.mv('a b c', 'k1 k2 k3', ...) is ga.mv('a', 'k1', ...), ga.mv('b', 'k2', ...), ... *)
Theorem C66_kinds (names kinds : seq string) (rest : seq arg) kw : (1 < size names)%N -> size kinds = size names ->
  all no_blank names -> all no_blank kinds -> ~~ has_kw kw "ga" ->
  collects (ga_mv (Some (AStr R (listed names))) (AStr R (listed kinds) :: rest) kw)
           [seq ga_mv (Some (AStr R p.1)) (AStr R p.2 :: rest) kw | p <- zip names kinds].
Proof.
move=> sn sk nb nk g; have k0 : kinds != [::] by rewrite -size_eq0 sk -lt0n (ltn_trans _ sn).
have n0 : names != [::] by rewrite -size_eq0 -lt0n (ltn_trans _ sn).
rewrite /Create_Model.ga_mv (negPf g) /listed !has_join ?sk //= !split_join //.
rewrite sk eqxx /=.
rewrite [X in collects _ X](_ : _ = [seq rbind (mv_init (AStr R p.1 :: AStr R p.2 :: rest) kw) (fun y => Ok (One y)) | p <- zip names kinds]).
  exact: rmap_collects.
apply/eq_in_map => p pz; rewrite (_ : has_char " " p.1 = false) //; apply/negbTE.
have : p.1 \in names by rewrite -(@unzip1_zip _ _ names kinds) ?sk //; exact: map_f.
by move/(allP nb).
Qed.
(* different numbers of names and kinds *)
Theorem C66_mismatch (names kinds : seq string) (rest : seq arg) kw : names != [::] -> (1 < size kinds)%N ->
  size kinds != size names -> all no_blank names -> all no_blank kinds -> ~~ has_kw kw "ga" ->
  ga_mv (Some (AStr R (listed names))) (AStr R (listed kinds) :: rest) kw = Err ValueError.
Proof.
move=> n0 sk ne nb nk g; rewrite /Create_Model.ga_mv (negPf g) /listed.
case: names n0 ne nb => [|x [|y l]] // _ ne nb.
  have -> : has_char " " (join " " [:: x]) = false by apply/negbTE; move: nb; rewrite /= andbT.
  rewrite /= /make_mode.
  have hk : has_char " " (join " " kinds) by exact: has_join.
  have F s : no_blank s -> (join " " kinds == s) = false by move=> h; apply/negbTE; apply: contraTneq hk => ->.
  by rewrite !F.
move: nb ne; set names := [:: x, y & l] => nb ne; rewrite !has_join // (_ : ~~ true = false) // !split_join //; last by case: (kinds) sk.
by rewrite eq_sym ne.
Qed.

(* ---- keyword arguments ---- *)
Lemma f_filter kw : [seq p.2 | p <- [seq p <- kw | p.1 \notin [:: "recp"; "coords"]] & p.1 == "f"] =
  [seq p.2 | p : string * kwval <- kw & p.1 == "f"].
Proof. by congr map; rewrite -filter_predI; apply: eq_filter => p /=; case: (p.1 =P "f") => // ->. Qed.
Lemma rest_filter kw : accepted kw -> [seq p <- [seq p <- kw | p.1 \notin [:: "recp"; "coords"]] | p.1 != "f"] = [::].
Proof.
elim: kw => //= p kw IH /andP[+ /IH]; rewrite !inE => /or3P[] /eqP E; rewrite E /= ?E //.
Qed.
Lemma no_ga kw : accepted kw -> ~~ has_kw kw "ga".
Proof.
rewrite /has_kw; elim: kw => //= p kw IH /andP[+ /IH h]; rewrite inE negb_or h andbT.
by apply: contraTneq => <-.
Qed.
Lemma make_gradeE name g kw : accepted kw ->
  make_grade a (AStr R name) g [seq p <- kw | p.1 \notin [:: "recp"; "coords"]] =
  if make_grade_names n (al_ss a) name g is Some l then
    if asked R (al_coords a) kw is Some c then Ok [seq (c p.1, p.2) | p <- l] else Err TypeError
  else Err IndexError.
Proof.
move=> ok; rewrite /make_grade /kw_pop rest_filter // f_filter /asked /=.
case: (make_grade_names _ _ _ _) => [l|//]; case: [seq p.2 | p <- kw & p.1 == "f"] => [|[[]|vs|] _] //.
by case: (al_coords a).
Qed.
Notation kept kw := [seq p <- kw | p.1 \notin [:: "recp"; "coords"]].
Lemma make_gradesE name gs kw c l : accepted kw -> asked R (al_coords a) kw = Some c ->
  make_grades_names n (al_ss a) name gs = Some l ->
  make_grades a (AStr R name) gs (kept kw) = Ok [seq (c p.1, p.2) | p <- l].
Proof.
move=> ok C; rewrite /make_grades /make_grades_names; case M: (omapM _ gs) => [ls|] // -[<-] {l}.
have gen (mg : nat -> result (terms R)) : (forall g, mg g = if make_grade_names n (al_ss a) name (Posz g) is Some l then
    Ok [seq (c p.1, p.2) | p <- l] else Err IndexError) -> rmap mg gs = Ok [seq [seq (c p.1, p.2) | p <- l] | l <- ls].
  move=> mgE; elim: gs ls M => [|g gs IH] ls /=; first by case=> <-.
  rewrite mgE; case: (make_grade_names _ _ _ _) => //= l; case M: (omapM _ _) => [ls'|] //= [<-].
  by rewrite (IH _ M).
rewrite gen => [|g]; last by rewrite make_gradeE // C.
by rewrite /= map_flatten.
Qed.
(* the mode of a call with a name *)
Lemma make_modeE name kind kw c l : accepted kw -> asked R (al_coords a) kw = Some c ->
  make_named n (al_ss a) name kind = Some l -> make_mode a kind [:: AStr R name] (kept kw) = Ok [seq (c p.1, p.2) | p <- l].
Proof.
move=> ok C; rewrite /make_named /make_mode.
have one g : make_grade_names n (al_ss a) name g = Some l -> make_grade a (AStr R name) g (kept kw) = Ok [seq (c p.1, p.2) | p <- l].
  by move=> E; rewrite make_gradeE // E C.
case: (kind =P "grade") => [-> //|_].
by do !case: ifP => _ //; rewrite ?make_scalar; try exact: one; exact: make_gradesE.
Qed.
(* ga.mv(name, kind, f=...) in the blades asked for has the coefficient named after the blade: a symbol,
   with f=True a function of the coordinates, with f=(x, y, ...) a function of these *)
Section Named.
Hypotheses (sn : size (al_ss a) = n) (pf : prefix_free (al_ss a)).
Definition has_coefs (x : cmvt R) (P : nat -> bool) (c : seq nat -> coef_ R) : Prop :=
  [/\ c_blade x, forall w, w \in [seq t.2 | t <- c_terms x] -> exists2 I, wfI n I & w = mk_blade I &
      forall I, wfI n I -> [seq t.1 | t <- c_terms x & t.2 == mk_blade I] = if P (size I) then [:: c I] else [::]].
Lemma filter_coef (f : seq nat -> coef_ R) (l : seq (seq nat)) I : uniq l ->
  [seq t.1 | t <- [seq (f J, mk_blade J) | J <- l] & t.2 == mk_blade I] = if I \in l then [:: f I] else [::].
Proof.
elim: l => [|J l IH] //= /andP[nJ /IH E]; rewrite (inj_eq mk_blade_inj) in_cons [I == J]eq_sym.
by case: eqP nJ E => [-> /negPf -> /= ->|_ _ ->].
Qed.
Lemma terms_coefs (P : pred nat) gs name c t : uniq gs -> all (fun r => r <= n)%N gs -> 
  (forall r, (r <= n)%N -> (r \in gs) = P r) -> has_coefs (CMvt
   [seq (c p.1, p.2) | p : string * word <- [seq (coef_name (al_ss a) name I, mk_blade I) | I <- flatten [seq nth [::] (indexes n) r | r <- gs]]] true t) P
   (fun I => c (coef_name (al_ss a) name I)).
Proof.
move=> ug hg gP; have [uf mf] := grades_uniq ug hg; rewrite -map_comp; split=> //=.
  rewrite -map_comp => w /mapP[I /flattenP[l /mapP[r rg ->] Il] ->].
  by move: Il; rewrite indexes_nth ?(allP hg) // mem_comb_iota => /andP[wI _]; exists I.
move=> I wI; rewrite (filter_coef (fun I => c (coef_name (al_ss a) name I))) // mf // gP //; exact: wfI_size.
Qed.
Theorem C66_functions name kind kw c : kind \in kinds -> fits n kind -> no_blank name -> accepted kw ->
  asked R (al_coords a) kw = Some c -> exists2 x, ga_mv (Some (AStr R name)) [:: AStr R kind] kw = Ok (One x) &
  c_title x = Some name /\ has_coefs x (asks_grade n kind) (fun I => c (coef_name (al_ss a) name I)).
Proof.
move=> hk hf nb ok C; rewrite singleE ?no_ga //= (make_modeE ok C (make_namedE sn pf name hk hf)) /=.
eexists; [reflexivity|split=> //; apply: terms_coefs]; have [ug hg] := grades_ofP n kind => //.
by move=> r rn; rewrite mem_filter mem_iota /= add0n ltnS rn andbT.
Qed.
(* ga.mv(name, r) and ga.mv(name, 'grade', r) *)
Theorem C66_grade name r kw c : (r <= n)%N -> no_blank name -> accepted kw ->
  asked R (al_coords a) kw = Some c -> forall args, args = [:: AInt R (Posz r)] \/ args = [:: AStr R "grade"; AInt R (Posz r)] ->
  exists2 x, ga_mv (Some (AStr R name)) args kw = Ok (One x) &
  c_title x = Some name /\ has_coefs x (pred1 r) (fun I => c (coef_name (al_ss a) name I)).
Proof.
move=> rn nb ok C args eargs; rewrite singleE ?no_ga //.
have E : make_grade a (AStr R name) (Posz r) (kept kw) = Ok [seq (c p.1, p.2) | p <- [seq (coef_name (al_ss a) name I, mk_blade I) | I <- flatten [seq nth [::] (indexes n) r | r <- [:: r]]]].
  by rewrite make_gradeE // (Props_Make.make_gradeE sn pf) // C /= cats0.
exists (CMvt [seq (c p.1, p.2) | p <- [seq (coef_name (al_ss a) name I, mk_blade I) | I <- flatten [seq nth [::] (indexes n) r | r <- [:: r]]]] true (Some name)).
  case: eargs => ->; rewrite /Create_Model.mv_init.
    by case: eqP => [r0|_]; rewrite ?/make_scalar -?[0 : int]r0 E.
  by rewrite /make_mode eqxx E.
split=> //; apply: terms_coefs => //=; first by rewrite rn.
by move=> r' _; rewrite inE.
Qed.
End Named.

(* ---- a list of coefficients, a value, a copy ---- *)
Lemma kept_plain kw : accepted kw -> ~~ has_kw kw "f" -> kept kw = [::].
Proof.
rewrite /has_kw; elim: kw => //= p kw IH /andP[pa h]; rewrite inE negb_or => /andP[pf hf].
by move: pa pf; rewrite (IH h hf) !inE => /or3P[] /eqP ->.
Qed.
Lemma init2E x y rest kw : mv_init [:: x, y & rest] kw =
  rbind (match y with
         | AStr mode => make_mode a mode (x :: rest) (kept kw)
         | AInt z =>
             if z == 0 then (if rest is [::] then make_scalar a x (kept kw) else Err TypeError)
             else if rest is [::] then make_grade a x z (kept kw) else Err TypeError
         | _ => Err TypeError
         end) (fun t => Ok (CMvt t true (if x is AStr s then Some s else None))).
Proof. by case: x. Qed.
(* which call makes grade r from a list: ga.mv(cs, r), ga.mv(cs, 'grade', r), ga.mv(cs, 'vector'), ... *)
Definition list_call (r : nat) (args : seq arg) : Prop :=
  [\/ args = [:: AInt R (Posz r)] /\ (0 < r)%N, args = [:: AStr R "grade"; AInt R (Posz r)],
      args = [:: AStr R "vector"] /\ r = 1%N | (args = [:: AStr R "bivector"] \/ args = [:: AStr R "grade2"]) /\ r = 2%N \/
      args = [:: AStr R "pseudo"] /\ r = n].
Theorem C66_list (cs : seq R) r args kw : (r <= n)%N -> list_call r args -> accepted kw -> ~~ has_kw kw "f" ->
  if (size cs <= 'C(n, r))%N then
    exists2 x, ga_mv (Some (ASeq cs)) args kw = Ok (One x) &
      [/\ c_blade x, c_title x = None & forall I, wfI n I ->
        [seq t.1 | t <- c_terms x & t.2 == mk_blade I] =
        let k := index I (combinations (iota 0 n) r) in
        if (size I == r) && (k < size cs)%N then [:: CVal (nth 0 cs k)] else [::]]
  else ga_mv (Some (ASeq cs)) args kw = Err ValueError.
Proof.
move=> rn lc ok nf.
have E : ga_mv (Some (ASeq cs)) args kw = rbind (make_grade a (ASeq cs) (Posz r) [::]) (fun t => Ok (One (CMvt t true None))).
  rewrite /Create_Model.ga_mv (negPf (no_ga ok)).
  have rb (g : result (terms R)) : rbind (rbind g (fun t => Ok (CMvt t true None))) (fun x => Ok (One x)) = rbind g (fun t => Ok (One (CMvt t true None))) by case: g.
  case: lc => [[-> r0]|->|[-> ->]|[[[]->->]|[-> ->]]]; rewrite init2E kept_plain // rb //.
  by case: eqP => // -[h]; rewrite h in r0.
have si : size (indexes n) = n.+1 by rewrite /indexes size_map size_iota.
have B : py_nth (blades n) (Posz r) = Some [seq mk_blade I | I <- combinations (iota 0 n) r].
  by rewrite /py_nth /blades -map_comp (nth_map [::]) ?si //= indexes_nth.
rewrite E /make_grade B size_map; set L := combinations _ _.
have uL : uniq L by apply: comb_uniq; exact: iota_uniq.
have sL : size L = 'C(n, r) by rewrite comb_size size_iota.
rewrite /kw_reject /rbind sL; case h: (_ <= _)%N => //; eexists; [reflexivity|split=> //= I wI].
have -> : (size I == r) = (I \in L) by rewrite mem_comb_iota wI.
rewrite -sL in h; move: h uL; elim: L cs {E B sL} => [|J L IH] [|c cs] //= h; rewrite ?andbF ?ltn0 //.
move=> /andP[nJ uL]; rewrite (inj_eq mk_blade_inj) in_cons [I == J]eq_sym; case: (J =P I) nJ => [-> nJ|ne nJ] /=.
  by rewrite IH // (negPf nJ).
by rewrite IH // ltnS.
Qed.
(* ga.mv(c) and ga.mv(c, 'scalar') of a value, ga.mv(X) of a multivector *)
Theorem C66_value (c : R) (x : cmvt R) kw : accepted kw -> ~~ has_kw kw "f" ->
  [/\ ga_mv (Some (AVal c)) [::] kw = Ok (One (CMvt [:: (CVal c, [::])] true None)),
      ga_mv (Some (AVal c)) [:: AStr R "scalar"] kw = Ok (One (CMvt [:: (CVal c, [::])] true None)) &
      ga_mv (Some (AMv x)) [::] kw = Ok (One (CMvt (c_terms x) (c_blade x) None))].
Proof.
by move=> ok nf; rewrite /Create_Model.ga_mv (negPf (no_ga ok)) /Create_Model.mv_init kept_plain.
Qed.
(* ---- unexpected keywords ---- *)
Lemma reject_kept kw : ~~ accepted kw -> exists2 kw', kept kw = kw' & kw_reject kw' = Err TypeError /\
  kw_reject (kw_pop kw' "f" (KBool false)).2 = Err TypeError.
Proof.
move=> h; exists (kept kw) => //.
suff H : (kw_pop (kept kw) "f" (KBool false)).2 <> [::].
  by move: H; case: (kept kw) => [|p l] // H; split=> //; move: H; case: (_.2).
move: h; rewrite /accepted /=; elim: kw => //= p kw IH; rewrite negb_and !inE !negb_or => /orP[/and3P[h1 h2 h3]|/IH h].
  by rewrite h2 h3 /= h1.
by case: (_ && _) => //=; case: (p.1 != "f").
Qed.
Definition names_or_list (x : arg) : bool := match x with AStr _ | ASeq _ => true | _ => false end.
Lemma init_rejects x args kw : (0 < n)%N -> names_or_list x -> ~~ accepted kw -> is_err (mv_init (x :: args) kw).
Proof.
move=> n0 nx h; have [kw' E [e1 e2]] := reject_kept h.
have mg g : is_err (make_grade a x g kw') by case: x nx => //= [s|l] _; rewrite -/(kw_pop kw' "f" (KBool false)).2 ?e1 ?e2.
have mgs gs : gs != [::] -> is_err (make_grades a x gs kw').
  case: gs => // g gs _; case: x nx mg => // s _ mg; rewrite /make_grades /rmap.
  by case: (make_grade _ _ _ _) (mg (Posz g)).
have ms : is_err (make_scalar a x kw') by case: x nx mg {mgs} => // s _ mg; exact: (mg 0).
case: args => [|y args]; first by case: (x) nx.
rewrite init2E E.
have rb (r : result (terms R)) (f : terms R -> result (cmvt R)) : is_err r -> is_err (rbind r f) by case: r.
apply: rb; case: y => // [mode|z]; last first.
  by case: args => [|? ?]; case: ifP.
rewrite /make_mode; case: ifP => _.
  by case: args => [|[] ? [|? ?]] //; exact: mg.
by do 9?[case: ifP => _ //]; case: args => [|? ?] //; try exact: mg; try exact: ms; apply: mgs; case: (n) n0.
Qed.
(* a keyword that is neither f, recp nor coords never passes unnoticed, if the first argument is a
   name, several names or a list of coefficients *)
Theorem C66_keyword x args kw : (0 < n)%N -> names_or_list x -> ~~ accepted kw -> is_err (ga_mv (Some x) args kw).
Proof.
move=> n0 nx h; rewrite /Create_Model.ga_mv; case: ifP => // _.
have rb (T : Type) (r : result T) (f : T -> result (created R)) : is_err r -> is_err (rbind r f) by case: r.
have rm (T : eqType) (f : T -> result (cmvt R)) (l : seq T) : l != [::] -> (forall y, is_err (f y)) -> is_err (rmap f l).
  by case: l => // y l _ h' /=; case: (f y) (h' y).
have sp c s : split c s != [::] by rewrite -size_eq0 -lt0n; exact: split_size.
case: x nx => // [s|l] nx; last by apply: rb; exact: init_rejects.
case: ifP => _; last by apply: rb; exact: init_rejects.
case: args => [|[k|z|cs|c|m] rest] //; last by apply: rb; apply: rm => // y; exact: init_rejects.
case: ifP => _; first by apply: rb; apply: rm => // y; exact: init_rejects.
case: eqP => // e; apply: rb; apply: rm => [|y]; last exact: init_rejects.
by rewrite -size_eq0 size_zip e minnn size_eq0.
Qed.
End Props.
Print Assumptions C66_names.
Print Assumptions C66_kinds.
Print Assumptions C66_mismatch.
Print Assumptions C66_functions.
Print Assumptions C66_grade.
Print Assumptions C66_list.
Print Assumptions C66_value.
Print Assumptions C66_keyword.

(* finding: several names with an integer grade raise, although each name alone is accepted *)
Theorem C66_integer_grade_refuted (R : comUnitRingType) (a : alg) : (2 <= al_n a)%N ->
  [/\ ga_mv a (Some (AStr R "A B")) [:: AInt R (Posz 2)] [::] = Err TypeError,
      ~~ is_err (ga_mv a (Some (AStr R "A")) [:: AInt R (Posz 2)] [::]) &
      ~~ is_err (ga_mv a (Some (AStr R "B")) [:: AInt R (Posz 2)] [::])].
Proof.
move=> n2; have si : size (indexes (al_n a)) = (al_n a).+1 by rewrite /indexes size_map size_iota.
have E name : exists l, make_grade_names (al_n a) (al_ss a) name (Posz 2) = Some l.
  by rewrite /make_grade_names /py_nth (nth_map [::]) ?si //=; eexists.
have G name : ~~ is_err (make_grade a (AStr R name) (Posz 2) [::]) by have [l L] := E name; rewrite /= L.
have S1 name : no_blank name -> ~~ is_err (ga_mv a (Some (AStr R name)) [:: AInt R (Posz 2)] [::]).
  by move=> nb; rewrite singleE // init2E /= -/(make_grade a (AStr R name) (Posz 2) [::]); case: (make_grade _ _ _ _) (G name).
by split=> //; exact: S1.
Qed.
(* finding: with a scalar value instead of a name any keyword is accepted without a word *)
Theorem C66_scalar_keyword_refuted (R : comUnitRingType) (a : alg) (c : R) :
  ga_mv a (Some (AVal c)) [:: AStr R "scalar"] [:: ("colour", KOther)] =
  Ok (One (CMvt [:: (CVal c, [::])] true None)).
Proof. by []. Qed.
Print Assumptions C66_integer_grade_refuted.
Print Assumptions C66_scalar_keyword_refuted.

Section Case.
Notation F := [comUnitRingType of rat].
Notation plane := (Alg 2 [:: "x"; "y"] (Some [:: "x"; "y"])).
Example C66_case : [/\ size (al_ss plane) = al_n plane, prefix_free (al_ss plane),
  ga_mv plane (Some (AStr F "u v")) [:: AStr F "vector"] [:: ("f", KBool true)] =
    Ok (Many [:: CMvt [:: (CFun F "u__x" [:: "x"; "y"], mk_blade [:: 0%N]); (CFun F "u__y" [:: "x"; "y"], mk_blade [:: 1%N])] true (Some "u");
                 CMvt [:: (CFun F "v__x" [:: "x"; "y"], mk_blade [:: 0%N]); (CFun F "v__y" [:: "x"; "y"], mk_blade [:: 1%N])] true (Some "v")]) &
  ga_mv plane (Some (AStr F "c B")) [:: AStr F "scalar bivector"] [::] =
    Ok (Many [:: CMvt [:: (CSym F "c", mk_blade [::])] true (Some "c");
                 CMvt [:: (CSym F "B__xy", mk_blade [:: 0; 1]%N)] true (Some "B")])].
Proof. split=> //; by apply: (@C56_equal_length _ 1). Qed.
Example C66_list_case : list_call plane 1 [:: AStr F "vector"] /\
  ga_mv plane (Some (ASeq [:: 3%:R : F])) [:: AStr F "vector"] [::] = Ok (One (CMvt [:: (CVal (3%:R : F), mk_blade [:: 0%N])] true None)).
Proof. by split=> //; constructor 3. Qed.
Example C66_keyword_case : ~~ accepted [:: ("colour", KOther)] /\
  ga_mv plane (Some (AStr F "A")) [:: AStr F "mv"] [:: ("colour", KOther)] = Err TypeError.
Proof. by []. Qed.
End Case.
