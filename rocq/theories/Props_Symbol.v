(* Props_Symbol.v -- C67: the LaTeX names of symbols and the printed derivatives *)
From Coq Require Import String Ascii.
From mathcomp Require Import all_ssreflect.
From Verif Require Import PyBase PyStr Parser_Model Symbol_Model Spec_Symbol Symbol_Proof.
Set Implicit Arguments.
Unset Strict Implicit.
Unset Printing Implicit Defensive.
Local Open Scope seq_scope.

(* an order in which Python may have sorted the alphabet *)
Definition one_order : seq text := rev (sort (fun p q => size p <= size q)%N glyphs).
Lemma one_order_ok : special_alphabet one_order.
Proof. by split; vm_compute. Qed.

Lemma mem_put_bs (ps : seq text) g i : hole_ok i -> bs \notin flatten ps ->
  bs \notin flatten (map (put g (parse_sym i)) ps).
Proof.
move=> hi; apply: contra => /flattenP[s /mapP[p pp ->]]; rewrite /put; case: eqP => [_ H|_ H].
  by have := hole_bs hi; rewrite H.
by apply/flattenP; exists p.
Qed.

(* every maximal run of letters that names a letter of the alphabet becomes that letter's
   command and everything else is left alone *)
Theorem C67_name al ps : special_alphabet al -> readable ps -> (alphabet_count ps < 10)%N ->
  backslash \notin flatten ps -> translate al (flatten ps) = latex_words ps.
Proof.
move=> Hal Hr Hc Hb; rewrite (@translateE xpred0 (fun ps => bs \notin flatten ps)) // => [qs g nb _ _|qs g i nb _ hi].
  by apply/negP => /mem_infix/(_ bs (mem_head _ _)); apply/negP.
exact: mem_put_bs.
Qed.
Example C67_name_case : let ps := map txt [:: "theta"; "1"; "x"; "_"; "lamda"; "2"]%string in
  [/\ readable ps, (alphabet_count ps < 10)%N, backslash \notin flatten ps &
      translate one_order (flatten ps) = bs :: txt "theta 1x_" ++ bs :: txt "lambda 2"].
Proof. by split; vm_compute. Qed.

(* a name whose letters of the alphabet already are commands is not escaped again *)
Theorem C67_escaped al ps : special_alphabet al -> readable ps -> (alphabet_count ps < 10)%N ->
  (forall p, p \in ps -> p \in letters_of_alphabet -> exists a q b, ps = a ++ rcons q backslash :: p :: b) ->
  translate al (flatten ps) = flatten (map (fun p => if p \in letters_of_alphabet then spelled p else p) ps).
Proof.
move=> Hal Hr Hc Hb.
pose Inv (qs : seq text) := forall p, p \in qs -> p \in letters_of_alphabet -> exists a q b, qs = a ++ rcons q bs :: p :: b.
rewrite (@translateE xpredT Inv) // => [qs g iv gq ga|qs g i iv wg hi p].
  have [a [q [b ->]]] := iv g gq ga; rewrite flatten_cat /= -cats1 -!catA infix_catl // infix_catl //.
  by rewrite -[[:: bs] ++ _]/((bs :: g) ++ flatten b) prefix_infix.
move=> pp pa; have nh : p != parse_sym i by apply: contraTneq (word_alphabet pa) => ->; rewrite hole_word.
have ng : p != g.
  apply: contraTneq pp => ->; apply/mapP => -[q _]; rewrite /put; case: (altP (q =P g)) => [_ E|ne E].
    by move: wg; rewrite E hole_word.
  by rewrite E eqxx in ne.
rewrite mem_put // in pp; have [a [q [b E]]] := iv p pp pa.
exists (map (put g (parse_sym i)) a), q, (map (put g (parse_sym i)) b).
rewrite E map_cat /=; congr (_ ++ _ :: _ :: _); last by rewrite /put (negbTE ng).
rewrite /put; case: (altP (rcons q bs =P g)) => // E2.
by move: wg; rewrite -E2 /word all_rcons /= andbF.
Qed.
Example C67_escaped_case : let qs := [:: txt "2_" ++ [:: bs]; txt "theta"] in
  [/\ readable qs, (alphabet_count qs < 10)%N,
      (forall p, p \in qs -> p \in letters_of_alphabet -> exists a q b, qs = a ++ rcons q backslash :: p :: b) &
      translate one_order (flatten qs) = flatten qs].
Proof.
split; try by vm_compute.
move=> p; rewrite !inE => /orP[] /eqP -> //= _.
by exists [::], (txt "2_"), [::].
Qed.

(* the whole name: the name proper, the superscripts and the subscripts *)
Definition nameable (ps : seq text) : bool :=
  [&& readable ps, (alphabet_count ps < 10)%N & backslash \notin flatten ps].
Lemma joined_spaced ws : joined (txt " ") ws = spaced ws.
Proof.
elim: ws => [|w [|v ws] IH] //; first by rewrite /= cats0.
by rewrite -[LHS]/(w ++ txt " " ++ joined (txt " ") (v :: ws)) IH.
Qed.
Theorem C67_symbol al bold name supers subs : special_alphabet al ->
  nameable name -> all nameable supers -> all nameable subs ->
  str_symbol al bold (flatten name) (map flatten supers) (map flatten subs) = latex_symbol bold name supers subs.
Proof.
move=> Hal; have N ps : nameable ps -> translate al (flatten ps) = latex_words ps.
  by case/and3P => *; apply: C67_name.
have NN pss : all nameable pss -> map (translate al) (map flatten pss) = map latex_words pss.
  by move/allP => H; rewrite -map_comp; apply/eq_in_map => ps /H /N.
move=> /N nE /NN sE /NN bE; rewrite /str_symbol nE sE bE !joined_spaced !size_map /latex_symbol.
case: supers {sE} => [|p ps]; case: subs {bE} => [|q qs] //=; rewrite ?cats0 -?catA /= -?catA //.
Qed.
Example C67_symbol_case :
  let n := [:: txt "Gamma"] in let s := [:: [:: txt "mu"]] in let b := [:: [:: txt "nu"]; [:: txt "k"; txt "2"]] in
  [/\ nameable n, all nameable s, all nameable b &
      str_symbol one_order true (flatten n) (map flatten s) (map flatten b) =
      bs :: txt "boldsymbol{Gamma}^{" ++ bs :: txt "mu }_{" ++ bs :: txt "nu  k2}"].
Proof. by split; vm_compute. Qed.

(* finding: the tenth letter of the alphabet in one name is printed as the first one followed by 0 *)
Theorem C67_ten_refuted : exists al ps, [/\ special_alphabet al, readable ps, backslash \notin flatten ps,
  alphabet_count ps = 10 & translate al (flatten ps) <> latex_words ps].
Proof.
exists one_order, (flatten [seq [:: g; txt "1"] | g <- take 10 glyphs]).
by split; [exact: one_order_ok|vm_compute..].
Qed.
(* finding: when a letter is escaped at one place of a name, its other places stay unescaped *)
Theorem C67_mixed_refuted : exists al, special_alphabet al /\
  translate al (txt "alpha_" ++ bs :: txt "alpha") = txt "alpha_" ++ bs :: txt "alpha".
Proof. by exists one_order; split; [exact: one_order_ok|vm_compute]. Qed.
(* finding: Theta, Beta, Zeta and Epsilon are printed with a small letter inside, the other capital letters and lambda as words *)
Theorem C67_capital_refuted : exists al, special_alphabet al /\
  [/\ translate al (txt "Theta") = txt "Th" ++ bs :: txt "eta ",
      translate al (txt "Epsilon") = txt "E" ++ bs :: txt "psi lon",
      translate al (txt "Omega") = txt "Omega" &
      translate al (txt "lambda") = txt "lambda"].
Proof. by exists one_order; split; [exact: one_order_ok|split; vm_compute]. Qed.

Section Derivative.
Variables (V : eqType) (pr : V -> text).

Lemma mult_loopE acc (x : V) i vs : (0 < i)%N -> exists m, mult_loop acc x i vs = acc ++ m /\ @runs V m (nseq i x ++ vs) /\
  exists k m', m = (x, k) :: m'.
Proof.
elim: vs acc x i => [|v vs IH] acc x i i0 /=.
  by exists [:: (x, i)]; rewrite cats1; split=> //; split; [split=> //=; rewrite ?cats0 ?i0|exists i, [::]].
case: (altP (v =P x)) => [->|ne].
  have [m [-> [r hm]]] := IH acc x i.+1 isT; exists m; split=> //; split=> //.
  by move: r; rewrite -addn1 nseqD -catA.
have [m [-> [r [k [m' E]]]]] := IH (rcons acc (x, i)) v 1 isT; exists ((x, i) :: m).
rewrite cat_rcons; split=> //; split; last by exists i, m.
case: r => /= r1 r2 r3; split=> /=; [by rewrite r1|by rewrite i0|].
by rewrite E /= eq_sym ne; move: r3; rewrite E.
Qed.
(* a list has one decomposition into runs *)
Lemma runs_nil m : @runs V m [::] -> m = [::].
Proof. by case: m => [|[x [|k]] m] [] //= . Qed.
Lemma runs_uniq (vs : seq V) m m' : runs m vs -> runs m' vs -> m = m'.
Proof.
elim: m vs m' => [|[x k] m IH] vs m' [E p s].
  by rewrite E => /runs_nil.
case: m' => [|[y l] m'] [E' p' s']; first by move: p E; rewrite E' /= => /andP[k0 _]; case: (k) k0.
move: p p' => /= /andP[k0 p] /andP[l0 p'].
have H : forall (a b : nat) (u w : V) (M N : seq (V * nat)), (0 < a)%N -> (0 < b)%N -> sorted (fun a b => a.1 != b.1) ((u, a) :: M) ->
    all (fun xi => 0 < xi.2)%N M -> nseq a u ++ flatten [seq nseq xi.2 xi.1 | xi <- M] = nseq b w ++ flatten [seq nseq xi.2 xi.1 | xi <- N] ->
    u = w /\ (b <= a)%N.
  move=> a b u w M N; case: a => // a; case: b => // b _ _ sM pM /= [<- Eq]; split=> //.
  rewrite ltnS leqNgt; apply/negP => lt.
  move: Eq; rewrite -(subnKC (ltnW lt)) nseqD -catA => /eqP; rewrite eqseq_cat // eqxx /= => /eqP.
  have : (0 < b - a)%N by rewrite subn_gt0.
  case: (b - a)%N => // c _; case: M sM pM => [|[z [|q]] M] //= /andP[/negP ne _] _ [Ez _].
  by apply: ne; rewrite Ez.
have Ev : nseq k x ++ flatten [seq nseq xi.2 xi.1 | xi <- m] = nseq l y ++ flatten [seq nseq xi.2 xi.1 | xi <- m'].
  by rewrite -[LHS]/(flatten [seq nseq xi.2 xi.1 | xi <- (x, k) :: m]) -E E'.
have [xy lk] := H k l x y m m' k0 l0 s p Ev; have [_ kl] := H l k y x m' m l0 k0 s' p' (esym Ev).
have kl' : k = l by apply/eqP; rewrite eqn_leq kl lk.
move: Ev; rewrite -xy -kl' => /eqP; rewrite eqseq_cat // eqxx /= => /eqP Ev.
congr (_ :: _); apply: (IH (flatten [seq nseq xi.2 xi.1 | xi <- m])); split=> //; first exact: path_sorted s.
exact: path_sorted s'.
Qed.
Theorem C67_runs (vs : seq V) : exists2 m, runs m vs & forall m', runs m' vs -> m' = m.
Proof.
have [m r] : exists m, runs m vs.
  case: vs => [|x vs]; first by exists [::].
  by have [m [_ [r _]]] := @mult_loopE [::] x 1 vs isT; exists m.
by exists m => // m' r'; exact: runs_uniq r' r.
Qed.

Lemma fold_cat (T : Type) (F : text -> T -> text) (f : T -> text) m t : (forall t x, F t x = t ++ f x) ->
  foldl F t m = t ++ flatten (map f m).
Proof. by move=> H; elim: m t => [|x m IH] t /=; rewrite ?cats0 // IH H catA. Qed.
Lemma tex_omitE m : tex_omit pr m = flatten (map (partial_sub pr) m).
Proof.
rewrite -[RHS]cat0s; apply: fold_cat => t [x k]; rewrite /partial_sub /order.
by case: (k == 1); rewrite /= -?catA.
Qed.
Lemma tex_fracE m : tex_frac pr m = flatten (map (partial_frac pr) m).
Proof.
rewrite -[RHS]cat0s; apply: fold_cat => t [x k]; rewrite /partial_frac /order.
by case: (k == 1); rewrite /= -?catA.
Qed.

(* without fraction: one partial derivative per run of equal variables, with its order *)
Theorem C67_derivative assoc (vs : seq V) body m : vs != [::] -> runs m vs ->
  latex_derivative pr true assoc vs body = Some (flatten (map (partial_sub pr) m) ++ applied assoc body).
Proof.
case: vs => [|x vs] // _ r; have [m' [Em [r' _]]] := @mult_loopE [::] x 1 vs isT.
rewrite (runs_uniq r r') -tex_omitE; case: vs Em {r r'} => [|y vs] Em.
  move: Em => /= <-; rewrite /tex_omit /applied /=; by case: assoc.
rewrite /latex_derivative Em; by rewrite /applied; case: assoc.
Qed.
(* with a fraction: the total order above, the runs below *)
Theorem C67_fraction assoc (vs : seq V) body m : (1 < size vs)%N -> runs m vs ->
  latex_derivative pr false assoc vs body =
    Some (backslash :: chars "frac{" ++ backslash :: chars "partial^{" ++ chars (str_nat (sumn (map snd m))) ++ chars "}}{" ++
          flatten (map (partial_frac pr) m) ++ chars "} " ++ applied assoc body).
Proof.
case: vs => [|x [|y vs]] // _ r; have [m' [Em [r' _]]] := @mult_loopE [::] x 1 (y :: vs) isT.
rewrite -tex_fracE /latex_derivative Em (runs_uniq r r').
have -> : sumn (map snd m') = size (x :: y :: vs).
  case: r' => /= E _ _; rewrite -[RHS]/(size (x :: y :: vs)) E; elim: (m') => [|[z k] n IH] //=; by rewrite size_cat size_nseq IH.
by rewrite /applied; case: assoc; rewrite /= -!catA /= -?catA.
Qed.
Theorem C67_fraction_one assoc (x : V) body :
  latex_derivative pr false assoc [:: x] body =
    Some (backslash :: chars "frac{" ++ backslash :: chars "partial}{" ++ backslash :: chars "partial " ++ pr x ++ chars "}" ++ applied assoc body).
Proof. by rewrite /latex_derivative /applied; case: assoc; rewrite /= -!catA. Qed.

(* as text: D, then each variable with its order *)
Theorem C67_text (args : seq (V * nat)) body : all (fun xn => 0 < xn.2)%N args ->
  text_derivative pr args body =
    chars "D" ++ flatten [seq chars "{" ++ pr xn.1 ++ chars "}" ++ order "^" xn.2 "" | xn <- args] ++ body.
Proof.
move=> p; rewrite /text_derivative.
have -> : text_args pr [::] [::] args = (map (fun xn => pr xn.1) args, map snd args).
  rewrite -[map _ args]cat0s -[map snd args]cat0s; move: ([::] : seq text) ([::] : seq nat).
  by elim: args {p} => [|[x n] args IH] xi ni /=; rewrite ?cats0 // IH !cat_rcons.
rewrite zip_map catA; congr (_ ++ _).
rewrite -[chars "D"]/(txt "D"); elim: args (txt "D") p => [|[x n] args IH] t /=; first by move=> _; rewrite cats0.
move=> /andP[n0 p]; rewrite IH // /order; case: n n0 => [|[|n]] // _; rewrite /= ?cats0 -?catA /= ?cats0 -?catA //=.
Qed.
End Derivative.
Example C67_derivative_case : let vs := [:: "x"; "x"; "y"; "x"]%string in
  runs [:: ("x", 2); ("y", 1); ("x", 1)]%string vs /\
  latex_derivative txt true true vs (txt "f") =
    Some (bs :: txt "partial^{2}_{x}" ++ bs :: txt "partial_{y}" ++ bs :: txt "partial_{x}" ++ bs :: txt "left(f" ++ bs :: txt "right)").
Proof. by split; [split|vm_compute]. Qed.
Example C67_fraction_case : let vs := [:: "x"; "x"; "y"]%string in
  runs [:: ("x", 2); ("y", 1)]%string vs /\
  latex_derivative txt false false vs (txt "f") =
    Some (bs :: txt "frac{" ++ bs :: txt "partial^{3}}{" ++ bs :: txt "partial^{2} x" ++ bs :: txt "partial y}  f").
Proof. by split; [split|vm_compute]. Qed.
Example C67_text_case : text_derivative txt [:: ("x", 2); ("y", 1)]%string (txt "f") = txt "D{x}^2{y}f".
Proof. by vm_compute. Qed.

Print Assumptions C67_name.
Print Assumptions C67_escaped.
Print Assumptions C67_symbol.
Print Assumptions C67_ten_refuted.
Print Assumptions C67_mixed_refuted.
Print Assumptions C67_capital_refuted.
Print Assumptions C67_runs.
Print Assumptions C67_derivative.
Print Assumptions C67_fraction.
Print Assumptions C67_fraction_one.
Print Assumptions C67_text.
