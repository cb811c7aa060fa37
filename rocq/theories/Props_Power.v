(* Props_Power.v -- property C70: powers and functions in LaTeX *)
From Coq Require Import String Ascii.
From mathcomp Require Import all_ssreflect all_algebra.
From Verif Require Import PyBase PyStr Names_Proof Parser_Model Symbol_Model Gprint_Model Gprint_Proof Power_Model Spec_Power Power_Proof.
Set Implicit Arguments.
Unset Strict Implicit.
Unset Printing Implicit Defensive.
Import GRing.Theory Num.Theory Order.TTheory.
Local Open Scope seq_scope.

Section Pow.
Variables (itex : bool) (rtex : int -> nat -> text).
Implicit Types (b : base) (e : expo).

(* what sympy is assumed to print for -1*expr, needed only for 1/b *)
Definition inverse_known (comm : bool) (neg : text) b e : Prop :=
  comm -> is_minus_one e -> ~~ b_function b -> minus_inverse b neg.

Lemma strip_solid c w d : is_space c = false -> is_space d = false -> strip (c :: rcons w d) = c :: rcons w d.
Proof.
move=> sc sd; rewrite /strip [strip_left (c :: _)]/= sc.
by rewrite -rcons_cons rev_rcons [strip_left (d :: _)]/= sd -rev_rcons revK.
Qed.
Lemma strip_frac t : strip (txt " \frac{1}{" ++ t ++ txt "}") = txt "\frac{1}{" ++ t ++ txt "}".
Proof.
have E : txt "\frac{1}{" ++ t ++ txt "}" = bs :: rcons (txt "frac{1}{" ++ t) "}"%char by rewrite -cats1 -catA.
transitivity (strip (txt "\frac{1}{" ++ t ++ txt "}")); first by [].
by rewrite E strip_solid.
Qed.
Lemma strip_neg t : strip (txt "- \frac{1}{" ++ t ++ txt "}") = txt "- \frac{1}{" ++ t ++ txt "}".
Proof.
have E : txt "- \frac{1}{" ++ t ++ txt "}" = "-"%char :: rcons (txt " \frac{1}{" ++ t) "}"%char by rewrite -cats1 -catA.
by rewrite E strip_solid.
Qed.
Lemma int_textE p : str_int p = int_text p.
Proof. by rewrite /int_text; case: p. Qed.
Lemma exponentE e : etex rtex e = exponent_text rtex e. Proof. by []. Qed.
Lemma minus_oneP e : is_minus_one e -> e = ERat (- 1)%R 1.
Proof. by case: e => [p q|//] /andP[/eqP -> /eqP ->]. Qed.
Lemma alone_mode b : (b_function b || ~~ b_brackets b) -> pow_mode (b_text b) = false -> alone b.
Proof.
rewrite /alone /pow_mode => -> /negbT; rewrite negb_and negb_or negbK; exact.
Qed.
Lemma script_shows b e : ~~ b_function b -> shows rtex b e (pow_script rtex b e).
Proof.
move=> nf; rewrite /pow_script; case: ifP => br.
  have := @Shows_script rtex b e (txt "\left(" ++ b_text b ++ txt "\right)").
  by rewrite -!catA; apply; constructor 3.
case: ifP => mo.
  have := @Shows_script rtex b e (txt "{\left ( " ++ b_text b ++ txt " \right )}").
  by rewrite -!catA; apply; constructor 2.
by apply: Shows_script; constructor 4; rewrite alone_mode // br orbT.
Qed.
Lemma general_shows comm neg b e : inverse_known comm neg b e -> shows rtex b e (pow_general rtex comm neg b e).
Proof.
move=> ik; rewrite /pow_general; case: ifP => fu.
  have := @Shows_script rtex b e (txt "{" ++ b_text b ++ txt "}").
  by rewrite -!catA; apply; constructor 1.
have nf : ~~ b_function b by rewrite fu.
case: ifP => [/andP[co mi]|_]; last exact: script_shows.
rewrite (ik co mi nf) strip_neg (minus_oneP mi) /=.
rewrite -[X in strip X]/(txt " \frac{1}{" ++ b_text b ++ txt "}") strip_frac.
by apply: Shows_inverse; exact: Shows_one.
Qed.
(* the printed text shows the base and the exponent *)
Theorem C70_power comm neg b e : inverse_known comm neg b e ->
  shows rtex b e (print_pow itex false rtex comm neg b e).
Proof.
move=> ik; rewrite /print_pow /pow_body; case: e ik => [p q|t] ik; last exact: general_shows.
case: ifP => [/andP[p1 q1]|np].
  have rt : shows rtex b (ERat 1 q) (pow_root itex (b_text b) 1 q).
    rewrite /pow_root /=; case: eqP => [->|_]; first exact: Shows_sqrt.
    by case: itex; [exact: Shows_itex|exact: Shows_root].
  have [->|->] : p = 1%R \/ p = (- 1)%R by case: p p1 {ik} => [[|[|]]|[|]] //; [left|right].
    exact: rt.
  by have := Shows_inverse rt.
rewrite /=; case: ifP => [/andP[pn fu]|_]; last exact: general_shows.
rewrite -[in ERat p q](opprK p); apply: Shows_inverse.
have pp : (0 < - p)%R by rewrite oppr_gt0.
have -> : forall A B : text, (if ERat (- p)%R q is ERat 1%R 1 then A else B) =
    (if (- p == 1)%R && (q == 1) then A else B).
  by case: (- p)%R q {pp np ik pn} => [[|[|?]]|?] [|[|?]].
case: ifP => [/andP[/eqP -> /eqP ->]|_]; first exact: Shows_one.
rewrite abszN np /= ltNge (ltW pp) /= /pow_general fu.
have := @Shows_script rtex b (ERat (- p)%R q) (txt "{" ++ b_text b ++ txt "}").
by rewrite -!catA; apply; constructor 1.
Qed.
(* with fold_frac_powers it holds for bases that need no brackets *)
Theorem C70_fold_partial comm neg b e : (b_function b || ~~ b_brackets b) || pow_mode (b_text b) ->
  inverse_known comm neg b e -> shows rtex b e (print_pow itex true rtex comm neg b e).
Proof.
move=> ok ik; have := C70_power ik; case: e ik => [p q|t] ik //.
rewrite /print_pow /=; case: ifP => // np; case q1 : (q == 1) => /=; last first.
  move=> _; rewrite /pow_slash int_textE; case: ifP => mo.
    have := @Shows_slash rtex b p q (txt "{\left ( " ++ b_text b ++ txt " \right )}").
    by rewrite -!catA; apply; constructor 2.
  by apply: Shows_slash; constructor 4; rewrite alone_mode // ; move: ok; rewrite mo orbF.
by case: ifP.
Qed.
(* no double superscript, every script has its argument and the braces balance *)
Definition dot_closed b : Prop := infix (txt "cdot") (b_text b) -> ~~ ends_raised (b_text b).
Theorem C70_scripts fold comm neg b e : well_formed (b_text b) -> dot_closed b -> well_formed neg ->
  (forall p q, well_formed (rtex p q)) -> well_formed (exponent_text rtex e) ->
  well_formed (print_pow itex fold rtex comm neg b e).
Proof.
move=> wb dc wn wr we.
have lone : pow_mode (b_text b) = false -> low (b_text b).
  rewrite /pow_mode => /negbT; rewrite negb_and negbK => /orP[|/dc]; last by rewrite /low wb.
  by rewrite negb_or => /andP[_ h]; apply: wf_low.
have sc e' : well_formed (etex rtex e') -> well_formed (pow_script rtex b e').
  move=> we'; rewrite /pow_script; case: ifP => _.
    by have := wf_script (low_paren2 wb) we'; rewrite -!catA.
  case: ifP => mo; first by have := wf_script (low_paren1 wb) we'; rewrite -!catA.
  exact: wf_script (lone mo) we'.
have ge e' : well_formed (etex rtex e') -> well_formed (pow_general rtex comm neg b e').
  move=> we'; rewrite /pow_general; case: ifP => _.
    by have := wf_script (low_group wb) we'; rewrite -!catA.
  case: ifP => _; last exact: sc.
  case: eqP => [tk|_]; last exact: sc.
  rewrite strip_wf; have := wn; rewrite -[in X in X -> _](strip_wf neg) -{1}[strip neg](cat_take_drop 1) tk.
  by rewrite /well_formed scripts_cat.
have sl p q : well_formed (str_int p ++ txt "/" ++ txt (str_nat q)).
  have d k : low (txt (str_nat k)) by apply: plain_low; exact: str_nat_plain.
  have [] // : low (str_int p ++ txt "/" ++ txt (str_nat q)) /\ True; last by case/andP.
  split=> //; apply: low_cat; last exact: low_cat.
  by rewrite /str_int; case: p => k //; apply: low_cat.
have bo rec e' : (forall e', well_formed (etex rtex e') -> well_formed (rec e')) -> well_formed (etex rtex e') ->
    well_formed (pow_body itex fold rtex rec comm neg b e').
  move=> wrec we'; rewrite /pow_body; case: e' we' => [p q|t] we'; last exact: ge.
  case: ifP => _.
    have rt : low (if q == 2 then txt "\sqrt{" ++ b_text b ++ txt "}"
        else if itex then txt "\root{" ++ txt (str_nat q) ++ txt "}{" ++ b_text b ++ txt "}"
        else txt "\sqrt[" ++ txt (str_nat q) ++ txt "]{" ++ b_text b ++ txt "}").
      have dq st : scripts (false, false) st (txt (str_nat q)) = Some ((false, false), st).
        by apply: scripts_plain; exact: str_nat_plain.
      case: ifP => _; first by apply: low_of; rewrite scripts_cat /= scripts_cat (wf_st _ wb).
      case: itex; apply: low_of; rewrite scripts_cat /= scripts_cat dq /= scripts_cat (wf_st _ wb) //.
    rewrite /pow_root; case: ifP => _; last by case/andP: rt.
    by case/andP: rt => wt _; case/andP: (wf_frac wt).
  case: ifP => _.
    rewrite /pow_slash; case: ifP => mo; first by have := wf_script (low_paren1 wb) (sl p q); rewrite -!catA.
    by have := wf_script (lone mo) (sl p q); rewrite -!catA.
  case: ifP => _; last exact: ge.
  by case/andP: (wf_frac (wrec (ERat (- p)%R q) (wr _ _))).
apply: (bo) => // e' we'.
have h : well_formed (pow_body itex fold rtex (fun=> [::]) comm neg b e') by apply: bo.
by case: e' {we'} h => [[[|[|?]]|?] [|[|?]]|?].
Qed.
End Pow.

Section Function.
Variables (accepted : seq text) (sym : text -> text).
Notation has_percent t := (percent_sign \in (t : text)).
Lemma percent_one f pre post x : f = pre ++ txt "%s" ++ post -> ~~ has_percent pre -> ~~ has_percent post ->
  percent f [:: x] = FText (pre ++ x ++ post).
Proof.
move=> ->; elim: pre => [|c pre IH] /=.
  by move=> _; elim: post => [|c post IHp] //=; rewrite inE negb_or eq_sym => /andP[/negbTE nc np];
    move: (IHp np); rewrite nc; case: (percent post [::]) => //= t [E]; congr FText; move: E => /eqP; rewrite eqseq_cat // => /andP[_ /eqP ->].
rewrite inE negb_or eq_sym => /andP[/negbTE nc np] npo; rewrite nc /= IH //.
Qed.
Variables (style : text) (fold omit : bool).
Notation printf := (print_function accepted sym style fold omit None).
Notation named := (named accepted sym).
(* no percent sign in the name and in the exponent *)
Definition no_percents (f : text) (exp : option text) : bool :=
  [&& ~~ has_percent f, ~~ has_percent (sym f) & if exp is Some e then ~~ has_percent e else true].
Lemma headE f exp : fun_head accepted sym f false exp = named f exp.
Proof.
rewrite /fun_head /Spec_Power.named /raised /head; case: exp => [e|] //; case: ifP => // _.
by case: ifP => _; rewrite -!catA.
Qed.
Lemma named_percent f exp : no_percents f exp -> ~~ has_percent (named f exp).
Proof.
case/and3P=> nf ns ne; rewrite /Spec_Power.named /raised /head; case: exp ne => [e|] ne; case: ifP => _; first last.
- by rewrite mem_cat negb_or ns.
- by rewrite mem_cat negb_or nf.
- by case: ifP => _; rewrite !mem_cat !negb_or ns ne.
by rewrite !mem_cat !negb_or nf ne.
Qed.
Lemma argE (args : seq text) : (if args is [:: x] then x else joined (txt ",") args) = joined (txt ",") args.
Proof. by case: args => [|x []]. Qed.
(* the name, with its exponent, and all arguments in parentheses, separated by commas *)
Lemma callE f f0 args needs exp : fun_name style f0 = (f, false) -> (f \in accepted) || ~~ omit ->
  ~~ [&& fold, size args == 1 & ~~ needs] -> no_percents f exp ->
  printf f0 args needs exp = FText (named f exp ++ parentheses args).
Proof.
move=> nm sh nfo np; rewrite /print_function nm; cbv beta iota zeta; rewrite andbT (negbTE nfo) sh headE argE.
rewrite (percent_one (pre := named f exp ++ txt "{\left (") (post := txt " \right )}")) // -?catA //.
by rewrite mem_cat negb_or named_percent.
Qed.
Theorem C70_call f args needs exp : f \notin inv_trig_table -> (f \in accepted) || ~~ omit ->
  ~~ [&& fold, size args == 1 & ~~ needs] -> no_percents f exp ->
  printf f args needs exp = FText (named f exp ++ parentheses args).
Proof. by move=> nt; apply: callE; rewrite /fun_name (negbTE nt). Qed.
(* with fold_func_brackets a single argument that needs no brackets stands after the name *)
Theorem C70_call_fold f x exp : f \notin inv_trig_table -> fold -> no_percents f exp -> (f \in accepted) || ~~ omit ->
  printf f [:: x] false exp = FText (named f exp ++ if f \in accepted then txt " {" ++ x ++ txt "}" else x).
Proof.
move=> nt fo np sh; rewrite /print_function /fun_name (negbTE nt); cbv beta iota zeta; rewrite fo andbT headE.
have -> : [&& true, size [:: x] == 1 & ~~ false] by [].
case ac: (f \in accepted); last case om: omit; cbv beta iota zeta; rewrite ?orTb ?orFb; last first.
- rewrite (percent_one (pre := named f exp) (post := [::])) ?cats0 //; exact: named_percent.
- by move: sh; rewrite ac om.
rewrite (percent_one (pre := named f exp ++ txt " {") (post := txt "}")) // -?catA //.
by rewrite mem_cat negb_or named_percent.
Qed.
(* omit_function_args leaves the arguments out, except for the functions of LaTeX *)
Theorem C70_call_omit f args needs exp : f \notin inv_trig_table -> f \notin accepted -> omit ->
  printf f args needs exp = FText (named f exp).
Proof.
move=> nt /negbTE na om; rewrite /print_function /fun_name (negbTE nt); cbv beta iota zeta; rewrite na om headE.
by case: ifP.
Qed.
(* inverse trigonometric functions.  The name of the setting: asin (the default), arcsin, or sin^{-1} *)
Theorem C70_inverse f args needs exp : (txt "a" ++ f) \in inv_trig_table -> style != txt "power" ->
  let g := if style == txt "full" then txt "arc" ++ f else txt "a" ++ f in
  (g \in accepted) || ~~ omit -> ~~ [&& fold, size args == 1 & ~~ needs] -> no_percents g exp ->
  printf (txt "a" ++ f) args needs exp = FText (named g exp ++ parentheses args).
Proof.
move=> it np g sh nfo; apply: callE => //; rewrite /fun_name it /g (negbTE np) drop_size_cat //.
by case: (altP (style =P txt "abbreviated")) => [->|_] //; case: ifP.
Qed.
(* an exponent stands after the arguments, since the name carries the ^{-1} *)
Theorem C70_inverse_power f args needs exp : (txt "a" ++ f) \in inv_trig_table -> style = txt "power" -> f \in accepted ->
  ~~ [&& fold, size args == 1, ~~ needs & ~~ isSome exp] -> ~~ has_percent f -> (if exp is Some e then ~~ has_percent e else true) ->
  printf (txt "a" ++ f) args needs exp =
  FText (txt "\" ++ f ++ txt "^{-1}" ++ parentheses args ++ (if exp is Some e then txt "^{" ++ e ++ txt "}" else [::])).
Proof.
move=> it st ac nfo nf ne; rewrite /print_function /fun_name it st drop_size_cat //; cbv beta iota zeta.
have -> : (txt "power" == txt "abbreviated") = false by [].
have -> : (txt "power" == txt "full") = false by [].
rewrite eqxx; cbv beta iota zeta; rewrite ac.
have -> : [&& fold, size args == 1 & ~~ needs] && ~~ (true && isSome exp) = false by apply/negbTE; rewrite andTb -!andbA.
cbv beta iota zeta; rewrite argE orTb /fun_head ac; cbv beta iota zeta.
rewrite (percent_one (pre := txt "\" ++ f ++ txt "^{-1}" ++ txt "{\left (")
  (post := txt " \right )}" ++ (if exp is Some e then txt "^{" ++ e ++ txt "}" else [::]))) /parentheses -?catA //.
- by case: exp ne nfo => [e|] _ _; rewrite -?catA ?cats0.
- by rewrite mem_cat negb_or mem_cat negb_or nf.
by case: exp ne {nfo} => [e|] ne //; rewrite !mem_cat !negb_or ne.
Qed.
(* ---- no double superscripts in function calls ---- *)
(* what sympy guarantees: names of LaTeX functions are letters, the inverse functions are
   those of LaTeX functions, and the text of a symbol has a superscript only if its name has one *)
Definition names_known : Prop :=
  [/\ forall f, f \in accepted -> plain f,
      forall f, f \in inv_trig_table -> drop 1 f \in accepted,
      forall f, well_formed (sym f)
    & forall f, "^"%char \in sym f -> ("_"%char \in f) || ("^"%char \in f)].
Lemma joined_wf args : all well_formed args -> well_formed (joined (txt ",") args).
Proof.
case: args => [|x l] //=; rewrite andbC => /andP[]; elim: l x => [|y l IH] x /=; first by [].
case/andP=> wy wl wx; have w := IH y wl wy.
rewrite -cat1s; apply: (@wf_of _ (ends_raised (joined (txt ",") (y :: l)))).
by rewrite scripts_cat (wf_st _ wx) /= (wf_st _ w).
Qed.
Lemma paren_atom m args : m.2 = false -> all well_formed args ->
  scripts m [::] (parentheses args) = Some ((false, false), [::]).
Proof.
move=> m2 wa; have w := joined_wf wa.
have wp : well_formed (txt "\left (" ++ joined (txt ",") args ++ txt " \right )").
  by apply: (@wf_of _ false); rewrite scripts_cat /= scripts_cat (wf_st _ w).
have := scripts_group m [::] wp; rewrite -!catA => ->; by rewrite /after_atom m2.
Qed.
Lemma named_wf f exp : names_known -> (if exp is Some e then well_formed e else true) -> well_formed (named f exp).
Proof.
case=> pl _ ws cs we; rewrite /Spec_Power.named /raised /head; case: exp we => [e|] we; case: ifP => ac.
- have lf : low (txt "\" ++ f) by apply: low_cat => //; apply: plain_low; exact: pl.
  by have := wf_script lf we; rewrite -!catA.
- case: ifP => h.
    have lf : low (txt "{\left ( " ++ sym f ++ txt " \right ) }").
      by apply: low_of; rewrite scripts_cat /= scripts_cat (wf_st _ (ws f)).
    by have := wf_script lf we; rewrite -!catA.
  have lf : low (sym f ++ txt " ").
    apply: low_cat => //; apply: wf_low => //; apply/negP => /cs; by rewrite h.
  by have := wf_script lf we; rewrite -!catA.
- by have /andP[] : low (txt "\" ++ f) by apply: low_cat => //; apply: plain_low; exact: pl.
by apply: (@wf_of _ (ends_raised (sym f))); rewrite scripts_cat (wf_st _ (ws f)).
Qed.
Theorem C70_call_scripts f args needs exp : names_known -> ~~ fold -> all well_formed args ->
  (if exp is Some e then well_formed e else true) -> no_percents (fun_name style f).1 exp ->
  exists2 t, printf f args needs exp = FText t & well_formed t.
Proof.
move=> nk nfo wa we np; have nf2 : ~~ [&& fold, size args == 1 & ~~ needs] by rewrite (negbTE nfo).
have wcall g : well_formed (named g exp ++ parentheses args).
  apply: (@wf_of _ false); rewrite scripts_cat (wfP (named_wf g nk we)); exact: paren_atom.
case E: (fun_name style f) np => [g pw]; rewrite [(g, pw).1]/= => np; case: pw E => E; last first.
  case sh: ((g \in accepted) || ~~ omit); first by exists (named g exp ++ parentheses args) => //; exact: callE.
  exists (named g exp); last exact: named_wf.
  by rewrite /print_function E; cbv beta iota zeta; rewrite andbT (negbTE nf2) sh headE.
have [it [st gE]] : f \in inv_trig_table /\ style = txt "power" /\ g = drop 1 f.
  move: E; rewrite /fun_name; case: ifP => // it; do 2 case: ifP => // _.
  by case: eqP => // st [<-].
have fE : f = txt "a" ++ g by rewrite gE; move: it; rewrite !inE => /or3P[|/eqP ->|/or4P[|/eqP ->|/eqP ->|]] //= => [/eqP ->|/eqP ->|/orP[] /eqP ->].
have ga : g \in accepted by rewrite gE; case: nk => _ h _ _; exact: h.
have ne : is_true (if exp is Some e then ~~ has_percent e else true) by case: exp np {we wcall} => // e /and3P[].
have nf4 : ~~ [&& fold, size args == 1, ~~ needs & ~~ isSome exp] by rewrite (negbTE nfo).
have ng : ~~ has_percent g by case/and3P: np.
rewrite fE in it *; rewrite (C70_inverse_power it st ga nf4 ng ne); eexists; first by [].
have lg : low (txt "\" ++ g) by apply: low_cat => //; apply: plain_low; case: nk => h _ _ _; exact: h.
have wg := wf_script (e := txt "-1") lg isT.
have lc : low ((txt "\" ++ g ++ txt "^{-1}") ++ parentheses args).
  by apply: low_of; rewrite scripts_cat (wfP wg); exact: paren_atom.
case: exp we {np wcall ne nf4} => [e|] we; last by case/andP: lc; rewrite -!catA cats0.
by have := wf_script lc we; rewrite -!catA.
Qed.
End Function.

(* ---- examples: sympy's texts of small rational numbers, symbols and functions ---- *)
Definition ex_rat (p : int) (q : nat) : text :=
  if q == 1 then str_int p else txt "\frac{" ++ str_int p ++ txt "}{" ++ txt (str_nat q) ++ txt "}".
Lemma ex_rat_wf p q : well_formed (ex_rat p q).
Proof.
have d k st : scripts (false, false) st (txt (str_nat k)) = Some ((false, false), st).
  by apply: scripts_plain; exact: str_nat_plain.
have i st : scripts (false, false) st (str_int p) = Some ((false, false), st).
  by rewrite /str_int; case: p => k; rewrite ?scripts_cat /= d.
rewrite /ex_rat; case: ifP => _; apply: (@wf_of _ false); first exact: i.
by rewrite scripts_cat /= scripts_cat i /= scripts_cat d.
Qed.
Definition ex_x1 : base := Base (txt "x_{1}^{2}") false false.
Definition ex_sum : base := Base (txt "x + y") false true.
Example C70_power_ex : [/\ inverse_known true (txt "") ex_x1 (ERat 3 1),
    print_pow false false ex_rat true (txt "") ex_x1 (ERat 3 1) = txt "{\left ( x_{1}^{2} \right )}^{3}",
    print_pow false false ex_rat true (txt "") ex_sum (ERat 2 3) = txt "\left(x + y\right)^{\frac{2}{3}}"
  & print_pow false false ex_rat true (txt "") ex_sum (ERat (- 1)%R 2) = txt "\frac{1}{\sqrt{x + y}}"].
Proof. by []. Qed.
Example C70_inverse_ex : inverse_known true (txt "- \frac{1}{x + y}") ex_sum (ERat (- 1)%R 1) /\
  print_pow false false ex_rat true (txt "- \frac{1}{x + y}") ex_sum (ERat (- 1)%R 1) = txt "\frac{1}{x + y}".
Proof. by []. Qed.
Example C70_scripts_ex : [/\ well_formed (b_text ex_x1), dot_closed ex_x1 & ends_raised (b_text ex_x1)].
Proof. by []. Qed.
(* finding: with the setting fold_frac_powers a sum is raised without brackets: (x + y)**(2/3)
   is printed as x + y^{2/3} (printer.py:546-550) *)
Theorem C70_fold_refuted : exists b e, inverse_known true (txt "") b e /\
  ~ shows ex_rat b e (print_pow false true ex_rat true (txt "") b e).
Proof.
exists ex_sum, (ERat 2 3); split=> //.
rewrite -[print_pow _ _ _ _ _ _ _]/(txt "x + y^{2/3}").
move Ee: (ERat 2 3) => e; move Et: (txt "x + y^{2/3}") => t h; case: h Ee Et => //.
- move=> e' g gr _; case: gr => [||| [] //] ->; by case.
- move=> p q g gr _; case: gr => [||| [] //] ->; by case.
Qed.
(* finding: a base whose name contains "cdot" is raised without brackets even if it has a
   superscript of its own, which LaTeX rejects (printer.py:521-525) *)
Theorem C70_scripts_refuted : exists b e, [/\ well_formed (b_text b), well_formed (exponent_text ex_rat e)
  & ~~ well_formed (print_pow false false ex_rat true (txt "") b e)].
Proof. by exists (Base (txt "cdot^{a}") false false), (ERat 2 1). Qed.

Definition ex_accepted : seq text := map txt [:: "sin"; "cos"; "tan"; "cot"; "cosh"; "sinh"; "tanh"; "exp"; "log"]%string.
(* a name without the characters that mean something to LaTeX *)
Definition ex_sym (f : text) : text := if plain f then f else txt "f_{1}".
Example C70_names_ex : names_known ex_accepted ex_sym.
Proof.
split.
- by apply/allP.
- by apply/allP.
- by move=> f; rewrite /ex_sym; case: ifP => // /plain_wf.
move=> f; rewrite /ex_sym; case: ifP => // pf /(allP pf); by [].
Qed.
Notation pf style fold omit := (print_function ex_accepted ex_sym (txt style) fold omit None).
Example C70_call_ex : [/\ no_percents ex_sym (txt "f_1") (Some (txt "2")),
    pf "abbreviated" false false (txt "f_1") [:: txt "x"; txt "y"] false (Some (txt "2"))
      = FText (txt "{\left ( f_{1} \right ) }^{2}{\left (x,y \right )}"),
    pf "abbreviated" true false (txt "sin") [:: txt "x"] false (Some (txt "2")) = FText (txt "\sin^{2} {x}")
  & pf "abbreviated" false true (txt "g") [:: txt "x"] false None = FText (txt "g ")].
Proof. by []. Qed.
Example C70_inverse_call_ex : [/\ txt "asin" \in inv_trig_table, txt "sin" \in ex_accepted,
    pf "full" false false (txt "asin") [:: txt "x"] false None = FText (txt "arcsin {\left (x \right )}")
  & pf "power" true false (txt "asin") [:: txt "x"] false (Some (txt "2")) = FText (txt "\sin^{-1}{\left (x \right )}^{2}")].
Proof. by []. Qed.
(* finding: the name is used as a format: a function whose name contains % cannot be printed
   (printer.py:706-710) *)
Theorem C70_call_refuted : exists f, forall t, pf "abbreviated" false false f [:: txt "x"] false None <> FText t.
Proof. by exists (txt "a%d"). Qed.

Print Assumptions C70_power.
Print Assumptions C70_fold_partial.
Print Assumptions C70_scripts.
Print Assumptions C70_call.
Print Assumptions C70_call_fold.
Print Assumptions C70_call_omit.
Print Assumptions C70_inverse.
Print Assumptions C70_inverse_power.
Print Assumptions C70_call_scripts.
Print Assumptions C70_fold_refuted.
Print Assumptions C70_scripts_refuted.
Print Assumptions C70_call_refuted.
