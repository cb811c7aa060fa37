(* Props_Tex.v -- C47: post-processing of the captured lines. *)
From Coq Require Import String Ascii ZArith.
From mathcomp Require Import all_ssreflect.
From Verif Require Import PyBase PyStr Names_Proof Printer_Model Spec_Printer.
Set Implicit Arguments.
Unset Strict Implicit.
Unset Printing Implicit Defensive.
Local Open Scope string_scope.

Lemma startsP p s : reflect (exists t, s = p +++ t) (starts p s).
Proof.
elim: p s => [|c p IH] s /=; first by apply: ReflectT; exists s.
case: s => [|d s]; first by apply: ReflectF => -[].
case: (c =P d) => [->|ne] /=; last by apply: ReflectF => -[t [e _]]; case: ne.
by apply: (iffP (IH s)) => [[t ->]|[t [->]]]; exists t.
Qed.
Lemma drops_app p s : drops (length p) (p +++ s) = s.
Proof. by elim: p. Qed.
Lemma app_len a b : length (a +++ b) = (length a + length b)%N.
Proof. by elim: a => //= x a ->. Qed.
Lemma containsP sub s : reflect (exists a b, s = a +++ sub +++ b) (contains sub s).
Proof.
apply: (iffP idP) => [|[a [b ->]]].
  elim: s => [|c s IH] /=; first by rewrite orbF => /startsP [t e]; exists "", t.
  case/orP=> [/startsP [t e]|/IH [a [b ->]]]; first by exists "", t.
  by exists (String c a), b.
elim: a => [|c a IH] /=; last by rewrite IH orbT.
by case: (sub +++ b) (introT (startsP sub (sub +++ b)) (ex_intro _ b erefl)) => [|c t] /= ->.
Qed.
Lemma remove_firstP sub s : contains sub s ->
  exists a b, [/\ s = a +++ sub +++ b, remove_first sub s = a +++ b &
    forall a' b', s = a' +++ sub +++ b' -> (length a <= length a')%N].
Proof.
elim: s => [|c s IH] /=.
  rewrite orbF; case: startsP => // -[t e] _; exists "", t; split=> //.
  by rewrite {1}e drops_app.
case: startsP => [[t e] _|ne /IH [a [b [e -> m]]]] /=.
  by exists "", t; split=> //; rewrite e drops_app.
exists (String c a), b; split=> //=; first by rewrite e.
by case=> [|x a'] b' /=; [move=> e'; case: ne; exists b' | case=> _ /m].
Qed.
Lemma wrapP l : wrapped l (wrap l).
Proof.
rewrite /wrap; case: ifP => [/remove_firstP [a [b [e -> m]]]|/containsP ne].
  by rewrite e; apply: WrapAlign => a' b' e'; apply: (m a' b'); rewrite e.
by apply: WrapEquation => a b e; apply: ne; exists a, b.
Qed.
Lemma rsplit1P c s : has_char c s ->
  s = (rsplit1 c s).1 +++ String c (rsplit1 c s).2 /\ ~~ has_char c (rsplit1 c s).2.
Proof.
elim: s => //= x s IH; case hs: (has_char c s) => /=; first by have [e h] := IH hs; rewrite -e.
by rewrite orbF => /eqP ->; rewrite hs.
Qed.
Definition out_lines := fix f (b : bool) (ls : seq string) : seq string :=
  if ls is l :: ls' then (tex_line b l).2 :: f (tex_line b l).1 ls' else [::].
Lemma tex_line_code l : l <> "" -> ~~ starts "##" l -> tex_line true l = (true, l).
Proof. by move=> ne n; rewrite /tex_line (introF eqP ne) (negbTE n). Qed.
Lemma tex_line_toggle b l : tex_line b ("##" +++ l) = (~~ b, l). Proof. by []. Qed.
Lemma tex_line_hash l : not_after [:: "#"; "%"]%char l -> tex_line false ("#" +++ l) = (false, l).
Proof.
case: l => //= c l; rewrite !inE negb_or => /andP[/negbTE h1 /negbTE h2].
by rewrite /tex_line /= ![_ == c]eq_sym h1 h2.
Qed.
Lemma tex_line_percent l : tex_line false ("%" +++ l) = (false, wrap l). Proof. by []. Qed.
Lemma tex_line_hashpercent l : tex_line false ("#%" +++ l) = (false, wrap l). Proof. by []. Qed.
Lemma tex_line_plain l : l <> "" -> not_after [:: "#"; "%"]%char l -> tex_line false l =
  (false, wrap (if has_char "=" l then (let p := rsplit1 "=" l in texify p.1 +++ "=" +++ p.2) else l)).
Proof.
case: l => // c l _; rewrite /not_after !inE negb_or => /andP[/negbTE h1 /negbTE h2].
have n1 p : starts ("#" +++ p) (String c l) = false by rewrite /= eq_sym h1.
have n2 p : starts ("%" +++ p) (String c l) = false by rewrite /= eq_sym h2.
by rewrite /tex_line [_ == ""]/= (n1 "#") (n1 "") (n1 "%") (n2 "").
Qed.
Lemma line_shape l : [\/ l = "", exists t, l = "##" +++ t, exists t, l = "#%" +++ t |
  (exists2 t, not_after [:: "#"; "%"]%char t & l = "#" +++ t) \/ (exists t, l = "%" +++ t) \/ l <> "" /\ not_after [:: "#"; "%"]%char l].
Proof.
case: l => [|c l]; first by apply: Or41.
case: (c =P "#"%char) => [->|n1].
  case: l => [|d l]; first by apply: Or44; left; exists "".
  case: (d =P "#"%char) => [->|m1]; first by apply: Or42; exists l.
  case: (d =P "%"%char) => [->|m2]; first by apply: Or43; exists l.
  by apply: Or44; left; exists (String d l) => //=; rewrite !inE; apply/norP; split; exact/eqP.
case: (c =P "%"%char) => [->|n2]; first by apply: Or44; right; left; exists l.
by apply: Or44; right; right; split=> //=; rewrite !inE; apply/norP; split; exact/eqP.
Qed.
Lemma lines_texP b ls : lines_tex b ls (out_lines b ls).
Proof.
elim: ls b => [|l ls IH] b; first exact: LNone.
rewrite -[out_lines _ _]/((tex_line b l).2 :: out_lines (tex_line b l).1 ls).
case: (l =P "") => [->|ne]; first exact: LBlank (IH b).
case: (boolP (starts "##" l)) => [/startsP [t ->]|n2]; first by rewrite tex_line_toggle; exact: LToggle (IH _).
case: b; first by rewrite tex_line_code //; exact: LVerbatim (IH _).
case: (line_shape l) => [//|[t e]|[t ->]|[[t n ->]|[[t ->]|[_ n]]]].
- by case/startsP: n2; exists t.
- by rewrite tex_line_hashpercent; exact: LHashPercent (wrapP t) (IH _).
- by rewrite tex_line_hash //; exact: LHash (IH _).
- by rewrite tex_line_percent; exact: LPercent (wrapP t) (IH _).
rewrite tex_line_plain //; case: (boolP (has_char "=" l)) => he; last exact: LPlain (wrapP l) (IH _).
have [el hn] := rsplit1P he; rewrite {1}el; apply: LEqual (wrapP _) (IH _) => //; by rewrite -[_ +++ _]el.
Qed.
Lemma tex_loopE ls b acc : foldl (fun st l => let r := tex_line st.1 l in (r.1, st.2 +++ r.2 +++ newline)) (b, acc) ls =
  ((foldl (fun b l => (tex_line b l).1) b ls), acc +++ text (out_lines b ls)).
Proof.
elim: ls b acc => [|l ls IH] b acc /=; first by rewrite app_empty.
by rewrite IH !appA.
Qed.
Definition one_line l := ~~ has_char nl l.
Lemma split_text ls : all one_line ls -> split nl (text ls) = rcons ls "".
Proof. by elim: ls => [|l ls IH] //= /andP[h1 h2]; rewrite split_cut // IH. Qed.
Lemma text_rcons ls : text (rcons ls "") = text ls +++ newline.
Proof. by elim: ls => [|l ls IH] //=; rewrite IH appA. Qed.
Lemma out_rcons ls b : exists b', out_lines b (rcons ls "") = rcons (out_lines b ls) "" /\ b' = b.
Proof. by exists b; split=> //; elim: ls b => [|l ls IH] b //=; rewrite IH. Qed.
Lemma body_text ls : all one_line ls -> tex_body (text ls) = squeeze (text (out_lines false ls) +++ newline).
Proof.
move=> al; rewrite /tex_body split_text // /tex_loop tex_loopE /=.
by have [_ [-> _]] := out_rcons ls false; rewrite text_rcons.
Qed.
(* the relation is a function of the lines *)
Lemma wrapped_fun l o : wrapped l o -> o = wrap l.
Proof.
case=> [a b m|{}l n]; rewrite /wrap; last by case: ifP => // /containsP [a [b /n]].
case: ifP => [/remove_firstP [a' [b' [e -> m']]]|/containsP []]; last by exists a, b.
congr (_ +++ lstrip _).
have el : length a = length a' by apply/eqP; rewrite eqn_leq (m _ _ e) (m' _ _ erefl).
clear m m'; elim: a a' e el => [|x a IH] [|x' a'] //=; first by case=> ->.
by case=> -> e [] /(IH _ e) ->.
Qed.
Lemma rsplit1_app c x y : ~~ has_char c y -> rsplit1 c (x +++ String c y) = (x, y).
Proof.
move=> h; elim: x => [|z x IH] /=; first by rewrite (negbTE h).
by rewrite has_app /= eqxx orbT IH.
Qed.
Lemma lines_fun b ls os : lines_tex b ls os -> os = out_lines b ls.
Proof.
elim=> {b ls os} [b|b ls os _ ->|b l ls os _ ->|l ls os n _ ->|l ls os n _ ->|l o ls os w _ ->|l o ls os w _ ->|l o ls os ne n e w _ ->|x y o ls os n e w _ ->] //.
- case: (l =P "") => [-> //|ne]; by rewrite -[RHS]/((tex_line true l).2 :: out_lines (tex_line true l).1 ls) tex_line_code.
- by rewrite -[RHS]/((tex_line false ("#" +++ l)).2 :: out_lines (tex_line false ("#" +++ l)).1 ls) tex_line_hash.
- by rewrite (wrapped_fun w).
- by rewrite (wrapped_fun w).
- by rewrite -[RHS]/((tex_line false l).2 :: out_lines (tex_line false l).1 ls) tex_line_plain // (negbTE e) (wrapped_fun w).
set l := x +++ _; rewrite -[RHS]/((tex_line false l).2 :: out_lines (tex_line false l).1 ls) tex_line_plain //; last by rewrite /l; case: (x).
by rewrite /l has_app /= orbT rsplit1_app // (wrapped_fun w).
Qed.
(* ---------- blank lines ---------- *)
Definition nb (ls : seq string) := [seq l <- ls | l != ""].
Lemma split_cons c s : exists w ws, split c s = w :: ws.
Proof. by case e: (split c s) (split_size c s) => [|w ws] // _; exists w, ws. Qed.
Lemma squeeze_split s : head "" (split nl (squeeze s)) = head "" (split nl s) /\
  nb (behead (split nl (squeeze s))) = nb (behead (split nl s)).
Proof.
have [m lm] := ubnP (length s); elim: m s lm => // m IH [//|a [//|b s]] lm.
have nbE u : nb (split nl u) = ((if head "" (split nl u) != "" then [:: head "" (split nl u)] else [::]) ++ nb (behead (split nl u)))%SEQ.
  by have [w [ws ->]] := split_cons nl u => /=; case: (w != "").
rewrite [squeeze _](_ : _ = if (a == nl) && (b == nl) then String nl (squeeze s) else String a (squeeze (String b s))) //.
have cons c u : split nl (String c u) = if c == nl then "" :: split nl u else String c (head "" (split nl u)) :: behead (split nl u).
  by have [w [ws e]] := split_cons nl u; rewrite /= e.
case: ifP => [/andP[/eqP -> /eqP ->]|ne].
  have [h1 h2] := IH s (ltnW lm); rewrite !cons !eqxx; split=> //=.
  by rewrite -/(nb _) nbE h1 h2 -nbE.
have [h1 h2] := IH (String b s) lm; rewrite (cons a) (cons a (String b s)).
by case: ifP => _ /=; rewrite ?h1 ?h2 // -!/(nb _) nbE h1 h2 -nbE.
Qed.
Lemma squeeze_nb s : nb (split nl (squeeze s)) = nb (split nl s).
Proof.
have [] := squeeze_split s; have [w [ws ->]] := split_cons nl (squeeze s); have [v [vs ->]] := split_cons nl s => /= -> e.
by rewrite /nb /= -!/(nb _) e.
Qed.
Lemma squeeze_line l u : l != "" -> one_line l -> squeeze (l +++ String nl u) = l +++ squeeze (String nl u).
Proof.
rewrite /one_line; elim: l => // a [|b l] IH _ /=; rewrite negb_or => /andP[/negbTE na nb'].
  by rewrite na.
by rewrite na /=; congr (String a _); exact: IH nb'.
Qed.
Lemma squeeze_text os : os != [::] -> all one_line os -> all (fun o => o != "") os -> squeeze (text os +++ newline) = text os.
Proof.
elim: os => // o os IH _ /= /andP[h1 h2] /andP[n1 n2]; rewrite !appA squeeze_line //; congr (_ +++ _).
case: os IH h2 n2 => [|o' os] // IH h2 n2.
move: {IH} (IH isT h2 n2); move: n2 h2 => /= /andP[n2 _] /andP[h2 _].
case: o' n2 h2 => // c o' _; rewrite /one_line /= negb_or => /andP[/negbTE nc _].
by rewrite nc => /= ->.
Qed.
(* ---------- no new line breaks ---------- *)
Lemma has_lstrip c s : has_char c (lstrip s) -> has_char c s.
Proof. by elim: s => //= x s IH; case: ifP => // _ /IH ->; rewrite orbT. Qed.
Lemma has_rstrip c s : has_char c (rstrip s) -> has_char c s.
Proof. by elim: s => //= x s IH; case: ifP => //= _ /orP[->|/IH ->]; rewrite ?orbT. Qed.
Lemma has_drops c k s : has_char c (drops k s) -> has_char c s.
Proof. by elim: k s => // k IH [|x s] //= /IH ->; rewrite orbT. Qed.
Lemma alternative_has c b s m r : alternative b s = Some (m, r) -> has_char c r -> 
  c \in [:: "\"; "c"; "d"; "o"; "t"; " "; "W"; "b"; "a"; "r"; "{"; "l"; "s"; "y"; "m"; "n"; "}"; "i"; "e"; "f"]%char.
Proof.
rewrite /alternative.
do 9! (case: ifP => _; first by case=> _ <-; rewrite /= !inE ![c == _]eq_sym; do ?(case: (_ == c); rewrite ?orbT //)).
by [].
Qed.
Lemma texify0 b x s : texify_from 0 b (String x s) =
  if alternative b (String x s) is Some (m, r) then r +++ texify_from m.-1 (word x) s else String x (texify_from 0 (word x) s).
Proof. by []. Qed.
Lemma texify_has c k b s : has_char c (texify_from k b s) ->
  has_char c s || (c \in [:: "\"; "c"; "d"; "o"; "t"; " "; "W"; "b"; "a"; "r"; "{"; "l"; "s"; "y"; "m"; "n"; "}"; "i"; "e"; "f"]%char).
Proof.
elim: s k b => // x s IH [|k] b; last by move/IH; rewrite /= -orbA => ->; rewrite orbT.
rewrite texify0.
case ea: alternative => [[m r]|] /=; last by rewrite -orbA => /orP[->|/IH ->]; rewrite ?orbT.
rewrite has_app => /orP[h|/IH]; last by rewrite -orbA => ->; rewrite orbT.
by rewrite (alternative_has ea h) orbT.
Qed.
Lemma one_wrap l : one_line l -> one_line (wrap l).
Proof.
rewrite /one_line /wrap => h; case: ifP => [/remove_firstP [a [b [e -> _]]]|_].
  rewrite has_app /=; apply: contra h => /has_lstrip; rewrite e !has_app /=.
  by case/orP=> ->; rewrite ?orbT.
by rewrite !has_app /= orbF; apply: contra h => /has_rstrip /has_lstrip.
Qed.
Lemma one_tex_line b l : one_line l -> one_line (tex_line b l).2.
Proof.
move=> h; rewrite /tex_line; case: ifP => // _; case: ifP => _.
  by apply: contra h; exact: (@has_drops nl 2).
case: ifP => // _; case: ifP => _; first by apply: contra h; exact: (@has_drops nl 1).
apply: one_wrap; case: ifP => _; first by apply: contra h; exact: (@has_drops nl 1).
case: ifP => _; first by apply: contra h; exact: (@has_drops nl 2).
case: ifP => // /rsplit1P [e _]; rewrite /one_line; apply: contra h; rewrite [in X in _ -> X]e !has_app /=.
by case/orP=> [/texify_has|]; rewrite ?orbF => ->; rewrite ?orbT.
Qed.
Lemma one_out b ls : all one_line ls -> all one_line (out_lines b ls).
Proof. by elim: ls b => //= l ls IH b /andP[h1 h2]; rewrite one_tex_line //= IH. Qed.

(* Each text has a treatment by the documented rules, and only one. *)
Theorem C47_total lines : exists outs, lines_tex false lines outs /\ forall outs', lines_tex false lines outs' -> outs' = outs.
Proof. by exists (out_lines false lines); split=> [|o /lines_fun]; first exact: lines_texP. Qed.
(* Printed lines come out according to the rules, in their order ... *)
Theorem C47_lines lines outs : lines != [::] -> all one_line lines -> lines_tex false lines outs ->
  all (fun o => o != "") outs -> tex_body (text lines) = text outs.
Proof.
move=> n0 al /lines_fun -> ne; rewrite body_text // squeeze_text //; last exact: one_out.
by case: (lines) n0.
Qed.
(* ... and if there are blank lines, they differ at most in their number. *)
Theorem C47_nonblank lines outs : all one_line lines -> lines_tex false lines outs ->
  [seq l <- split nl (tex_body (text lines)) | l != ""] = [seq o <- outs | o != ""].
Proof.
move=> al /lines_fun ->; rewrite body_text // -/(nb _) squeeze_nb -text_rcons split_text; last by rewrite all_rcons one_out.
by rewrite /nb !filter_rcons.
Qed.
(* The lines of a ## block are returned as they are, wherever the block stands. *)
Lemma lines_cat c l1 o1 l2 o2 : lines_tex c l1 o1 -> lines_tex (c (+) odd (count (starts "##") l1)) l2 o2 ->
  lines_tex c (l1 ++ l2)%SEQ (o1 ++ o2)%SEQ.
Proof.
have n2 l : not_after [:: "#"; "%"]%char l -> starts "##" l = false.
  by case: l => //= d l; rewrite !inE negb_or eq_sym => /andP[/negbTE ->].
have n3 l : not_after [:: "#"; "%"]%char l -> starts "##" ("#" +++ l) = false.
  by case: l => //= d l; rewrite !inE negb_or eq_sym => /andP[/negbTE ->].
elim=> {c l1 o1} [b|b ls os h IH|b l ls os h IH|l ls os n h IH|l ls os n h IH|l o ls os w h IH|l o ls os w h IH|l o ls os ne n e w h IH|x y o ls os n e w h IH] //.
- by rewrite /count /= addbF.
- by move=> hh; apply: LBlank; exact: IH.
- by move=> hh; apply: LToggle; apply: IH; move: hh; rewrite /= addbN -addNb.
- by rewrite [count _ _]/(starts "##" l + _)%N (negbTE n) => hh; apply: LVerbatim => //; exact: IH.
- by rewrite [count _ _]/(starts "##" ("#" +++ l) + _)%N n3 // => hh; apply: LHash => //; exact: IH.
- by move=> hh; apply: LPercent w _; exact: IH.
- by move=> hh; apply: LHashPercent w _; exact: IH.
- by rewrite [count _ _]/(starts "##" l + _)%N n2 // => hh; apply: LPlain w _ => //; exact: IH.
by rewrite [count _ _]/(starts "##" (x +++ "=" +++ y) + _)%N n2 // => hh; apply: LEqual w _ => //; exact: IH.
Qed.
Theorem C47_block before a inner b after outs outs' :
  lines_tex false before outs -> ~~ odd (count (starts "##") before) -> ~~ has (starts "##") inner -> lines_tex false after outs' ->
  lines_tex false (before ++ ("##" +++ a) :: inner ++ ("##" +++ b) :: after)%SEQ (outs ++ a :: inner ++ b :: outs')%SEQ.
Proof.
move=> hb he hi ha; apply: (lines_cat hb); rewrite (negbTE he); apply: LToggle.
elim: inner hi => [_|l inner IH]; first exact: LToggle.
by rewrite /has negb_or => /andP[h1 h2]; apply: LVerbatim => //; exact: IH.
Qed.
(* ---------- the operators on the left of the last = ---------- *)
Lemma starts1 c d s : starts (String c "") (String d s) = (c == d).
Proof. by rewrite /= andbT. Qed.
Lemma alternative_none b c s : alternative b (String c s) = None ->
  (c \notin [:: "|"; "*"; "<"; ">"]%char) && ((c == "^"%char) ==> starts "{" s).
Proof.
rewrite /alternative !starts1 ![_ == c]eq_sym !inE [drops 1 _]/=.
case: (c == "|"%char) => //; case: (c =P "^"%char) => [->|_]; first by case: (starts "{" s).
rewrite [false && _]/=; case: (c == "*"%char) => //; do 4! (case: ifP => // _).
by case: (c == "<"%char) => //; case: (c == ">"%char).
Qed.
Lemma texify_op c k b s : c \in [:: "|"; "*"; "<"; ">"]%char -> ~~ has_char c (texify_from k b s).
Proof.
move=> hc; elim: s k b => // x s IH [|k] b; last exact: IH.
rewrite texify0.
case ea: alternative => [[m r]|] /=.
  rewrite has_app negb_or IH andbT; apply/negP => /(alternative_has ea).
  by move: hc; rewrite !inE => /or4P[] /eqP ->.
rewrite negb_or IH andbT; have /andP[h _] := alternative_none ea.
by apply: contra h => /eqP ->.
Qed.
(* none of the operators | * < > is left *)
Theorem C47_operators s c : c \in [:: "|"; "*"; "<"; ">"]%char -> ~~ has_char c (texify s).
Proof. exact: texify_op. Qed.
(* and no ^ other than that of a power x^{...} *)
Theorem C47_wedges s x y : texify s = x +++ "^" +++ y -> starts "{" y.
Proof.
have nocar r t : ~~ has_char "^" r -> forall x y, r +++ t = x +++ String "^" y -> exists x', t = x' +++ String "^" y.
  elim: r => [|d r IH] /=; first by move=> _ x0 y0 ->; exists x0.
  rewrite negb_or => /andP[/eqP nd nr] [|e x0] y0 /= [e1 e2]; first by case: nd.
  exact: IH nr _ _ e2.
suff gen k b : texify_from k b s = x +++ "^" +++ y -> starts "{" y by exact: gen.
elim: s k b x => [|d s IH] k b x; first by case: x.
case: k => [|k]; last exact: (IH k (word d) x).
rewrite texify0.
case ea: alternative => [[m r]|] /=.
  have nr : ~~ has_char "^" r by apply/negP => /(alternative_has ea).
  by case/(nocar _ _ nr)=> x'; exact: IH.
case: x => [|z x] /= [ed ey]; last exact: IH ey.
have /andP[_] := alternative_none ea; rewrite ed eqxx -ey.
by case: (s) => [|f s'] //; rewrite implyTb starts1 => /eqP <-; case: (word d).
Qed.
(* the operators cut a text into pieces that are treated on their own *)
Definition loose (c : ascii) := ~~ word c && (c \notin [:: "<"; ">"; "{"]%char).
Lemma starts_app_loose p d a c t : ~~ has_char c p -> starts p (String d a +++ String c t) = starts p (String d a).
Proof.
elim: p d a => // x p IH d a /=; rewrite negb_or => /andP[nx np]; congr (_ && _).
by case: a => [|e a]; [case: p np {IH} => //= y p; rewrite negb_or => /andP[/negbTE -> _] | exact: IH].
Qed.
Lemma drops_loose k a c t : (k <= length a)%N -> drops k (a +++ String c t) = drops k a +++ String c t.
Proof. by elim: k a => // k IH [|x a] //= h; exact: IH. Qed.
Lemma starts_len p s : starts p s -> (length p <= length s)%N.
Proof. by case/startsP=> t ->; rewrite app_len leq_addr. Qed.
Lemma word_end_loose a c t : ~~ word c -> word_end (a +++ String c t) = word_end a.
Proof. by move=> h; case: a => //=; rewrite h. Qed.
Lemma alternative_loose b d a c t : loose c -> alternative b (String d a +++ String c t) = alternative b (String d a).
Proof.
case/andP=> nw; rewrite !inE !negb_or => /and3P[n1 n2 n3].
have st1 x : starts (String x "") (String d a +++ String c t) = starts (String x "") (String d a) by rewrite /= !andbT.
have ch (p : string) : (forall x, has_char x p -> (x != c)) -> ~~ has_char c p.
  by move=> h; apply/negP => /h; rewrite eqxx.
have wd x : word x -> x != c by move=> hx; apply/eqP => e; move: nw; rewrite -e hx.
have s1 : starts "rgrad" (String d a +++ String c t) = starts "rgrad" (String d a).
  by apply: starts_app_loose; apply: ch => x /=; rewrite orbF => /or4P[/eqP <-|/eqP <-|/eqP <-|/orP[/eqP <-|/eqP <-]]; exact: wd.
have s2 : starts "grad" (String d a +++ String c t) = starts "grad" (String d a).
  by apply: starts_app_loose; apply: ch => x /=; rewrite orbF => /or4P[] /eqP <-; exact: wd.
have s3 : starts ">>" (String d a +++ String c t) = starts ">>" (String d a).
  by apply: starts_app_loose; rewrite /= ![_ == c]eq_sym (negbTE n2).
have s4 : starts "<<" (String d a +++ String c t) = starts "<<" (String d a).
  by apply: starts_app_loose; rewrite /= ![_ == c]eq_sym (negbTE n1).
have s5 : starts "{" (drops 1 (String d a +++ String c t)) = starts "{" (drops 1 (String d a)).
  by case: (a) => //=; rewrite eq_sym (negbTE n3).
rewrite /alternative !st1 s1 s2 s3 s4 s5.
do 3! (case: ifP => // _).
case r1: (starts "rgrad" _).
  have l5 : (5 <= length (String d a))%N by exact: (starts_len r1).
  by rewrite (drops_loose _ _ l5) (drops_loose _ _ (ltnW l5)) !word_end_loose.
rewrite !andbF !andFb; case r2: (starts "grad" _); last by rewrite !andbF.
have l4 : (4 <= length (String d a))%N by exact: (starts_len r2).
by rewrite (drops_loose _ _ l4) !word_end_loose.
Qed.
Lemma alternative_len b s m r : alternative b s = Some (m, r) -> (0 < m <= length s)%N.
Proof.
rewrite /alternative.
case: ifP => [/starts_len h [<- _] //|_]; case: ifP => [/andP[/starts_len h _] [<- _] //|_].
case: ifP => [/starts_len h [<- _] //|_]; case: ifP => [/andP[/andP[_ /starts_len h] _] [<- _] //|_].
case: ifP => [/andP[/andP[_ /starts_len h] _] [<- _] //|_].
by do 4! (case: ifP => [/starts_len h [<- _] //|_]).
Qed.
Lemma texify_cut c t k b a : loose c -> (k <= length a)%N ->
  exists b', texify_from k b (a +++ String c t) = texify_from k b a +++ texify_from 0 b' (String c t).
Proof.
move=> lc; elim: a k b => [|d a IH] k b; first by rewrite leqn0 => /eqP ->; exists b.
case: k => [_|k lk]; last exact: IH.
rewrite -[String d a +++ _]/(String d (a +++ String c t)) !texify0 -[String d (a +++ String c t)]/(String d a +++ String c t).
rewrite alternative_loose //; case ea: alternative => [[m r]|].
  have /andP[m0 lm] := alternative_len ea; have [|b' ->] := IH m.-1 (word d); last by exists b'; rewrite appA.
  by rewrite -ltnS prednK.
by have [|b' ->] := IH 0%N (word d); last by exists b'.
Qed.
Theorem C47_texify a b :
  [/\ texify (a +++ "|" +++ b) = texify a +++ "\cdot " +++ texify b,
      texify (a +++ "*" +++ b) = texify a +++ " " +++ texify b &
      ~~ starts "{" b -> texify (a +++ "^" +++ b) = texify a +++ "\W " +++ texify b].
Proof.
rewrite /texify; split.
- by have [|b' ->] := @texify_cut "|" b 0 false a erefl.
- by have [|b' ->] := @texify_cut "*" b 0 false a erefl.
move=> nb'; have [|b' ->] := @texify_cut "^" b 0 false a erefl => //; congr (_ +++ _).
by rewrite texify0 /alternative /= nb'.
Qed.
(* a text without operators and without the word grad is left alone *)
Theorem C47_texify_none s : ~~ has (fun c => has_char c s) [:: "|"; "^"; "*"; "<"; ">"]%char -> ~~ contains "grad" s -> texify s = s.
Proof.
move=> nh ng; suff gen b : texify_from 0 b s = s by exact: gen.
elim: s b nh ng => // d s IH b nh ng.
rewrite texify0.
have -> : alternative b (String d s) = None.
  move: nh; rewrite /= !negb_or !andbT => /and5P[/andP[/negbTE h1 _] /andP[/negbTE h2 _] /andP[/negbTE h3 _] /andP[/negbTE h4 _] /andP[/negbTE h5 _]].
  have g1 : starts "grad" (String d s) = false by apply/negbTE; apply: contra ng => /startsP [t e]; apply/containsP; exists "", t; exact: e.
  have g2 : starts "rgrad" (String d s) = false.
    apply/negbTE; apply: contra ng => /startsP [t e]; apply/containsP; exists "r", t; exact: e.
  rewrite /alternative g1 g2 !andbF !starts1 ![_ == d]eq_sym h1 h2 h3 h4 h5 /= ![_ == d]eq_sym h4 h5.
  by [].
rewrite IH //; last by move: ng; rewrite /= negb_or => /andP[].
by move: nh; rewrite /= !negb_or !andbT => /and5P[/andP[_ ->] /andP[_ ->] /andP[_ ->] /andP[_ ->] /andP[_ ->]].
Qed.
Example C47_case : let lines := [:: "A*B = 1"; "##x"; "a = b*c"; "##y"; "#p|q"; "%a*b = 2"; "u = v|w = \begin{align*} z \end{align*}"] in
  let outs := [:: "\begin{equation*} A B = 1 \end{equation*}"; "x"; "a = b*c"; "y"; "p|q"; "\begin{equation*} a*b = 2 \end{equation*}";
                  "\begin{align*} u = v\cdot w =  z \end{align*}"] in
  [/\ lines != [::], all one_line lines, lines_tex false lines outs, all (fun o => o != "") outs & tex_body (text lines) = text outs].
Proof.
cbv zeta; split; try by vm_compute.
set outs := (X in lines_tex _ _ X); rewrite (_ : outs = out_lines false [:: "A*B = 1"; "##x"; "a = b*c"; "##y"; "#p|q"; "%a*b = 2"; "u = v|w = \begin{align*} z \end{align*}"]); first exact: lines_texP.
by vm_compute.
Qed.
(* finding: the documentation promises that the text of a ## block is emitted verbatim, but its blank lines disappear *)
Theorem C47_blank_refuted : exists2 lines, lines_tex false [:: "##a", "x", "", "y", "##b" & lines] [:: "a", "x", "", "y", "b" & lines] &
  tex_body (text [:: "##a", "x", "", "y", "##b" & lines]) = text [:: "a", "x", "y", "b" & lines].
Proof.
exists [::]; last by vm_compute.
apply: (@LToggle _ "a"); apply: LVerbatim => //; apply: LBlank; apply: LVerbatim => //; apply: (@LToggle _ "b"); exact: LNone.
Qed.
(* finding: an = inside an align environment counts as the last one: the * of the environment's name
   is taken for an operator, the environment is destroyed and wrapped into another one *)
Theorem C47_align_refuted : exists2 l, contains "\begin{align*}" l &
  tex_body (text [:: l]) = text [:: "\begin{equation*} v = \begin{align } & x = 1 \end{align*} \end{equation*}"].
Proof. by exists "v = \begin{align*} & x = 1 \end{align*}"; vm_compute. Qed.
Print Assumptions C47_total.
Print Assumptions C47_lines.
Print Assumptions C47_nonblank.
Print Assumptions C47_block.
Print Assumptions C47_operators.
Print Assumptions C47_wedges.
Print Assumptions C47_texify.
Print Assumptions C47_texify_none.
Print Assumptions C47_blank_refuted.
Print Assumptions C47_align_refuted.
