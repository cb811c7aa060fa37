(* Props_Printer.v -- C46: capture of LaTeX output; C47: post-processing of the lines. *)
From Coq Require Import String Ascii ZArith.
From mathcomp Require Import all_ssreflect.
From Verif Require Import PyBase PyStr Names_Proof Printer_Model Spec_Printer.
Set Implicit Arguments.
Unset Strict Implicit.
Unset Printing Implicit Defensive.
Local Open Scope string_scope.

(* ---------- C46 ---------- *)
(* the state in an orderly program *)
Definition tidy (cap fmt : bool) (st : pstate) : Prop :=
  [/\ latex_flg st = cap, ipy st = false, (format_cnt st == 0) = ~~ fmt &
      if cap then [/\ stdout st = size (buffers st), (0 < size (buffers st))%N & saved st = Some 0%N] else stdout st = 0%N].
(* text that is held for the next call of tex *)
Definition held (st : pstate) : string :=
  latex_str st +++ (if stdout st is k.+1 then nth "" (buffers st) k else "").
Lemma tidy_print cap fmt st s : tidy cap fmt st ->
  [/\ tidy cap fmt (do_print s st),
      held (do_print s st) = held st +++ (if cap then s +++ newline else "") &
      terminal (do_print s st) = terminal st +++ (if cap then "" else s +++ newline)].
Proof.
case: st => t bs o sv f ls ip n [/= -> -> en]; case: cap => [[-> h ->]|->].
  case: bs h => [//|b bs] _; set x := nth "" (b :: bs) (size bs); pose B := set_nth "" (b :: bs) (size bs) (x +++ s +++ newline).
  have sB : size B = (size bs).+1 by rewrite size_set_nth maxnn.
  have nB : nth "" B (size bs) = x +++ s +++ newline by rewrite nth_set_nth /= eqxx.
  have -> : do_print s (PState t (b :: bs) (size (b :: bs)) (Some 0) true ls false n) = PState t B (size bs).+1 (Some 0) true ls false n by [].
  by rewrite /tidy /held [stdout _]/= [buffers _]/= sB nB app_empty !appA.
by rewrite /do_print /tidy /held /= !app_empty.
Qed.
Lemma tidy_redirect fmt st : tidy false fmt st -> tidy true fmt (redirect st) /\ held (redirect st) = held st /\ terminal (redirect st) = terminal st.
Proof.
case: st => t bs o sv f ls ip n [/= -> -> en ->]; rewrite /redirect /tidy /held /= size_rcons.
by split=> //; rewrite nth_rcons ltnn eqxx.
Qed.
Lemma tidy_restore cap fmt st : tidy cap fmt st -> exists2 st', restore st = Some st' &
  [/\ tidy false fmt st', held st' = held st, terminal st' = terminal st & latex_str st' = held st].
Proof.
case: st => t bs o sv f ls ip n [/= -> -> en]; case: cap => [[-> h ->]|->].
  by case: bs h => [//|b bs] _; eexists; [reflexivity | rewrite /tidy /held /= !app_empty].
by eexists; [reflexivity | rewrite /tidy /held /= !app_empty].
Qed.
Lemma exec_cat st cs cs' : exec_all st (cs ++ cs')%SEQ =
  LET r := exec_all st cs IN LET r' := exec_all r.1 cs' IN Some (r'.1, (r.2 ++ r'.2)%SEQ).
Proof.
elim: cs st => [|c cs IH] st /=; first by case: exec_all => [[]|].
case: exec => //= r; rewrite IH; case: exec_all => //= r1; case: exec_all => //= r2.
by rewrite catA.
Qed.
Lemma tidy_all cs cap fmt st b ins outs : tidy cap fmt st -> orderly cap fmt cs = Some (b, (ins, outs)) ->
  exists st' ts, [/\ exec_all st cs = Some (st', ts), exists fmt', tidy b fmt' st',
     terminal st' = terminal st +++ outs &
     ~~ has calls_tex cs -> held st' = held st +++ ins /\ ts = [::]].
Proof.
elim: cs cap fmt st b ins outs => [|c cs IH] cap fmt st b ins outs td /=.
  case=> <- <- <-; exists st, [::]; split=> //; rewrite ?app_empty //; by exists fmt.
case: c => [s| |ip| |] /=.
- case eo: orderly => [[b' [i' o']]|] //= [<- e].
  have [td1 eh et] := tidy_print s td.
  have [st' [ts [-> f' ht hh]]] := IH _ _ _ _ _ _ td1 eo; exists st', ts => /=; split=> //.
    by rewrite ht et appA; case: (cap) e => -[_ <-]; rewrite ?appA.
  by move/hh=> -[-> ->]; rewrite eh appA; case: (cap) e => -[<- _]; rewrite ?appA.
- case: fmt td => td.
    move=> eo; have -> : do_format st = st by case: td => _ _ en _; rewrite /do_format en.
    by have [st' [ts [-> f' ht hh]]] := IH _ _ _ _ _ _ td eo; exists st', ts.
  case: cap td => // td eo.
  have td1 : tidy true true (do_format st) /\ held (do_format st) = held st /\ terminal (do_format st) = terminal st.
    case: st td => t bs o sv f ls i n [/= -> -> /eqP -> ->]; rewrite /do_format /redirect /tidy /held /= size_rcons.
    by split=> //; rewrite nth_rcons ltnn eqxx.
  case: td1 => td1 [eh et]; have [st' [ts [-> f' ht hh]]] := IH _ _ _ _ _ _ td1 eo.
  by exists st', ts; rewrite -et -eh.
- case: cap td => //=; case: ip => //= td eo.
  have tl : latex_format false st = redirect st by case: st td => t bs o sv f ls i n [/= _ -> _ _].
  rewrite tl; have [td1 [eh et]] := tidy_redirect td.
  by have [st' [ts [-> f' ht hh]]] := IH _ _ _ _ _ _ td1 eo; exists st', ts; rewrite -et -eh.
- move=> eo; have [st1 -> [td1 eh et _]] := tidy_restore td => /=.
  by have [st' [ts [-> f' ht hh]]] := IH _ _ _ _ _ _ td1 eo; exists st', ts; rewrite -et -eh.
case: cap td => // td eo.
case: st td => t bs o sv f ls i n [/= -> -> en [-> h ->]].
case: bs h => [//|d bs] _; rewrite /tex /=.
set st1 := PState _ _ _ _ _ _ _ _; have td1 : tidy false fmt st1 by [].
have [st' [ts [-> f' ht hh]]] := IH _ _ _ _ _ _ td1 eo.
by exists st', (tex_body (ls +++ nth "" (d :: bs) (size bs)) :: ts).
Qed.
(* After any orderly program, followed by restore(), standard output is the original
   stream, and this stream has received exactly what was printed outside captures. *)
Theorem C46_restored cs b ins outs : orderly false false cs = Some (b, (ins, outs)) ->
  exists st ts, [/\ exec_all fresh (cs ++ [:: Restore])%SEQ = Some (st, ts), stdout st = 0%N & terminal st = outs].
Proof.
move=> eo; have t0 : tidy false false fresh by [].
have [st [ts [e [f' td] ht _]]] := tidy_all t0 eo; have [st' er [td' _ et _]] := tidy_restore td.
exists st', (ts ++ [::])%SEQ; rewrite exec_cat e /= er /= et ht; split=> //; by case: td'.
Qed.
(* Everything printed inside captures is in the text that the first call of tex() works
   on; restore() keeps it, also over several captures. *)
Theorem C46_captured cs ins outs : orderly false false cs = Some (true, (ins, outs)) -> ~~ has calls_tex cs ->
  exists st, [/\ exec_all fresh (cs ++ [:: Tex])%SEQ = Some (st, [:: tex_body ins]), stdout st = 0%N & terminal st = outs].
Proof.
move=> eo nt; have t0 : tidy false false fresh by [].
have [st [ts [e [f' td] ht /(_ nt) [hh ets]]]] := tidy_all t0 eo.
rewrite exec_cat e {e} ets {ets} /= /tex.
case: st td ht hh => t bs o sv f ls i n [/= -> -> en [-> h ->]]; case: bs h => [//|d bs] _ /= -> /=.
by rewrite /held /= => ->; eexists; split.
Qed.
Theorem C46_kept cs b ins outs : orderly false false cs = Some (b, (ins, outs)) -> ~~ has calls_tex cs ->
  exists2 st, exec_all fresh (cs ++ [:: Restore])%SEQ = Some (st, [::]) & latex_str st = ins.
Proof.
move=> eo nt; have t0 : tidy false false fresh by [].
have [st [ts [e [f' td] ht /(_ nt) [hh ets]]]] := tidy_all t0 eo; have [st' er [td' eh et el]] := tidy_restore td.
by exists st'; [rewrite exec_cat e /= er /= ets | rewrite el hh].
Qed.
Example C46_case : let cs := [:: Print "a"; Format; Print "b"; Restore; Print "c"; Format; LatexFormat false; Print "d"] in
  orderly false false cs = Some (true, (text [:: "b"; "d"], text [:: "a"; "c"])) /\ ~~ has calls_tex cs.
Proof. by []. Qed.
(* LatexFormat() twice: the original stream is lost, no further call brings it back *)
Theorem C46_twice_refuted : forall cs st ts, exec_all fresh [:: LatexFormat false, LatexFormat false & cs] = Some (st, ts) -> stdout st <> 0%N.
Proof.
pose inv st := (0 < stdout st)%N && (if saved st is Some k then (0 < k)%N else true).
have step st c r : inv st -> exec st c = Some r -> inv r.1.
  case: st => t bs o sv f ls i n /=; rewrite /inv /= => /andP[ho hs]; case: c => [s| |b| |] /=.
  - by case: o ho hs => [//|o] _ hs [<-] /=.
  - case=> <-; rewrite /do_format /redirect /=; case: ifP => _ /=; last by rewrite ho hs.
    by case: i; rewrite /= ?ho ?hs.
  - by case=> <-; rewrite /latex_format /redirect /=; case: b; rewrite /= ?ho ?hs.
  - rewrite /restore /=; case: f; last by case=> <- /=; rewrite ho hs.
    case: i => /=; first by case=> <- /=; rewrite ho hs.
    by rewrite /getvalue /=; case: o ho => [//|o] _ /=; case: sv hs => //= k hk [<-] /=; rewrite hk.
  rewrite /tex /getvalue /=; case: o ho => [//|o] _ /=; rewrite /restore /=; case: f; last by case=> <- /=; rewrite hs.
  case: i => /=; first by case=> <- /=; rewrite hs.
  by case: sv hs => //= k hk [<-] /=; rewrite hk.
have all cs st r : inv st -> exec_all st cs = Some r -> inv r.1.
  elim: cs st r => [|c cs IH] st r h /=; first by case=> <-.
  case ec: exec => [r1|] //=; have h1 := step _ _ _ h ec; case er: exec_all => [r2|] //= [<-] /=.
  exact: IH er.
move=> cs st ts /= ; case er: exec_all => [r|] //= [<- _].
have := all cs _ _ _ er; rewrite /inv => /(_ isT) /andP[h _]; by case: (stdout r.1) h.
Qed.
(* Format() redirects once per process only: after the first tex() a second Format() leaves
   standard output alone, what follows goes to the terminal and the second tex() raises *)
Theorem C46_format_again_refuted a b : exec_all fresh [:: Format; Print a; Tex; Format; Print b; Tex] = None /\
  exists2 r, exec_all fresh [:: Format; Print a; Tex; Format; Print b] = Some r & terminal r.1 = b +++ newline.
Proof. by split=> //; eexists; [reflexivity | ]. Qed.
(* what every call of tex() works on *)
Lemma tidy_texts cs cap fmt st r : tidy cap fmt st -> orderly cap fmt cs = Some r ->
  exists st', exec_all st cs = Some (st', map tex_body
    (returned cap fmt (latex_str st) (if stdout st is k.+1 then nth "" (buffers st) k else "") cs)).
Proof.
elim: cs cap fmt st r => [|c cs IH] cap fmt st r td /=; first by exists st.
case: c => [s| |ip| |] /=.
- case eo: orderly => [[b' [i' o']]|] //= _; have [td1 _ _] := tidy_print s td.
  have [st' ->] := IH _ _ _ _ td1 eo; exists st' => /=; congr (Some (_, map _ _)).
  case: st td {td1} => t bs o sv f ls i n [/= -> _ _]; case: (cap) => [[-> h _]|-> //].
  by case: bs h => [//|d bs] _; rewrite /do_print /= -/(set_nth _ (d :: bs) _ _) nth_set_nth /= eqxx.
- case: fmt td => td.
    move=> eo; have -> : do_format st = st by case: td => _ _ en _; rewrite /do_format en.
    by have [st' ->] := IH _ _ _ _ td eo; exists st'.
  case: cap td => // td eo.
  have [td1 el eb] : [/\ tidy true true (do_format st), latex_str (do_format st) = latex_str st &
     (if stdout (do_format st) is k.+1 then nth "" (buffers (do_format st)) k else "") = ""].
    case: st td => t bs o sv f ls i n [/= -> -> /eqP -> ->]; rewrite /do_format /redirect /tidy /= size_rcons.
    by split=> //; rewrite nth_rcons ltnn eqxx.
  by have [st' ->] := IH _ _ _ _ td1 eo; exists st'; rewrite el eb.
- case: cap td => //=; case: ip => //= td eo.
  have tl : latex_format false st = redirect st by case: st td => t bs o sv f ls i n [/= _ -> _ _].
  rewrite tl; have [td1 _] := tidy_redirect td; have [st' ->] := IH _ _ _ _ td1 eo; exists st' => /=; congr (Some (_, map _ _)).
  case: st td {td1 tl} => t bs o sv f ls i n [/= -> -> en ->]; rewrite /redirect /=.
  by rewrite nth_rcons ltnn eqxx.
- move=> eo; have [st1 er [td1 _ _ _]] := tidy_restore td; rewrite er /=.
  have [st' ->] := IH _ _ _ _ td1 eo; exists st' => /=; congr (Some (_, _)).
  case: st td er {td1} => t bs o sv f ls i n [/= -> -> en]; case: (cap) => [[-> h ->]|->].
    by case: bs h => [//|d bs] _ /= [<-].
  by case=> <-.
case: cap td => // td eo.
case: st td => t bs o sv f ls i n [/= -> -> en [-> h ->]].
case: bs h => [//|d bs] _; rewrite /tex /=.
set st1 := PState _ _ _ _ _ _ _ _; have td1 : tidy false fmt st1 by [].
by have [st' ->] := IH _ _ _ _ td1 eo; exists st'.
Qed.
Theorem C46_texts cs r : orderly false false cs = Some r ->
  exists st, exec_all fresh cs = Some (st, map tex_body (returned false false "" "" cs)).
Proof. by move=> eo; have t0 : tidy false false fresh by []; exact: tidy_texts t0 eo. Qed.
(* tex() puts the text of the capture it ends back into the store: the next tex()
   returns it again *)
Theorem C46_repeat_refuted a b c : exists2 st,
  exec_all fresh [:: LatexFormat false; Print a; Restore; LatexFormat false; Print b; Tex; LatexFormat false; Print c; Tex] = Some st &
  st.2 = [:: tex_body (text [:: a; b]); tex_body (text [:: b; c])].
Proof.
have eo : exists r, orderly false false [:: LatexFormat false; Print a; Restore; LatexFormat false; Print b; Tex; LatexFormat false; Print c; Tex] = Some r by eexists.
case: eo => r /C46_texts[st ->]; eexists; first reflexivity.
set bd := tex_body; by rewrite /= /text /= !appA.
Qed.
(* the notebook mode during a capture: restore() then forgets the capture without ending it *)
Theorem C46_notebook_refuted k : exists2 r, exec_all fresh [:: LatexFormat false, LatexFormat true & nseq k.+1 Restore] = Some r &
  stdout r.1 = 1%N /\ latex_flg r.1 = false.
Proof.
rewrite /=; set s := PState _ _ _ _ _ _ _ _.
suff [r -> [h1 h2]] : exists2 r, exec_all s (nseq k Restore) = Some r & stdout r.1 = 1%N /\ latex_flg r.1 = false by eexists.
by elim: k => [|k [r er h]] /=; [eexists | rewrite er; eexists].
Qed.
Print Assumptions C46_restored.
Print Assumptions C46_captured.
Print Assumptions C46_texts.
Print Assumptions C46_kept.
Print Assumptions C46_twice_refuted.
Print Assumptions C46_format_again_refuted.
Print Assumptions C46_repeat_refuted.
Print Assumptions C46_notebook_refuted.
