(* Props_Ltprint.v -- property C76: printed linear transformations. *)
From Coq Require Import String Ascii.
From mathcomp Require Import all_ssreflect all_algebra.
From Verif Require Import PyBase PyStr Parser_Model Ga_Model Ga_Sem Spec_Mv Mv_Model Mv_Proof Mv_Expr Mv_Proof_Expr Props_Mv.
From Verif Require Import Exterior Clifford Blades Outer Lt_Model Spec_Lt Lt_Proof Props_Lt Props_Lt_Cases Ltprint_Model Spec_Ltprint.
Set Implicit Arguments.
Unset Strict Implicit.
Unset Printing Implicit Defensive.
Import GRing.Theory.
Local Open Scope seq_scope.

(* ---- texts ---- *)
Lemma separated_cons sep w ws : separated sep (w :: ws) = w ++ flatten [seq sep ++ v | v <- ws].
Proof. by rewrite /separated /= -catA drop_size_cat. Qed.
Lemma text_joinE sep ws : text_join sep ws = separated sep ws.
Proof.
case: ws => [|w ws]; first by rewrite /separated; case: (size sep).
rewrite separated_cons; elim: ws w => [|v ws IH] w //; rewrite [text_join _ _]/= -/(text_join sep (v :: ws)) IH [map _ (v :: ws)]/= [flatten (_ :: _)]/=; by rewrite -!catA.
Qed.
Definition nl : ascii := "010"%char.
Lemma flatten_nl (us : seq text) : flatten [seq w ++ [:: nl] | w <- us] = if us is [::] then [::] else separated [:: nl] us ++ [:: nl].
Proof.
case: us => [//|w us]; rewrite separated_cons; elim: us w => [|v us IH] w; first by rewrite /= !cats0.
by rewrite -[LHS]/((w ++ [:: nl]) ++ flatten [seq w ++ [:: nl] | w <- v :: us]) IH /= -!catA /= -!catA.
Qed.
Lemma lines_take (ws : seq text) : let s := flatten [seq w ++ [:: nl] | w <- ws] in take (size s).-1 s = separated [:: nl] ws.
Proof. by case: ws => [//|w ws] s; rewrite /s flatten_nl size_cat addn1 /= take_size_cat. Qed.
(* the lines can be read back *)
Lemma lines_inj (ws vs : seq text) : size ws = size vs -> all (fun w => nl \notin w) ws -> all (fun w => nl \notin w) vs ->
  separated [:: nl] ws = separated [:: nl] vs -> ws = vs.
Proof.
have cut (w v s t : text) : nl \notin w -> nl \notin v -> w ++ nl :: s = v ++ nl :: t -> w = v /\ s = t.
  elim: w v => [|x w IH] [|y v] /=; first by move=> _ _ [].
  - by rewrite inE negb_or => _ /andP[/eqP ny _] [].
  - by rewrite inE negb_or => /andP[/eqP nx _] _ [e]; case: nx.
  by rewrite !inE !negb_or => /andP[_ nw] /andP[_ nv] [-> /(IH _ nw nv)[-> ->]].
move=> sz aw av e; have {}e : flatten [seq w ++ [:: nl] | w <- ws] = flatten [seq w ++ [:: nl] | w <- vs].
  by rewrite !flatten_nl e; case: (ws) (vs) sz => [|? ?] [|? ?].
elim: ws vs sz aw av e => [|w ws IH] [|v vs] //= [sz] /andP[nw aw] /andP[nv av]; rewrite -!catA => e.
by have [-> /(IH _ sz aw av) ->] := cut _ _ _ _ nw nv e.
Qed.

Section C76.
Variables (R : comUnitRingType) (two : ((2%:R : R) \is a GRing.unit)%R) (a : ga R) (wf : wf_ga a).
Notation n := (ga_n a).
Variables (base : nat -> text) (show : mv R -> text).
(* equal multivectors are printed alike *)
Hypothesis shows : forall X Y, plain a X -> plain a Y -> mv_eq a X Y = Some true -> show X = show Y.
Implicit Types L : lt R.
(* the text of L(e_i) *)
Definition image_text L i : text := if lt_call a L (evec R i) is Some X then show X else [::].
Lemma printedP L i : transformation a L -> i < n -> exists v, [/\ dget L i = Some v, show (mk_mv a v) = image_text L i &
  exists2 X, lt_call a L (evec R i) = Some X & plain a X /\ same a (lt_call a L (evec R i)) (Some (mk_mv a v)) = Some true].
Proof.
move=> tL li; have [v E lc] := tr_get tL li; exists v.
have pe : plain a (evec R i) by apply: vector_plain; exact: (evecP two li).
have y1 := callP two wf tL pe.
have y2 : @yields R two a true (Some (mk_mv a v)) (@om R n (@vimgs R two a L) (mvv two a (evec R i))).
  apply: yields_blade; first exact: comb_blade.
  by rewrite (evec_val two (Ordinal li)) (om_bvec two) /vimgs /vimg /= E.
have sm := sameP wf y1 y2; have [X EX [pX vX]] := yields_plain y1; have [Y [<-] [pY _]] := yields_plain y2.
split=> //; last by exists X.
by rewrite /image_text EX; apply/esym/shows => //; move: sm; rewrite EX.
Qed.
Arguments text_line : simpl never.
Arguments str_step : simpl never.
(* the text has one line "Lt(e_i) = L(e_i)" for each basis vector *)
Theorem C76_text L : transformation a L ->
  lt_str a base show L = separated [:: nl] [seq text_line (base i) (image_text L i) | i <- iota 0 n].
Proof.
move=> tL; rewrite -lines_take /lt_str.
have H s is_ : all (fun i => i < n) is_ -> foldl (str_step a base show L) s is_ =
    s ++ flatten [seq w ++ [:: nl] | w <- [seq text_line (base i) (image_text L i) | i <- is_]].
  elim: is_ s => [|i is_ IH] s; first by rewrite /= cats0.
  case/andP=> li al; rewrite [foldl _ _ _]/= IH //.
  rewrite -[X in _ = s ++ X]/((text_line (base i) (image_text L i) ++ [:: nl]) ++ flatten [seq w ++ [:: nl] | w <- [seq text_line (base i) (image_text L i) | i <- is_]]).
  rewrite [RHS]catA; congr (_ ++ _).
  have [v [E e _]] := printedP tL li; by rewrite /str_step /lt_printed E e /text_line -!catA.
by rewrite H //; apply/allP => i; rewrite mem_iota.
Qed.
Theorem C76_latex L : transformation a L ->
  lt_latex a base show L = txt "\left\{ \begin{aligned} " ++
    separated (txt " \\ ") [seq latex_line (base i) (image_text L i) | i <- iota 0 n] ++ txt " \end{aligned} \right\}".
Proof.
move=> tL; rewrite /lt_latex text_joinE; congr (_ ++ (separated _ _ ++ _)); apply/eq_in_map => i; rewrite mem_iota => /= li.
by have [v [E e _]] := printedP tL li; rewrite /latex_part E /= e.
Qed.
(* if different multivectors have different texts, without line breaks, then so have different
   transformations *)
Theorem C76_faithful L1 L2 : (forall X Y, plain a X -> plain a Y -> show X = show Y -> mv_eq a X Y = Some true) ->
  (forall X, nl \notin show X) -> (forall i, nl \notin base i) -> transformation a L1 -> transformation a L2 ->
  (lt_str a base show L1 = lt_str a base show L2 <-> forall A, plain a A -> same a (lt_call a L1 A) (lt_call a L2 A) = Some true).
Proof.
move=> inj ns nb t1 t2; have nt L : all (fun w => nl \notin w) [seq text_line (base i) (image_text L i) | i <- iota 0 n].
  rewrite all_map; apply/allP => i _ /=; rewrite /text_line !mem_cat !negb_or nb /= /image_text.
  by case: (lt_call _ _ _).
have im i : i < n -> image_text L1 i = image_text L2 i -> same a (lt_call a L1 (evec R i)) (lt_call a L2 (evec R i)) = Some true.
  move=> li; have [v [_ _ [X E1 [pX _]]]] := printedP t1 li; have [w [_ _ [Y E2 [pY _]]]] := printedP t2 li.
  by rewrite /image_text E1 E2 => /(inj _ _ pX pY).
split=> [|sm].
  rewrite !C76_text // => /lines_inj; rewrite !size_map => /(_ erefl (nt L1) (nt L2))/eq_in_map H A pA.
  apply: (sameP wf (callP two wf t1 pA)); rewrite (@eq_om _ _ _ (@vimgs R two a L2)); first exact: (callP two wf t2 pA).
  move=> j; have lj : j < n by []; have := im _ lj.
  have /H : val j \in iota 0 n by rewrite mem_iota /=.
  move=> /eqP; rewrite /text_line !eqseq_cat // => /andP[_] /= /andP[_ /eqP e] /(_ e).
  have pe : plain a (evec R j) by apply: vector_plain; exact: (evecP two lj).
  have [X E1 [pX vX]] := yields_plain (callP two wf t1 pe); have [Y E2 [pY vY]] := yields_plain (callP two wf t2 pe).
  have [oX _] := plainP pX; have [oY _] := plainP pY.
  by rewrite E1 E2 /same /= (mv_eqP two wf oX oY) vX vY (evec_val two j) !(om_bvec two) => -[/eqP].
rewrite !C76_text //; congr separated; apply/eq_in_map => i; rewrite mem_iota => /= li; congr text_line.
have pe : plain a (evec R i) by apply: vector_plain; exact: (evecP two li).
have := sm _ pe; have [v [_ _ [X E1 [pX _]]]] := printedP t1 li; have [w [_ _ [Y E2 [pY _]]]] := printedP t2 li.
by rewrite /image_text E1 E2; exact: shows.
Qed.
End C76.

(* finding: lt.py Lt._sympystr -- a dictionary that lacks a basis vector is printed with the image 0,
   although the transformation leaves that basis vector alone: for {e0: e0 + 3*e1}, "Lt(e1) = 0" and
   L(e1) == e1 *)
Definition case_show (X : mv rat_comUnitRing) : text := if X.(obj) is [::] then txt "0" else txt "*".
Definition case_base (i : nat) : text := if i == 0 then txt "e0" else txt "e1".
(* finding: a transformation made from a dictionary that lacks a basis vector prints the image 0 for it,
   although the basis vector is its own image *)
Theorem C76_missing_refuted : exists (a : ga rat_comUnitRing) L, [/\ wf_ga a,
  lt_str a case_base case_show L = txt "Lt(e0) = *" ++ nl :: txt "Lt(e1) = 0" &
  same a (lt_call a L (evec _ 1)) (Some (evec _ 1)) = Some true].
Proof. by exists mv_ga, (take 1 (case_L case_M1)); split; vm_compute. Qed.
Example C76_case : [/\ wf_ga mv_ga, transformation mv_ga (case_L case_M1),
  lt_str mv_ga case_base case_show (case_L case_M1) = txt "Lt(e0) = *" ++ nl :: txt "Lt(e1) = *" &
  lt_latex mv_ga case_base case_show (case_L case_M1) =
    txt "\left\{ \begin{aligned} e0 &\mapsto * \\ e1 &\mapsto * \end{aligned} \right\}"].
Proof. by split; vm_compute. Qed.
(* a printer as the theorems assume it: the number of the value in a list of all values, in unary *)
Definition rat2 : ((2%:R : rat_comUnitRing) \is a GRing.unit)%R := isT.
Definition number_show (X : mv rat_comUnitRing) : text :=
  nseq (pickle (mvv rat2 mv_ga X : {ffun {set 'I_2} -> rat})) "1"%char.
Example C76_printer : [/\ forall X Y, plain mv_ga X -> plain mv_ga Y -> mv_eq mv_ga X Y = Some true -> number_show X = number_show Y,
  forall X Y, plain mv_ga X -> plain mv_ga Y -> number_show X = number_show Y -> mv_eq mv_ga X Y = Some true &
  forall X, nl \notin number_show X].
Proof.
have w : wf_ga mv_ga by [].
split=> [X Y pX pY|X Y pX pY e|X].
- have [oX _] := plainP pX; have [oY _] := plainP pY; rewrite (mv_eqP rat2 w oX oY) => -[/eqP e].
  by rewrite /number_show e.
- have [oX _] := plainP pX; have [oY _] := plainP pY; rewrite (mv_eqP rat2 w oX oY); congr Some; apply/eqP.
  have /(congr1 size) := e; rewrite /number_show !size_nseq => /(pcan_inj (@pickleK _)); exact.
by rewrite /number_show mem_nseq /= andbF.
Qed.
Print Assumptions C76_text.
Print Assumptions C76_latex.
Print Assumptions C76_faithful.
Print Assumptions C76_missing_refuted.
