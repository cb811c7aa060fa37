(* Parser_Proof.v -- lemmas about the rewriting of expression strings *)
From Coq Require Import String Ascii.
From mathcomp Require Import all_ssreflect.
From Verif Require Import PyBase PyStr Parser_Model.
Set Implicit Arguments.
Unset Strict Implicit.
Unset Printing Implicit Defensive.
Local Notation ch c := (c%char : ascii).
Local Arguments match_op : simpl never.

Definition opclass_eq (j k : opclass) : bool :=
  match j, k with Inner, Inner | Outer, Outer | Geom, Geom => true | _, _ => false end.
Lemma opclass_eqP : Equality.axiom opclass_eq.
Proof. by case=> [] [] /=; constructor. Qed.
Canonical opclass_eqType := Eval hnf in EqType opclass (EqMixin opclass_eqP).

(* a text that does not start with an operand character *)
Definition stops (s : text) : bool := if s is c :: _ then ~~ operand c else true.
Definition no_op (k : opclass) (s : text) : bool := if s is c :: _ then ~~ op_in k c else true.

Lemma span_word w s : all operand w -> stops s -> span (w ++ s) = (w, s).
Proof.
elim: w => [|c w IH] /=; first by case: s => [|c s] //= _ /negbTE ->.
by case/andP=> -> aw ss; rewrite IH.
Qed.
Lemma span_size s : size (span s).1 + size (span s).2 = size s.
Proof. by elim: s => [|c s IH] //=; case: ifP => // _; rewrite -IH; case: (span s) => w r /=; rewrite addSn. Qed.
Lemma span_cat s : (span s).1 ++ (span s).2 = s.
Proof. by elim: s => [|c s IH] //=; case: ifP => // _; rewrite -{3}IH; case: (span s). Qed.
Lemma op_operand k c : op_in k c -> ~~ operand c.
Proof. by case: k => /=; [case/or3P=> /eqP ->|move/eqP => ->|move/eqP => ->]. Qed.
Lemma match_op_size k s w r : match_op k s = Some (w, r) -> (size r < size s)%N.
Proof.
rewrite /match_op; case: s => [|c s] //=; case: ifP => // _; have := span_size s; case: (span s) => w' r' /= <-.
by case: nilP => // _ [_ <-]; rewrite ltnS leq_addl.
Qed.
Lemma match_ops_size k m s : (size (match_ops k m s).2 <= size s)%N.
Proof.
elim: m s => [|m IH] s //=; case E: match_op => [[w r]|] //=.
have := IH r; case: match_ops => w' r' /= h; exact: leq_trans h (ltnW (match_op_size E)).
Qed.
(* one step of re_sub *)
Definition step (k : opclass) (s : text) : text * text :=
  if s is c :: s' then
    if operand c then
      let: (w, r) := span s in
      if match_op k r is Some (w1, r1) then
        let: (w2, r2) := if k is Inner then ([::], r1) else match_ops k (size r1) r1 in
        (ch "(" :: w ++ w1 ++ rcons w2 (ch ")"), r2)
      else (w, r)
    else ([:: c], s')
  else ([::], [::]).
Lemma step_size k s : s != [::] -> (size (step k s).2 < size s)%N.
Proof.
case: s => [|c s] // _; rewrite /step; case: ifP => [oc|_]; last exact: leqnn.
have := span_size (c :: s); have : (0 < size (span (c :: s)).1)%N by rewrite /= oc; case: (span s).
case: (span (c :: s)) => w r /= w0 e; have rs : (size r < (size s).+1)%N by rewrite -e -addn1 addnC leq_add2r.
case E: match_op => [[w1 r1]|] //.
have r1s := leq_trans (match_op_size E) (ltnW rs).
case: k E => E //=; case F: (match_ops _ _ _) => [w2 r2] /=.
  by apply: leq_ltn_trans r1s; have := match_ops_size Outer (size r1) r1; rewrite F.
by apply: leq_ltn_trans r1s; have := match_ops_size Geom (size r1) r1; rewrite F.
Qed.
Lemma step_word k s w r : span s = (w, r) -> w != [::] ->
  step k s = if match_op k r is Some (w1, r1) then
        let: (w2, r2) := if k is Inner then ([::], r1) else match_ops k (size r1) r1 in
        (ch "(" :: w ++ w1 ++ rcons w2 (ch ")"), r2)
      else (w, r).
Proof.
case: s => [|c s]; first by case=> <-.
rewrite /step; case: ifP => [oc ->|oc] //; by rewrite /= oc => -[<-].
Qed.
Lemma re_sub_fuelE f k s : re_sub_fuel f.+1 k s = if s is _ :: _ then (step k s).1 ++ re_sub_fuel f k (step k s).2 else [::].
Proof.
case: s => [|c s] //; rewrite /step /=; case: ifP => // oc.
case: (span s) => w r; rewrite oc; case: match_op => [[w1 r1]|] //.
by case: k => //=; [rewrite -!catA|case: match_ops => w2 r2 /=; rewrite -!catA cat_rcons ..].
Qed.
Lemma re_sub_enough f k s : (size s <= f)%N -> re_sub_fuel f k s = re_sub k s.
Proof.
rewrite /re_sub; have [m] := ubnP (size s); elim: m s f => // m IH s f; rewrite ltnS => sm sf.
case: s sm sf => [|c s] sm sf; first by case: f {sf}.
case: f sf => // f sf; rewrite [size (c :: s)]/= !re_sub_fuelE.
have h : (size (step k (c :: s)).2 <= size s)%N by rewrite -ltnS; exact: (@step_size k (c :: s)).
have hm : (size (step k (c :: s)).2 < m)%N by apply: leq_ltn_trans h _.
by rewrite !IH //; apply: leq_trans h _.
Qed.
Lemma re_subE k s : s != [::] -> re_sub k s = (step k s).1 ++ re_sub k (step k s).2.
Proof.
case: s => // c s _; rewrite {1}/re_sub [size _]/= re_sub_fuelE re_sub_enough //.
by rewrite -ltnS; exact: (@step_size k (c :: s)).
Qed.

(* ---- a text without operators of the class is unchanged ---- *)
Lemma re_sub_id k s : all (fun c => ~~ op_in k c) s -> re_sub k s = s.
Proof.
have [m] := ubnP (size s); elim: m s => // m IH [|c s] //; rewrite ltnS => sm al.
rewrite re_subE //; have := @step_size k (c :: s) isT; rewrite /step.
case: ifP => [oc|_ _]; last by rewrite /= IH //; case/andP: al.
have E := span_cat (c :: s); case: (span (c :: s)) E => w r E.
have alr : all (fun c => ~~ op_in k c) r by move: al; rewrite -E all_cat => /andP[].
have -> : match_op k r = None by rewrite /match_op; case: r alr {E} => [|d r] //= /andP[/negbTE -> _].
by move=> h; rewrite /= IH // (leq_trans _ sm).
Qed.

(* ---- chains ---- *)
Definition tail (ws : seq (ascii * text)) : text := flatten [seq p.1 :: p.2 | p <- ws].
Definition good_tail (k : opclass) (ws : seq (ascii * text)) : bool :=
  all (fun p => [&& op_in k p.1, p.2 != [::] & all operand p.2]) ws.
Lemma match_op_word k o w s : op_in k o -> w != [::] -> all operand w -> stops s ->
  match_op k (o :: w ++ s) = Some (o :: w, s).
Proof. by move=> ko w0 aw ss; rewrite /match_op ko span_word //; case: w w0 {aw}. Qed.
Lemma tail_stops k ws s : good_tail k ws -> stops s -> stops (tail ws ++ s).
Proof. by case: ws => [|[o w] ws] //= /andP[/and3P[ko _ _] _] _; exact: op_operand ko. Qed.
Lemma match_ops_tail k m ws s : good_tail k ws -> stops s -> no_op k s -> (size ws <= m)%N ->
  match_ops k m (tail ws ++ s) = (tail ws, s).
Proof.
move=> gt ss ns; elim: ws m gt => [|[o w] ws IH] m.
  by move=> _ _; case: m => //= m; rewrite /match_op; case: s ss ns => [|c s] //= _ /negbTE ->.
case: m => // m gt sm; case/andP: (gt) => /and3P[/= ko w0 aw] gt'.
rewrite /tail /= -/(tail ws) -catA [match_op _ _](@match_op_word k o w) //; last exact: tail_stops gt' ss.
by rewrite IH.
Qed.
Lemma tail_size k ws : good_tail k ws -> (size ws <= size (tail ws))%N.
Proof. by elim: ws => [|[o w] ws IH] //= /andP[_ /IH h]; rewrite ltnS size_cat (leq_trans h) // leq_addl. Qed.
(* a word, followed by operators of the class and words: parenthesised *)
Definition show_chain (w : text) (ws : seq (ascii * text)) : text := w ++ tail ws.
Definition paren_chain (w : text) (ws : seq (ascii * text)) : text :=
  if ws is [::] then w else ch "(" :: rcons (w ++ tail ws) (ch ")").
Lemma re_sub_chain k w ws s : w != [::] -> all operand w -> good_tail k ws ->
  (k = Inner -> (size ws <= 1)%N) -> stops s -> no_op k s ->
  re_sub k (show_chain w ws ++ s) = paren_chain w ws ++ re_sub k s.
Proof.
move=> w0 aw gt kI ss ns; rewrite /show_chain -catA re_subE; last by case: w w0 {aw}.
have -> : step k (w ++ tail ws ++ s) = if match_op k (tail ws ++ s) is Some (w1, r1) then
        let: (w2, r2) := if k is Inner then ([::], r1) else match_ops k (size r1) r1 in
        (ch "(" :: w ++ w1 ++ rcons w2 (ch ")"), r2)
      else (w, tail ws ++ s).
  exact: step_word (span_word aw (tail_stops gt ss)) w0.
case: ws gt kI => [|[o v] ws] gt kI.
  by have -> : match_op k (tail [::] ++ s) = None by rewrite /match_op; case: s ss ns => [|d s] //= _ /negbTE ->.
case/andP: (gt) => /and3P[/= ko v0 av] gt'.
rewrite /tail /= -/(tail ws) -catA [match_op _ _](@match_op_word k o v) //; last exact: tail_stops gt' ss.
have ks : (size ws <= size (tail ws ++ s))%N by rewrite size_cat (leq_trans (tail_size gt')) // leq_addr.
have -> : (if k is Inner then ([::], tail ws ++ s) else match_ops k (size (tail ws ++ s)) (tail ws ++ s)) = (tail ws, s).
  case: k gt' kI ns {gt ko} => gt' kI ns; rewrite ?match_ops_tail //.
  by have : (size ws <= 0)%N by [exact: kI]; case: (ws).
by rewrite /= rcons_cat /= rcons_cat -!catA.
Qed.
