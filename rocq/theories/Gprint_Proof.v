(* Gprint_Proof.v -- lemmas for Props_Gprint.v. *)
From Coq Require Import String Ascii.
From mathcomp Require Import all_ssreflect.
From Verif Require Import PyBase PyStr Parser_Model Symbol_Model Symbol_Proof Gprint_Model Spec_Gprint.
Set Implicit Arguments.
Unset Strict Implicit.
Unset Printing Implicit Defensive.
Local Open Scope seq_scope.

(* ---- rows ---- *)
Lemma rowsE c d s : rows [:: c, d & s] =
  if (c == bs) && (d == bs) then [::] :: rows s else if rows (d :: s) is r :: rs then (c :: r) :: rs else [::].
Proof. by []. Qed.
Lemma size_ind (P : text -> Prop) : P [::] -> (forall c, P [:: c]) ->
  (forall c d s, P s -> P (d :: s) -> P [:: c, d & s]) -> forall s, P s.
Proof.
move=> P0 P1 P2 s; elim: {s}(size s) {-2}s (leqnn (size s)) => [|m IH] [|c [|d s]] //= h.
by apply: P2; apply: IH => //; exact: ltnW.
Qed.
Lemma rows_cons s : exists r rs, rows s = r :: rs.
Proof.
elim/size_ind: s => [|c|c d s _ [r [rs e]]]; [by exists [::], [::]|by exists [:: c], [::]|].
by rewrite rowsE e; case: ifP => _; eexists; eexists.
Qed.
Lemma joined_cons sep c r rs : joined sep ((c :: r) :: rs) = c :: joined sep (r :: rs).
Proof. by case: rs. Qed.
Lemma repE sep c d s : replace [:: bs; bs] sep [:: c, d & s] =
  if (c == bs) && (d == bs) then sep ++ replace [:: bs; bs] sep s else c :: replace [:: bs; bs] sep (d :: s).
Proof. by rewrite /replace /= prefix0s andbT (eq_sym bs c) (eq_sym bs d). Qed.
Lemma replace_rows sep s : replace [:: bs; bs] sep s = joined sep (rows s).
Proof.
elim/size_ind: s => [|c|c d s IH IH'] //; first by rewrite /replace /= andbF.
rewrite repE rowsE IH IH'; case: ifP => _; first by have [r [rs ->]] := rows_cons s.
by have [r [rs ->]] := rows_cons (d :: s); rewrite joined_cons.
Qed.
Lemma rows_one s : ~~ infix [:: bs; bs] s -> rows s = [:: s].
Proof.
elim: s => [|c [|d s] IH] // h; move: h.
have -> : infix [:: bs; bs] [:: c, d & s] = prefix [:: bs; bs] [:: c, d & s] || infix [:: bs; bs] (d :: s) by [].
rewrite negb_or => /andP[h /IH e]; rewrite rowsE e; move: h.
by rewrite [prefix _ _]/= prefix0s andbT (eq_sym bs c) (eq_sym bs d) => /negbTE->.
Qed.
Lemma joined_glue sep p q : p != [::] -> q != [::] -> joined sep (glue p q) = joined sep p ++ joined sep q.
Proof.
case: q => [|r' q] // np _; elim: p np => [|r [|r1 p] IH] // _; first by case: q {IH} => [|r'' q]; rewrite /= -?catA.
have IH' := IH isT.
have [r2 [q2 e]] : exists r2 q2, glue (r1 :: p) (r' :: q) = r2 :: q2.
  by case: (p) => [|? ?] /=; eexists; eexists.
have -> : glue [:: r, r1 & p] (r' :: q) = r :: glue (r1 :: p) (r' :: q) by [].
have -> : joined sep [:: r, r1 & p] = r ++ sep ++ joined sep (r1 :: p) by [].
by rewrite -!catA -IH' e.
Qed.
Lemma glue_nil p q : p != [::] -> glue p q != [::].
Proof. by case: p => [|r [|r1 p]] // _; case: q. Qed.
Lemma joined_glues sep p qs : p != [::] -> all (fun q => q != [::]) qs ->
  joined sep (foldl glue p qs) = joined sep p ++ flatten (map (joined sep) qs).
Proof.
elim: qs p => [|q qs IH] p np /=; first by rewrite cats0.
by case/andP=> nq nqs; rewrite IH ?glue_nil // joined_glue // catA.
Qed.
Lemma glues_nil p qs : p != [::] -> foldl glue p qs != [::].
Proof. by elim: qs p => [|q qs IH] p np //=; rewrite IH ?glue_nil. Qed.
Lemma arg_rows_nil tex first x : arg_rows tex first x != [::].
Proof. by case: x => //= s; case: first => //; have [r [rs ->]] := rows_cons s. Qed.
Lemma equations_nil tex xs : equations tex xs != [::].
Proof. by case: xs => //= x xs; rewrite glues_nil ?arg_rows_nil. Qed.
Lemma mem_joined (c : ascii) sep rs : c \notin sep -> (c \in joined sep rs) = has (fun r : text => c \in r) rs.
Proof.
move=> /negbTE ns; elim: rs => [|r [|r1 rs] IH] //=; first by rewrite orbF.
by rewrite !mem_cat ns /= -/(joined sep (r1 :: rs)) IH.
Qed.
Lemma mem_rows (c : ascii) s : c != bs -> has (fun r : text => c \in r) (rows s) = (c \in s).
Proof.
move=> nc; elim/size_ind: s => [|x|x d s IH IH'] //; first by rewrite /= orbF.
rewrite rowsE; case: ifP => [/andP[/eqP-> /eqP->]|_]; first by rewrite /= IH !inE (negbTE nc).
by move: IH'; have [r [rs ->]] := rows_cons (d :: s); rewrite /= [_ \in _ :: d :: s]inE => <-; rewrite inE orbA.
Qed.

(* ---- the format ---- *)
Lemma percent_pass p f xs : percent_sign \notin p -> percent (p ++ f) xs = put_before p (percent f xs).
Proof.
elim: p => [|c p IH] /=; first by case: percent.
by rewrite inE negb_or eq_sym => /andP[/negbTE-> /IH->]; case: percent.
Qed.
Lemma percent_value f x xs : percent (txt " %s " ++ f) (x :: xs) = put_before (txt " " ++ x ++ txt " ") (percent f xs).
Proof.
rewrite [LHS]/=; case: (percent f xs) => // t.
by rewrite /= -!catA.
Qed.

(* ---- the loop ---- *)
Definition vals flg (xs : seq arg) : seq text := pmap (fun x => if x is AVal l s then Some (if flg then l else s) else None) xs.
Definition fmt inter flg first (x : arg) : text :=
  if x is AVal _ _ then txt " %s " else joined (row_break inter) (arg_rows flg first x).
Lemma fmt_str inter flg i s :
  (if infix [:: bs; bs] s && (0 < i) then replace [:: bs; bs] (row_break inter) s else s) = fmt inter flg (i == 0) (AStr s).
Proof.
rewrite /= lt0n; case: eqP => [_|_] /=; first by rewrite andbF.
by rewrite andbT; case: ifP => [_|/negbT/rows_one->//]; rewrite replace_rows.
Qed.
Lemma loopE inter flg i x f xs : (0 < i)%N ->
  gprint_loop inter flg i x f xs = (x ++ vals flg xs, f ++ flatten (map (fmt inter flg false) xs)).
Proof.
elim: xs i x f => [|[s|t|l s] xs IH] i x f i0; rewrite [gprint_loop _ _ _ _ _ _]/= ?cats0 // IH //.
- by rewrite (fmt_str _ flg) -(prednK i0) -catA.
- by rewrite -catA.
- by rewrite -catA cat_rcons.
Qed.
Lemma loop0 inter flg xs : gprint_loop inter flg 0 [::] [::] xs =
  (vals flg xs, if xs is x :: xs' then fmt inter flg true x ++ flatten (map (fmt inter flg false) xs') else [::]).
Proof.
case: xs => [|[s|t|l s] xs] //; rewrite [gprint_loop _ _ _ _ _ _]/= loopE //=.
by rewrite andbF.
Qed.
Lemma break_percent inter : percent_sign \notin row_break inter. Proof. by case: inter. Qed.
Lemma fmt_percent inter flg first x f xs : no_percent x ->
  percent (fmt inter flg first x ++ f) (vals flg (x :: xs)) =
  put_before (joined (row_break inter) (arg_rows flg first x)) (percent f (vals flg xs)).
Proof.
case: x => [s|t|l s] h; last by rewrite /fmt /vals [pmap _ _]/= percent_value.
  rewrite percent_pass // /fmt mem_joined ?break_percent //.
  by case: (first); rewrite /arg_rows ?mem_rows //= orbF.
rewrite percent_pass // /fmt [joined _ _]/=; case: (flg) => //.
set u := (X in _ \notin X); have -> : u = txt " \text{" ++ t ++ txt "} " by [].
by rewrite !mem_cat !negb_or; move: h => /= ->.
Qed.
Lemma formatE inter flg xs : all no_percent xs ->
  let: (x, f) := gprint_loop inter flg 0 [::] [::] xs in
  percent f x = FText (joined (row_break inter) (equations flg xs)).
Proof.
rewrite loop0; have H ys : all no_percent ys ->
    percent (flatten (map (fmt inter flg false) ys)) (vals flg ys) =
    FText (flatten (map (joined (row_break inter)) (map (arg_rows flg false) ys))).
  by elim: ys => [|y ys IH] //= /andP[ny /IH e]; rewrite fmt_percent // e.
case: xs => [|x xs] //= /andP[nx nxs]; rewrite fmt_percent // H //=.
rewrite joined_glues ?arg_rows_nil //; elim: {nxs}xs => //= y ys ->; by rewrite arg_rows_nil.
Qed.

(* ---- what is shown ---- *)
Lemma equationE r : equation r = tex_begin ++ r ++ tex_end. Proof. by []. Qed.
Lemma scriptE rs : rs != [::] ->
  tex_begin ++ joined (row_break false) rs ++ tex_end = joined [:: newline] (map equation rs).
Proof.
elim: rs => [|r [|r1 rs] IH] // _; have {}IH := IH isT.
have -> : joined (row_break false) [:: r, r1 & rs] = r ++ row_break false ++ joined (row_break false) (r1 :: rs) by [].
have -> : joined [:: newline] (map equation [:: r, r1 & rs]) =
  equation r ++ [:: newline] ++ joined [:: newline] (map equation (r1 :: rs)) by [].
by rewrite -IH equationE /row_break -!catA.
Qed.
Lemma split_pass (c : ascii) u v : c \notin u -> split_at c (u ++ c :: v) = u :: split_at c v.
Proof.
elim: u => [|x u IH] /=; first by rewrite eqxx.
by rewrite inE negb_or eq_sym => /andP[/negbTE-> /IH->].
Qed.
Lemma split_none (c : ascii) u : c \notin u -> split_at c u = [:: u].
Proof.
elim: u => [|x u IH] //=; by rewrite inE negb_or eq_sym => /andP[/negbTE-> /IH->].
Qed.
Lemma split_cons (c : ascii) u : exists w ws, split_at c u = w :: ws.
Proof.
elim: u => [|x u [w [ws e]]] /=; first by exists [::], [::].
by rewrite e; case: ifP => _; eexists; eexists.
Qed.
Lemma close_cons u w ws : close_last (u :: w :: ws) = u :: close_last (w :: ws). Proof. by []. Qed.
Lemma split_rows p r rs : at_sign \notin p -> all (fun t : text => at_sign \notin t) (r :: rs) ->
  close_last (split_at at_sign (p ++ joined (row_break true) (r :: rs))) = (p ++ r ++ tex_end) :: map equation rs.
Proof.
elim: rs p r => [|r1 rs IH] p r np /=.
  by rewrite andbT => nr; rewrite split_none ?mem_cat ?negb_or ?np //= -catA.
case/and3P=> nr n1 ns.
have -> : p ++ r ++ row_break true ++ joined (row_break true) (r1 :: rs) =
  (p ++ r ++ tex_end) ++ at_sign :: (tex_begin ++ joined (row_break true) (r1 :: rs)).
  by rewrite /row_break -!catA.
have nu : at_sign \notin p ++ r ++ tex_end 
  by apply/negP; rewrite mem_cat mem_cat => /or3P[a|a|//]; [case/negP: np|case/negP: nr].
rewrite (split_pass _ nu).
have [w [ws e]] := split_cons at_sign (tex_begin ++ joined (row_break true) (r1 :: rs)).
by rewrite e close_cons -e IH //= n1.
Qed.
Lemma open_split p u : at_sign \notin p ->
  split_at at_sign (p ++ u) = if split_at at_sign u is w :: ws then (p ++ w) :: ws else [::].
Proof.
elim: p => [|x p IH] /=; first by case: (split_at at_sign u) (split_cons at_sign u) => [[w [ws]]|].
rewrite inE negb_or eq_sym => /andP[/negbTE-> /IH->].
by have [w [ws ->]] := split_cons at_sign u.
Qed.
Lemma shownE rs : rs != [::] -> all (fun t : text => at_sign \notin t) rs ->
  (if at_sign \in joined (row_break true) rs
   then close_last (open_first (split_at at_sign (joined (row_break true) rs))) else [:: joined (row_break true) rs]) =
  if rs is [:: r] then [:: r] else map equation rs.
Proof.
case: rs => [|r [|r1 rs]] // _ h; first by move: h => /= /andP[/negbTE-> _].
have -> : (at_sign \in joined (row_break true) [:: r, r1 & rs])  = true.
  have -> : joined (row_break true) [:: r, r1 & rs] = r ++ row_break true ++ joined (row_break true) (r1 :: rs) by [].
  have hb : at_sign \in row_break true by [].
  by rewrite mem_cat (mem_cat _ (row_break true)) hb orbT.
have nb : at_sign \notin tex_begin by [].
rewrite -[map equation _]/((tex_begin ++ r ++ tex_end) :: map equation (r1 :: rs)) -(split_rows nb h) (open_split _ nb).
by have [w [ws ->]] := split_cons at_sign (joined (row_break true) [:: r, r1 & rs]).
Qed.
