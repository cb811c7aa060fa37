(* Props_Oprint.v -- property C79: the table printed by oprint. *)
From Coq Require Import String Ascii.
From mathcomp Require Import all_ssreflect.
From Verif Require Import PyBase Parser_Model Oprint_Model Spec_Oprint.
Set Implicit Arguments.
Unset Strict Implicit.
Unset Printing Implicit Defensive.
Local Open Scope seq_scope.

(* the arguments title1, object1, title2, object2, ... for a table; str tells which values are strings *)
Definition call_args (str : text -> bool) (rs : seq row) : seq oarg :=
  flatten [seq [:: OStr r.1; (if r.2 is Some s then if str s then OStr s else OObj s else ONone)] | r <- rs].
Lemma even_call str rs x : even_args (call_args str rs ++ x) = [seq OStr r.1 | r <- rs] ++ even_args x.
Proof. by elim: rs => [//|r rs IH] /=; rewrite IH. Qed.
Lemma odd_call str rs : ostrs (odd_args (call_args str rs)) = [seq r.2 | r <- rs].
Proof.
case: rs => [//|r rs]; rewrite /odd_args /=.
elim: rs r => [|r' rs IH] [t o] /=; first by case: o => [s|] //; case: (str s).
by congr (_ :: _); [case: o => [s|] //; case: (str s) | exact: (IH r')].
Qed.
Lemma one_lineE s : one_line s = ~~ has_nl s.
Proof. by rewrite /has_nl -all_predC; apply: eq_all => c /=; rewrite Ascii.eqb_sym. Qed.
Lemma widthE rs : pad_width (zip [seq OStr r.1 | r <- rs] [seq r.2 | r <- rs]) = Some (column rs).
Proof.
elim: rs => [|[t o] rs IH]; first by rewrite /column big_nil.
rewrite /column big_cons -/(column rs) /= {}IH /short /=; case: o => [s|] //=.
by rewrite one_lineE; case: (has_nl s).
Qed.
Lemma linesE k rs : oprint_lines k (zip [seq OStr r.1 | r <- rs] [seq r.2 | r <- rs]) = Some (map (layout k) rs).
Proof.
elim: rs => [//|[t o] rs IH] /=; rewrite {}IH /oprint_line /layout /=; case: o => [s|] //=.
by rewrite one_lineE; case: (has_nl s).
Qed.
(* the documented table, one text for each row, in order *)
Theorem C79_table (str : text -> bool) (rs : seq row) : rs <> [::] ->
  oprint (call_args str rs) = Some [seq layout (column rs) r | r <- rs].
Proof.
move=> ne; have -> : oprint (call_args str rs) =
    (let l := zip (even_args (call_args str rs)) (ostrs (odd_args (call_args str rs))) in
     LET n := pad_width l IN oprint_lines n l) by case: rs ne.
by have := even_call str rs [::]; rewrite !cats0 odd_call => -> /=; rewrite widthE /= linesE.
Qed.
(* the values on one line start in the same column, after the title, blanks and " = " *)
Theorem C79_aligned (str : text -> bool) (rs : seq row) (i : nat) t s :
  nth ([::], None) rs i = (t, Some s) -> i < size rs -> one_line s ->
  exists2 out, oprint (call_args str rs) = Some out &
    let line := nth [::] out i in
    [/\ drop (column rs + 3) line = s, take (size t) line = t, take 3 (drop (column rs) line) = txt " = " &
      forall j, size t <= j < column rs -> nth nl line j = " "%char].
Proof.
move=> e li ol; exists [seq layout (column rs) r | r <- rs]; first by apply: C79_table => h; rewrite h in li.
have E : layout (column rs) (t, Some s) = t ++ nseq (column rs - size t) " "%char ++ txt " = " ++ s.
  by rewrite /layout /= ol.
cbv zeta; rewrite (nth_map ([::], None)) // e E.
have le : size t <= column rs.
  rewrite /column (big_nth ([::], None)) big_mkord (bigD1 (Ordinal li)) /=; last by rewrite /short e.
  by rewrite e leq_maxl.
have sz : size (t ++ nseq (column rs - size t) " "%char) = column rs by rewrite size_cat size_nseq subnKC.
split.
- by rewrite catA catA drop_size_cat // size_cat sz.
- by rewrite take_size_cat.
- by rewrite catA drop_size_cat ?sz // take_size_cat.
move=> j /andP[l1 l2]; rewrite nth_cat ltnNge l1 /= nth_cat size_nseq ltn_sub2r ?(leq_ltn_trans l1 l2) //.
by rewrite nth_nseq ltn_sub2r ?(leq_ltn_trans l1 l2).
Qed.
(* finding: printer.py oprint -- a title at the end without a value is dropped without a word: oprint('title') prints
   nothing (the documentation asks for None as the value) *)
Theorem C79_last_title_refuted (str : text -> bool) (rs : seq row) (t : text) :
  oprint (call_args str rs ++ [:: OStr t]) = Some [seq layout (column rs) r | r <- rs].
Proof.
have -> : oprint (call_args str rs ++ [:: OStr t]) =
    (let l := zip (even_args (call_args str rs ++ [:: OStr t])) (ostrs (odd_args (call_args str rs ++ [:: OStr t]))) in
     LET n := pad_width l IN oprint_lines n l) by case: rs.
have o : odd_args (call_args str rs ++ [:: OStr t]) = odd_args (call_args str rs).
  case: rs => [//|r rs]; rewrite /odd_args /=.
  by elim: rs r => [//|r' rs IH] r /=; congr (_ :: _); exact: (IH r').
rewrite o even_call odd_call /=.
have z (T U : Type) (a : seq T) (x : T) (b : seq U) : size a = size b -> zip (a ++ [:: x]) b = zip a b.
  by elim: a b => [|y a IH] [|c b] //= [/IH ->].
by rewrite z ?size_map //= widthE /= linesE.
Qed.
(* finding: printer.py oprint -- a string as the first of several values to be printed is taken for a title: in
   oprint('a', x, y) the object y is taken for a title, which is dropped; with a fourth argument it raises TypeError *)
Theorem C79_titles_refuted (t x y z : text) :
  oprint [:: OStr t; OObj x; OObj y; OObj z] = None.
Proof. by rewrite /oprint /= /oprint_line /=; case: (has_nl x); case: (has_nl z) => //=; case: (has_nl x). Qed.

(* oprint('x', 12, 'head', None, 'long', 3, 'many', 'a\nb') *)
Definition op_case : seq row :=
  [:: (txt "x", Some (txt "12")); (txt "heading", None); (txt "long", Some (txt "3"));
      (txt "several", Some (txt "a" ++ "010"%char :: txt "b"))].
Example C79_case : oprint (call_args (fun s => 2 < size s) op_case) =
  Some [:: txt "x    = 12"; txt "heading"; txt "long = 3"; txt "several:" ++ "010"%char :: txt "a" ++ "010"%char :: txt "b"].
Proof. by []. Qed.
Print Assumptions C79_table.
Print Assumptions C79_aligned.
Print Assumptions C79_last_title_refuted.
Print Assumptions C79_titles_refuted.
