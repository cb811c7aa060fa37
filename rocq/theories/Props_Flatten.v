(* Props_Flatten.v -- property C78: utils.flatten. *)
From mathcomp Require Import all_ssreflect.
From Coq Require Import String Ascii.
From Verif Require Import PyBase Flatten_Model Spec_Flatten.
Set Implicit Arguments.
Unset Strict Implicit.
Unset Printing Implicit Defensive.

Section Ind.
Variable P : pyval -> Prop.
Hypotheses (hs : forall s, P (PStr s)) (hn : forall k, P (PNum k))
  (hl : forall l, foldr (fun x Q => P x /\ Q) True l -> P (PList l)).
Fixpoint pyval_nested x : P x :=
  match x with
  | PStr s => hs s
  | PNum k => hn k
  | PList l => hl ((fix go l : foldr (fun x Q => P x /\ Q) True l :=
      if l is y :: r then conj (pyval_nested y) (go r) else I) l)
  end.
End Ind.
Lemma flatten_gen x : match x with
  | PList l => py_flatten true x = if only_strings x then Some (leaves x) else None
  | PStr _ => True
  | PNum _ => py_flatten true x = None
  end.
Proof.
elim/pyval_nested: x => //; elim=> [//|y r IH] [hy hr].
have {IH hr} := IH hr; rewrite /only_strings /= all_cat -/(leaves (PList r)).
move=> ->; case: y hy => [s|k|l] //=.
  by move=> _; case: ifP.
move=> ->; rewrite /only_strings -/(leaves (PList l)) /=.
by case: (all _ (flatten [seq leaves i | i <- l])) => //=; case: ifP.
Qed.
(* a nested list of strings, of any depth, gives its strings from left to right *)
Theorem C78_leaves_partial (l : seq pyval) : only_strings (PList l) ->
  py_flatten true (PList l) = Some (leaves (PList l)).
Proof. by move=> h; rewrite (flatten_gen (PList l)) h. Qed.
(* what comes out is a flat list, and flattening it again changes nothing *)
Theorem C78_flat (l v : seq pyval) : py_flatten true (PList l) = Some v ->
  all isstr v /\ py_flatten true (PList v) = Some v.
Proof.
rewrite (flatten_gen (PList l)); case: ifP => // h [<-]; rewrite (flatten_gen (PList _)).
have e w : all isstr w -> leaves (PList w) = w by elim: w => [//|[] // s w IH] /= /IH {2}<-.
have h' : all isstr (leaves (PList l)) := h.
by split=> //; rewrite /only_strings e //; have -> := h'.
Qed.
(* concatenated lists give concatenated results; a list inside a list of one element is as good as itself *)
Theorem C78_cat (l r v w : seq pyval) : py_flatten true (PList l) = Some v -> py_flatten true (PList r) = Some w ->
  py_flatten true (PList (l ++ r)) = Some (v ++ w).
Proof.
rewrite !(flatten_gen (PList _)) /only_strings /= map_cat flatten_cat all_cat.
by case: ifP => // _ [<-]; case: ifP => // _ [<-].
Qed.
Theorem C78_depth (d : nat) (l : seq pyval) : py_flatten true (wrap d (PList l)) = py_flatten true (PList l).
Proof.
elim: d => [//|d IH]; rewrite -{}IH /=.
have -> : isstr (wrap d (PList l)) = false by case: d.
by case: (py_flatten _ _) => //= v; rewrite cats0.
Qed.
(* finding: utils.py flatten -- the test for an iterable looks at the list instead of its element: a value that is
   neither string nor list, anywhere inside, makes flatten raise TypeError instead of being appended *)
Theorem C78_values_refuted (l : seq pyval) : ~~ only_strings (PList l) -> py_flatten true (PList l) = None.
Proof. by move=> /negbTE h; rewrite (flatten_gen (PList l)) h. Qed.
(* finding: utils.py flatten -- from Python 3.10 on there is no collections.Iterable: flatten raises AttributeError for
   every list that is not empty *)
Theorem C78_python310_refuted (l : seq pyval) : l <> [::] -> py_flatten false (PList l) = None.
Proof. by case: l. Qed.

(* ["a", ["b", [], ["c"]]], and [1, "a"] *)
Definition fl_case := [:: PStr "a"; PList [:: PStr "b"; PList [::]; PList [:: PStr "c"]]].
Example C78_case : only_strings (PList fl_case) /\
  py_flatten true (PList fl_case) = Some [:: PStr "a"; PStr "b"; PStr "c"].
Proof. by []. Qed.
Example C78_number : ~~ only_strings (PList [:: PNum 1; PStr "a"]).
Proof. by []. Qed.
Print Assumptions C78_leaves_partial.
Print Assumptions C78_flat.
Print Assumptions C78_cat.
Print Assumptions C78_depth.
Print Assumptions C78_values_refuted.
Print Assumptions C78_python310_refuted.
