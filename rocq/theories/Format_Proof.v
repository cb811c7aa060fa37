(* Format_Proof.v -- the collected terms of the printing functions of Format_Model.v *)
From Coq Require Import String Ascii.
From mathcomp Require Import all_ssreflect all_algebra.
From Verif Require Import PyBase PyStr Ga_Model Ga_Proof_Tables Ga_Proof_Rep Parser_Model Format_Model.
Set Implicit Arguments.
Unset Strict Implicit.
Unset Printing Implicit Defensive.
Import GRing.Theory.
Local Open Scope ring_scope.
Local Notation ch c := (c%char : ascii).

Section Collect.
Variable R : comUnitRingType.
Notation expr := (expr R).
Variables (a : ga R) (keys : seq word).
Hypothesis keys_uniq : uniq keys.
Hypothesis keys0 : ohead keys = Some [::].
Hypothesis keys1 : all (fun w : word => size w <= 1)%N keys.
Implicit Types (p args : expr).

Definition total p (i : nat) : R := \sum_(t <- p | index t.2 keys == i) t.1.
Definition there p (i : nat) : bool := has (fun t : R * word => ~~ nilp t.2 && (index t.2 keys == i)) p.
Definition value p (i : nat) : R * word * nat := (total p i, nth [::] keys i, nth 0%N (flat_grades (ga_n a)) i).

Lemma index_nil (w : word) : (index w keys == 0%N) = (w == [::]).
Proof. by case: keys keys0 => //= k ks [->]; rewrite eq_sym; case: (eqVneq [::] w). Qed.
Lemma key_sym w : w \in keys -> ~~ nilp w -> exists s, w = [:: s].
Proof. by move/(allP keys1); case: w => [|s []] // _ _; exists s. Qed.

Definition step := @term_step R a keys.
Record inv p (st : seq (entry R) * R) : Prop := Inv {
  inv0 : st.2 = total p 0;
  invU : uniq [seq e.1 | e <- st.1];
  invG : forall i, dget st.1 i = if there p i then Some (value p i) else None }.
Lemma inv_step p st t : t.2 \in keys -> inv p st -> inv (rcons p t) (step st t).
Proof.
move=> kt [h0 hU hG]; rewrite /step /term_step.
have tot i : total (rcons p t) i = total p i + (if index t.2 keys == i then t.1 else 0).
  by rewrite /total -cats1 big_cat big_cons big_nil /=; case: eqP; rewrite ?addr0.
have the i : there (rcons p t) i = there p i || (~~ nilp t.2 && (index t.2 keys == i)) by rewrite /there has_rcons orbC.
case E: t.2 => [|s w]; rewrite E in kt tot the *.
  have i0 : index ([::] : word) keys = 0%N by apply/eqP; rewrite index_nil.
  split=> //= [|i]; first by rewrite tot i0 eqxx h0.
  rewrite hG the orbF; case: ifP => // ti; rewrite /value tot i0; case: eqP => [e|]; last by rewrite addr0.
  by move: ti; rewrite -e => /hasP[u _ /andP[u0]]; rewrite index_nil => /eqP e'; rewrite e' in u0.
have [z [/esym zs zw]] := key_sym kt isT; subst z w; rewrite kt.
set i := index _ keys in tot the *.
have ni : i != 0%N by rewrite index_nil.
have nk : nth [::] keys i = [:: s] by rewrite nth_index.
have U v : uniq [seq e.1 | e <- dset st.1 i v] by rewrite dkeys_dset; case: ifP => // h; rewrite rcons_uniq h.
have T : total (rcons p t) 0 = total p 0 by rewrite tot (negbTE ni) addr0.
case D: (dget st.1 i) => [[[c b] g]|]; split=> //=; rewrite ?T // => j; rewrite dget_dset hG the.
- case: eqP => [<-|ij]; rewrite ?orbT ?orbF.
    by move: D; rewrite hG; case: ifP => // _ [<- <- <-]; rewrite /value tot eqxx.
  by case: ifP => //; rewrite /value tot; case: eqP => // _; rewrite addr0.
- case: eqP => [<-|ij]; rewrite ?orbT ?orbF.
    rewrite /value tot eqxx nk; have -> : total p i = 0; last by rewrite add0r.
    rewrite /total big_seq_cond big1 // => u /andP[up /eqP ui].
    move: D; rewrite hG; case: ifP => // /negP []; apply/hasP; exists u => //.
    by rewrite ui eqxx andbT; apply: contra ni => /nilP e; rewrite -ui e index_nil.
  by case: ifP => //; rewrite /value tot; case: eqP => // _; rewrite addr0.
Qed.
Lemma inv_fold args : all (fun t : R * word => t.2 \in keys) args -> inv args (foldl step ([::], 0) args).
Proof.
elim/last_ind: args => [|p t IH]; first by split=> //; rewrite /total big_nil.
by rewrite all_rcons => /andP[kt /IH h]; rewrite -cats1 foldl_cat /= cats1; apply: inv_step.
Qed.

(* the position belongs to a term that is printed *)
Definition shown_at args (i : nat) : bool := if i is 0%N then total args 0 != 0 else there args i.
Lemma there_size args i : all (fun t : R * word => t.2 \in keys) args -> there args i -> (i < size keys)%N.
Proof. by move/allP=> h /hasP[t /h kt /andP[_ /eqP <-]]; rewrite index_mem. Qed.
Lemma there0 args : there args 0 = false.
Proof. by apply/hasP => -[t _ /andP[n0]]; rewrite index_nil => /eqP e; rewrite e in n0. Qed.
Lemma dict_values (d : seq (entry R)) (F : nat -> R * word * nat) : uniq [seq e.1 | e <- d] ->
  (forall i, i \in [seq e.1 | e <- d] -> dget d i = Some (F i)) -> d = [seq (i, F i) | i <- [seq e.1 | e <- d]].
Proof.
elim: d => [|[k v] d IH] //= /andP[kd ud] h; have := h k (mem_head _ _); rewrite eqxx => -[->].
congr (_ :: _); apply: IH => // i hi; have := h i; rewrite inE hi orbT => /(_ isT).
by case: eqP => // e; rewrite -e in hi; rewrite hi in kd.
Qed.
Lemma sorted_termsE args : base_keys a args = keys -> all (fun t : R * word => t.2 \in keys) args ->
  sorted_terms a args = [seq (i, value args i) | i <- iota 0 (size keys) & shown_at args i].
Proof.
move=> E ka; rewrite /sorted_terms E; have [h0 hU hG] := inv_fold ka.
case: (foldl _ _ _) h0 hU hG => d r /= h0 hU hG.
have g0 : value args 0 = (r, [::], 0%N).
  rewrite /value -h0 /flat_grades; congr (_, _, _); first by case: (keys) keys0 => //= k ks [->].
  have : size (nth [::] (indexes_flat (ga_n a)) 0) = 0%N.
    by rewrite /indexes_flat /indexes /=; case: (iota 0 (ga_n a)).
  by case: (indexes_flat (ga_n a)) => [|I l] //=.
have dE : d = [seq (i, value args i) | i <- [seq e.1 | e <- d]].
  by apply: dict_values => // i; rewrite dget_mem hG; case: ifP.
set ks := if r != 0 then rcons [seq e.1 | e <- d] 0%N else [seq e.1 | e <- d].
have -> : (if r != 0 then rcons d (0%N, (r, [::], 0%N)) else d) = [seq (i, value args i) | i <- ks].
  by rewrite /ks; case: ifP => // _; rewrite map_rcons -dE g0.
have n0 : 0%N \notin [seq e.1 | e <- d] by rewrite dget_mem hG there0.
rewrite sort_map; congr map.
apply: (sorted_eq leq_trans anti_leq).
- by apply: sort_sorted; exact: leq_total.
- by apply: sorted_filter (iota_sorted _ _); exact: leq_trans.
apply: uniq_perm; first by rewrite sort_uniq /ks; case: ifP => // _; rewrite rcons_uniq n0.
  by rewrite filter_uniq ?iota_uniq.
have s0 : (0 < size keys)%N by case: (keys) keys0.
move=> i; rewrite mem_sort mem_filter mem_iota /= add0n /ks.
have mi : (i \in [seq e.1 | e <- d]) = there args i by rewrite dget_mem hG; case: ifP.
case: i mi => [|i] mi /=.
  by rewrite -h0 s0 andbT; case: ifP => _; rewrite ?mem_rcons ?inE // mi there0.
have -> : (i.+1 \in (if r != 0 then rcons [seq e.1 | e <- d] 0%N else [seq e.1 | e <- d])) = there args i.+1.
  by case: ifP => _; rewrite ?mem_rcons ?inE mi.
by case t: (there args i.+1) => //=; rewrite (there_size ka t).
Qed.
End Collect.
