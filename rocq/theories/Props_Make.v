(* Props_Make.v -- property C56: constructors of multivectors from a name and a
   kind, and from a list of coefficients.

   [sym s] is the scalar symbol named s.  [ss] are the superscripts of the basis
   vectors; the specification of a coefficient's name is [coef_name]. *)
From Coq Require Import String Ascii.
From mathcomp Require Import all_ssreflect all_algebra.
From Verif Require Import NatTac AlgTactics Exterior Clifford Blades Spec_Grade Grades GradeLaws.
From Verif Require Import Spec_Index PyBase PyStr Ga_Model Ga_Proof_Tables Ga_Proof_Sort Ga_Proof_Sem Ga_Proof_Reduce.
From Verif Require Import Ga_Sem Ga_Proof_Rep Ga_Proof_Conv Ga_Proof_Mul Spec_Clifford Clifford_Unique Spec_Mv Ga_Proof_Den Ga_Proof_Wedge Ga_Proof_Inner.
From Verif Require Import Ga_Proof_Grade Mv_Model Mv_Proof Mv_Expr Mv_Proof_Expr Names_Model Names_Proof Props_Mv Coef_Model Coef_Proof Props_Coef.
Set Implicit Arguments.
Unset Strict Implicit.
Unset Printing Implicit Defensive.
Import GRing.Theory.
Local Open Scope ring_scope.
Local Open Scope string_scope.

(* A for the scalar part, A__<superscripts> for the blade with indices I *)
Definition coef_name (ss : seq string) (name : string) (I : seq nat) : string :=
  if I is [::] then name else name +++ "__" +++ join "" [seq nth "" ss i | i <- I].
(* which grades a kind asks for in dimension n *)
Definition asks_grade (n : nat) (kind : string) (r : nat) : bool :=
  if kind == "scalar" then r == 0%N else if kind == "vector" then r == 1%N
  else if (kind == "bivector") || (kind == "grade2") then r == 2%N else if kind == "pseudo" then r == n
  else if kind == "mv" then true else if (kind == "even") || (kind == "spinor") then ~~ odd r else odd r.
Definition kinds := [:: "scalar"; "vector"; "bivector"; "grade2"; "pseudo"; "mv"; "even"; "spinor"; "odd"].
(* the algebra has room for it *)
Definition fits (n : nat) (kind : string) : bool :=
  if kind == "vector" then (0 < n)%N else if (kind == "bivector") || (kind == "grade2") then (1 < n)%N else true.
(* no superscript is empty or a prefix of another one *)
Definition prefix_free (ss : seq string) : Prop :=
  all (fun s => s != "") ss /\
  forall i j t, (i < size ss)%N -> (j < size ss)%N -> nth "" ss i = nth "" ss j +++ t -> i = j.

Lemma join0 (ss : seq string) I : join "" [seq nth "" ss i | i <- I] = blade_super_script ss I.
Proof.
elim: I => // i [|j I] IH; first by rewrite /= app_empty.
by rewrite [map _ _]/= join_cons /= in IH *; rewrite IH.
Qed.
Lemma app_cases a x b y : a +++ x = b +++ y -> (exists t, a = b +++ t) \/ (exists t, b = a +++ t).
Proof.
elim: a b => [|c a IH] [|d b] /=; first by left; exists "".
- by move=> _; right; exists (String d b).
- by move=> _; left; exists (String c a).
by move=> [-> /IH[[t ->]|[t ->]]]; [left|right]; exists t.
Qed.
Lemma app_id a b : a = a +++ b -> b = "".
Proof. by rewrite -{1}[a]app_empty => /app_injl. Qed.
Lemma script_inj ss I J : prefix_free ss -> all (fun i => i < size ss)%N I -> all (fun i => i < size ss)%N J ->
  blade_super_script ss I = blade_super_script ss J -> I = J.
Proof.
move=> [ne pf]; have ne' i : (i < size ss)%N -> nth "" ss i <> "".
  by move=> h; apply/eqP; apply: (allP ne); exact: mem_nth.
elim: I J => [|i I IH] [|j J] //=.
- move=> _ /andP[/ne' h _]; by case: (nth _ _ _) h.
- move=> /andP[/ne' h _] _; by case: (nth _ _ _) h.
move=> /andP[hi hI] /andP[hj hJ] E; have ij : i = j.
  by have [[t h]|[t h]] := app_cases E; [exact: pf h|apply/esym; exact: pf h].
by move: E; rewrite ij => /app_injl/IH ->.
Qed.
Lemma script_eq0 ss I : prefix_free ss -> all (fun i => i < size ss)%N I -> (blade_super_script ss I == "") = (I == [::]).
Proof. by move=> pf hI; apply/eqP/eqP => [E|->//]; apply: (@script_inj ss I [::]). Qed.
Lemma add_superscriptE ss name I : prefix_free ss -> all (fun i => i < size ss)%N I ->
  add_superscript name (blade_super_script ss I) = coef_name ss name I.
Proof. by move=> pf hI; rewrite /add_superscript script_eq0 // /coef_name join0; case: I {hI}. Qed.
Lemma coef_name_inj ss name I J : prefix_free ss -> all (fun i => i < size ss)%N I -> all (fun i => i < size ss)%N J ->
  coef_name ss name I = coef_name ss name J -> I = J.
Proof.
move=> pf hI hJ; case: I hI => [|i I] hI; case: J hJ => [|j J] hJ //.
- by move=> /app_id.
- by move=> /esym/app_id.
by move=> /app_injl; rewrite !join0 => -[] E; exact: (script_inj pf hI hJ E).
Qed.

Section Make.
Variables (R : comUnitRingType) (sym : string -> R) (n : nat) (ss : seq string).
Hypothesis sn : size ss = n.
Hypothesis pf : prefix_free ss.

Let ok I : wfI n I -> all (fun i => i < size ss)%N I. Proof. by rewrite sn => /andP[]. Qed.
Lemma make_gradeE name r : (r <= n)%N ->
  make_grade_names n ss name (Posz r) = Some [seq (coef_name ss name I, mk_blade I) | I <- nth [::] (indexes n) r].
Proof.
have si : size (indexes n) = n.+1 by rewrite /indexes size_map size_iota.
move=> rn; rewrite /make_grade_names /py_nth (nth_map [::]) ?si //=; congr Some; apply/eq_in_map => I.
rewrite indexes_nth // mem_comb_iota => /andP[wI _].
by rewrite add_superscriptE // ok.
Qed.
Lemma make_gradesE name gs : all (fun r => r <= n)%N gs ->
  make_grades_names n ss name gs =
  Some [seq (coef_name ss name I, mk_blade I) | I <- flatten [seq nth [::] (indexes n) r | r <- gs]].
Proof.
move=> h; rewrite /make_grades_names.
have -> : omapM (fun g => make_grade_names n ss name (Posz g)) gs =
   Some [seq [seq (coef_name ss name I, mk_blade I) | I <- nth [::] (indexes n) r] | r <- gs].
  by elim: gs h => //= g gs IH /andP[/(make_gradeE name) -> /IH ->].
by rewrite /= map_flatten -map_comp.
Qed.
Definition grades_of (kind : string) : seq nat := [seq r <- iota 0 n.+1 | asks_grade n kind r].
Lemma make_namedE name kind : kind \in kinds -> fits n kind ->
  make_named n ss name kind =
  Some [seq (coef_name ss name I, mk_blade I) | I <- flatten [seq nth [::] (indexes n) r | r <- grades_of kind]].
Proof.
have one r k : (r <= n)%N -> (forall i, asks_grade n k i = (i == r)) -> 
    make_grade_names n ss name (Posz r) = 
    Some [seq (coef_name ss name I, mk_blade I) | I <- flatten [seq nth [::] (indexes n) r | r <- grades_of k]].
  move=> rn E; rewrite /grades_of (eq_filter E) (@eq_filter _ _ (pred1 r)) //.
  by rewrite filter_pred1_uniq ?iota_uniq ?mem_iota //= cats0 make_gradeE.
have many k : make_grades_names n ss name [seq r <- iota 0 n.+1 | asks_grade n k r] = 
    Some [seq (coef_name ss name I, mk_blade I) | I <- flatten [seq nth [::] (indexes n) r | r <- grades_of k]].
  by apply: make_gradesE; apply/allP => r; rewrite mem_filter mem_iota => /and3P[].
rewrite /kinds !inE; (do 8?case/orP) => /eqP -> h.
- exact: (one 0%N "scalar").
- exact: (one 1%N "vector").
- exact: (one 2%N "bivector").
- exact: (one 2%N "grade2").
- exact: (one n "pseudo").
- rewrite -(many "mv") -[LHS]/(make_grades_names n ss name (iota 0 n.+1)).
  by congr make_grades_names; rewrite -[LHS]filter_predT; apply: eq_filter.
- exact: (many "even").
- exact: (many "spinor").
- exact: (many "odd").
Qed.
Lemma coef_seq (f : seq nat -> R) (l : seq (seq nat)) I : uniq l ->
  coefficient [seq (f J, mk_blade J) | J <- l] (mk_blade I) = if I \in l then f I else 0.
Proof.
rewrite /coefficient big_map; elim: l => [|J l IH] /=; first by rewrite big_nil.
move=> /andP[nJ /IH E]; rewrite big_cons E (inj_eq mk_blade_inj) in_cons [I == J]eq_sym.
by case: eqP => [<-|_] //=; rewrite (negPf nJ) addr0.
Qed.
Lemma grades_uniq gs : uniq gs -> all (fun r => r <= n)%N gs ->
  uniq (flatten [seq nth [::] (indexes n) r | r <- gs]) /\
  forall I, wfI n I -> (I \in flatten [seq nth [::] (indexes n) r | r <- gs]) = (size I \in gs).
Proof.
move=> ug /allP h; split.
  apply: (@flatten_uniq_key _ size gs (fun r => nth [::] (indexes n) r)) => //.
    by move=> r rg; rewrite indexes_nth ?h //; apply: comb_uniq; exact: iota_uniq.
  by move=> r x rg; rewrite indexes_nth ?h // mem_comb_iota => /andP[_ /eqP].
move=> I wI; apply/flattenP/idP => [[l /mapP[r rg ->]]|sg].
  by rewrite indexes_nth ?h // mem_comb_iota => /andP[_ /eqP ->].
by exists (nth [::] (indexes n) (size I)); [exact: map_f|rewrite indexes_nth ?h // mem_comb_iota wI eqxx].
Qed.
Lemma grades_ofP kind : uniq (grades_of kind) /\ all (fun r => r <= n)%N (grades_of kind).
Proof.
split; first by rewrite filter_uniq ?iota_uniq.
by apply/allP => r; rewrite mem_filter mem_iota => /and3P[].
Qed.

(* ga.mv(name, kind): the coefficient of each blade of a requested grade is the
   symbol named after it, all other coefficients are 0, the symbols are distinct *)
Theorem C56_named name kind : kind \in kinds -> fits n kind -> exists l,
  [/\ make_named n ss name kind = Some l,
      uniq [seq p.1 | p <- l] &
      forall I, wfI n I -> coefficient (to_expr sym l) (mk_blade I) =
        if asks_grade n kind (size I) then sym (coef_name ss name I) else 0].
Proof.
move=> hk hf; rewrite make_namedE //; eexists; split; first by reflexivity.
  have [ug hg] := grades_ofP kind; have [uf _] := grades_uniq ug hg.
  rewrite -map_comp map_inj_in_uniq // => I J.
  have w K : K \in flatten [seq nth [::] (indexes n) r | r <- grades_of kind] -> all (fun i => i < size ss)%N K.
    move=> /flattenP[l /mapP[r rg ->]]; rewrite indexes_nth ?(allP hg) // mem_comb_iota => /andP[wK _].
    exact: ok.
  by move=> /w hI /w hJ /= /coef_name_inj; apply.
move=> I wI; have [ug hg] := grades_ofP kind; have [uf mf] := grades_uniq ug hg.
rewrite /to_expr -map_comp (coef_seq (fun J => sym (coef_name ss name J))) // mf // /grades_of mem_filter mem_iota.
by rewrite leq0n add0n ltnS wfI_size // !andbT.
Qed.
(* ga.mv(name, r) with an integer r *)
Theorem C56_grade name r : (r <= n)%N -> exists l,
  [/\ make_grade_names n ss name (Posz r) = Some l,
      uniq [seq p.1 | p <- l] &
      forall I, wfI n I -> coefficient (to_expr sym l) (mk_blade I) =
        if size I == r then sym (coef_name ss name I) else 0].
Proof.
move=> rn; rewrite make_gradeE //; eexists; split; first by reflexivity.
  rewrite -map_comp map_inj_in_uniq; first by rewrite indexes_nth //; apply: comb_uniq; exact: iota_uniq.
  move=> I J; rewrite indexes_nth // !mem_comb_iota => /andP[/ok hI _] /andP[/ok hJ _] /= /coef_name_inj; exact.
move=> I wI; rewrite /to_expr -map_comp (coef_seq (fun J => sym (coef_name ss name J))).
  by rewrite indexes_nth // mem_comb_iota wI.
by rewrite indexes_nth //; apply: comb_uniq; exact: iota_uniq.
Qed.
(* too high a grade raises; a negative one counts from the end *)
Theorem C56_grade_range name r :
  ((n < r)%N -> make_grade_names n ss name (Posz r) = None) /\
  ((r <= n)%N -> make_grade_names n ss name (Negz r) = make_grade_names n ss name (Posz (n - r))) /\
  ((n < r)%N -> make_grade_names n ss name (Negz r) = None).
Proof.
have si : size (indexes n) = n.+1 by rewrite /indexes size_map size_iota.
split; [|split] => h; rewrite /make_grade_names.
- by rewrite /py_nth nth_default // size_map si.
- by rewrite py_nth_neg si // subSS.
- by rewrite /py_nth si ltnS leqNgt h.
Qed.
Theorem C56_rejects name kind : kind \notin kinds \/ ~~ fits n kind -> make_named n ss name kind = None.
Proof.
have R0 r : (n < r)%N -> make_grade_names n ss name (Posz r) = None by move=> h; have [-> //] := C56_grade_range name r.
case.
  by rewrite /kinds /make_named !inE !negb_or; do 8!(case/andP=> /negPf ->); move=> /negPf ->.
rewrite /fits /make_named; case: (kind =P "vector") => [-> /=|_]; first by rewrite -leqNgt => h; apply: R0; rewrite ltnS.
case hk: ((kind == "bivector") || (kind == "grade2")) => //; rewrite -leqNgt => h.
by rewrite (_ : (kind == "scalar") = false) //; [exact: R0|case/orP: hk => /eqP ->].
Qed.

(* ga.mv([c0, c1, ...], r): the coefficients of the blades of grade r in order,
   0 for the rest; too many coefficients raise *)
Theorem C56_list (cs : seq R) r : (r <= n)%N ->
  (if make_grade_list n cs (Posz r) is Some x then
     (size cs <= 'C(n, r))%N /\
     forall I, wfI n I -> coefficient x (mk_blade I) =
        if size I == r then nth 0 cs (index I (combinations (iota 0 n) r)) else 0
   else ('C(n, r) < size cs)%N).
Proof.
have si : size (indexes n) = n.+1 by rewrite /indexes size_map size_iota.
move=> rn; rewrite /make_grade_list /py_nth /blades (nth_map [::]) ?size_map ?si // /obnd.
rewrite (nth_map [::]) ?si // indexes_nth //; set L := combinations _ _.
have uL : uniq L by apply: comb_uniq; exact: iota_uniq.
have sL : size L = 'C(n, r) by rewrite comb_size size_iota.
rewrite size_map sL; case: leqP => h //; split=> // I wI.
have -> : (size I == r) = (I \in L) by rewrite mem_comb_iota wI.
rewrite -sL in h; clear -h uL; elim: L cs h uL => [|J L IH] [|c cs] //= h; rewrite ?[LHS](coef_nil R) ?nth_nil ?if_same //.
move=> /andP[nJ uL]; rewrite [LHS]coef_cons /= [coef _ _]IH // (inj_eq mk_blade_inj) in_cons [I == J]eq_sym.
by case: eqP => [<-|_] /=; rewrite ?(negPf nJ) ?addr0 ?add0r.
by rewrite size_iota.
Qed.
End Make.

(* the usual case: superscripts that are distinct and equally long *)
Theorem C56_equal_length ss len : uniq ss -> (0 < len)%N -> all (fun s => String.length s == len) ss -> prefix_free ss.
Proof.
move=> us l0 /allP hl; split; first by apply/allP => s /hl; case: s => //= /eqP E; rewrite -E in l0.
have len_app a b : String.length (a +++ b) = (String.length a + String.length b)%N by elim: a => //= x a ->.
move=> i j t hi hj E; have := hl _ (mem_nth "" hi); rewrite E len_app (eqP (hl _ (mem_nth "" hj))) => /eqP H.
have t0 : t = "" by case: t {E} H => //= c t /(canRL (addKn _)) ; rewrite subnn.
by move: E; rewrite t0 app_empty => /eqP; rewrite nth_uniq // => /eqP.
Qed.
Example C56_ex_default : prefix_free (basis_super_scripts [:: "a"; "b"; "c"; "d"; "e"; "f"; "g"; "h"; "k"] None).
Proof. by apply: (@C56_equal_length _ 1). Qed.
Example C56_ex : make_named 2 (basis_super_scripts [:: "e_x"; "e_y"] None) "A" "mv" =
  Some [:: ("A", [::]); ("A__x", mk_blade [:: 0%N]); ("A__y", mk_blade [:: 1%N]); ("A__xy", mk_blade [:: 0; 1]%N)].
Proof. by vm_compute. Qed.
Example C56_ex_list : omap (fun x => x == [:: (5%:R : rat, mk_blade [:: 0; 1]%N); (7%:R, mk_blade [:: 0; 2]%N)])
  (@make_grade_list rat_comUnitRing 3 [:: 5%:R; 7%:R] 2) = Some true.
Proof. by vm_compute. Qed.

(* finding: the superscripts are concatenated without a separator, so two blades
   can get the same symbol: with basis 'e*1|2|12' both e_12 and e_1^e_2 have the
   coefficient A__12; the default names collide from dimension 12 on *)
Theorem C56_distinct_refuted : exists basis l,
  [/\ symbols_list "e*1|2|12" None true = Some basis,
      make_named (size basis) (basis_super_scripts basis None) "A" "mv" = Some l,
      uniq basis & ~~ uniq [seq p.1 | p <- l]].
Proof. by do 2!eexists; split; vm_compute; reflexivity. Qed.
Theorem C56_default_names_refuted : exists I J, [/\ wfI 12 I, wfI 12 J, I != J &
  let ss := basis_super_scripts [seq "e" +++ str_nat i | i <- iota 0 12] None in
  coef_name ss "A" I = coef_name ss "A" J].
Proof. by exists [:: 11]%N, [:: 0; 1]%N; split; vm_compute. Qed.
Definition props_make_all := (C56_named, C56_grade, C56_grade_range, C56_rejects, C56_list, C56_equal_length,
  C56_distinct_refuted, C56_default_names_refuted).
Print Assumptions props_make_all.
