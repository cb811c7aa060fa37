(* Props_Names.v -- properties C42, C43, C44: dual mode state, Cl(p,q,r), names. *)
From Coq Require Import String Ascii ZArith.
From mathcomp Require Import all_ssreflect all_algebra.
From Verif Require Import NatTac AlgTactics Exterior Clifford Blades Spec_Grade Grades GradeLaws.
From Verif Require Import Spec_Index PyBase Ga_Model Ga_Proof_Tables Ga_Proof_Sort Ga_Proof_Sem Ga_Proof_Reduce.
From Verif Require Import Ga_Sem Ga_Proof_Rep Ga_Proof_Conv Ga_Proof_Mul Spec_Clifford Clifford_Unique Spec_Mv Ga_Proof_Den Ga_Proof_Wedge Ga_Proof_Inner.
From Verif Require Import Ga_Proof_Grade Det Mv_Model Mv_Proof Mv_Expr Mv_Proof_Expr Props_Mv PyStr.
From Verif Require Import Dual_Model Dual_Proof Props_Dual Names_Model Names_Proof.
Set Implicit Arguments.
Unset Strict Implicit.
Unset Printing Implicit Defensive.
Import GRing.Theory.
Local Open Scope string_scope.
Local Open Scope py_scope.

(* ---- specification: names are built from a root and an index ---- *)
Definition no (c : ascii) (s : string) : bool := ~~ has_char c s.
Definition indexed (sub : bool) (root i : string) : string := root +++ (if sub then "_" else "__") +++ i.
(* the superscript form of a given name: the first underscore is doubled *)
Inductive super_of : string -> string -> Prop :=
  | SuperNone s : no "_" s -> super_of s s
  | SuperFirst p q : no "_" p -> super_of (p +++ "_" +++ q) (p +++ "__" +++ q).

(* ---- C44 ---- *)
Lemma indexed_inj sub root : injective (indexed sub root).
Proof. by move=> i j /app_injl /app_injl. Qed.
Lemma app_eq0 a b : (a +++ b == "") = (a == "") && (b == "").
Proof. by case: a => //= x a. Qed.

(* 'root*i1|i2|...|in', n >= 2 *)
Theorem C44_indexed root idx sub : no "*" root -> all (no "*") idx -> all (no "|") idx -> (1 < size idx)%N ->
  symbols_list (root +++ "*" +++ join "|" idx) None sub = Some [seq indexed sub root i | i <- idx].
Proof.
move=> r1 i1 i2 sz; rewrite /symbols_list.
have h : no "*" (join "|" idx) by rewrite /no has_join negb_or -all_predC i1 /= andbF.
rewrite has_app [has_char "*" ("*" +++ _)]/= orbT [split _ _]split_cut // split_none //.
rewrite has_app [has_char "|" ("*" +++ _)]/= has_join sz /= !orbT split_join //.
by case: idx sz {i1 i2 h}.
Qed.
(* 'root*k' *)
Theorem C44_counted root k sub : no "*" root -> no "|" root ->
  symbols_list (root +++ "*" +++ str_nat k) None sub = Some [seq indexed sub root (str_nat i) | i <- iota 0 k].
Proof.
move=> r1 r2; rewrite /symbols_list !has_app /= orbT /=.
rewrite split_cut // split_none; last exact: str_nochar.
rewrite (negbTE r2) (negbTE (str_nochar _ _)) //= py_int_str.
by rewrite /py_range Nat2Z.id.
Qed.
(* a list of indices *)
Theorem C44_indices root idx sub : symbols_list root (Some idx) sub = Some [seq indexed sub root i | i <- idx].
Proof. by []. Qed.
Theorem C44_distinct root idx sub : uniq idx -> uniq [seq indexed sub root i | i <- idx].
Proof. by rewrite map_inj_uniq //; exact: indexed_inj. Qed.

(* comma separated names, with or without the trailing comma *)
Theorem C44_commas names : all (no ",") names -> all (no "*") names -> names != [::] ->
  symbols_list (join "," names +++ ",") None true = Some names /\
  ((1 < size names)%N -> last "" names != "" -> symbols_list (join "," names) None true = Some names).
Proof.
move=> h1 h2 n0.
have j2 : no "*" (join "," names) by rewrite /no has_join negb_or -all_predC h2 /= andbF.
split=> [|sz lst]; rewrite /symbols_list.
  have E : split "," (join "," names +++ ",") = (names ++ [:: ""])%SEQ.
    have -> : join "," names +++ "," = join "," (names ++ [:: ""])%SEQ.
      elim: names n0 {h1 h2 j2} => [|w [|v ws] IH] // _.
      by rewrite -[((_ :: _ :: _) ++ _)%SEQ]/(w :: v :: ws ++ [:: ""])%SEQ !join_cons -IH // !appA.
    by rewrite split_join // ?all_cat ?h1 //; case: names {n0 h1 h2 j2}.
  rewrite has_app (negbTE j2) /= has_app orbT /= E app_eq0 andbF.
  by rewrite last_cat eqxx size_cat addn1 /= take_size_cat.
rewrite (negbTE j2) has_join sz /= orbT split_join // (negbTE lst).
by case: eqP => // E; have := has_join "," "," names; rewrite E sz orbT.
Qed.
(* space separated names *)
Theorem C44_spaces names : all (no " ") names -> all (no ",") names -> all (no "*") names ->
  names != [::] -> names != [:: ""] -> symbols_list (join " " names) None true = Some names.
Proof.
move=> h1 h2 h3 n0 n1; rewrite /symbols_list.
have j3 : no "*" (join " " names) by rewrite /no has_join negb_or -all_predC h3 /= andbF.
have j2 : no "," (join " " names) by rewrite /no has_join negb_or -all_predC h2 /= andbF.
rewrite (negbTE j3) (negbTE j2) split_join //.
by case: eqP => // E; have := split_join n0 h1; rewrite E /= => N; rewrite -N in n1.
Qed.
Theorem C44_empty sub : symbols_list "" None sub = Some [::].
Proof. by case: sub. Qed.
(* the superscript form: same list, the first underscore of each name doubled *)
Theorem C44_superscript s l : no "*" s -> symbols_list s None true = Some l ->
  exists2 l', symbols_list s None false = Some l' &
    size l' = size l /\ forall i, (i < size l)%N -> super_of (nth "" l i) (nth "" l' i).
Proof.
move=> ns; rewrite /symbols_list (negbTE ns) => -[->].
exists [seq replace1 "_" "__" x | x <- l]; rewrite ?size_map //; split=> // i lt.
rewrite (nth_map "") //; elim: (nth "" l i) => [|x s' IH]; first by constructor.
rewrite /= ; case: eqP => [->|ne]; first exact: (@SuperFirst "").
case: IH => [w nw|p q np].
  by constructor; rewrite /no /= (negbTE nw) orbF; apply/eqP.
by apply: (@SuperFirst (String x p)); rewrite /no /= (negbTE np) orbF; apply/eqP.
Qed.
(* malformed descriptions raise *)
Theorem C44_rejects s sub : (2 < size (split "*" s))%N -> symbols_list s None sub = None.
Proof.
move=> sz; rewrite /symbols_list; have -> : has_char "*" s.
  by apply/negPn/negP => /split_none E; rewrite E in sz.
by case: (split "*" s) sz => [|? [|? []]].
Qed.
Theorem C44_rejects_count root idx sub : no "*" root -> no "|" root -> no "*" idx -> no "|" idx ->
  py_int idx = None -> symbols_list (root +++ "*" +++ idx) None sub = None.
Proof.
move=> r1 r2 i1 i2 E; rewrite /symbols_list !has_app /= orbT /=.
by rewrite split_cut // split_none // (negbTE r2) (negbTE i2) /= E.
Qed.
(* one index: the documented 'root*s1' with n = 1 is read as a count *)
Theorem C44_single_index root k sub : no "*" root -> no "|" root ->
  symbols_list (root +++ "*" +++ join "|" [:: str_nat k]) None sub =
  Some [seq indexed sub root (str_nat i) | i <- iota 0 k].
Proof. exact: C44_counted. Qed.
Theorem C44_single_index_refuted : exists root i, [/\ no "*" root, no "|" root, no "*" i, no "|" i &
  symbols_list (root +++ "*" +++ join "|" [:: i]) None true <> Some [:: indexed true root i]].
Proof. by exists "e", "1"; split; vm_compute. Qed.

(* ---- C42 ---- *)
Section Mode.
Variable R : comUnitRingType.
Implicit Types (op : mode_op) (h : seq mode_op).
(* the documented modes; the mode an operation asks for *)
Definition valid_modes : seq string := [:: "+I"; "I+"; "-I"; "I-"; "+Iinv"; "Iinv+"; "-Iinv"; "Iinv-"].
Definition asks op : option string :=
  match op with
  | OpDualMode m => if m \in valid_modes then Some m else None
  | OpCl p q r _ => if (p + q + r == 0)%N then None else Some "I+"
  | OpKingdon p q r _ => if (p + q + r == 0)%N then None else Some "Iinv+"
  end.
Definition last_asked h : string := last "I+" (pmap asks h).
Lemma mode_stepE st op : mode_step R st op = if asks op is Some m then m else st.
Proof.
case: op => [m|p q r root|p q r root] /=; last 2 first.
- by rewrite /interop_Cl /cl_factory; case: eqP.
- by rewrite /kingdon_Cl /cl_factory; case: eqP.
by rewrite /dual_mode /set_dual_mode /dual_mode_lst !inE /= orbF; case: ifP.
Qed.
Theorem C42_mode_in_force h : foldl (mode_step R) dual_mode_default h = last_asked h.
Proof.
rewrite /last_asked -[dual_mode_default]/"I+"; elim: h "I+" => //= op h IH st.
by rewrite IH mode_stepE; case: (asks op).
Qed.
Theorem C42_always_valid h : foldl (mode_step R) dual_mode_default h \in valid_modes.
Proof.
rewrite C42_mode_in_force /last_asked.
suff: all (mem valid_modes) ("I+" :: pmap asks h) by move=> /allP; apply; exact: mem_last.
rewrite /=; elim: h => //= op h IH; case E: (asks op) => [m|] //=; rewrite IH andbT.
by case: op E => [m'|p q r ?|p q r ?] /=; case: ifP => // hm [<-].
Qed.
(* an invalid mode raises and leaves the mode alone; a valid one is set *)
Theorem C42_dual_mode st m : dual_mode st m = if m \in valid_modes then (m, false) else (st, true).
Proof. by rewrite /dual_mode /set_dual_mode /dual_mode_lst !inE /= orbF; case: ifP. Qed.
(* but a Cl construction that fails while parsing the root has changed the mode *)
Theorem C42_failed_construction_refuted : exists root,
  (interop_Cl R "Iinv+" 3 0 0 root).2 = None /\ (interop_Cl R "Iinv+" 3 0 0 root).1 = "I+".
Proof. by exists "a*b"; split; vm_compute. Qed.
End Mode.

(* ---- C43 ---- *)
Section Cl.
Variables (R : comUnitRingType) (two : (2%:R : R)%R \is a GRing.unit).
Local Open Scope ring_scope.

Lemma gij_diag n (l : seq R) i j : size l = n -> (i < n)%N -> (j < n)%N ->
  gij (Ga n (diag_matrix l)) i j = if i == j then l`_i else 0.
Proof.
move=> sz li lj; rewrite /gij /= /diag_matrix sz (nth_map 0%N) ?size_iota // nth_iota // add0n.
by rewrite (nth_map 0%N) ?size_iota // nth_iota.
Qed.
Lemma wf_diag n (l : seq R) : size l = n -> wf_ga (Ga n (diag_matrix l)).
Proof.
move=> sz; rewrite /wf_ga /= /diag_matrix size_map size_iota sz eqxx /= all_map.
by apply/allP => i _ /=; rewrite size_map size_iota eqxx.
Qed.
(* products of the basis vectors of any algebra *)
Lemma basis_products (a : ga R) (i j : 'I_(ga_n a)) : wf_ga a ->
  run_eq a (basis_mv R i *. basis_mv R i) (Num (geff a i i)) = Some true /\
  run_eq a (basis_mv R i *. basis_mv R j +. basis_mv R j *. basis_mv R i) (Num (geff a i j *+ 2)) = Some true.
Proof.
move=> wf; set g := ga_metric two a.
have Hc : is_clifford_product (fun i j : 'I_(ga_n a) => geff a i j) (cmul g) := clifford_product_exists g.
have [oi vi _ _] := basis_ok two i; have [oj vj _ _] := basis_ok two j.
move: (basis_mv R i) (basis_mv R j) oi vi oj vj => X Y oi vi oj vj.
have E : sem (cmul g) (X *. Y +. Y *. X) = num a (geff a i j *+ 2).
  by rewrite /= !(den_ok two Hc) // vi vj [LHS](cgen_rel g).
split; apply: (run_law two wf Hc); rewrite ?E //= ?mv_validE ?oi ?oj //.
rewrite /= !(den_ok two Hc) // vi /num; have := cgen_rel g i i; rewrite -mulr2n.
by move=> h; rewrite -[LHS](halfV two) -[RHS](halfV two); congr (_ *: _); rewrite -!mulr2n scalerMnl; exact: h.
Qed.

(* the square of the i-th basis vector of signature (p, q, r) *)
Definition sig_square (p q : nat) (i : nat) : R := if (i < p)%N then 1 else if (i < p + q)%N then -1 else 0.
Definition is_Cl (names : seq string) (a : ga R) (p q r : nat) : Prop :=
  let n := (p + q + r)%N in
  [/\ size names = n /\ ga_n a = n, wf_ga a, is_ortho a,
      forall i : nat, (i < n)%N -> run_eq a (basis_mv R i *. basis_mv R i) (Num (sig_square p q i)) = Some true
    & forall i j : nat, (i < n)%N -> (j < n)%N -> i <> j ->
        run_eq a (basis_mv R i *. basis_mv R j) (Neg (basis_mv R j *. basis_mv R i)) = Some true].
Lemma sig_nth p q r i : (i < p + q + r)%N -> (cl_metric R p q r)`_i = sig_square p q i.
Proof.
move=> lt; rewrite /cl_metric /sig_square nth_cat size_nseq; case: ltnP => h1; first by rewrite nth_nseq h1.
rewrite nth_cat size_nseq nth_nseq ltn_subLR //; case: ltnP => h2 //.
by rewrite nth_nseq; case: ifP.
Qed.
Lemma is_ortho_diag n (l : seq R) : size l = n -> is_ortho (Ga n (diag_matrix l)).
Proof.
move=> sz; apply/allP => i; rewrite mem_iota /= add0n => li; apply/allP => j.
by rewrite mem_iota /= add0n => lj; apply/implyP => ij; rewrite gij_diag // ltn_eqF.
Qed.
Lemma cl_ga_ok p q r names : size names = (p + q + r)%N ->
  is_Cl names (Ga (p + q + r) (diag_matrix (cl_metric R p q r))) p q r.
Proof.
set n := (p + q + r)%N => sn; have sm : size (cl_metric R p q r) = n by rewrite !size_cat !size_nseq addnA.
have wf := wf_diag sm; set a := Ga n _ in wf * .
have geffE i j : (i < n)%N -> (j < n)%N -> geff a i j = if i == j then sig_square p q i else 0.
  move=> li lj; rewrite /geff gij_diag ?gtn_min ?gtn_max ?li ?lj ?orbT // ?sm //.
  case: (ltngtP i j) => ij //; last by rewrite eqxx sig_nth // ij.
    by rewrite (ltn_eqF ij).
  by rewrite eq_sym (gtn_eqF ij).
split=> //; first exact: is_ortho_diag.
  move=> i li; have [h _] := basis_products (Ordinal li : 'I_(ga_n a)) (Ordinal li) wf.
  by move: h; rewrite geffE // eqxx.
move=> i j li lj ij; have Hc := clifford_product_exists (ga_metric two a).
have [oi vi _ _] := basis_ok two (Ordinal li : 'I_(ga_n a)); have [oj vj _ _] := basis_ok two (Ordinal lj : 'I_(ga_n a)).
rewrite /= in oi oj vi vj; move: (basis_mv R i) (basis_mv R j) oi vi oj vj => X Y oi vi oj vj.
apply: (run_law two wf Hc); rewrite /= ?mv_validE ?oi ?oj // !(den_ok two Hc) // vi vj.
apply/eqP; rewrite -addr_eq0; apply/eqP.
rewrite [LHS](cgen_rel (ga_metric two a) (Ordinal li) (Ordinal lj)).
by rewrite [ga_metric two a _ _]geffE // (introF eqP ij) mul0rn scale0r.
Qed.

(* a root usable with both naming schemes *)
Definition plain_root (root : string) : bool := [&& no "*" root, no " " root, no "," root & no "|" root].
Lemma make_cl first few st mode p q r root : set_dual_mode mode = Some mode -> plain_root root ->
  (1 < p + q + r)%N -> cl_factory R first few mode st p q r root =
    (mode, Some ([seq indexed true root (str_nat (i + first)) | i <- iota 0 (p + q + r)],
                 Ga (p + q + r) (diag_matrix (cl_metric R p q r)))).
Proof.
move=> sm /and4P[r1 r2 r3 r4]; set n := (p + q + r)%N => n1.
rewrite /cl_factory -/n /dual_mode sm; case: eqP => [n0|_]; first by rewrite n0 in n1.
have szm : size (cl_metric R p q r) = n by rewrite !size_cat !size_nseq addnA.
have dg c i : digit c = None -> no c (str_nat i) by exact: str_nochar.
have bn : exists s, basis_names (cl_basis first few root n) None =
    Some ([seq indexed true root (str_nat (i + first)) | i <- iota 0 n], s).
  rewrite /cl_basis /basis_names; case: leqP => _.
    have i1 c : digit c = None -> all (no c) [seq str_nat (i + first) | i <- iota 0 n].
      by move=> dc; rewrite all_map; apply/allP => i _; exact: dg.
    rewrite [has_char "*" _]has_app [has_char "*" ("*" +++ _)]/= !orbT orTb.
    have sz : (1 < size [seq str_nat (i + first) | i <- iota 0 n])%N by rewrite size_map size_iota.
    rewrite !C44_indexed ?i1 //=; exists [seq indexed false root i | i <- [seq str_nat (i + first) | i <- iota 0 n]].
    by rewrite -map_comp.
  set l := [seq _ | i <- _]; have lE : l = [seq indexed true root (str_nat (i + first)) | i <- iota 0 n] by [].
  have i1 c : digit c = None -> no c root -> no c "_" -> all (no c) l.
    move=> dc h1 h2; rewrite lE all_map; apply/allP => i _.
    rewrite -[preim _ _ _]/(no c (indexed true root (str_nat (i + first)))) /indexed /no !has_app !negb_or.
    by apply/and3P; split; [exact: h1|rewrite andbT; move: h2; rewrite /no /= orbF|exact: (dg c)].
  have sl : size l = n by rewrite size_map size_iota.
  have sp : has_char " " (join " " l) by rewrite has_join sl n1 orbT.
  have l0 : l != [::] by rewrite -size_eq0 sl; case: (n) n1.
  have l1 : l != [:: ""] by apply/eqP => E; move: sl n1; rewrite E => <-.
  have S1 : symbols_list (join " " l) None true = Some l by rewrite C44_spaces ?i1.
  have ns : no "*" (join " " l) by rewrite /no has_join negb_or -all_predC [all _ _]i1 //= andbF.
  by have [l' S2 _] := C44_superscript ns S1; rewrite sp S1 S2; exists l'.
case: bn => s bn; rewrite /make_ga bn /= size_map size_iota szm ltnn /=.
by [].
Qed.
Theorem C43_interop st p q r root : plain_root root -> (1 < p + q + r)%N -> exists a,
  interop_Cl R st p q r root = ("I+", Some ([seq root +++ "_" +++ str_nat i | i <- iota 1 (p + q + r)], a)) /\
  is_Cl [seq root +++ "_" +++ str_nat i | i <- iota 1 (p + q + r)] a p q r.
Proof.
move=> pr n1; exists (Ga (p + q + r) (diag_matrix (cl_metric R p q r))).
have -> : [seq root +++ "_" +++ str_nat i | i <- iota 1 (p + q + r)] =
   [seq indexed true root (str_nat (i + 1)) | i <- iota 0 (p + q + r)].
  by rewrite -[1%N]addn0 iotaDl -map_comp; apply: eq_map => i; rewrite /= addnC addn0.
split; last by apply: cl_ga_ok; rewrite size_map size_iota.
by rewrite /interop_Cl make_cl.
Qed.
Theorem C43_kingdon st p q r root : plain_root root -> (1 < p + q + r)%N -> exists a,
  kingdon_Cl R st p q r root = ("Iinv+", Some ([seq root +++ "_" +++ str_nat i | i <- iota 0 (p + q + r)], a)) /\
  is_Cl [seq root +++ "_" +++ str_nat i | i <- iota 0 (p + q + r)] a p q r.
Proof.
move=> pr n1; exists (Ga (p + q + r) (diag_matrix (cl_metric R p q r))).
have -> : [seq root +++ "_" +++ str_nat i | i <- iota 0 (p + q + r)] =
   [seq indexed true root (str_nat (i + 0)) | i <- iota 0 (p + q + r)].
  by apply: eq_map => i; rewrite addn0.
split; last by apply: cl_ga_ok; rewrite size_map size_iota.
by rewrite /kingdon_Cl make_cl.
Qed.
Theorem C43_names_distinct root first n : uniq [seq root +++ "_" +++ str_nat i | i <- iota first n].
Proof. by rewrite map_inj_uniq ?iota_uniq // => i j /app_injl /app_injl /str_nat_inj. Qed.
Theorem C43_empty st root : interop_Cl R st 0 0 0 root = (st, None) /\ kingdon_Cl R st 0 0 0 root = (st, None).
Proof. by []. Qed.
(* one dimension: the names are not the documented ones, kingdon has no basis vector at all *)
Theorem C43_one_dimension_refuted : exists root, plain_root root /\ forall st a,
  interop_Cl R st 1 0 0 root <> ("I+", Some ([:: root +++ "_1"], a)) /\
  kingdon_Cl R st 1 0 0 root <> ("Iinv+", Some ([:: root +++ "_0"], a)).
Proof. by exists "e"; split=> // st a; split=> -[]. Qed.
End Cl.

(* ---- concrete cases ---- *)
Example C44_ex : [/\ symbols_list "a*b|c|d" None true = Some [:: "a_b"; "a_c"; "a_d"],
  symbols_list "a*3" None false = Some [:: "a__0"; "a__1"; "a__2"], symbols_list "a,b,c," None true = Some [:: "a"; "b"; "c"],
  symbols_list "a_1 a_2" None false = Some [:: "a__1"; "a__2"] & symbols_list "a*b*c" None true = None].
Proof. by split; vm_compute. Qed.
Example C43_ex : plain_root "e" /\
  omap fst (interop_Cl rat_comUnitRing "Iinv+" 1 1 1 "e").2 = Some [:: "e_1"; "e_2"; "e_3"].
Proof. by split; vm_compute. Qed.
Example C42_ex : foldl (mode_step rat_comUnitRing) dual_mode_default
  [:: OpKingdon 2 0 1 "e"; OpDualMode "-I"; OpDualMode "I*"; OpCl 0 0 0 "e"] = "-I".
Proof. by vm_compute. Qed.

Definition props_names_all := (C42_mode_in_force, C42_always_valid, C42_dual_mode, C42_failed_construction_refuted,
  C43_interop, C43_kingdon, C43_names_distinct, C43_empty, C43_one_dimension_refuted,
  C44_indexed, C44_counted, C44_indices, C44_distinct, C44_commas, C44_spaces, C44_empty, C44_superscript,
  C44_rejects, C44_rejects_count, C44_single_index, C44_single_index_refuted).
Print Assumptions props_names_all.
