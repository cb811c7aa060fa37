(* Ga_Sem.v -- the Clifford algebra of a modelled algebra, the meaning of its
   symbols and expressions there, and the correspondence between index lists
   and index sets. *)
From mathcomp Require Import all_ssreflect all_algebra.
From Verif Require Import NatTac AlgTactics Exterior Clifford Blades.
From Verif Require Import Spec_Index PyBase Ga_Model Ga_Proof_Tables Ga_Proof_Sort Ga_Proof_Sem Ga_Proof_Reduce.
Set Implicit Arguments.
Unset Strict Implicit.
Unset Printing Implicit Defensive.
Import GRing.Theory.
Local Open Scope ring_scope.

(* index lists and index sets *)
Section Lists.
Variable n : nat.
Implicit Types (I J : seq nat) (S T : {set 'I_n}).
Definition set_of I : {set 'I_n} := [set i : 'I_n | val i \in I].
Definition list_of S : seq nat := [seq val i | i <- enum S].

Notation ltI := (fun i j : 'I_n => (i < j)%N).
Lemma list_of_wf S : wfI n (list_of S).
Proof.
rewrite /wfI /list_of; apply/andP; split; last by apply/allP => _ /mapP [i _ ->]; exact: ltn_ord.
have := enum_sorted S; by rewrite sorted_map.
Qed.
Lemma mem_list_of S (i : 'I_n) : (val i \in list_of S) = (i \in S).
Proof. by rewrite /list_of mem_map ?mem_enum //; exact: val_inj. Qed.
Lemma list_ofK S : set_of (list_of S) = S.
Proof. by apply/setP => i; rewrite inE mem_list_of. Qed.
Lemma set_ofK I : wfI n I -> list_of (set_of I) = I.
Proof.
move=> wI; apply: (wfI_eq (list_of_wf _) wI) => k.
have [kn|kn] := ltnP k n; first by rewrite (mem_list_of _ (Ordinal kn)) inE.
have -> : (k \in I) = false.
  by apply/negbTE/negP => /(allP (proj2 (andP wI))); rewrite ltnNge kn.
by apply/negbTE/mapP => -[i _ E]; move: kn; rewrite E leqNgt ltn_ord.
Qed.
Lemma list_of_inj : injective list_of.
Proof. exact: can_inj list_ofK. Qed.
Lemma set_of_inj I J : wfI n I -> wfI n J -> set_of I = set_of J -> I = J.
Proof. by move=> wI wJ E; rewrite -(set_ofK wI) E set_ofK. Qed.
Lemma size_list_of S : size (list_of S) = #|S|.
Proof. by rewrite size_map cardE. Qed.
Lemma card_set_of I : wfI n I -> #|set_of I| = size I.
Proof. by move=> wI; rewrite -size_list_of set_ofK. Qed.
End Lists.

Section Inst.
Variables (R : comUnitRingType) (two : (2%:R : R) \is a GRing.unit) (a : ga R).
Notation n := (ga_n a).

(* metric.py: the metric is an n x n matrix *)
Definition wf_ga : bool := (size (ga_g a) == n) && all (fun r => size r == n) (ga_g a).

Lemma gij_out i j : wf_ga -> (n <= i)%N || (n <= j)%N -> gij a i j = 0.
Proof.
move=> /andP[/eqP s1 /allP s2] h; rewrite /gij.
have [ni|ni] := leqP n i; first by rewrite (nth_default [::]) ?s1 // nth_nil.
rewrite nth_default //; move: h; rewrite leqNgt ni /=.
by rewrite (eqP (s2 _ (mem_nth _ _))) // s1.
Qed.

(* the symmetric form whose upper triangle is the given metric *)
Definition ga_metric : cmetric R n :=
  @CMetric R n (fun i j => geff a i j) (fun i j => geffC a i j) two.
Definition cl : algType R := [algType R of clifford ga_metric].
Definition gen (k : nat) : cl := if insub k is Some i then cgen ga_metric i else 0.

Lemma gen_ord (i : 'I_n) : gen i = cgen ga_metric i.
Proof. by rewrite /gen valK. Qed.
Lemma gen_out k : (n <= k)%N -> gen k = 0.
Proof. by move=> h; rewrite /gen insubF //; apply/negbTE; rewrite -leqNgt. Qed.

Lemma gen_rel : wf_ga -> forall i j, gen i * gen j + gen j * gen i = (geff a i j *+ 2)%:A.
Proof.
move=> wf i j; have [ni|ni] := leqP n i.
  rewrite gen_out // mul0r mulr0 add0r /geff gij_out // ?mul0rn ?scale0r //.
  by rewrite [X in _ || X]leq_max ni orbT.
have [nj|nj] := leqP n j.
  rewrite (gen_out nj) // mul0r mulr0 add0r /geff gij_out // ?mul0rn ?scale0r //.
  by rewrite [X in _ || X]leq_max nj !orbT.
by have := cgen_rel ga_metric (Ordinal ni) (Ordinal nj); rewrite -!gen_ord.
Qed.

Lemma blade_gen (w : seq 'I_n) : blade_of gen [seq val i | i <- w] = cblade ga_metric w.
Proof. by elim: w => //= i w ->; rewrite gen_ord size_map. Qed.
Lemma blade_list_of S : blade_of gen (list_of S) = bl R S.
Proof. by rewrite blade_gen cblade_enum. Qed.
Lemma blade_wf I : wfI n I -> blade_of gen I = bl R (set_of n I).
Proof. by move=> wI; rewrite -{1}(set_ofK wI) blade_list_of. Qed.
End Inst.
