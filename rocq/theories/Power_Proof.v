(* Power_Proof.v -- lemmas about the scan for double superscripts *)
From Coq Require Import String Ascii.
From mathcomp Require Import all_ssreflect all_algebra.
From Verif Require Import PyBase PyStr Names_Proof Parser_Model Symbol_Model Gprint_Model Gprint_Proof Power_Model Spec_Power.
Set Implicit Arguments.
Unset Strict Implicit.
Unset Printing Implicit Defensive.
Local Open Scope seq_scope.

Lemma scripts_cat m st s t : scripts m st (s ++ t) = if scripts m st s is Some r then scripts r.1 r.2 t else None.
Proof.
elim: s m st => [|c s IH] m st //=.
case: (c == _); first exact: IH.
case: (c == _); first by case: (m.2) => //; case: st.
case: (c == _); first by case: (_ || _).
by case: (c == _); [case: (m.2)|case: is_space].
Qed.
(* deeper in the stack nothing changes *)
Lemma scripts_stack m st st0 t r : scripts m st t = Some r -> scripts m (st ++ st0) t = Some (r.1, r.2 ++ st0).
Proof.
elim: t m st => [|c t IH] m st /=; first by move=> [<-].
case: (c == _); first by move/IH.
case: (c == _); first by case: (m.2) => //; case: st => //= m' st /IH.
case: (c == _); first by case: (_ || _) => // /IH.
by case: (c == _); [case: (m.2) => // /IH|case: is_space => /IH].
Qed.
Lemma wfP t : well_formed t -> scripts (false, false) [::] t = Some (ends_raised t, false, [::]).
Proof. by rewrite /well_formed /ends_raised; case: scripts => [[[s [|]] [|? ?]]|]. Qed.
Lemma wf_st t st : well_formed t -> scripts (false, false) st t = Some (ends_raised t, false, st).
Proof. by move=> w; have := scripts_stack st (wfP w). Qed.
Lemma wf_of t r : scripts (false, false) [::] t = Some (r, false, [::]) -> well_formed t.
Proof. by rewrite /well_formed => ->. Qed.
(* a text without scripts and braces *)
Definition plain (t : text) : bool := all (fun c => c \notin [:: "{"; "}"; "^"; "_"]%char) t.
Lemma scripts_plain t st : plain t -> scripts (false, false) st t = Some ((false, false), st).
Proof.
elim: t => //= c t IH /andP[]; rewrite !inE !negb_or => /and4P[/negbTE-> /negbTE-> /negbTE-> /negbTE->] /IH.
by case: is_space.
Qed.
Lemma plain_wf t : plain t -> well_formed t. Proof. by move/(scripts_plain [::])/wf_of. Qed.
(* without ^ no atom is raised *)
Lemma not_raised m st t r : m.1 = false -> all (fun m' : mark => ~~ m'.1) st -> "^"%char \notin t ->
  scripts m st t = Some r -> r.1.1 = false.
Proof.
elim: t m st => [|c t IH] m st m0 s0 /=; first by move=> _ [<-].
rewrite inE negb_or eq_sym => /andP[/negbTE c0 ct].
case: (c == _); first by apply: IH => //=; rewrite m0.
case: (c == _).
  case: (m.2) => //; case: st s0 => //= m' st /andP[/negbTE m1 s1]; apply: IH => //.
  by rewrite /after_atom; case: (m'.2).
rewrite c0; case: (c == _); first by case: (m.2) => //; apply: IH.
case: is_space; apply: IH => //; by rewrite /after_atom; case: (m.2).
Qed.
Lemma ends_low t : "^"%char \notin t -> ends_raised t = false.
Proof.
move=> nt; rewrite /ends_raised; case E: scripts => [[[s p] st]|] //.
by have := @not_raised (false, false) [::] t _ erefl isT nt E.
Qed.
Lemma str_nat_plain k : plain (txt (str_nat k)).
Proof.
have mt c s : c \in txt s -> has_char c s.
  by elim: s => //= x s IH; rewrite inE eq_sym => /orP[->//|/IH ->]; rewrite orbT.
apply/allP => c /mt cs; apply/negP => cl.
suff dc : digit c = None by move/negP: (str_nochar k dc).
by move: cl; rewrite !inE => /or4P[] /eqP ->.
Qed.
Lemma scripts_space m st t : all is_space t -> scripts m st t = Some (m, st).
Proof.
elim: t m st => //= c t IH m st /andP[sc h].
have [-> -> -> ->] : [/\ (c == "{"%char) = false, (c == "}"%char) = false, (c == "^"%char) = false & (c == "_"%char) = false].
  by split; apply/negP => /eqP E; rewrite E in sc.
by rewrite sc IH.
Qed.
Lemma strip_leftE s : exists2 u, all is_space u & s = u ++ strip_left s.
Proof.
elim: s => [|c s [u au E]] /=; first by exists [::].
case: ifP => sc; last by exists [::].
by exists (c :: u); [apply/andP|rewrite cat_cons -E].
Qed.
Lemma scripts_strip m st s : scripts m st (strip s) = scripts m st s.
Proof.
have [u au E] := strip_leftE s; have [v av F] := strip_leftE (rev (strip_left s)).
have {}F : strip_left s = strip s ++ rev v by rewrite /strip -[LHS]revK {1}F rev_cat.
rewrite [in RHS]E scripts_cat (scripts_space _ _ au) /= F scripts_cat; case: scripts => [[m' st']|] //=.
by rewrite scripts_space // all_rev.
Qed.
Lemma strip_wf s : well_formed (strip s) = well_formed s.
Proof. by rewrite /well_formed scripts_strip. Qed.

(* ---- the texts of powers ---- *)
Lemma scripts_group m st t : well_formed t -> scripts m st (txt "{" ++ t ++ txt "}") = Some (after_atom m, st).
Proof. by move=> w; rewrite scripts_cat /= scripts_cat (wf_st _ w) /=. Qed.
Definition low (t : text) : bool := well_formed t && ~~ ends_raised t.
Lemma lowP t st : low t -> scripts (false, false) st t = Some ((false, false), st).
Proof. by case/andP=> w /negbTE r; rewrite (wf_st _ w) r. Qed.
Lemma low_of t : scripts (false, false) [::] t = Some ((false, false), [::]) -> low t.
Proof. by rewrite /low /well_formed /ends_raised => ->. Qed.
Lemma wf_low t : "^"%char \notin t -> well_formed t -> low t.
Proof. by move=> h w; rewrite /low w ends_low. Qed.
Lemma plain_low t : plain t -> low t. Proof. by move=> p; apply: low_of; exact: scripts_plain. Qed.
Lemma low_cat s t : low s -> low t -> low (s ++ t).
Proof. by move=> ls lt; apply: low_of; rewrite scripts_cat lowP //= lowP. Qed.
Lemma low_group t : well_formed t -> low (txt "{" ++ t ++ txt "}").
Proof. by move=> w; apply: low_of; rewrite scripts_group. Qed.
Lemma wf_script g e : low g -> well_formed e -> well_formed (g ++ txt "^{" ++ e ++ txt "}").
Proof.
move=> lg we; apply: (@wf_of _ true); rewrite scripts_cat lowP //=.
by rewrite scripts_cat (wf_st _ we).
Qed.
Lemma low_paren1 t : well_formed t -> low (txt "{\left ( " ++ t ++ txt " \right )}").
Proof. by move=> w; apply: low_of; rewrite scripts_cat /= scripts_cat (wf_st _ w). Qed.
Lemma low_paren2 t : well_formed t -> low (txt "\left(" ++ t ++ txt "\right)").
Proof. by move=> w; apply: low_of; rewrite scripts_cat /= scripts_cat (wf_st _ w). Qed.
Lemma wf_frac t : well_formed t -> low (txt "\frac{1}{" ++ t ++ txt "}").
Proof. by move=> w; apply: low_of; rewrite scripts_cat /= scripts_cat (wf_st _ w). Qed.
