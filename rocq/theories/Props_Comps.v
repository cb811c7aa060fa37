(* Props_Comps.v -- property C74: Mlt.comps lists every component once, in order. *)
From Coq Require Import String Ascii.
From mathcomp Require Import all_ssreflect all_algebra.
From Verif Require Import PyBase PyStr Parser_Model Spec_Index Ga_Model Ga_Sem Spec_Clifford Spec_Mv Mv_Model Mv_Expr Props_Mv Dual_Model.
From Verif Require Import Props_Dual Coef_Model Props_Coef Lt_Model Spec_Lt Props_Lt Mlt_Model Spec_Mlt Props_Mlt Dop_Model Comps_Model Spec_Comps.
Set Implicit Arguments.
Unset Strict Implicit.
Unset Printing Implicit Defensive.
Import GRing.Theory.
Local Open Scope seq_scope.

(* ---- index tuples ---- *)
Section Digits.
Variable n : nat.
Lemma digits_size k i : size (digits n k i) = k.
Proof. by rewrite size_map size_iota. Qed.
Lemma iota_mul p m : iota 0 (p * m) = flatten [seq [seq x * m + r | r <- iota 0 m] | x <- iota 0 p].
Proof.
elim: p => [//|p IH]; rewrite mulSn addnC iotaD IH -[p.+1]addn1 iotaD map_cat flatten_cat /= cats0 !add0n; congr (_ ++ _).
by rewrite -{1}[p * m]addn0 iotaDl.
Qed.
Lemma digitsS k x r : x < n -> r < n ^ k -> digits n k.+1 (x * n ^ k + r) = x :: digits n k r.
Proof.
move=> lx lr; have n0 : 0 < n by case: (n) lx.
rewrite /digits -[iota 0 k.+1]/(0 :: iota 1 k) -[1]/(1 + 0) iotaDl /= subSS subn0; congr (_ :: _).
  by rewrite divnMDl ?expn_gt0 ?n0 // divn_small // addn0 modn_small.
rewrite -map_comp; apply/eq_in_map => j; rewrite mem_iota /= => lj; rewrite !subSS.
have -> : x * n ^ k = x * n ^ j * n * n ^ (k - j.+1) by rewrite -!mulnA; congr (_ * _); rewrite mulnA -expnSr -expnD subnKC.
by rewrite divnMDl ?expn_gt0 ?n0 // modnMDl.
Qed.
Lemma cartesian_digits k : cartesian (nseq k (iota 0 n)) = [seq digits n k i | i <- iota 0 (n ^ k)].
Proof.
elim: k => [//|k IH]; rewrite [nseq _ _]/= [cartesian _]/= IH expnS iota_mul map_flatten -map_comp; congr flatten.
apply/eq_in_map => x; rewrite mem_iota /= => lx; rewrite -!map_comp; apply/eq_in_map => r; rewrite mem_iota /= => lr.
by rewrite digitsS.
Qed.
Lemma digits_lt k i j : i < n ^ k -> j \in digits n k i -> j < n.
Proof.
move=> li /mapP[q mq ->]; apply: ltn_pmod; case: n li => [|//]; case: k mq => [//|k] _; by rewrite exp0n.
Qed.
Lemma cartesian_map (A B : Type) (g : A -> B) k (s : seq A) : cartesian (nseq k [seq g x | x <- s]) = [seq map g l | l <- cartesian (nseq k s)].
Proof.
elim: k => [//|k IH]; rewrite [nseq _ _]/= [cartesian _]/= IH [cartesian (s :: _)]/= map_flatten -!map_comp; congr flatten.
by apply: eq_map => x /=; rewrite -!map_comp.
Qed.
(* every index tuple is the tuple of exactly one line *)
Theorem C74_index k (ix : seq nat) : size ix = k -> all (fun j => j < n) ix ->
  exists2 i, i < n ^ k /\ digits n k i = ix & forall i', i' < n ^ k -> digits n k i' = ix -> i' = i.
Proof.
elim: k ix => [|k IH] [|x ix] //= => [_ _|[sz] /andP[lx al]]; first by exists 0 => // -[|i'] //; rewrite expn0.
have [r [lr dr] ur] := IH ix sz al; have pos : 0 < n ^ k by apply: leq_ltn_trans lr.
exists (x * n ^ k + r).
  split; last by rewrite digitsS // dr.
  by rewrite expnS (@leq_trans (x.+1 * n ^ k)) ?leq_mul2r ?lx ?orbT // mulSn addnC ltn_add2r.
move=> i' li'; rewrite {1}(divn_eq i' (n ^ k)).
have lq : i' %/ n ^ k < n by rewrite ltn_divLR // -expnS.
by rewrite digitsS ?ltn_mod // => -[e1 e2]; rewrite {1}(divn_eq i' (n ^ k)) e1 (ur _ _ e2) // ltn_mod.
Qed.
(* digits of a line: none is n or more *)
Theorem C74_tuple k i : i < n ^ k -> size (digits n k i) = k /\ all (fun j => j < n) (digits n k i).
Proof. by move=> li; split; [exact: digits_size|apply/allP => j; exact: digits_lt]. Qed.
End Digits.

Section Props.
Variables (R : comUnitRingType) (two : ((2%:R : R) \is a GRing.unit)%R) (a : ga R) (show : R -> text).
Hypotheses (wf : wf_ga a) (u : (\det (metric_mx a) \is a GRing.unit)%R).
Notation n := (ga_n a).
Notation line k i v := (comps_line n k i (show v)).
Lemma tuple_textP ix : str_tuple ix = tuple_text ix.
Proof.
have H (x y : text) : drop 2 ((txt ", " ++ x) ++ y) = x ++ y by rewrite -catA -[drop 2 _]/(drop 0 _) drop0.
by case: ix => [//|i [|j ix]]; rewrite /tuple_text [map _ _]/= [flatten (_ :: _)]/= H -!catA //= cats0.
Qed.
Notation bv I := [seq mv_basis_vec R j | j <- I].
Lemma digits_last k i : 0 < k -> last 0 (digits n k i) = i %% n.
Proof.
case: k => [//|k] _; have -> : digits n k.+1 i = [seq (i %/ n ^ (k.+1 - j.+1)) %% n | j <- iota 0 k ++ [:: k]] by rewrite /digits -addn1 iotaD.
by rewrite map_cat last_cat /= subnn expn0 divn1.
Qed.
Lemma comps_one slots T p o i : tensor a T -> 0 < ml_nargs T <= slots -> i < n ^ ml_nargs T ->
  let k := ml_nargs T in
  comps_step a show slots T (p, o) (i, (bv (digits n k i), digits n k i)) =
  Some (p ++ (if i %% n == 0 then newline else [::]), o ++ line k i (r_factor a ^+ k * component T (digits n k i))%R).
Proof.
move=> tT /andP[k0 le] li k; have [sz lt] := C74_tuple li.
have := C33_components_scaled two wf u tT sz le lt; rewrite /value_at /comps_step -/k.
case D : (digits n k i) => [|d ds]; first by move: sz k0; rewrite -/k D => /= <-.
rewrite -D; case: (mlt_call _ _ _ _) => [q|//] /= Ev.
rewrite Ev digits_last // modn_mod tuple_textP; congr (Some (_, _)).
by case: ifP => _; rewrite ?cats0.
Qed.
Arguments comps_step : simpl never.
Arguments comps_line : simpl never.
Lemma comps_fold slots T st (js : seq nat) : tensor a T -> 0 < ml_nargs T <= slots -> all (fun i => i < n ^ ml_nargs T) js ->
  let k := ml_nargs T in
  ofoldl (comps_step a show slots T) [seq (i, (bv (digits n k i), digits n k i)) | i <- js] st =
  Some (st.1 ++ flatten [seq if i %% n == 0 then newline else [::] | i <- js],
        st.2 ++ flatten [seq line k i (r_factor a ^+ k * component T (digits n k i))%R | i <- js]).
Proof.
move=> tT /andP[k0 le] + k; rewrite /k {k}; elim: js st => [|i js IH] [p o] /=; first by rewrite !cats0.
case/andP=> li al; rewrite comps_one ?k0 //= IH //; congr (Some (_, _)); by rewrite -catA.
Qed.
Lemma blank_lines k : 0 < n -> 0 < k -> flatten [seq if i %% n == 0 then newline else [::] | i <- iota 0 (n ^ k)] =
  flatten (nseq (n ^ k.-1) newline).
Proof.
move=> n0; case: k => [//|k] _; rewrite expnSr iota_mul map_flatten -map_comp [k.+1.-1]/=.
have H x : flatten [seq if i %% n == 0 then newline else [::] | i <- [seq x * n + r | r <- iota 0 n]] = newline.
  rewrite -map_comp; case: n n0 => [//|n'] _; rewrite [iota _ _]/= [flatten _]/= addn0 modnMl eqxx; congr (_ ++ _).
  have : all (fun r => 0 < r < n'.+1) (iota 1 n') by apply/allP => r; rewrite mem_iota.
  by elim: (iota 1 n') => //= r rs IH' /andP[/andP[r0 rn] al]; rewrite modnMDl modn_small // eqn0Ngt r0 /= IH'.
rewrite -{2}(size_iota 0 (n ^ k)); elim: (iota 0 (n ^ k)) => [//|x xs IH].
by rewrite [map _ (x :: xs)]/= [flatten (_ :: _)]/= flatten_cat IH H.
Qed.
(* comps() lists the n^k components in order; in oblique frames each has the factor of the
   reciprocal basis for each argument.  One empty line is printed for each n components *)
Theorem C74_listing slots T : tensor a T -> 0 < ml_nargs T <= slots -> 0 < n -> let k := ml_nargs T in
  mlt_comps a show slots T = Some (flatten (nseq (n ^ k.-1) newline),
    flatten [seq line k i (r_factor a ^+ k * component T (digits n k i))%R | i <- iota 0 (n ^ k)]).
Proof.
move=> tT kk n0 k; have /andP[k0 _] := kk.
rewrite /mlt_comps size_map size_iota cartesian_map cartesian_digits -/k -map_comp.
rewrite zip_map size_map size_iota -[X in zip X _]map_id zip_map.
rewrite (@comps_fold slots T ([::], [::])) //; last by apply/allP => i; rewrite mem_iota.
by rewrite blank_lines.
Qed.
(* partial: in oblique frames the values have a factor (C74_listing) *)
Theorem C74_components_partial slots T : is_ortho a -> tensor a T -> 0 < ml_nargs T <= slots -> 0 < n -> let k := ml_nargs T in
  omap snd (mlt_comps a show slots T) = Some (flatten [seq line k i (component T (digits n k i)) | i <- iota 0 (n ^ k)]).
Proof.
move=> o tT kk n0 k; rewrite C74_listing //=; congr (Some (flatten _)); apply: eq_map => i.
by rewrite /r_factor o expr1n mul1r.
Qed.
(* finding: lt.py Mlt.comps -- a multilinear function without arguments has one component, but
   comps() raises IndexError (i_index[-1] of the empty tuple) *)
Theorem C74_rank0_refuted slots T : ml_nargs T = 0 -> mlt_comps a show slots T = None.
Proof. by move=> k0; rewrite /mlt_comps k0. Qed.
End Props.
(* the components 0, 3, 5, 0 of mlt_T2; two empty lines are printed *)
Definition show_case (v : rat) : text := if v == 3%:R%R then txt "3" else if v == 5%:R%R then txt "5" else if v == 0%R then txt "0" else txt "?".
Example C74_case : [/\ wf_ga mlt_ga && is_ortho mlt_ga, (\det (metric_mx mlt_ga) \is a GRing.unit)%R,
  tensor mlt_ga mlt_T2 && (0 < ml_nargs mlt_T2 <= 2) && (0 < ga_n mlt_ga) &
  mlt_comps mlt_ga show_case 2 mlt_T2 = Some (newline ++ newline,
    txt "0:(0, 0):0" ++ newline ++ txt "1:(0, 1):3" ++ newline ++ txt "2:(1, 0):5" ++ newline ++ txt "3:(1, 1):0" ++ newline)].
Proof. by split; [by vm_compute | exact: mlt_det | by vm_compute..]. Qed.
Print Assumptions C74_index.
Print Assumptions C74_tuple.
Print Assumptions C74_listing.
Print Assumptions C74_components_partial.
Print Assumptions C74_rank0_refuted.
