(* Names_Proof.v -- lemmas about the string functions of PyStr.v and Names_Model.v *)
From Coq Require Import String Ascii DecimalString DecimalNat ZArith Lia.
From mathcomp Require Import all_ssreflect all_algebra.
From Verif Require Import PyBase PyStr Ga_Model Dual_Model Names_Model.
Set Implicit Arguments.
Unset Strict Implicit.
Unset Printing Implicit Defensive.
Local Open Scope string_scope.

Lemma appA a b c : (a +++ b) +++ c = a +++ (b +++ c).
Proof. by elim: a => //= x a ->. Qed.
Lemma app_empty a : a +++ "" = a. Proof. by elim: a => //= x a ->. Qed.
Lemma app_injl a b c : a +++ b = a +++ c -> b = c.
Proof. by elim: a => //= x a IH [/IH]. Qed.
Lemma has_app c a b : has_char c (a +++ b) = has_char c a || has_char c b.
Proof. by elim: a => //= x a ->; rewrite orbA. Qed.
Lemma join_cons sep w v ws : join sep (w :: v :: ws) = w +++ sep +++ join sep (v :: ws).
Proof. by []. Qed.
Lemma has_join c sep ws : has_char c (join sep ws) =
  has (has_char c) ws || ((1 < size ws)%N && has_char c sep).
Proof.
elim: ws => [|w [|v ws] IH] //; first by rewrite /= !orbF.
rewrite join_cons !has_app IH [has _ (w :: _)]/= [(1 < size (w :: _))%N]/= andTb.
rewrite [(1 < _.+1)%N]/=; case: (has_char c w) => //=; case: (has_char c sep); last by rewrite !andbF !orbF.
by rewrite andbT orbT.
Qed.
Lemma split_none c s : ~~ has_char c s -> split c s = [:: s].
Proof. by elim: s => //= x s IH; rewrite negb_or => /andP[/negbTE -> /IH ->]. Qed.
Lemma split_cut c s t : ~~ has_char c s -> split c (s +++ String c t) = s :: split c t.
Proof. by elim: s => [|x s IH] /=; rewrite ?eqxx // negb_or => /andP[/negbTE -> /IH ->]. Qed.
Lemma split_join c ws : ws != [::] -> all (fun w => ~~ has_char c w) ws ->
  split c (join (String c "") ws) = ws.
Proof.
elim: ws => [|w [|v ws] IH] // _; first by rewrite /= andbT => /split_none.
by move=> /andP[nw h]; rewrite join_cons split_cut // IH.
Qed.
Lemma split_size c s : (0 < size (split c s))%N.
Proof. by elim: s => //= x s; case: eqP => // _; case: (split c s). Qed.
Lemma join_split c s : join (String c "") (split c s) = s.
Proof.
elim: s => // x s IH; rewrite /split -/(split c s); case: eqP => [->|_]; have := split_size c s; move: IH; case: (split c s) => [|w ws] // E _.
  by rewrite join_cons E.
by case: ws E => [|v ws]; rewrite ?join_cons => <-.
Qed.
Lemma has_split c s : all (fun w => ~~ has_char c w) (split c s).
Proof.
elim: s => //= x s IH; case: ifP => //= xc; case: (split c s) IH => [|w ws] /=; first by rewrite xc.
by rewrite xc.
Qed.

(* decimal notation *)
Definition only_digits (s : string) := forall c, has_char c s -> digit c <> None.
Lemma digits_ne d : only_digits (NilEmpty.string_of_uint d).
Proof.
by elim: d => [|d IH|d IH|d IH|d IH|d IH|d IH|d IH|d IH|d IH|d IH] c //; cbn [NilEmpty.string_of_uint has_char];
  move=> /orP[/eqP <-|/IH] //; vm_compute.
Qed.
Lemma digits_str i : only_digits (str_nat i).
Proof.
rewrite /str_nat; have := @digits_ne (Nat.to_uint i); case: (Nat.to_uint i) => // _.
by move=> c; cbn [has_char NilZero.string_of_uint]; rewrite orbF => /eqP <-; vm_compute.
Qed.
Lemma str_nochar c i : digit c = None -> ~~ has_char c (str_nat i).
Proof. by move=> dc; apply/negP => /digits_str. Qed.
Lemma to_uint_nonil i : Nat.to_uint i <> Decimal.Nil.
Proof.
move=> E; have := DecimalNat.Unsigned.of_to i; rewrite E => /= e0; move: E; rewrite -e0 => E.
by vm_compute in E.
Qed.
Lemma str_nat_inj : injective str_nat.
Proof.
move=> i j E; have := congr1 NilZero.uint_of_string E; rewrite /str_nat !NilZero.usu; try exact: to_uint_nonil.
by move=> [/(congr1 Nat.of_uint)]; rewrite !DecimalNat.Unsigned.of_to.
Qed.
Lemma int_digits_uint d p acc : p || (if d is Decimal.Nil then false else true) ->
  int_digits (NilEmpty.string_of_uint d) p (Z.of_nat acc) = Some (Z.of_nat (Nat.of_uint_acc d acc)).
Proof.
elim: d p acc => [|d IH|d IH|d IH|d IH|d IH|d IH|d IH|d IH|d IH|d IH] p acc; first by rewrite orbF => /= ->.
all: move=> _; cbn [NilEmpty.string_of_uint int_digits Nat.of_uint_acc]; rewrite -(IH true) //.
all: match goal with |- context [digit ?c] => let v := eval vm_compute in (digit c) in change (digit c) with v end.
all: rewrite Nat.tail_mul_spec; cbv iota beta; f_equal; lia.
Qed.
Lemma str_nohead i c s : str_nat i = String c s -> digit c <> None.
Proof. by move=> E; apply: (@digits_str i c); rewrite E /= eqxx. Qed.
Lemma digit_nospace c : digit c <> None -> is_space c = false.
Proof.
rewrite /digit /is_space; set k := nat_of_ascii c; case: ifP => // /andP[h1 h2] _.
by apply/negbTE; rewrite negb_or negb_and -!ltnNge neq_ltn (leq_trans _ h1) ?orbT //= (leq_trans _ h1) ?orbT.
Qed.
Lemma strip_digits s : only_digits s -> rstrip (lstrip s) = s.
Proof.
have hd x t : only_digits (String x t) -> is_space x = false.
  by move=> h; apply: digit_nospace; apply: h; cbn [has_char]; rewrite eqxx.
move=> h; have -> : lstrip s = s by case: s h => // x s /hd; cbn [lstrip] => ->.
elim: s h => // x s IH h; cbn [rstrip all_space]; rewrite (hd _ _ h) /= IH // => c hc.
by apply: h; cbn [has_char]; rewrite hc orbT.
Qed.
Lemma py_int_str i : py_int (str_nat i) = Some (Z.of_nat i).
Proof.
rewrite /py_int strip_digits; last exact: digits_str.
have E := DecimalNat.Unsigned.of_to i; have nn := @to_uint_nonil i.
have D : int_digits (str_nat i) false Z0 = Some (Z.of_nat i).
  rewrite -[X in _ = Some (Z.of_nat X)]E /Nat.of_uint -(@int_digits_uint _ false 0); last by case: (Nat.to_uint i) nn.
  by rewrite /str_nat /NilZero.string_of_uint; case: (Nat.to_uint i) nn.
case s : (str_nat i) D => [|c t] // D; have dc := str_nohead s.
by case: eqP dc => [->|_] // dc; case: eqP dc => [->|_].
Qed.
