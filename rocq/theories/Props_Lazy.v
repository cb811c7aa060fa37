(* Props_Lazy.v -- property C12: the lazily filled tables are transparent. *)
From mathcomp Require Import all_ssreflect all_algebra.
From Verif Require Import PyBase Ga_Model Lazy_Model.
Set Implicit Arguments.
Unset Strict Implicit.
Unset Printing Implicit Defensive.
Import GRing.Theory.
Local Open Scope ring_scope.

Section Proofs.
Variables (R : comUnitRingType) (a : ga R).
Notation expr := (expr R).
Notation lstate := (lstate R).
Implicit Types (st : lstate) (key : nat * (seq (bool * seq nat) * seq (bool * seq nat))).

Definition has_entry st key : bool := isSome (dget (entries st) key).
(* what computing an entry directly gives, per table *)
Definition direct key : option expr :=
  match key.1 with
  | 0 => mul_bb a key.2.1 key.2.2
  | 1 => single_bb a Hestenes key.2.1 key.2.2
  | 2 => single_bb a LeftC key.2.1 key.2.2
  | 3 => single_bb a RightC key.2.1 key.2.2
  | 4 => single_bb a ScalarProd key.2.1 key.2.2
  | _ => single_bb a WedgeK key.2.1 key.2.2
  end%N.
Definition good (K : pred nat) st : Prop :=
  (forall key v, dget (entries st) key = Some v -> direct key = Some v) /\
  (forall key, K key.1 -> isSome (direct key) -> count_mem key (calls st) = has_entry st key).
Definition refines (K : pred nat) (A : Type) (m : comp R A) (v : option A) : Prop :=
  forall st, good K st -> let: (st', r) := m st in
    [/\ r = v, good K st' & forall key, ~~ K key.1 ->
          dget (entries st') key = dget (entries st) key /\ count_mem key (calls st') = count_mem key (calls st)].

Lemma dget_dset (T : eqType) (V : Type) (d : seq (T * V)) k k' v :
  dget (dset d k v) k' = if k == k' then Some v else dget d k'.
Proof.
elim: d => [|[k0 v0] d IH] //=; case: (k0 =P k) => [->|n0] /=; first by case: ifP.
by rewrite IH; case: (k0 =P k') => [<-|//]; case: eqP => // E; case: n0.
Qed.
Lemma ref_lift K (A : Type) (o : option A) : refines K (lift o) o.
Proof. by move=> st g. Qed.
Lemma ref_bind K (A B : Type) (m : comp R A) (f : A -> comp R B) v w :
  refines K m v -> (forall x, v = Some x -> refines K (f x) (w x)) -> refines K (bindc m f) (obnd v w).
Proof.
move=> hm hf st g; rewrite /bindc; have := hm st g; case: (m st) => st1 r [-> g1 u1].
case: v hf {hm} => [x|] hf //=; have := hf x erefl st1 g1; case: (f x st1) => st2 r2 [-> g2 u2].
by split=> // key nk; case: (u1 key nk) => <- <-; exact: u2.
Qed.
Lemma ref_map K (A B : Type) (f : A -> comp R B) g (l : seq A) :
  (forall x, refines K (f x) (g x)) -> refines K (mapc f l) (omapM g l).
Proof.
move=> h; elim: l => [|x l IH] /=; first exact: ref_lift.
apply: ref_bind => // y _; apply: ref_bind => // r _; exact: ref_lift.
Qed.
Lemma ref_subst K x y tab tab' : (forall b1 b2, refines K (tab b1 b2) (tab' b1 b2)) ->
  refines K (lazy_subst x y tab) (update_and_substitute x y tab').
Proof.
move=> h; apply: ref_bind => [|ts _]; last exact: ref_lift.
by apply: ref_map => p; apply: ref_bind => // v _; exact: ref_lift.
Qed.
(* a lookup in table k whose f_value only touches the tables K0 *)
Lemma ref_lookup (K0 : pred nat) k f : ~~ K0 k ->
  (forall b1 b2, refines K0 (f b1 b2) (direct (k, (b1, b2)))) ->
  forall b1 b2, refines (predU1 k K0) (lookup k f b1 b2) (direct (k, (b1, b2))).
Proof.
move=> nk hf b1 b2 st [gv gc]; rewrite /lookup; set key := (k, (b1, b2)).
case E: (dget _ _) => [v|]; first by split=> //; rewrite (gv _ _ E).
set st0 := LState _ _; have g0 : good K0 st0.
  split=> // key' kk d; rewrite /st0 /has_entry /= -cats1 count_cat /= addn0 gc //=; last by rewrite kk orbT.
  by case: eqP => [E'|_]; rewrite ?addn0 //; case/negP: nk; rewrite -[k]/(key.1) E'.
have := hf b1 b2 st0 g0; case: (f b1 b2 st0) => st1 r [-> [gv1 gc1] u1].
have [uE uC] := u1 key nk.
have cc key' : ~~ K0 key'.1 -> count_mem key' (calls st1) = ((key == key') + count_mem key' (calls st))%N.
  by move=> n'; have [_ ->] := u1 key' n'; rewrite /= -cats1 count_cat /= addn0 addnC.
case D: (direct _) => [v|]; split=> //.
- split=> [key' v'|key' /= kk d].
    by rewrite /= dget_dset; case: eqP => [<- [<-]|_ /gv1].
  rewrite /has_entry /= dget_dset; case: eqP => [E'|n'] /=.
    rewrite -E' (cc key nk) eqxx gc ?/has_entry ?E //= ?eqxx //; last by rewrite -E' in d.
  case K': (K0 key'.1); first exact: gc1.
  rewrite cc ?K' // (introF eqP n') add0n gc //.
  by rewrite /has_entry; have [-> _] := u1 key' (negbT K').
- move=> key'; rewrite /= negb_or => /andP[n1 n2].
  have ne : (key == key') = false by apply/eqP => E'; move: n1; rewrite -E' eqxx.
  have [e1 _] := u1 key' n2; split; first by rewrite /= dget_dset ne.
  by rewrite /= cc // ne.
- split=> // key' kk d; case K': (K0 key'.1); first exact: gc1.
  have ne : (key == key') = false by apply/eqP => E'; move: d; rewrite -E' D.
  rewrite cc ?K' // ne add0n gc //.
  by rewrite /has_entry; have [-> _] := u1 key' (negbT K').
- move=> key'; rewrite /= negb_or => /andP[n1 n2].
  have ne : (key == key') = false by apply/eqP => E'; move: n1; rewrite -E' eqxx.
  have [e1 _] := u1 key' n2; split; first by rewrite e1.
  by rewrite cc // ne.
Qed.
Lemma ref_weak (K K' : pred nat) (A : Type) (m : comp R A) v : (forall k, K k -> K' k) ->
  refines K m v -> refines K' m v.
Proof.
move=> s h st [gv gc]; have g : good K st by split=> // key kk; apply: gc; exact: s.
have := h st g; case: (m st) => st' r [-> [gv' gc'] u]; split=> //.
  split=> // key kk d; case E: (K key.1); first exact: gc'.
  have [e1 e2] := u key (negbT E); rewrite e2 gc // /has_entry e1.
  by [].
by move=> key nk; apply: u; apply: contra nk => /s.
Qed.
Lemma ref_mul x y : refines (pred1 0%N) (lazy_mul a x y) (ga_mul a x y).
Proof.
apply: ref_subst => b1 b2; apply: (@ref_weak (predU1 0%N pred0)); first by move=> k; rewrite !inE orbF.
by apply: (@ref_lookup pred0) => // c1 c2; exact: ref_lift.
Qed.
Lemma direct_kind k b1 b2 : direct (kind_no k, (b1, b2)) = single_bb a k b1 b2.
Proof. by case: k. Qed.
Lemma ref_single_bb k b1 b2 : refines (pred1 0%N) (lazy_single_bb a k b1 b2) (single_bb a k b1 b2).
Proof.
rewrite /lazy_single_bb /single_bb; case: k; try exact: ref_lift.
all: case: ifP => _; first exact: ref_lift.
all: apply: ref_bind => [|r _]; first exact: ref_lift.
all: apply: ref_bind => [|s _]; first exact: ref_lift.
all: case: (result_grade _ _ _ _) => [gr|]; last exact: ref_lift.
all: do 3![apply: ref_bind => [|? _]; first exact: ref_lift].
all: apply: ref_bind => [|? _]; first exact: ref_mul.
all: do 2![apply: ref_bind => [|? _]; first exact: ref_lift].
all: exact: ref_lift.
Qed.
Lemma ref_single k x y : refines predT (lazy_single a k x y) (ga_single a k x y).
Proof.
apply: ref_subst => b1 b2; rewrite -direct_kind; apply: (@ref_weak (predU1 (kind_no k) (pred1 0%N))) => //.
by apply: (@ref_lookup (pred1 0%N)) => [|c1 c2]; [case: k|rewrite direct_kind; exact: ref_single_bb].
Qed.

(* ---- C12 ---- *)
(* the product without tables *)
Definition direct_op (op : prod_op R) : option expr :=
  match op with OpMul x y => ga_mul a x y | OpSingle k x y => ga_single a k x y end.
Lemma exec_good ops st : good predT st ->
  (exec a ops st).2 = [seq direct_op op | op <- ops] /\ good predT (exec a ops st).1.
Proof.
elim: ops st => [|op ops IH] st g //=.
have h : refines predT (exec_op a op) (direct_op op).
  by case: op => [x y|k x y]; [apply: (@ref_weak (pred1 0%N)) => //; exact: ref_mul|exact: ref_single].
have := h st g; case: (exec_op a op st) => st1 r [-> g1 _].
by have [] := IH st1 g1; case: (exec a ops st1) => st2 rs /= -> ?.
Qed.
Lemma fresh_good : good predT (fresh R). Proof. by split=> // key _ _ /=. Qed.

(* whatever was computed before, a product is the product computed without tables *)
Theorem C12_transparent ops op :
  (exec_op a op (exec a ops (fresh R)).1).2 = direct_op op.
Proof.
have [_ g] := exec_good ops fresh_good; have [] := exec_good [:: op] g => /=.
by case: (exec_op a op _) => st r /= [->].
Qed.
Theorem C12_history ops : (exec a ops (fresh R)).2 = [seq direct_op op | op <- ops].
Proof. by case: (exec_good ops fresh_good). Qed.
(* every stored entry is what computing it directly gives *)
Theorem C12_entries ops key v : dget (entries (exec a ops (fresh R)).1) key = Some v -> direct key = Some v.
Proof. by case: (exec_good ops fresh_good) => _ [h _] /h. Qed.
(* an entry that can be computed is computed at most once, and exactly when it is stored *)
Theorem C12_once ops key : isSome (direct key) ->
  count_mem key (calls (exec a ops (fresh R)).1) = has_entry (exec a ops (fresh R)).1 key :> nat.
Proof. by case: (exec_good ops fresh_good) => _ [_ h] d; exact: h. Qed.
End Proofs.

(* a cached property always returns the value of its getter, called at most once *)
Theorem C12_cached_property (O V : Type) (fget : O -> V) (o : O) (n : nat) :
  (cgets fget o n (CSlot None 0)).2 = nseq n (fget o) /\ (gets (cgets fget o n (CSlot None 0)).1 = (0 < n))%N.
Proof.
have h m k : cgets fget o m (CSlot (Some (fget o)) k) = (CSlot (Some (fget o)) k, nseq m (fget o)).
  by elim: m => //= m ->.
by case: n => //= n; rewrite h.
Qed.

(* ---- concrete case: the oblique plane; three products, the third reuses entries ---- *)
Definition lz_ga : ga rat_comUnitRing := @Ga rat_comUnitRing 2 [:: [:: 1; 3%:R]; [:: 3%:R; 2%:R]].
Definition lz_x : expr rat_comUnitRing := [:: (1 : rat, mk_blade [:: 0%N]); (2%:R : rat, mk_blade [:: 1%N])].
Definition lz_ops : seq (prod_op rat_comUnitRing) := [:: OpSingle Hestenes lz_x lz_x; OpMul lz_x lz_x; OpSingle Hestenes lz_x lz_x].
Example C12_ex : all isSome (exec lz_ga lz_ops (fresh _)).2 /\
  size (calls (exec lz_ga lz_ops (fresh _)).1) = 8%N.
Proof. by split; vm_compute. Qed.
Definition props_lazy_all := (C12_transparent, C12_history, C12_entries, C12_once, C12_cached_property).
Print Assumptions props_lazy_all.
