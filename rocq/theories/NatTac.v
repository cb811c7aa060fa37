(* NatTac.v -- linear arithmetic on ssreflect naturals.  Proof engineering
   only. *)
From Coq Require Import ZArith Lia.
From mathcomp Require Import all_ssreflect.

Lemma ltnN_elim (m n : nat) : is_true (~~ (m <= n)) -> (n < m)%coq_nat.
Proof. by rewrite -ltnNge => /ltP. Qed.
Lemma ltnF_elim (m n : nat) : (m <= n) = false -> (n < m)%coq_nat.
Proof. by move=> h; apply: ltnN_elim; rewrite h. Qed.
Lemma leq_elim (m n : nat) : is_true (m <= n) -> (m <= n)%coq_nat.
Proof. by move/leP. Qed.
Lemma eqn_elim (m n : nat) : is_true (m == n) -> m = n.
Proof. by move/eqP. Qed.
Ltac nat_hyps :=
  repeat match goal with
  | H : is_true (leq _ _) |- _ => apply leq_elim in H
  | H : is_true (~~ leq _ _) |- _ => apply ltnN_elim in H
  | H : (leq _ _) = true |- _ => apply leq_elim in H
  | H : (leq _ _) = false |- _ => apply ltnF_elim in H
  | H : is_true (@eq_op nat_eqType _ _) |- _ => apply eqn_elim in H
  | H : is_true (andb _ _) |- _ => case/andP: H => ? ?
  end.
Ltac nlia :=
  intros;
  try match goal with
  | |- is_true (~~ leq _ _) => rewrite -ltnNge
  end;
  nat_hyps;
  try match goal with
  | |- is_true (leq _ _) => apply/leP
  | |- is_true (@eq_op nat_eqType _ _) => apply/eqP
  end;
  cbn [nat_of_bool] in *;
  unfold addn, addn_rec, subn, subn_rec, muln, muln_rec in *;
  lia.
Goal forall a b c : nat, a + b <= c -> b.+1 + a <= c.+1.
Proof. move=> a b c h. nlia. Qed.
Goal forall a b c : nat, a + b * 2 = b + a + b + 0 * c.
Proof. move=> a b c. nlia. Qed.
