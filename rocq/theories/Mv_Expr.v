(* Mv_Expr.v -- Python expressions over multivectors: abstract syntax, what the
   model computes for them (run) and what they should mean (sem).

   [run] chains the operators of Mv_Model.v exactly as Python evaluates the
   expression; None is a raised exception.  [sem] is the specification: it only
   uses a Clifford product [mul] (Spec_Clifford.v), the exterior product, grade
   selection and signs (Spec_Grade.v) on coefficient vectors. *)
From mathcomp Require Import all_ssreflect all_algebra.
From Verif Require Import Exterior Spec_Grade PyBase Ga_Model Spec_Mv Mv_Model.
Set Implicit Arguments.
Unset Strict Implicit.
Unset Printing Implicit Defensive.
Import GRing.Theory.
Local Open Scope ring_scope.

Inductive py (R : comUnitRingType) :=
| Val of mv R                     (* a multivector object *)
| Num of R                        (* ga.mv(c)             mv.py:276-401 *)
| Neg of py R                     (* -p                   mv.py:513 *)
| Add of py R & py R              (* p + q                mv.py:538 *)
| Sub of py R & py R              (* p - q                mv.py:544 *)
| AddC of py R & R                (* p + c, c + p         mv.py:521 *)
| SubC of py R & R                (* p - c                mv.py:521 *)
| RSubC of R & py R               (* c - p                mv.py:544-548 *)
| Scale of R & py R               (* c * p, p * c         mv.py:554, 587 *)
| Mul of py R & py R              (* p * q                mv.py:550 *)
| Wedge of py R & py R            (* p ^ q                mv.py:785 *)
| Dot of py R & py R              (* p | q                mv.py:808 *)
| LC of py R & py R               (* p < q                mv.py:852 *)
| RC of py R & py R               (* p > q                mv.py:872 *)
| Pow of py R & nat               (* p ** k               mv.py:828 *)
| Com of py R & py R              (* p >> q               mv.py:846 *)
| Anticom of py R & py R          (* p << q               mv.py:840 *)
| Grade of py R & nat             (* p.grade(r)           mv.py:1035 *)
| Even of py R                    (* p.even()             mv.py:1127 *)
| Odd of py R                     (* p.odd()              mv.py:1131 *)
| Invol of py R                   (* p.g_invol()          mv.py:1136 *)
| Rev of py R                     (* p.rev()              mv.py:1145 *)
| Ccon of py R                    (* p.ccon()             mv.py:1152 *)
| BaseRep of py R                 (* p.base_rep()         mv.py:452 *)
| BladeRep of py R.               (* p.blade_rep()        mv.py:462 *)

Coercion Val : mv >-> py.
Declare Scope py_scope.
Delimit Scope py_scope with py.
Notation "p +. q" := (Add p%py q%py) (at level 50, left associativity) : py_scope.
Notation "p -. q" := (Sub p%py q%py) (at level 50, left associativity) : py_scope.
Notation "p *. q" := (Mul p%py q%py) (at level 40, left associativity) : py_scope.
Notation "p ^. q" := (Wedge p%py q%py) (at level 40, left associativity) : py_scope.
Notation "p ||. q" := (Dot p%py q%py) (at level 40, left associativity) : py_scope.
Notation "p <. q" := (LC p%py q%py) (at level 40, left associativity) : py_scope.
Notation "p >. q" := (RC p%py q%py) (at level 40, left associativity) : py_scope.
Notation "p >>. q" := (Com p%py q%py) (at level 40, left associativity) : py_scope.
Notation "p <<. q" := (Anticom p%py q%py) (at level 40, left associativity) : py_scope.
Notation "c ##. q" := (Scale c q%py) (at level 40, left associativity) : py_scope.

Section Run.
Variables (R : comUnitRingType) (a : ga R).
Notation n := (ga_n a).
Implicit Types (p q : py R).

Fixpoint run p : option (mv R) :=
  match p with
  | Val X => Some X
  | Num c => Some (mv_const a c)
  | Neg p => LET x := run p IN mv_neg a x
  | Add p q => LET x := run p IN LET y := run q IN mv_add a x y
  | Sub p q => LET x := run p IN LET y := run q IN mv_sub a x y
  | AddC p c => LET x := run p IN mv_addc a x c
  | SubC p c => LET x := run p IN mv_subc a x c
  | RSubC c p => LET x := run p IN mv_rsubc a x c
  | Scale c p => LET x := run p IN mv_scale a c x
  | Mul p q => LET x := run p IN LET y := run q IN mv_mul a x y
  | Wedge p q => LET x := run p IN LET y := run q IN mv_wedge a x y
  | Dot p q => LET x := run p IN LET y := run q IN mv_dot a x y
  | LC p q => LET x := run p IN LET y := run q IN mv_lc a x y
  | RC p q => LET x := run p IN LET y := run q IN mv_rc a x y
  | Pow p k => LET x := run p IN mv_pow a x k
  | Com p q => LET x := run p IN LET y := run q IN mv_com a x y
  | Anticom p q => LET x := run p IN LET y := run q IN mv_anticom a x y
  | Grade p r => LET x := run p IN mv_grade a x r
  | Even p => LET x := run p IN mv_even a x
  | Odd p => LET x := run p IN mv_odd a x
  | Invol p => LET x := run p IN mv_invol a x
  | Rev p => LET x := run p IN mv_rev a x
  | Ccon p => LET x := run p IN mv_ccon a x
  | BaseRep p => LET x := run p IN base_rep a x
  | BladeRep p => LET x := run p IN blade_rep a x
  end.
(* p == q, as computed by Mv.__eq__ *)
Definition run_eq p q : option bool := LET x := run p IN LET y := run q IN mv_eq a x y.

(* the specification *)
Variable mul : mval R n -> mval R n -> mval R n.
Definition num (c : R) : mval R n := c *: bl R set0.
Arguments num : clear implicits.
Fixpoint sem p : mval R n :=
  match p with
  | Val X => den mul (obj X)
  | Num c => num c
  | Neg p => - sem p
  | Add p q => sem p + sem q
  | Sub p q => sem p - sem q
  | AddC p c => sem p + num c
  | SubC p c => sem p - num c
  | RSubC c p => num c - sem p
  | Scale c p => c *: sem p
  | Mul p q => mul (sem p) (sem q)
  | Wedge p q => ext (sem p) (sem q)
  | Dot p q => selprod mul hestenes_grade (sem p) (sem q)
  | LC p q => selprod mul left_grade (sem p) (sem q)
  | RC p q => selprod mul right_grade (sem p) (sem q)
  | Pow p k => iter k (fun z => mul z (sem p)) (num 1)
  | Com p q => 2%:R^-1 *: (mul (sem p) (sem q) - mul (sem q) (sem p))
  | Anticom p q => 2%:R^-1 *: (mul (sem p) (sem q) + mul (sem q) (sem p))
  | Grade p r => gpart r (sem p)
  | Even p => meven (sem p)
  | Odd p => modd (sem p)
  | Invol p => minvol (sem p)
  | Rev p => mrev (sem p)
  | Ccon p => mrev (minvol (sem p))
  | BaseRep p => sem p
  | BladeRep p => sem p
  end.

(* well-formed objects: no repeated or zero terms; every term is a basis blade
   (flag set, or orthogonal algebra) or a product of distinct basis vectors in
   increasing order (flag not set) *)
Definition mv_valid (X : mv R) : bool :=
  [&& uniq [seq t.2 | t <- obj X], all (fun t => t.1 != 0) (obj X) &
    all (fun t => t.2 \in if brep X || is_ortho a then blades_flat n else bases_flat n) (obj X)].

(* expressions whose result is known to be in the blade basis *)
Fixpoint inblade p : bool :=
  match p with
  | Val X => brep X || is_ortho a
  | Num _ => true
  | Neg p | AddC p _ | SubC p _ | RSubC _ p | Scale _ p | Pow p _ => inblade p
  | Add p q | Sub p q => inblade p || inblade q
  | Mul _ q | Wedge _ q => inblade q
  | Com p q | Anticom p q => inblade p && inblade q
  | BaseRep _ => is_ortho a
  | _ => true
  end.
(* the leaves are well-formed objects, and the grade functions of the class that
   do not convert their argument are only applied to blade representations
   (otherwise they raise KeyError, see Props_Mv.v) *)
Fixpoint legal p : bool :=
  match p with
  | Val X => mv_valid X
  | Num _ => true
  | Neg p | AddC p _ | SubC p _ | RSubC _ p | Scale _ p | Pow p _ | Rev p | BaseRep p | BladeRep p => legal p
  | Add p q | Sub p q | Mul p q | Wedge p q | Dot p q | LC p q | RC p q | Com p q | Anticom p q =>
      legal p && legal q
  | Grade p _ | Even p | Odd p | Invol p | Ccon p => legal p && inblade p
  end.
End Run.
