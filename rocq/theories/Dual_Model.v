(* Dual_Model.v -- model of the pseudoscalar, duality, the reciprocal basis, the
   inverse metric, reciprocal frames and the cross product
   (galgebra/ga.py, galgebra/mv.py).

   Programs that only chain multivector operators are written in the expression
   language of Mv_Expr.v and executed by [run].
   Simplification: simplify/expand/trigsimp/collect preserve values and are the
   identity; the square root of sympy is the parameter [sy_sqrt] and the sign
   test on numbers is [sy_pos]. *)
From mathcomp Require Import all_ssreflect all_algebra.
From Coq Require Import String Ascii.
From Verif Require Import PyBase Ga_Model Mv_Model Mv_Expr.
Set Implicit Arguments.
Unset Strict Implicit.
Unset Printing Implicit Defensive.
Import GRing.Theory.
Local Open Scope ring_scope.
Local Open Scope py_scope.

(* what the code asks of sympy about a scalar: sqrt(x), x.is_number, x > 0 *)
Record scalar_env (R : Type) := ScalarEnv { sy_sqrt : R -> R; sy_number : R -> bool; sy_pos : R -> bool }.

Section Ps.
Variables (R : comUnitRingType) (sy : scalar_env R).
Notation ga := (ga R).

(* ga.py:681  self.e = Mv(self.blades.flat[-1]) *)
Definition ga_e (a : ga) : mv R := mk_mv a [:: (1, last [::] (blades_flat (ga_n a)))].
(* ga.py:1833-1846 e_sq; gsym = Some d when a symbolic determinant d is declared *)
Definition ga_e_sq (gsym : option R) (a : ga) : option R :=
  if gsym is Some d then Some ((-1) ^+ (ga_n a * (ga_n a - 1))./2 * d)
  else LET p := run a (ga_e a *. ga_e a) IN Some (mv_scalar p).
(* ga.py:694-714 normalised pseudoscalar: the pair (self.i, self.i_inv);
   isq = true when the option Isq is '+' *)
Definition ga_i (gsym : option R) (isq : bool) (a : ga) : option (mv R * mv R) :=
  LET s := ga_e_sq gsym a IN
  if (if sy_number sy s then sy_pos sy s else isq) then
    LET i := mv_divc a (ga_e a) (sy_sqrt sy s) IN Some (i, i)
  else
    LET i := mv_divc a (ga_e a) (sy_sqrt sy (- s)) IN
    LET j := mv_neg a i IN Some (i, j).

(* ga.py:569 dual_mode_lst; 576-600 dual_mode (None = ValueError) *)
Definition dual_mode_lst : seq string :=
  [:: "+I"; "I+"; "-I"; "I-"; "+Iinv"; "Iinv+"; "-Iinv"; "Iinv-"]%string.
Definition set_dual_mode (mode : string) : option string :=
  if has (String.eqb mode) dual_mode_lst then Some mode else None.

(* Python's "sub in s" and s[0] == c *)
Definition str_in (sub s : string) : bool := if String.index 0 sub s is Some _ then true else false.
Definition str_hd (s : string) (c : ascii) : bool :=
  if s is String c' _ then Ascii.eqb c' c else false.

(* mv.py:1104-1117 dual; i, i_inv are the fields of the algebra *)
Definition dual_prog (mode : string) (ii : mv R * mv R) (X : py R) : py R :=
  let sign : R := if str_in "-" mode then -1 else 1 in
  let I := if str_in "Iinv" mode then ii.2 else ii.1 in
  if str_hd mode "+" || str_hd mode "-" then (sign ##. I) *. X else (sign ##. X) *. I.
(* mv.py:1119-1124 undual *)
Definition undual_prog (mode : string) (ii : mv R * mv R) (X : py R) : py R :=
  Pow ii.1 2 *. dual_prog mode ii X.

(* mv.py:2067-2076 cross (both vectors over this algebra) *)
Definition mv_cross (a : ga) (ii : mv R * mv R) (X Y : mv R) : option (mv R) :=
  LET b1 := is_vector a X IN
  LET b2 := is_vector a Y IN
  if [&& b1, b2 & ga_n a == 3%N] then run a (Neg ii.1 *. (X ^. Y)) else None.

(* ga.py:1851-1908 r_basis: list of expressions *)
Fixpoint r_basis_loop (a : ga) (sgn : R) (duals : seq word) : option (seq (expr R)) :=
  if duals is d :: ds then
    LET x := blade_to_base_rep a [:: (1, d)] IN
    LET y := ga_mul a (escale sgn x) (obj (ga_e a)) IN
    LET z := base_to_blade_rep a y IN
    LET zs := r_basis_loop a (- sgn) ds IN
    Some (canon z :: zs)
  else Some [::].
Definition r_basis (a : ga) : option (seq (expr R)) :=
  if is_ortho a then
    omapM (fun i => LET d := sinv (gij a i i) IN Some [:: (d, mk_blade [:: i])]) (iota 0 (ga_n a))
  else r_basis_loop a 1 (rev (nth [::] (blades (ga_n a)) (ga_n a).-1)).
(* ga.py:1951-1954 r_basis_mv *)
Definition r_basis_mv (a : ga) : option (seq (mv R)) :=
  LET rs := r_basis a IN Some [seq mk_mv a r | r <- rs].

(* a matrix entry that must be a scalar expression *)
Definition as_scalar (x : expr R) : option R :=
  match canon x with
  | [::] => Some 0
  | [:: (c, [::])] => Some c
  | _ => None
  end.
(* ga.py:1923-1938 g_inv, entry (i, j) and the matrix by rows *)
Definition g_inv_entry (gsym : option R) (a : ga) (i j : nat) : option R :=
  LET rs := r_basis a IN
  LET x := ga_single a Hestenes (nth [::] rs (minn i j)) (nth [::] rs (maxn i j)) IN
  LET c := as_scalar x IN
  if is_ortho a then Some c
  else LET s := ga_e_sq gsym a IN LET d := sinv (s ^+ 2) IN Some (c * d).
Definition g_inv (gsym : option R) (a : ga) : option (seq (seq R)) :=
  omapM (fun i => omapM (g_inv_entry gsym a i) (iota 0 (ga_n a))) (iota 0 (ga_n a)).

(* ga.py:737-755 _reciprocal_of_basis_blade *)
Definition recip_blade (gsym : option R) (a : ga) (blade : word) : option (expr R) :=
  LET index := dget (blades_to_indexes (ga_n a)) blade IN
  LET rs := r_basis a IN
  LET r := foldl (fun o i => LET x := o IN ga_wedge a x (nth [::] rs i))
                 (Some [:: (1, [::])]) (rev index) IN
  if is_ortho a then Some r
  else LET s := ga_e_sq gsym a IN LET d := sinv (s ^+ size index) IN Some (escale d r).

(* ga.py:2162-2198 ReciprocalFrame *)
Definition frame_wedge (bs : seq (mv R)) : py R := foldl (fun p b => p ^. Val b) (Num 1) bs.
Definition skip (T : Type) (i : nat) (s : seq T) : seq T := take i s ++ drop i.+1 s.
Definition frame_E_sq (a : ga) (bs : seq (mv R)) : option R :=
  LET p := run a (frame_wedge bs *. frame_wedge bs) IN Some (mv_scalar p).
Definition frame_rec (bs : seq (mv R)) (i : nat) : py R :=
  ((-1) ^+ i ##. frame_wedge (skip i bs)) *. frame_wedge bs.
(* mode = 'norm': the normalised vectors; otherwise the vectors and E_sq *)
Definition ReciprocalFrame (a : ga) (bs : seq (mv R)) (mode : string) :
    option (seq (mv R) * option R) :=
  LET s := frame_E_sq a bs IN
  LET rs := omapM (fun i => run a (frame_rec bs i)) (iota 0 (size bs)) IN
  if String.eqb mode "norm" then
    LET rs' := omapM (fun r => mv_divc a r s) rs IN Some (rs', None)
  else Some (rs, Some s).
End Ps.
