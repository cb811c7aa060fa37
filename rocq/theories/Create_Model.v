(* Create_Model.v -- model of the calls Ga.mv(...) and Mv(...) with their positional and
   keyword arguments (galgebra/ga.py, mv.py, _utils/kwarg_parser.py).

   Simplifications.  A positional argument is a string, an int, a list or tuple of scalars,
   a scalar expression or a multivector; bool is not told from int.  A multivector as second
   positional argument is taken to raise TypeError; a grade is an int.  Keyword names that clash with mangled
   names of parameters (_Mv__grade) do not occur. *)
From Coq Require Import String Ascii.
From mathcomp Require Import all_ssreflect all_algebra.
From Verif Require Import PyBase PyStr Ga_Model Names_Model Coef_Model.
Set Implicit Arguments.
Unset Strict Implicit.
Unset Printing Implicit Defensive.
Import GRing.Theory.
Local Open Scope ring_scope.
Local Open Scope string_scope.

(* the exceptions a call can raise *)
Inductive err := TypeError | ValueError | IndexError | AttributeError.
Inductive result (T : Type) := Ok of T | Err of err.
Arguments Err {T} _.
Definition rbind (T U : Type) (x : result T) (f : T -> result U) : result U :=
  match x with Ok y => f y | Err e => Err e end.
(* a list comprehension whose body may raise *)
Fixpoint rmap (T U : Type) (f : T -> result U) (l : seq T) : result (seq U) :=
  if l is x :: l' then rbind (f x) (fun y => rbind (rmap f l') (fun ys => Ok (y :: ys))) else Ok [::].

Section Create.
Variable R : comUnitRingType.
(* a coefficient: a given value, the symbol or the function with a name *)
Inductive coef_ := CVal of R | CSym of string | CFun of string & seq string.
Definition terms := seq (coef_ * word).
(* a multivector: its terms, representation and title *)
Record cmvt := CMvt { c_terms : terms; c_blade : bool; c_title : option string }.
Inductive pyarg := AStr of string | AInt of int | ASeq of seq R | AVal of R | AMv of cmvt.
(* the value of a keyword argument *)
Inductive kwval := KBool of bool | KVars of seq string | KOther.
Definition kwargs := seq (string * kwval).
(* what is used of the algebra: dimension, superscripts, coordinates *)
Record alg := Alg { al_n : nat; al_ss : seq string; al_coords : option (seq string) }.
Variable a : alg.
Notation n := (al_n a).

(* _utils/kwarg_parser.py:26-34 pop with a default: the value and the remaining arguments *)
Definition kw_pop (kw : kwargs) (k : string) (d : kwval) : kwval * kwargs :=
  (if [seq p.2 | p <- kw & p.1 == k] is v :: _ then v else d, [seq p <- kw | p.1 != k]).
(* _utils/kwarg_parser.py:36-43 reject_remaining *)
Definition kw_reject (kw : kwargs) : result unit := if kw is [::] then Ok tt else Err TypeError.
Definition has_kw (kw : kwargs) (k : string) : bool := k \in [seq p.1 | p <- kw].

(* mv.py:180-219 _make_grade *)
Definition make_grade (x : pyarg) (grade : int) (kw : kwargs) : result terms :=
  match x with
  | AStr name =>
      let: (f, kw') := kw_pop kw "f" (KBool false) in
      rbind (kw_reject kw') (fun _ =>
      if make_grade_names n (al_ss a) name grade is Some l then
        match f with
        | KBool true => if al_coords a is Some cs then Ok [seq (CFun p.1 cs, p.2) | p <- l] else Err TypeError
        | KBool false => Ok [seq (CSym p.1, p.2) | p <- l]
        | KVars vs => Ok [seq (CFun p.1 vs, p.2) | p <- l]
        | KOther => Err TypeError
        end
      else Err IndexError)
  | ASeq cs =>
      rbind (kw_reject kw) (fun _ =>
      if py_nth (blades n) grade is Some l then
        if (size cs <= size l)%N then Ok [seq (CVal p.1, p.2) | p <- zip cs l] else Err ValueError
      else Err IndexError)
  | _ => Err TypeError
  end.
(* mv.py:221-229 _make_scalar.  A value is taken as it is, the keyword arguments are not
   looked at; a list or a multivector then fails in expand() of characterise_Mv (mv.py:120). *)
Definition make_scalar (x : pyarg) (kw : kwargs) : result terms :=
  match x with
  | AStr _ => make_grade x 0 kw
  | AInt z => Ok [:: (CVal z%:~R, [::])]
  | AVal c => Ok [:: (CVal c, [::])]
  | ASeq _ => Err AttributeError
  | AMv _ => Err ValueError
  end.
(* mv.py:246-277 _make_mv, _make_even, _make_odd *)
Definition make_grades (x : pyarg) (gs : seq nat) (kw : kwargs) : result terms :=
  if x is AStr _ then rbind (rmap (fun g => make_grade x (Posz g) kw) gs) (fun ls => Ok (flatten ls))
  else Err TypeError.
(* the functions called _make_<mode>, mv.py:180-282, with their positional arguments; a wrong
   number of arguments raises TypeError, an unknown mode ValueError (mv.py:381-382) *)
Definition make_mode (mode : string) (args : seq pyarg) (kw : kwargs) : result terms :=
  if mode == "grade" then
    (if args is [:: x; AInt z] then make_grade x z kw else Err TypeError)
  else
    let one f := if args is [:: x] then f x else Err TypeError in
    if mode == "scalar" then one (fun x => make_scalar x kw)
    else if mode == "vector" then one (fun x => make_grade x 1 kw)
    else if (mode == "bivector") || (mode == "grade2") then one (fun x => make_grade x 2 kw)
    else if mode == "pseudo" then one (fun x => make_grade x (Posz n) kw)
    else if mode == "mv" then one (fun x => make_grades x (iota 0 n.+1) kw)
    else if (mode == "even") || (mode == "spinor") then one (fun x => make_grades x [seq g <- iota 0 n.+1 | ~~ odd g] kw)
    else if mode == "odd" then one (fun x => make_grades x [seq g <- iota 0 n.+1 | odd g] kw)
    else Err ValueError.
(* mv.py:285, 347-401 Mv(args..., ga=, recp=, coords=, kwargs...) *)
Definition mv_init (args : seq pyarg) (kw0 : kwargs) : result cmvt :=
  let kw := [seq p <- kw0 | p.1 \notin [:: "recp"; "coords"]] in
  match args with
  | [::] => rbind (kw_reject kw) (fun _ => Ok (CMvt [::] true None))
  | [:: AStr _] => Err IndexError
  | [:: x] =>
      rbind (match x with
             | AMv m => Ok (CMvt (c_terms m) (c_blade m) None)
             | AVal c => Ok (CMvt [:: (CVal c, [::])] true None)
             | AInt z => Ok (CMvt [:: (CVal z%:~R, [::])] true None)
             | _ => Err AttributeError
             end) (fun r => rbind (kw_reject kw) (fun _ => Ok r))
  | x :: y :: rest =>
      rbind (match y with
             | AStr mode => make_mode mode (x :: rest) kw
             | AInt z =>
                 if z == 0 then (if rest is [::] then make_scalar x kw else Err TypeError)
                 else if rest is [::] then make_grade x z kw else Err TypeError
             | _ => Err TypeError
             end) (fun t => Ok (CMvt t true (if x is AStr s then Some s else None)))
  end.

(* ga.py:867-904 Ga.mv(root, args..., kwargs...); root = None: the basis vectors *)
Inductive created := Basis | One of cmvt | Many of seq cmvt.
Definition ga_mv (root : option pyarg) (args : seq pyarg) (kw : kwargs) : result created :=
  if root is Some r then
    if has_kw kw "ga" then Err TypeError
    else if r is AStr s then
      if has_char " " s then
        match args with
        | [::] => Err IndexError
        | AStr k :: rest =>
            if ~~ has_char " " k then
              rbind (rmap (fun name => mv_init (AStr name :: args) kw) (split " " s)) (fun l => Ok (Many l))
            else
              let roots := split " " s in
              let types := split " " k in
              if size roots != size types then Err ValueError
              else rbind (rmap (fun p => mv_init (AStr p.1 :: AStr p.2 :: rest) kw) (zip roots types)) (fun l => Ok (Many l))
        | ASeq _ :: _ => rbind (rmap (fun name => mv_init (AStr name :: args) kw) (split " " s)) (fun l => Ok (Many l))
        | _ => Err TypeError
        end
      else rbind (mv_init (r :: args) kw) (fun x => Ok (One x))
    else rbind (mv_init (r :: args) kw) (fun x => Ok (One x))
  else Ok Basis.
End Create.
