(* PyBase.v -- the few Python data structures the model needs.
   OrderedDict / dict are association lists in insertion order; setting an
   existing key keeps its position (CPython semantics). *)
From mathcomp Require Import all_ssreflect.
Set Implicit Arguments.
Unset Strict Implicit.
Unset Printing Implicit Defensive.

Section Dict.
Variables (K : eqType) (V : Type).
Implicit Types (d : seq (K * V)) (k : K) (v : V).

(* d[k] (None = KeyError), also d.get(k) *)
Fixpoint dget d k : option V :=
  if d is (k', v') :: d' then if k' == k then Some v' else dget d' k else None.

(* d[k] = v *)
Fixpoint dset d k v : seq (K * V) :=
  if d is (k', v') :: d' then
    if k' == k then (k', v) :: d' else (k', v') :: dset d' k v
  else [:: (k, v)].

(* dict(items): later items override earlier ones *)
Definition dict_of (items : seq (K * V)) : seq (K * V) :=
  foldl (fun d kv => dset d kv.1 kv.2) [::] items.

End Dict.

(* itertools.combinations(l, k): all k-element sublists, in the
   lexicographic order of positions *)
Fixpoint combinations (T : Type) (l : seq T) (k : nat) {struct l} : seq (seq T) :=
  match k, l with
  | 0, _ => [:: [::]]
  | _.+1, [::] => [::]
  | k'.+1, x :: l' => [seq x :: c | c <- combinations l' k'] ++ combinations l' k
  end.

(* l[j-1] with Python's negative indexing: l[-1] is the last element *)
Definition pyprev (l : seq nat) (j : nat) : nat :=
  if j is j'.+1 then nth 0 l j' else last 0 l.

(* l.remove(x): None = ValueError *)
Definition pyremove (l : seq nat) (x : nat) : option (seq nat) :=
  if x \in l then Some (rem x l) else None.

(* option as exception monad *)
Definition obnd (A B : Type) (a : option A) (f : A -> option B) : option B :=
  if a is Some x then f x else None.
Notation "'LET' x := a 'IN' b" := (obnd a (fun x => b))
  (at level 200, x name, a at level 100, b at level 200).
Fixpoint omapM (A B : Type) (f : A -> option B) (l : seq A) : option (seq B) :=
  if l is x :: l' then LET y := f x IN LET r := omapM f l' IN Some (y :: r)
  else Some [::].
