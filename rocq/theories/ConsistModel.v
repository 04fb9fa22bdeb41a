(** Consistency of a node with evidence (trees.py). *)
Require Import ZArith QArith Bool List Arith.
Require Import Verif.Base Verif.NumBase Verif.IntervalModel Verif.NumericModel Verif.TreeModel Verif.TreeDiscrete Verif.NumericTree Verif.MixedTree Verif.MixedProps.
Import ListNotations.

(** What a variable is mapped to: a single value or a set of values. *)
Inductive item :=
| IPoint (x : Z + nat)
| ISet (s : mset).

(** trees.py:121-146: one variable of the evidence against the restriction by the path.  A
    RealSet as evidence is compared with numbers (trees.py:133), which raises. *)
Definition compatible (restriction : mset) (i : item) : res bool :=
  match restriction, i with
  | inl r, ISet (inl (NC c)) => Ok (negb (n_disj (NC c) r))
  | inl (NC r), IPoint (inl x) => Ok ((lower r <? x)%Z && (x <=? upper r)%Z)
  | inr r, ISet (inr s) => Ok (negb (disj discrete s r))
  | inr r, IPoint (inr x) => Ok (negb (disj discrete [x] r))
  | _, _ => Err TypeError
  end.
(** trees.py:103-148 (Node.consistent_with) and 456-463 (Leaf.path_consistent_with).  [p] is the
    attribute [_path] of the node, [fl] the domains of the variables. *)
Fixpoint path_consistent (fl : var -> mset) (p : list (var * mset)) (evidence : list (var * item)) : res bool :=
  match evidence with
  | [] => Ok true
  | (v, i) :: evidence' =>
      match path_get (F := mixed numeric discrete) fl p v with
      | None => path_consistent fl p evidence'
      | Some r => do b <- compatible r i; if b then path_consistent fl p evidence' else Ok false
      end
  end.
(** trees.py:447-454 (Leaf.consistent_with), for evidence that consists of sets. *)
Definition leaf_consistent (l : leaf (mixed numeric discrete)) (evidence : list (var * mset)) : res bool :=
  do q <- leaf_probability (F := mixed numeric discrete) l evidence 1; Ok (Qltb 0 q).
