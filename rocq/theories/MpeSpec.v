(** What an enumeration of most probable explanations should be (C44),
    independently of how it is computed. *)
Require Import QArith List Sorted Permutation.
Import ListNotations.
Open Scope Q_scope.

(** All ways of choosing one element of every list. *)
Fixpoint choices {V} (ls : list (list V)) : list (list V) :=
  match ls with
  | [] => [[]]
  | l :: ls' => flat_map (fun v => map (cons v) (choices ls')) l
  end.

(** The state that a dictionary from variables 0, 1, ... to states gives to a variable. *)
Fixpoint state_of {V} (a : list (nat * V)) (x : nat) : option V :=
  match a with [] => None | (y, v) :: a' => if Nat.eqb x y then Some v else state_of a' x end.

(** The dictionary [a] says exactly: variable number i has the i-th state of [p]. *)
Definition says {V} (a : list (nat * V)) (p : list V) : Prop :=
  length a = length p /\ forall x, (x < length p)%nat -> state_of a x = nth_error p x.

(** The product of the likelihoods of the states of [p]; [lik x v] is that of
    the state v of variable x. *)
Fixpoint joint {V} (lik : nat -> V -> Q) (x : nat) (p : list V) : Q :=
  match p with [] => 1 | v :: p' => lik x v * joint lik (S x) p' end.

Definition non_increasing (l : list Q) : Prop := StronglySorted (fun p q => q <= p) l.

Definition product (l : list Q) : Q := fold_right Qmult 1 l.

(** [out] lists, for independent variables with the given lists of states, every
    combination of states exactly once with its joint likelihood ... *)
Definition covers {V} (states : list (list V)) (lik : nat -> V -> Q) (out : list (list (nat * V) * Q)) : Prop :=
  exists picks : list (list V),
    Permutation picks (choices states) /\
    Forall2 (fun al p => says (fst al) p /\ snd al == joint lik 0 p) out picks.

(** ... in non-increasing order of likelihood. *)
Definition enumerates {V} (states : list (list V)) (lik : nat -> V -> Q) (out : list (list (nat * V) * Q)) : Prop :=
  covers states lik out /\ non_increasing (map snd out).

(** [st] lists the different states that occur in a table of (state, likelihood) pairs. *)
Definition states_in {V} (table : list (V * Q)) (st : list V) : Prop :=
  NoDup st /\ forall v, In v st <-> exists q, In (v, q) table.
