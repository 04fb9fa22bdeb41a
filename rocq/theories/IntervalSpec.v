(** Specification vocabulary for intervals: which doubles a set contains.

    Nothing here depends on the algorithms; a set of doubles is a predicate. *)
Require Import ZArith List.
Require Import Verif.FloatLine Verif.IntervalModel.
Import ListNotations.
Open Scope Z_scope.

(** A finite double. *)
Definition finite (x : Z) : Prop := - ORD_INF < x < ORD_INF.

(** The finite doubles an interval object stands for: a square bracket
    includes the bound, a round one excludes it. *)
Definition cs_mem (x : Z) (s : cs) : Prop :=
  finite x
  /\ match left s with INC => lower s <= x | EXC => lower s < x end
  /\ match right s with INC => x <= upper s | EXC => x < upper s end.

(** A RealSet is the union of its constituents. *)
Definition rs_mem (x : Z) (l : list cs) : Prop := exists s, In s l /\ cs_mem x s.

Definition ns_mem (x : Z) (o : nset) : Prop :=
  match o with NC c => cs_mem x c | NR l => rs_mem x l end.

(** A bound whose neighbours the code computes correctly: an infinity, or a
    number of magnitude below 2^53 (where [x + 1] differs from [x]). *)
Definition moderate (x : Z) : Prop := Z.abs x < ORD_53 \/ Z.abs x = ORD_INF.

(** What the constructor guarantees, for moderate bounds, with infinite bounds
    written as open ends (as the library itself always writes them). *)
Definition wf (s : cs) : Prop :=
  lower s <= upper s
  /\ moderate (lower s) /\ moderate (upper s)
  /\ lower s < ORD_INF /\ - ORD_INF < upper s
  /\ (lower s = - ORD_INF -> left s = EXC)
  /\ (upper s = ORD_INF -> right s = EXC).

Definition bounds (s : cs) : list Z := [lower s; upper s].

(** No bound in the list is the immediate neighbour double of another one. *)
Definition spaced (bs : list Z) : Prop :=
  forall x y, In x bs -> In y bs -> x = y \/ 2 <= Z.abs (x - y).

Definition all_bounds (l : list cs) : list Z := flat_map bounds l.

(** Strictly left of: every member of [a] is below every member of [b]. *)
Definition before (a b : cs) : Prop := forall x y, cs_mem x a -> cs_mem y b -> x < y.

Definition disjoint (a b : cs) : Prop := forall x, cs_mem x a -> cs_mem x b -> False.

(** Constituents disjoint and in ascending order (some may be empty). *)
Definition ascending (l : list cs) : Prop := ForallOrdPairs before l.

(** Neighbours that leave a double between them. *)
Definition separated (a b : cs) : Prop :=
  exists y, finite y /\ (forall x, cs_mem x a -> x < y) /\ (forall x, cs_mem x b -> y < x).

(** The result of [simplify]: non-empty, ordered, separated constituents. *)
Definition canonical (l : list cs) : Prop :=
  Forall wf l /\ Forall (fun s => exists x, cs_mem x s) l /\ ForallOrdPairs separated l.

(** [[a,b]], [[a,b)] or [(-inf,b)] with more than one element. *)
Definition left_closed (s : cs) : Prop := (left s = INC \/ lower s = - ORD_INF) /\ lower s < upper s.

(** Inputs on which [RealSet.simplify] does not lose elements. *)
Definition simplifiable (l : list cs) : Prop := ascending l \/ Forall left_closed l.
