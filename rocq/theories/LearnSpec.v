(** Specification vocabulary for learning: which rows satisfy a path, and what is
    assumed of the data and of the function arguments. *)
Require Import QArith Qround ZArith Bool List Arith Permutation.
Require Import Verif.Base Verif.NumBase Verif.TreeModel Verif.ImpurityModel Verif.LearnModel.
Import ListNotations.
Open Scope nat_scope.

Section Spec.
  Context {F : family}.
  Variable val : Z -> Q.
  Variable D : nat -> nat -> Z.
  Variable kinds : list kind.
  (** [cell_in s x]: the value set [s] contains the data value [x]. *)
  Variable cell_in : vset F -> Z -> bool.
  Variable N : nat.

  (** Row [r] satisfies every constraint on the path. *)
  Definition row_ok (p : list (var * vset F)) (r : nat) : bool := forallb (fun vs => cell_in (snd vs) (D r (fst vs))) p.
  (** The training rows which satisfy a path. *)
  Definition rows_of (p : list (var * vset F)) : list nat := filter (row_ok p) (seq 0 N).

  (** Membership of a data value in a split set. *)
  Definition smem (s : split_set) (x : Z) : bool :=
    match s with
    | Values l => nin (Z.to_nat (Qfloor (val x))) l
    | Below m => (x <? m)%Z
    | From m => (m <=? x)%Z
    end.

  (** The two splits of a decision node on variable [v] of the given kind: a numeric
      variable is split at the midpoint of two of its training values. *)
  Definition split_pair (mid : Z -> Z -> Z) (v : nat) (k : kind) (s0 s1 : split_set) : Prop :=
    match k with
    | Symbolic n => exists x, x < n /\ s0 = Values [x] /\ s1 = Values (filter (fun y => negb (Nat.eqb y x)) (seq 0 n))
    | Numeric => exists r r', r < N /\ r' < N /\ (D r v < D r' v)%Z /\ s0 = Below (mid (D r v) (D r' v)) /\ s1 = From (mid (D r v) (D r' v))
    | Integer n => exists x, 0 < x < n /\ s0 = Values (firstn x (seq 0 n)) /\ s1 = Values (skipn x (seq 0 n))
    end.

  (** Contract of the data and of the function arguments:
      - ordinals of doubles are ordered like their values, and [neg1] is negative;
      - cells of symbolic and integer columns hold value indices of the domain;
      - the features are columns of the appropriate kind;
      - the computed midpoint of two data values separates them;
      - distributions can be fitted to every non-empty set of rows;
      - the value sets built for the two splits contain those data values of the split
        variable which they should. *)
  Record learnable (neg1 : Z) (imp : impurity) (mk : split_set -> vset F) (mid : Z -> Z -> Z) (fit : list nat -> var -> res (dist F)) : Prop := Learnable {
    l_mono : forall a b, (a < b)%Z -> (val a < val b)%Q;
    l_neg1 : (val neg1 < 0)%Q;
    l_coded : forall r v n, r < N -> nth_error kinds v = Some (Symbolic n) \/ nth_error kinds v = Some (Integer n) ->
      exists x, x < n /\ (val (D r v) == Qn x)%Q;
    l_numeric : forall v, In v (numeric_features imp) -> nth_error kinds v = Some Numeric \/ exists n, nth_error kinds v = Some (Integer n);
    l_symbolic : forall v, In v (symbolic_features imp) -> exists n, nth_error kinds v = Some (Symbolic n);
    l_mid : forall r r' v, r < N -> r' < N -> nth_error kinds v = Some Numeric -> (D r v < D r' v)%Z ->
      (D r v < mid (D r v) (D r' v) <= D r' v)%Z;
    l_fit : forall rows v, rows <> [] -> incl rows (seq 0 N) -> v < length kinds -> exists d, fit rows v = Ok d;
    l_mk : forall v k s0 s1, nth_error kinds v = Some k -> split_pair mid v k s0 s1 -> forall r, r < N -> cell_in (mk s0) (D r v) = smem s0 (D r v) /\ cell_in (mk s1) (D r v) = smem s1 (D r v)
  }.
End Spec.
