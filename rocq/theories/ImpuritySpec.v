(** Specification vocabulary for the split search: population statistics of the
    rows on either side of a split, independent of how the code accumulates them. *)
Require Import QArith Qround ZArith Bool List Arith Permutation.
Require Import Verif.NumBase Verif.ImpurityModel.
Import ListNotations.
Open Scope Q_scope.

Section Spec.
  Variable val : Z -> Q.
  Variable D : nat -> nat -> Z.

  Definition pop_sum (f : nat -> Q) (rows : list nat) : Q := Qsum (map f rows).
  Definition pop_mean (c : nat) (rows : list nat) : Q := pop_sum (fun r => val (D r c)) rows / Qn (length rows).
  (** Mean squared deviation from the mean. *)
  Definition pop_var (c : nat) (rows : list nat) : Q :=
    pop_sum (fun r => (val (D r c) - pop_mean c rows) * (val (D r c) - pop_mean c rows)) rows / Qn (length rows).

  (** Relative frequency of symbol [v] in column [c]. *)
  Definition freq (c : nat) (rows : list nat) (v : nat) : Q :=
    Qn (length (filter (fun r => Nat.eqb (symbol_at val D r c) v) rows)) / Qn (length rows).
  (** Gini impurity over [k] symbols, normalised by its largest value. *)
  Definition gini (k c : nat) (rows : list nat) : Q :=
    (1 - Qsum (map (fun v => freq c rows v * freq c rows v) (seq 0 k))) / (1 - 1 / Qn k).

  Variable imp : impurity.

  (** The impurity of the symbolic target [i], possibly inverted; constant domains count 0. *)
  Definition target_gini (rows : list nat) (i : nat) : Q :=
    if Nat.eqb (symbol_count imp i) 1 then 0
    else let g := gini (symbol_count imp i) (sym_var imp i) rows in if inverted imp i then 1 - g else g.
  Definition mean_gini (rows : list nat) : Q := Qsum (map (target_gini rows) (seq 0 (n_sym imp))) / Qn (n_sym imp).

  (** Improvement of splitting [rows] into [L] and [R] on the feature [var]: the
      share of the numeric targets (combined as [compute_var_improvements] does)
      and of the symbolic targets. *)
  Definition numeric_improvement (var : nat) (rows L R : list nat) : Q :=
    var_improvements (n_num imp) (fun i => pop_var (num_var imp i) rows)
      (fun i => pop_var (num_var imp i) L) (fun i => pop_var (num_var imp i) R)
      (length L) (length R) (num_feat_idx imp var).
  Definition symbolic_improvement (rows L R : list nat) : Q :=
    (mean_gini rows - mean_gini L * (Qn (length L) / Qn (length rows))
                    - mean_gini R * (Qn (length R) / Qn (length rows))) / mean_gini rows.
  Definition split_improvement (var : nat) (rows L R : list nat) : Q :=
    (if has_numeric_vars imp var then numeric_improvement var rows L R * w_numeric imp else 0)
    + (if has_symbolic_vars imp && negb (Qeq_bool (mean_gini rows) 0)
       then symbolic_improvement rows L R * (1 - w_numeric imp) else 0).

  (** [L] and [R] are the two sides of a split of [rows] on feature [var]: a
      threshold on a numeric feature, one value against the others on a symbolic one. *)
  Definition separated_by (symbolic : bool) (var : nat) (L R : list nat) : Prop :=
    if symbolic
    then exists v, (forall r, In r L -> D r var = v) /\ (forall r, In r R -> D r var <> v)
    else forall l r, In l L -> In r R -> (D l var < D r var)%Z.
  (** A legal split: both sides non-empty and with at least min_samples_leaf rows. *)
  Definition legal_split (var : nat) (rows L R : list nat) : Prop :=
    Permutation (L ++ R) rows /\ L <> [] /\ R <> [] /\
    separated_by (nin var (symbolic_features imp)) var L R /\
    min_samples_leaf imp <= Qn (length L) /\ min_samples_leaf imp <= Qn (length R).
End Spec.
