(** Sampling rows from leaves and trees (trees.py). *)
Require Import ZArith QArith Qabs Bool List Arith.
Require Import Verif.Base Verif.NumBase Verif.UtilModel Verif.IntervalModel Verif.FunctionModel Verif.DiscreteModel Verif.NumericModel Verif.TreeModel Verif.TreeDiscrete Verif.NumericTree Verif.MixedTree.
Import ListNotations.

Section Sampling.
  Context {F : family}.
  (** [one d o]: the value drawn from [d] if the outcome of the random source is [o];
      [label v x]: the label of value [x] of variable [v]. *)
  Variables (outcome label_of : Type) (one : dist F -> outcome -> res (value F)) (label : var -> value F -> label_of).
  (** A table of objects, np.empty(dtype=object): unset cells hold None. *)
  Definition table := list (list (option label_of)).

  (** [result[:, j] = col] *)
  Definition set_column (rows : table) (j : nat) (col : list label_of) : table :=
    map (fun rx => list_set (fst rx) j (Some (snd rx))) (combine rows col).
  (** trees.py:685-687: one column after the other; distribution.py:93-94, integer.py:230-231
      (sample): [amount] values are drawn and turned to labels.  [src v k] is the outcome used
      for the [k]-th value of variable [v]. *)
  Fixpoint columns (src : var -> nat -> outcome) (amount j : nat) (ds : list (dist F)) (rows : table) : res table :=
    match ds with
    | [] => Ok rows
    | d :: ds' =>
        do col <- mapM (fun k => do x <- one d (src j k); Ok (label j x)) (seq 0 amount);
        columns src amount (S j) ds' (set_column rows j col)
    end.
  (** trees.py:679-689 (Leaf.sample) *)
  Definition leaf_sample (src : var -> nat -> outcome) (l : leaf F) (amount : nat) : res table :=
    columns src amount 0 (l_dists l) (repeat (repeat None (length (l_dists l))) amount).

  (** trees.py:2511: [(sampled_leaves == idx).nonzero()[0]] *)
  Fixpoint positions (idx : nat) (k : nat) (sampled : list nat) : list nat :=
    match sampled with
    | [] => []
    | i :: sampled' => if Nat.eqb i idx then k :: positions idx (S k) sampled' else positions idx (S k) sampled'
    end.
  (** [samples[indices] = leaf_samples] *)
  Fixpoint set_rows (samples : table) (indices : list nat) (rows : table) : table :=
    match indices, rows with
    | i :: indices', r :: rows' => set_rows (list_set samples i r) indices' rows'
    | _, _ => samples
    end.
  (** trees.py:2508-2518: the loop over the leaves. *)
  Fixpoint fill (src : nat -> var -> nat -> outcome) (sampled : list nat) (ls : list (leaf F)) (samples : table) : res table :=
    match ls with
    | [] => Ok samples
    | l :: ls' =>
        let indices := positions (l_idx l) 0 sampled in
        match indices with
        | [] => fill src sampled ls' samples
        | _ => do rows <- leaf_sample (src (l_idx l)) l (length indices);
               fill src sampled ls' (set_rows samples indices rows)
        end
    end.
  (** trees.py:2494-2520 (JPT.sample): [sampled] are the [amount] leaf numbers drawn by
      np.random.choice, which refuses negative priors and priors that do not sum to 1 (up to
      2^-26); [src i v k] is the outcome used for the [k]-th value of variable [v] drawn from
      leaf [i]. *)
  Definition tree_sample (src : nat -> var -> nat -> outcome) (J : jpt F) (sampled : list nat) : res table :=
    if negb (forallb (fun l => Qle_bool 0 (l_prior l)) (leaves J)) || Qltb (1 # 67108864) (Qabs (Qsum (map (fun l => l_prior l) (leaves J)) - 1)) then Err ValueError
    else fill src sampled (leaves J) (repeat (repeat None (n_vars J)) (length sampled)).
End Sampling.

(** What the random source does when one value is drawn: a number for the roulette wheel
    (sampling.py:33-40), an index of a piece and members of intervals (quantiles.pyx:558-592). *)
Record outcome := Outcome { o_u : Q; o_choose : nat; o_draw : cs -> Z }.
(** numeric.py:145-146, multinomial.py:281-287, integer.py:217-222 (_sample), one value. *)
Definition one_value (d : dist (mixed numeric discrete)) (o : outcome) : res (value (mixed numeric discrete)) :=
  match d with
  | inl p => do x <- sample_cdf (o_choose o) (o_draw o) p; Ok (inl x)
  | inr d => do x <- lab_sample nat (seq 0 (n_values (d_dom d))) (d_params d) (o_u o); Ok (inr x)
  end.
