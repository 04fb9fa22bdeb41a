(** Model of the split search, src/jpt/learning/impurity.pyx.

    The data matrix is a function from rows and columns to doubles, given by
    their ordinals; [val] is the value of a double ([dval] of FloatVal), [inf]
    tells the infinities and [neg1] is the double -1.  Sums, variances and
    impurities are exact rationals instead of doubles; NaN is excluded; -inf as
    an impurity improvement is [None].  The buffers of the class ([sums_left]
    and so on) are functions; they are reinitialised by every call, so only
    their contents within a call are modelled.  A slice
    [indices[start:end]] is a list of row numbers. *)
Require Import QArith Qround ZArith Bool List Arith.
Require Import Verif.Base Verif.NumBase Verif.SortModel.
Import ListNotations.
Open Scope Q_scope.

Definition nin (x : nat) (l : list nat) : bool := existsb (Nat.eqb x) l.

(** Number of samples, indices of the numeric and symbolic targets, which
    symbolic targets have an inverted impurity, sizes of the symbolic domains,
    features, and dependencies: impurity.pyx:300-560 (Impurity.__init__). *)
Record impurity := Impurity {
  min_samples_leaf : Q;
  numeric_vars : list nat;
  symbolic_vars : list nat;
  invert_impurity : list bool;
  symbols : list nat;
  numeric_features : list nat;
  symbolic_features : list nat;
  dependency_indices : nat -> list nat
}.

(** impurity.pyx:562-636 (from_tree): [kind v] is true for a symbolic variable.
    [symbols] lists the sizes of all symbolic variables, targets or not. *)
Definition from_tree (n : nat) (symbolic : nat -> bool) (size : nat -> nat) (invert : nat -> bool)
    (targets features : list nat) (deps : nat -> list nat) (msl : Q) : impurity :=
  let vs := seq 0 n in
  {| min_samples_leaf := msl;
     numeric_vars := filter (fun v => negb (symbolic v) && nin v targets) vs;
     symbolic_vars := filter (fun v => symbolic v && nin v targets) vs;
     invert_impurity := map invert (filter (fun v => symbolic v && nin v targets) vs);
     symbols := map size (filter symbolic vs);
     numeric_features := filter (fun v => negb (symbolic v) && nin v features) vs;
     symbolic_features := filter (fun v => symbolic v && nin v features) vs;
     dependency_indices := deps |}.

(** impurity.pyx:170-201 (variances), for one variable. *)
Definition variance (sq s : Q) (n : nat) : Q :=
  if (n <=? 1)%nat then 0 else (sq - s * s / Qn n) / Qn n.

(** impurity.pyx:29-69 (compute_var_improvements); [n] variables. *)
Definition var_improvements (n : nat) (old left right : nat -> Q) (nl nr : nat) (skip : option nat) : Q :=
  fst (fold_left (fun acc i =>
    let impr := fst acc in
    let divisor := snd acc in
    if match skip with Some k => Nat.eqb k i | None => false end || Qeq_bool (old i) 0 then acc
    else (impr * divisor
          + ((old i - (left i * Qn nl + right i * Qn nr) / (Qn nl + Qn nr)) / old i) / (divisor + 1),
          divisor + 1)) (seq 0 n) (0, 0)).

Definition updf {A} (f : nat -> A) (i : nat) (x : A) : nat -> A := fun k => if Nat.eqb k i then x else f k.

Section Impurity.
  Variable val : Z -> Q.
  Variable inf : Z -> bool.
  Variable neg1 : Z.
  Variable D : nat -> nat -> Z.
  Variable imp : impurity.

  Definition n_num : nat := length (numeric_vars imp).
  Definition n_sym : nat := length (symbolic_vars imp).
  Definition num_var (i : nat) : nat := nth i (numeric_vars imp) O.
  Definition sym_var (i : nat) : nat := nth i (symbolic_vars imp) O.
  Definition symbol_count (i : nat) : nat := nth i (symbols imp) O.
  Definition inverted (i : nat) : bool := nth i (invert_impurity imp) false.
  Definition value_at (r c : nat) : Q := val (D r c).
  (** [<SIZE_t> data[r, c]] *)
  Definition symbol_at (r c : nat) : nat := Z.to_nat (Qfloor (val (D r c))).

  (** impurity.pyx:495-559: row of [var] in the dependency matrices, up to the
      first -1. *)
  Definition positions (targets : list nat) (var : nat) : list nat :=
    filter (fun i => nin (nth i targets O) (dependency_indices imp var)) (seq 0 (length targets)).

  (** impurity.pyx:94-155 (sum_at, sq_sum_at), at target [i]. *)
  Definition sum_at (rows : list nat) (i : nat) : Q :=
    fold_left (fun acc r => acc + value_at r (num_var i)) rows 0.
  Definition sq_sum_at (rows : list nat) (i : nat) : Q :=
    fold_left (fun acc r => acc + value_at r (num_var i) * value_at r (num_var i)) rows 0.

  (** impurity.pyx:232-251 (bincount), at target [j] and symbol [v]. *)
  Definition bincount (rows : list nat) (j v : nat) : Z :=
    fold_left (fun acc r => if Nat.eqb (symbol_at r (sym_var j)) v then acc + 1 else acc)%Z rows 0%Z.

  (** impurity.pyx:709-746 (gini_impurity), at target [i]. *)
  Definition gini_impurity (counts : nat -> nat -> Z) (n : nat) (i : nat) : Q :=
    let k := symbol_count i in
    if Nat.eqb k 1 then 0
    else
      let r := Qsum (map (fun j => inject_Z (counts i j * counts i j)) (seq 0 k)) in
      let r := (r / Qn (n * n) - 1) / (1 / Qn k - 1) in
      if inverted i then 1 - r else r.
  (** cutils.pxd:24-36 (mean). *)
  Definition gini_mean (counts : nat -> nat -> Z) (n : nat) : Q :=
    Qsum (map (gini_impurity counts n) (seq 0 n_sym)) / Qn n_sym.

  Definition w_numeric : Q := Qn n_num / Qn (n_num + n_sym).

  (** impurity.pyx:682-700 (has_numeric_vars, has_symbolic_vars). *)
  Definition has_numeric_vars (except : nat) : bool :=
    negb (Nat.eqb (n_num - (if nin except (numeric_vars imp) then 1 else 0)) 0).
  Definition has_symbolic_vars : bool := negb (Nat.eqb n_sym 0).

  (** impurity.pyx:752-776 (col_is_constant); the code's 1, -1 and 0. *)
  Inductive constant := IsConstant | NotFinite | NotConstant.
  Fixpoint constant_loop (col : nat) (rows : list nat) (prev : option Z) : constant :=
    match rows with
    | [] => IsConstant
    | r :: rows' =>
        let v := D r col in
        if inf v then NotFinite
        else match prev with
             | None => constant_loop col rows' (Some v)
             | Some w => if Z.eqb w v then constant_loop col rows' prev else NotConstant
             end
    end.
  Definition col_is_constant (col : nat) (rows : list nat) : constant :=
    if (length rows <=? 1)%nat then IsConstant else constant_loop col rows None.

  (** cutils.pxd:60-215 (sort) applied to the keys and the row numbers. *)
  Definition sort_rows (key : nat -> Z) (rows : list nat) : res (list nat) :=
    let n := length rows in
    do a <- sort (2 * Nat.log2 n) (Arr (fun i => key (nth i rows O)) (fun i => nth i rows O)) n;
    Ok (map (samples a) (seq 0 n)).

  (** The running statistics: num_samples[LEFT], sums_left, sums_right,
      sq_sums_left, sq_sums_right, symbols_left, symbols_right. *)
  Record stats := Stats {
    n_left : nat;
    sums_left : nat -> Q; sums_right : nat -> Q;
    sq_sums_left : nat -> Q; sq_sums_right : nat -> Q;
    symbols_left : nat -> nat -> Z; symbols_right : nat -> nat -> Z
  }.

  (** Totals of the current block: sums_total, sq_sums_total, symbols_total. *)
  Record totals := Totals {
    n_samples : nat;
    sums_total : nat -> Q;
    sq_sums_total : nat -> Q;
    symbols_total : nat -> nat -> Z
  }.
  Definition variances_total (t : totals) (i : nat) : Q := variance (sq_sums_total t i) (sums_total t i) (n_samples t).
  Definition gini_total (t : totals) : Q := if has_symbolic_vars then gini_mean (symbols_total t) (n_samples t) else 0.

  Definition initial (t : totals) : stats :=
    Stats 0 (fun _ => 0) (sums_total t) (fun _ => 0) (sq_sums_total t) (fun _ _ => 0%Z) (symbols_total t).

  (** impurity.pyx:1165-1195 (update_numeric_stats_with_dependencies). *)
  Definition update_numeric (t : totals) (r : nat) (st : stats) (dep : nat) : stats :=
    let y := value_at r (num_var dep) in
    let sl := updf (sums_left st) dep (sums_left st dep + y) in
    let ql := updf (sq_sums_left st) dep (sq_sums_left st dep + y * y) in
    Stats (n_left st) sl (updf (sums_right st) dep (sums_total t dep - sl dep))
          ql (updf (sq_sums_right st) dep (sq_sums_total t dep - ql dep))
          (symbols_left st) (symbols_right st).
  (** impurity.pyx:1197-1228 (update_symbolic_stats_with_dependencies). *)
  Definition update_symbolic (t : totals) (r : nat) (st : stats) (dep : nat) : stats :=
    let v := symbol_at r (sym_var dep) in
    let hl := updf (symbols_left st) dep (updf (symbols_left st dep) v (symbols_left st dep v + 1)%Z) in
    let hr := updf (symbols_right st) dep (updf (symbols_right st dep) v (symbols_total t dep v - hl dep v)%Z) in
    Stats (n_left st) (sums_left st) (sums_right st) (sq_sums_left st) (sq_sums_right st) hl hr.

  (** impurity.pyx:1061-1090: one more row on the left. *)
  Definition take (t : totals) (var r : nat) (st : stats) : stats :=
    let st := Stats (S (n_left st)) (sums_left st) (sums_right st) (sq_sums_left st) (sq_sums_right st)
                    (symbols_left st) (symbols_right st) in
    let st := if has_numeric_vars var
              then fold_left (update_numeric t r) (positions (numeric_vars imp) var) st else st in
    if has_symbolic_vars
    then fold_left (update_symbolic t r) (positions (symbolic_vars imp) var) st else st.

  (** impurity.pyx:1039-1047: position of [var] among the numeric targets. *)
  Definition num_feat_idx (var : nat) : option nat :=
    if has_numeric_vars var
    then find (fun i => Nat.eqb (num_var i) var) (seq 0 n_num)
    else None.

  (** impurity.pyx:1102-1144: the improvement at the current position. *)
  Definition improvement (t : totals) (var : nat) (st : stats) : Q :=
    let n := n_samples t in
    let nl := n_left st in
    let nr := (n - nl)%nat in
    (if has_numeric_vars var
     then var_improvements n_num (variances_total t)
            (fun i => variance (sq_sums_left st i) (sums_left st i) nl)
            (fun i => variance (sq_sums_right st i) (sums_right st i) nr)
            nl nr (num_feat_idx var) * w_numeric
     else 0)
    + (if has_symbolic_vars && negb (Qeq_bool (gini_total t) 0)
       then (gini_total t
             - gini_mean (symbols_left st) nl * (Qn nl / Qn n)
             - gini_mean (symbols_right st) nr * (Qn nr / Qn n)) / gini_total t * (1 - w_numeric)
       else 0).

  (** impurity.pyx:1146-1160: after a value of a symbolic feature. *)
  Definition reset (t : totals) (var : nat) (st : stats) : stats :=
    let st := if has_symbolic_vars
              then Stats 0 (sums_left st) (sums_right st) (sq_sums_left st) (sq_sums_right st)
                         (fun _ _ => 0%Z) (symbols_total t)
              else st in
    if has_numeric_vars var
    then Stats (n_left st) (fun _ => 0) (sums_right st) (fun _ => 0) (sq_sums_right st)
               (symbols_left st) (symbols_right st)
    else st.

  (** [x > y] on improvements; [None] is -inf. *)
  Definition better (x y : option Q) : bool :=
    match x, y with
    | None, _ => false
    | Some _, None => true
    | Some a, Some b => Qltb b a
    end.

  (** impurity.pyx:1050-1163: the loop over the split positions.  [rest] is
      index_buffer[pos:n_samples]. *)
  Fixpoint eval_loop (t : totals) (var : nat) (symbolic : bool) (rest : list nat) (pos : nat) (st : stats)
      (best : option Q) (best_pos : option nat) : option Q * option nat :=
    match rest with
    | [] => (best, best_pos)
    | r :: rest' =>
        let last_iter := if symbolic then Nat.eqb (S pos) (n_samples t) else Nat.eqb (S (S pos)) (n_samples t) in
        let st := take t var r st in
        let subsequent_equal := match rest' with r' :: _ => Z.eqb (D r var) (D r' var) | [] => false end in
        if (negb symbolic || negb last_iter) && subsequent_equal then
          if last_iter then (best, best_pos)
          else eval_loop t var symbolic rest' (S pos) st best best_pos
        else
          let nl := n_left st in
          let nr := (n_samples t - nl)%nat in
          let gain := if Qltb (Qn nl) (min_samples_leaf imp) || Qltb (Qn nr) (min_samples_leaf imp)
                      then None else Some (improvement t var st) in
          let st := if symbolic then reset t var st else st in
          let b := better gain best in
          let best' := if b then gain else best in
          let best_pos' := if b then Some pos else best_pos in
          if last_iter then (best', best_pos')
          else eval_loop t var symbolic rest' (S pos) st best' best_pos'
    end.

  (** impurity.pyx:951-1163 (evaluate_variable).  [rows] is the current slice of
      the indices, [buffer] the index buffer, which is sorted in place. *)
  Definition evaluate_variable (t : totals) (var : nat) (symbolic : bool) (rows buffer : list nat)
    : res (option Q * option nat * list nat) :=
    do buffer <- sort_rows (fun r => D r var) buffer;
    match col_is_constant var rows with
    | IsConstant | NotFinite => Ok (None, None, buffer)
    | NotConstant =>
        let r := eval_loop t var symbolic buffer 0 (initial t) None None in
        Ok (fst r, snd r, buffer)
    end.

  (** Result of the search: improvement, best variable and position, and the
      rearranged slice of the indices. *)
  Record split := Split { gain : option Q; best_var : option nat; best_split_pos : option nat; slice : list nat }.

  (** impurity.pyx:861-903: the loop over the features. *)
  Fixpoint features_loop (t : totals) (vars : list nat) (buffer : list nat) (s : split) : res split :=
    match vars with
    | [] => Ok s
    | var :: vars' =>
        do r <- evaluate_variable t var (nin var (symbolic_features imp)) (slice s) buffer;
        let g := fst (fst r) in
        let s' := if better g (gain s)
                  then Split g (Some var) (snd (fst r)) (snd r)
                  else s in
        features_loop t vars' (snd r) s'
    end.

  (** impurity.pyx:925-949 (move_best_values_to_front). *)
  Definition move_best_values_to_front (var : nat) (value : Z) (rows : list nat) : res (option nat * list nat) :=
    let hits := length (filter (fun r => Z.eqb (D r var) value) rows) in
    do rows' <- sort_rows (fun r => if Z.eqb (D r var) value then neg1 else D r var) rows;
    Ok (match hits with O => None | S k => Some k end, rows').

  (** impurity.pyx:778-923 (compute_best_split) on [rows] = indices[start:end]. *)
  Definition block_totals (rows : list nat) : totals :=
    Totals (length rows) (sum_at rows) (sq_sum_at rows) (bincount rows).
  Definition compute_best_split (rows : list nat) : res split :=
    let t := block_totals rows in
    do s <- features_loop t (numeric_features imp ++ symbolic_features imp) rows (Split None None None rows);
    match gain s, best_var s, best_split_pos s with
    | Some g, Some var, Some pos =>
        if nin var (symbolic_features imp) then
          match nth_error (slice s) pos with
          | None => Err IndexError
          | Some r =>
              do pr <- move_best_values_to_front var (D r var) (slice s);
              Ok (Split (gain s) (best_var s) (fst pr) (snd pr))
          end
        else Ok s
    | _, _, _ => Ok s
    end.
End Impurity.
