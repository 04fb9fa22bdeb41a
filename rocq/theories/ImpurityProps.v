(** Properties C53 and C54: the statistics of the split search are exact and the
    reported split is the best legal one.

    [val] is the value of a double, [inf] tells the infinities, [neg1] is the
    double -1 and [D] the data matrix; all are arbitrary.  [pop_var], [gini],
    [legal_split] and [split_improvement] are defined in ImpuritySpec.v from the
    rows on the two sides of a split alone. *)
Require Import QArith Qfield Qround ZArith Bool List Arith Permutation Lia Lqa.
Require Import Verif.Base Verif.NumBase Verif.ImpurityModel Verif.ImpuritySpec Verif.ImpurityProofs Verif.ImpurityStats Verif.ImpurityBest Verif.ImpurityBest2 Verif.ImpurityRange.
Import ListNotations.
Open Scope Q_scope.

(** ** C53 *)

Theorem C53_block_totals : forall val D imp rows i v,
  let t := block_totals val D imp rows in
  n_samples t = length rows /\
  sums_total t i == pop_sum (fun r => val (D r (num_var imp i))) rows /\
  sq_sums_total t i == pop_sum (fun r => val (D r (num_var imp i)) * val (D r (num_var imp i))) rows /\
  symbols_total t i v = Z.of_nat (length (filter (fun r => Nat.eqb (symbol_at val D r (sym_var imp i)) v) rows)).
Proof.
  intros. cbn [t block_totals n_samples sums_total sq_sums_total symbols_total]. split; [reflexivity|]. split; [apply sum_at_spec|]. split; [apply sq_sum_at_spec|]. apply bincount_spec.
Qed.
Print Assumptions C53_block_totals.

(** After the rows [L] have been moved to the left, one by one, starting from the
    initial statistics of the block, the left and right statistics are those of
    [L] and of the remaining rows. *)
Definition moved val D imp rows var L : stats :=
  fold_left (fun st r => take val D imp (block_totals val D imp rows) var r st) L (initial (block_totals val D imp rows)).

Theorem C53_running_statistics : forall val D imp var rows L R,
  full_dependencies imp var -> Permutation (L ++ R) rows -> L <> [] ->
  let st := moved val D imp rows var L in
  n_left st = length L /\
  (has_numeric_vars imp var = true -> forall i, (i < n_num imp)%nat ->
     let x := fun r => val (D r (num_var imp i)) in
     sums_left st i == pop_sum x L /\ sums_right st i == pop_sum x R /\
     sq_sums_left st i == pop_sum (fun r => x r * x r) L /\ sq_sums_right st i == pop_sum (fun r => x r * x r) R) /\
  (has_symbolic_vars imp = true -> forall j v, (j < n_sym imp)%nat ->
     let hits := fun rows => Z.of_nat (length (filter (fun r => Nat.eqb (symbol_at val D r (sym_var imp j)) v) rows)) in
     symbols_left st j v = hits L /\ symbols_right st j v = hits R).
Proof.
  intros val D imp var rows L R Full P NL.
  assert (De : describes val D imp (block_totals val D imp rows) var (length L) L (moved val D imp rows var L)).
  { unfold moved. clear P NL. induction L as [|r L IH] using rev_ind; [apply initial_describes|]. rewrite fold_left_app, app_length. cbn [fold_left length]. rewrite Nat.add_1_r. apply take_describes; assumption. }
  destruct De as (N & Hn & Hs). cbv zeta. split; [exact N|]. split.
  - intros H i Li. destruct (Hn H i Li) as (A & B & C). destruct (C NL) as [C1 C2]. cbn [block_totals sums_total sq_sums_total] in C1, C2.
    rewrite sum_at_spec in C1. rewrite sq_sum_at_spec in C2. pose proof (S1_split val D imp i rows L R P) as E1. pose proof (S2_split val D imp i rows L R P) as E2. unfold S1 in *. unfold S2 in *. unfold pop_sum.
    split; [exact A|]. split; [rewrite C1; lra|]. split; [exact B|rewrite C2; lra].
  - intros H j v Lj. destruct (Hs H j v Lj) as [A B]. split; [exact A|]. rewrite B. cbn [block_totals symbols_total]. rewrite bincount_spec, (count_split val D imp j v rows L R P). unfold count. lia.
Qed.
Print Assumptions C53_running_statistics.

(** The shortcut formula yields the mean squared deviation. *)
Theorem C53_population_variance : forall val D imp rows i, rows <> [] ->
  variance (sq_sum_at val D imp rows i) (sum_at val D imp rows i) (length rows) == pop_var val D (num_var imp i) rows.
Proof.
  intros val D imp rows i N. rewrite (variance_comp _ _ _ _ (length rows) (sq_sum_at_spec val D imp rows i) (sum_at_spec val D imp rows i)). apply pop_var_sums; [reflexivity|exact N].
Qed.
Print Assumptions C53_population_variance.

Theorem C53_gini : forall val D imp rows i, rows <> [] ->
  gini_impurity imp (bincount val D imp rows) (length rows) i == target_gini val D imp rows i.
Proof. intros val D imp rows i N. apply gini_spec; [reflexivity|exact N|]. intro v. apply bincount_spec. Qed.
Print Assumptions C53_gini.

(** Gini impurities lie in [0,1] when the symbols are below the listed domain size. *)
Theorem C53_gini_range : forall val D imp rows i, rows <> [] ->
  (forall r, In r rows -> (symbol_at val D r (sym_var imp i) < symbol_count imp i)%nat) ->
  0 <= gini_impurity imp (bincount val D imp rows) (length rows) i <= 1.
Proof.
  intros val D imp rows i N H. rewrite C53_gini by exact N. unfold target_gini. destruct (Nat.eqb_spec (symbol_count imp i) 1) as [E|E]; [lra|]. cbv zeta.
  pose proof (gini_nonneg val D _ (sym_var imp i) rows E N). pose proof (gini_le_1 val D _ (sym_var imp i) rows E N H). destruct (inverted imp i); lra.
Qed.
Print Assumptions C53_gini_range.

(** The listed size is that of the target when every symbolic variable is a target ... *)
Theorem C53_symbol_counts : forall n symbolic size invert targets features deps msl,
  (forall v, (v < n)%nat -> symbolic v = true -> In v targets) ->
  let imp := from_tree n symbolic size invert targets features deps msl in
  forall i, (i < n_sym imp)%nat -> symbol_count imp i = size (sym_var imp i).
Proof.
  intros n symbolic size invert targets features deps msl H imp i Li. unfold n_sym, symbol_count, sym_var, imp in *. cbn [from_tree symbolic_vars symbols] in *.
  assert (E : filter (fun v => symbolic v && nin v targets) (seq 0 n) = filter symbolic (seq 0 n)).
  { apply filter_ext_in. intros v I. apply in_seq in I. destruct (symbolic v) eqn:S; cbn [andb]; [|reflexivity]. apply nin_in, H; [lia|exact S]. }
  rewrite E in *. rewrite (nth_indep _ O (size O)) by (rewrite map_length; exact Li). apply map_nth.
Qed.
Print Assumptions C53_symbol_counts.

(** Data of the examples: integers stand for doubles. *)
Definition table (rows : list (list Z)) : nat -> nat -> Z := fun r c => nth c (nth r rows []) 0%Z.
Definition huge (z : Z) : bool := (1000 <=? Z.abs z)%Z.

(** ... but with a smaller set of targets the size of another variable is used, and
    the impurity exceeds 1: targets {1} of the symbolic variables 0 (2 values) and 1 (3 values). *)
Theorem C53_gini_range_refuted : exists n symbolic size invert targets features deps msl D rows,
  let imp := from_tree n symbolic size invert targets features deps msl in
  (n_sym imp = 1)%nat /\ rows <> [] /\
  (forall r, In r rows -> (symbol_at inject_Z D r (sym_var imp 0) < size (sym_var imp 0))%nat) /\
  1 < gini_impurity imp (bincount inject_Z D imp rows) (length rows) 0.
Proof.
  exists 2%nat, (fun _ => true), (fun v => nth v [2; 3]%nat 0%nat), (fun _ => false), [1%nat], [0%nat], (fun _ => [1%nat]), 1, (table [[0; 0]; [0; 1]; [1; 2]]%Z), [0; 1; 2]%nat.
  cbv zeta. split; [reflexivity|]. split; [discriminate|]. split; [|vm_compute; reflexivity]. intros r [<-|[<-|[<-|[]]]]; vm_compute; lia.
Qed.
Print Assumptions C53_gini_range_refuted.

(** Two numeric targets and a symbolic one, all of them features. *)
Definition ex_imp : impurity :=
  from_tree 3 (fun v => Nat.eqb v 2) (fun _ => 2%nat) (fun _ => false) [0; 1; 2]%nat [0; 1; 2]%nat (fun _ => [0; 1; 2]%nat) 1.
Definition ex_data : nat -> nat -> Z := table [[3; 10; 0]; [1; 20; 1]; [4; 10; 0]; [2; 10; 1]]%Z.

Example C53_example :
  let st := moved inject_Z ex_data ex_imp [0; 1; 2; 3]%nat 0%nat [1; 3]%nat in
  full_dependencies ex_imp 0 /\ has_numeric_vars ex_imp 0 = true /\ has_symbolic_vars ex_imp = true /\
  n_left st = 2%nat /\ sums_left st 1 == 30 /\ sums_right st 1 == 20 /\ sq_sums_right st 0 == 25 /\
  symbols_left st 0 1 = 2%Z /\ symbols_right st 0 0 = 2%Z /\
  variance (sq_sums_left st 1) (sums_left st 1) 2 == 25.
Proof. split; [split; intros v I; vm_compute in I |- *; tauto|]. repeat split; vm_compute; reflexivity. Qed.

(** ** C54 *)

(** For every data matrix and every block of rows the search succeeds; it
    rearranges the rows; no legal split on any feature improves more than the
    reported one; and the first [p+1] and the remaining rows of the rearranged block
    are a legal split on the reported feature with the reported improvement.  In
    particular no split is reported if and only if there is no legal one.

    Hypotheses: the values of the features are finite; values of symbolic features
    are above -1 (they are domain indices); every target depends on every feature
    (the default); and there is a symbolic target if there is a symbolic feature
    (otherwise see C54_sample_count_refuted). *)
Theorem C54_best_split_partial : forall val inf neg1 D imp rows,
  (forall r v, In r rows -> In v (numeric_features imp ++ symbolic_features imp) -> inf (D r v) = false) ->
  (forall r v, In r rows -> In v (symbolic_features imp) -> (neg1 < D r v)%Z) ->
  (forall v, In v (numeric_features imp ++ symbolic_features imp) -> full_dependencies imp v) ->
  (symbolic_features imp = [] \/ symbolic_vars imp <> []) ->
  exists s, compute_best_split val inf neg1 D imp rows = Ok s /\ Permutation rows (slice s) /\
    (forall var L R, In var (numeric_features imp ++ symbolic_features imp) -> legal_split D imp var rows L R ->
       exists g, gain s = Some g /\ split_improvement val D imp var rows L R <= g) /\
    (forall g, gain s = Some g -> exists var p, best_var s = Some var /\ best_split_pos s = Some p /\
       In var (numeric_features imp ++ symbolic_features imp) /\
       let L := firstn (S p) (slice s) in let R := skipn (S p) (slice s) in
       legal_split D imp var rows L R /\ g == split_improvement val D imp var rows L R).
Proof.
  intros val inf neg1 D imp rows Fin Neg Full Guard. apply best_split; try assumption.
  destruct Guard as [G|G]; [left; exact G|right]. unfold has_symbolic_vars, n_sym. destruct (symbolic_vars imp); [contradiction|reflexivity].
Qed.
Print Assumptions C54_best_split_partial.

(** The default configuration: every target depends on every feature. *)
Theorem C54_default_configuration : forall n symbolic size invert targets features msl val inf neg1 D rows,
  let imp := from_tree n symbolic size invert targets features (fun _ => targets) msl in
  (forall r v, In r rows -> In v features -> inf (D r v) = false) ->
  (forall r v, In r rows -> In v features -> symbolic v = true -> (neg1 < D r v)%Z) ->
  (forall v, (v < n)%nat -> symbolic v = true -> In v features -> exists w, (w < n)%nat /\ symbolic w = true /\ In w targets) ->
  exists s, compute_best_split val inf neg1 D imp rows = Ok s /\ Permutation rows (slice s) /\
    (forall var L R, (var < n)%nat -> In var features -> legal_split D imp var rows L R ->
       exists g, gain s = Some g /\ split_improvement val D imp var rows L R <= g) /\
    (forall g, gain s = Some g -> exists var p, best_var s = Some var /\ best_split_pos s = Some p /\ (var < n)%nat /\ In var features /\
       let L := firstn (S p) (slice s) in let R := skipn (S p) (slice s) in
       legal_split D imp var rows L R /\ g == split_improvement val D imp var rows L R).
Proof.
  intros n symbolic size invert targets features msl val inf neg1 D rows imp Fin Neg Guard.
  assert (If : forall v, In v (numeric_features imp ++ symbolic_features imp) <-> (v < n)%nat /\ In v features).
  { intro v. unfold imp. cbn [from_tree numeric_features symbolic_features]. rewrite in_app_iff, !filter_In, in_seq. destruct (symbolic v); cbn [negb andb]; rewrite nin_in; intuition (try discriminate; try lia). }
  destruct (C54_best_split_partial val inf neg1 D imp rows) as (s & E & P & Opt & Att).
  - intros r v Ir Iv. apply Fin; [exact Ir|]. exact (proj2 (proj1 (If v) Iv)).
  - intros r v Ir Iv. unfold imp in Iv. cbn [from_tree symbolic_features] in Iv. apply filter_In in Iv. destruct Iv as [Is Iv]. apply andb_true_iff in Iv. destruct Iv as [Sv Iv]. apply nin_in in Iv. apply Neg; assumption.
  - intros v _. split; intros w I; unfold imp in I |- *; cbn [from_tree numeric_vars symbolic_vars dependency_indices] in I |- *; apply filter_In in I; destruct I as [_ I]; apply andb_true_iff in I; destruct I as [_ I]; apply nin_in; exact I.
  - destruct (symbolic_features imp) as [|v l] eqn:Ef; [left; reflexivity|right]. intro Z0.
    assert (I : In v (symbolic_features imp)) by (rewrite Ef; left; reflexivity). unfold imp in I. cbn [from_tree symbolic_features] in I. apply filter_In in I. destruct I as [Is I]. apply andb_true_iff in I. destruct I as [Sv I]. apply in_seq in Is.
    destruct (Guard v ltac:(lia) Sv ltac:(apply nin_in; exact I)) as (w & Lw & Sw & Tw). assert (In w []) as []. rewrite <- Z0. unfold imp. cbn [from_tree symbolic_vars]. apply filter_In. split; [apply in_seq; lia|]. rewrite Sw. cbn [andb]. apply nin_in. exact Tw.
  - exists s. split; [exact E|]. split; [exact P|]. split.
    + intros var L R Lv Iv. apply Opt. apply If. auto.
    + intros g Eg. destruct (Att g Eg) as (var & p & A & B & C & R). exists var, p. split; [exact A|]. split; [exact B|]. apply If in C. destruct C as [C1 C2]. split; [exact C1|]. split; [exact C2|exact R].
Qed.
Print Assumptions C54_default_configuration.

(** The search finds the split of rows {0,2} from {1,3} on the symbolic variable 2. *)
Example C54_example :
  match compute_best_split inject_Z huge (-1)%Z ex_data ex_imp [0; 1; 2; 3]%nat with
  | Ok s => best_var s = Some 2%nat /\ best_split_pos s = Some 1%nat /\ slice s = [2; 0; 1; 3]%nat /\ (exists g, gain s = Some g /\ g == 44 # 45)
  | Err _ => False
  end.
Proof. vm_compute. repeat split. eexists. split; reflexivity. Qed.
Example C54_example_hypotheses :
  let features := numeric_features ex_imp ++ symbolic_features ex_imp in
  features = [0; 1; 2]%nat /\
  (forall r v, In r [0; 1; 2; 3]%nat -> In v features -> huge (ex_data r v) = false) /\
  (forall r v, In r [0; 1; 2; 3]%nat -> In v (symbolic_features ex_imp) -> (-1 < ex_data r v)%Z) /\
  (forall v, In v features -> full_dependencies ex_imp v) /\ symbolic_vars ex_imp <> [] /\
  legal_split ex_data ex_imp 2 [0; 1; 2; 3]%nat [0; 2]%nat [1; 3]%nat.
Proof.
  split; [reflexivity|]. split; [intros r v Ir Iv; vm_compute in Ir, Iv; intuition (subst; reflexivity)|].
  split; [intros r v Ir Iv; vm_compute in Ir, Iv; intuition (subst; reflexivity)|].
  split; [intros v _; split; intros w I; vm_compute in I |- *; tauto|]. split; [discriminate|].
  split; [apply (Permutation_app_head [0%nat] (perm_swap 1 2 [3])%nat)|]. split; [discriminate|]. split; [discriminate|].
  split; [exists 0%Z; split; intros r [<-|[<-|[]]]; vm_compute; congruence|]. split; vm_compute; discriminate.
Qed.

(** The improvement of a split into two non-empty sides is never negative, and it is
    at most 1 if at most one numeric target other than the feature varies. *)
Theorem C54_improvement_range_partial : forall val D imp var rows L R,
  (forall i, (i < n_sym imp)%nat -> inverted imp i = false) ->
  Permutation (L ++ R) rows -> L <> [] -> R <> [] ->
  0 <= split_improvement val D imp var rows L R /\
  ((length (filter (fun i => negb (match num_feat_idx imp var with Some k => Nat.eqb k i | None => false end) && negb (Qeq_bool (pop_var val D (num_var imp i) rows) 0)) (seq 0 (n_num imp))) <= 1)%nat ->
   split_improvement val D imp var rows L R <= 1).
Proof.
  intros val D imp var rows L R NI P NL NR. destruct (split_improvement_range val D imp var rows L R NI P NL NR) as [A B]. split; [exact A|]. intro H. apply B. unfold n_active.
  rewrite (filter_ext _ (fun i => negb (match num_feat_idx imp var with Some k => Nat.eqb k i | None => false end) && negb (Qeq_bool (pop_var val D (num_var imp i) rows) 0))); [exact H|]. intro i. unfold active. apply negb_orb.
Qed.
Print Assumptions C54_improvement_range_partial.

Example C54_range_example : Permutation ([1; 3] ++ [0; 2])%nat [0; 1; 2; 3]%nat /\ split_improvement inject_Z ex_data ex_imp 0 [0; 1; 2; 3]%nat [1; 3]%nat [0; 2]%nat == 5 # 9.
Proof. split; [|vm_compute; reflexivity]. change (Permutation ([1; 3] ++ [0; 2])%nat ([0] ++ [1; 2; 3])%nat). cbn [app]. etransitivity; [apply perm_skip, perm_swap|]. etransitivity; [apply perm_swap|]. apply perm_skip, perm_skip, perm_swap. Qed.

(** With two varying numeric targets the reported improvement can be 3/2: the running
    mean of compute_var_improvements divides only the newest term. *)
Theorem C54_improvement_range_refuted : exists n targets D rows s g,
  let imp := from_tree n (fun _ => false) (fun _ => 0%nat) (fun _ => false) targets targets (fun _ => targets) 1 in
  compute_best_split inject_Z huge (-1)%Z D imp rows = Ok s /\ gain s = Some g /\ 1 < g.
Proof.
  exists 3%nat, [0; 1; 2]%nat, (table [[0; 0; 0]; [0; 0; 0]; [1; 1; 1]; [1; 1; 1]]%Z), [0; 1; 2; 3]%nat. eexists _, _. cbv zeta.
  split; [vm_compute; reflexivity|]. split; [reflexivity|]. vm_compute. reflexivity.
Qed.
Print Assumptions C54_improvement_range_refuted.

(** With an inverted target every split can have a negative improvement. *)
Theorem C54_inverted_refuted : exists n symbolic size invert targets features D rows s g,
  let imp := from_tree n symbolic size invert targets features (fun _ => targets) 1 in
  compute_best_split inject_Z huge (-1)%Z D imp rows = Ok s /\ gain s = Some g /\ g < 0.
Proof.
  exists 2%nat, (Nat.eqb 1), (fun _ => 2%nat), (fun _ => true), [1%nat], [0%nat], (table [[0; 0]; [0; 0]; [0; 0]; [1; 1]]%Z), [0; 1; 2; 3]%nat. eexists _, _. cbv zeta.
  split; [vm_compute; reflexivity|]. split; [reflexivity|]. vm_compute. reflexivity.
Qed.
Print Assumptions C54_inverted_refuted.

(** A symbolic feature and only numeric targets: the number of rows on the left is not
    reset between the values of the feature, and a split with one row on the left is
    reported although min_samples_leaf is 2. *)
Theorem C54_sample_count_refuted : exists n symbolic size targets features D rows s var p,
  let imp := from_tree n symbolic size (fun _ => false) targets features (fun _ => targets) 2 in
  (forall r v, In r rows -> In v features -> huge (D r v) = false /\ (-1 < D r v)%Z) /\
  compute_best_split inject_Z huge (-1)%Z D imp rows = Ok s /\ gain s <> None /\ best_var s = Some var /\ best_split_pos s = Some p /\
  ~ legal_split D imp var rows (firstn (S p) (slice s)) (skipn (S p) (slice s)) /\
  Qn (length (firstn (S p) (slice s))) < min_samples_leaf imp.
Proof.
  exists 2%nat, (Nat.eqb 0), (fun _ => 3%nat), [1%nat], [0%nat], (table [[0; 0]; [1; 10]; [2; 0]; [2; 0]; [2; 0]]%Z), [0; 1; 2; 3; 4]%nat. eexists _, _, _. cbv zeta.
  split; [intros r v Ir Iv; destruct Iv as [<-|[]]; cbn in Ir; repeat (destruct Ir as [<-|Ir]; [split; reflexivity|]); contradiction|].
  split; [vm_compute; reflexivity|]. split; [discriminate|]. split; [reflexivity|]. split; [reflexivity|].
  split; [|vm_compute; reflexivity]. intros (_ & _ & _ & _ & H & _). apply Qle_not_lt in H. apply H. vm_compute. reflexivity.
Qed.
Print Assumptions C54_sample_count_refuted.

(** Sparse dependencies: a target outside the dependencies of the feature still
    contributes, with the statistics of an empty left side.  Target 1 is constant and
    target 2 does not depend on feature 0, and the split leaves its variance unchanged;
    the reported improvement is 1. *)
Theorem C54_sparse_dependencies_refuted : exists n targets features deps D rows s p g,
  let imp := from_tree n (fun _ => false) (fun _ => 0%nat) (fun _ => false) targets features deps 1 in
  let L := firstn (S p) (slice s) in let R := skipn (S p) (slice s) in
  compute_best_split inject_Z huge (-1)%Z D imp rows = Ok s /\ gain s = Some g /\ g == 1 /\ best_split_pos s = Some p /\
  split_improvement inject_Z D imp 0 rows L R == 0 /\
  (forall c, In c targets -> pop_var inject_Z D c L == pop_var inject_Z D c rows /\ pop_var inject_Z D c R == pop_var inject_Z D c rows).
Proof.
  exists 3%nat, [1; 2]%nat, [0%nat], (fun _ => [1%nat]), (table [[0; 0; 0]; [0; 0; 1]; [1; 0; 0]; [1; 0; 1]]%Z), [0; 1; 2; 3]%nat. eexists _, _, _. cbv zeta.
  split; [vm_compute; reflexivity|]. split; [reflexivity|]. split; [vm_compute; reflexivity|]. split; [reflexivity|]. split; [vm_compute; reflexivity|]. intros c [<-|[<-|[]]]; split; vm_compute; reflexivity.
Qed.
Print Assumptions C54_sparse_dependencies_refuted.
