(** Properties C35-C37, C69 and C70: learning.

    [learnable] (LearnSpec.v) is the contract of the data and of the function
    arguments; [row_ok] and [rows_of] say which training rows satisfy a path. *)
Require Import QArith Qround ZArith Bool List Arith Permutation Lia Lqa.
Require Import Verif.Base Verif.NumBase Verif.DiscreteModel Verif.DiscreteProofs Verif.TreeModel Verif.TreeSpec Verif.TreeApply Verif.TreeInfer Verif.TreeDiscrete Verif.TreeWorlds Verif.TreeWorldProofs Verif.TreeWorldPrune Verif.TreeProps Verif.ImpurityModel Verif.ImpuritySpec Verif.ImpurityProofs Verif.ImpurityStats Verif.ImpurityBest Verif.ImpurityProps Verif.LearnModel Verif.LearnSpec Verif.LearnTree Verif.LearnProofs Verif.LearnInv Verif.LearnOpt Verif.LearnDiscrete.
Import ListNotations.
Open Scope nat_scope.

(** ** C35: learning partitions the training data *)

(** For every data matrix and every setting, [learn] succeeds within the stated number
    of steps; its result is a tree; every training row satisfies the path of exactly
    one leaf; the number of samples of a leaf is the number of training rows which
    satisfy its path and is positive; they add up to the number of rows; the priors are
    the shares of the rows and sum to 1; and the distributions of a leaf are fitted to
    exactly the rows which satisfy its path.

    Partial: [learnable] asks the computed midpoint to separate the two values, which
    fails for adjacent doubles (C35_adjacent_refuted). *)
Theorem C35_learn_partial : forall (F : family) val inf neg1 D imp kinds mk mid fit min_improvement max_depth cell_in N (full : var -> vset F),
  learnable val D kinds cell_in N neg1 imp mk mid fit -> 0 < N ->
  exists J, learn val inf neg1 D imp kinds mk mid fit min_improvement max_depth full N = Ok J /\ tree_ok J /\
    (forall r, r < N -> exists l, In l (leaves J) /\ row_ok D cell_in (l_path l) r = true /\
       forall l', In l' (leaves J) -> row_ok D cell_in (l_path l') r = true -> l' = l) /\
    (forall l, In l (leaves J) -> l_samples l = length (rows_of D cell_in N (l_path l)) /\ 0 < l_samples l /\
       (l_prior l == Qn (l_samples l) / Qn N)%Q /\ (0 < l_prior l)%Q /\
       exists rows, Permutation rows (rows_of D cell_in N (l_path l)) /\ mapM (fit rows) (seq 0 (length kinds)) = Ok (l_dists l)) /\
    Permutation (flat_map (fun l => rows_of D cell_in N (l_path l)) (leaves J)) (seq 0 N) /\
    list_sum (map l_samples (leaves J)) = N /\ (Qsum (map l_prior (leaves J)) == 1)%Q.
Proof.
  intros F val inf neg1 D imp kinds mk mid fit mi md cell_in N fl Lr Pos.
  destruct (learn_ok val inf neg1 D imp kinds mk mid fit mi md cell_in N Lr (fun _ _ _ _ _ => True) (fun _ => True)) with (fl := fl) as (J & ix & bl & ps & E & _ & I); try (intros; exact Logic.I); [exact Pos|].
  exists J. split; [exact E|]. split; [exact (finished_tree _ _ _ _ _ _ _ _ _ _ _ _ _ _ _ _ I)|]. split.
  { intros r Lt. destruct (row_one_leaf _ _ _ _ _ _ _ _ _ _ _ _ _ _ _ _ I r Lt) as (l1 & l & l2 & El & A & B). exists l. rewrite El. split; [apply in_or_app; right; left; reflexivity|]. split; [exact A|].
    intros l' Il' Hl'. apply in_app_or in Il'. destruct Il' as [Il'|[->|Il']]; [|reflexivity|]; rewrite B in Hl'; try discriminate; apply in_or_app; auto. }
  split.
  { intros l Il. destruct (leaf_facts _ _ _ _ _ _ _ _ _ _ _ _ _ _ _ _ I l Il) as (A & B & C & R). split; [exact A|]. split; [exact B|]. rewrite C. split; [reflexivity|]. split; [apply Qdiv_pos; apply Qn_pos; assumption|exact R]. }
  split; [exact (leaf_rows _ _ _ _ _ _ _ _ _ _ _ _ _ _ _ _ I)|].
  split; [|exact (priors_sum _ _ _ _ _ _ _ _ _ _ _ _ _ _ _ _ I Pos)].
  etransitivity; [|exact (samples_sum _ _ _ _ _ _ _ _ _ _ _ _ _ _ _ _ I)]. clear. induction (leaves J) as [|l ls IH]; [reflexivity|]. cbn [map fold_right]. rewrite <- IH. reflexivity.
Qed.
Print Assumptions C35_learn_partial.

(** Learning from no rows is refused. *)
Theorem C35_no_rows : forall (F : family) val inf neg1 D imp kinds mk mid fit min_improvement max_depth (full : var -> vset F),
  learn val inf neg1 D imp kinds mk mid fit min_improvement max_depth full 0 = Err ValueError.
Proof. reflexivity. Qed.
Print Assumptions C35_no_rows.

(** [postprocess_leaves] keeps all of this: it changes nothing but the distributions. *)
Theorem C35_postprocess : forall (F : family) post (J : jpt F),
  innernodes (postprocess post J) = innernodes J /\ root (postprocess post J) = root J /\
  Forall2 (fun l l' => l_idx l' = l_idx l /\ l_parent l' = l_parent l /\ l_path l' = l_path l /\ l_prior l' = l_prior l /\ l_samples l' = l_samples l /\ l_dists l' = post l) (leaves J) (leaves (postprocess post J)).
Proof.
  intros F post J. split; [reflexivity|]. split; [reflexivity|]. cbn [postprocess leaves with_nodes]. induction (leaves J) as [|l ls IH]; constructor; [cbn; auto 10|exact IH].
Qed.
Print Assumptions C35_postprocess.

(** A family for examples: value sets are predicates and a fitted distribution is the
    list of values it was fitted to. *)
Definition plain : family := {|
  value := Z; vset := Z -> bool; dist := list Z;
  inter := fun a b x => a x && b x; disj := fun _ _ => false; single := fun v x => Z.eqb v x; v_in := fun s x => s x;
  d_p := fun _ _ => Ok 0%Q; d_prob := fun _ _ => Ok 0%Q; d_like := fun _ _ => Ok 0%Q; d_pdf := fun _ _ => Ok 0%Q; d_lik := fun _ _ => Ok 0%Q;
  d_crop := fun d _ => Ok d; d_merge := fun _ _ => Ok []; d_mpe := fun _ => Err ValueError; d_expectation := fun _ => Err ValueError;
  d_moment := fun _ _ _ => Err ValueError; d_jaccard := fun _ _ => None |}.
Definition plain_mk (s : split_set) : vset plain := smem inject_Z s.
Definition plain_cell (s : vset plain) (x : Z) : bool := s x.
Definition plain_fit (D : nat -> nat -> Z) (rows : list nat) (v : var) : res (dist plain) := Ok (map (fun r => D r v) rows).
Definition plain_learn mid D imp kinds mi md N := learn (F := plain) inject_Z huge (-1)%Z D imp kinds plain_mk mid (plain_fit D) mi md (fun _ _ => true) N.

(** The midpoint of two integers, rounded up, separates them. *)
Definition up_mid (a b : Z) : Z := ((a + b + 1) / 2)%Z.

(** The data of C53_example: two numeric columns and a symbolic one with two values. *)
Definition ex_kinds := [Numeric; Numeric; Symbolic 2].
Lemma ex_learnable : learnable (F := plain) inject_Z ex_data ex_kinds plain_cell 4 (-1)%Z ex_imp plain_mk up_mid (plain_fit ex_data).
Proof.
  constructor.
  - intros a b H. unfold Qlt. cbn. lia.
  - reflexivity.
  - intros r v n Lr [K|K]; destruct v as [|[|[|v]]]; cbn in K; try discriminate; [|destruct v; discriminate|destruct v; discriminate]. injection K as <-.
    destruct r as [|[|[|[|r]]]]; [exists 0|exists 1|exists 0|exists 1|lia]; (split; [lia|reflexivity]).
  - intros v I. cbn in I. left. destruct I as [<-|[<-|[]]]; reflexivity.
  - intros v I. cbn in I. destruct I as [<-|[]]. exists 2. reflexivity.
  - intros r r' v _ _ _ H. unfold up_mid. assert (K := Z.div_mod (ex_data r v + ex_data r' v + 1) 2 ltac:(lia)). assert (B := Z.mod_pos_bound (ex_data r v + ex_data r' v + 1) 2 ltac:(lia)). lia.
  - intros rows v _ _ _. eexists. reflexivity.
  - intros v k s0 s1 _ _ r _. split; reflexivity.
Qed.

Definition learnt (r : res (jpt plain)) : list (nat * list Z * nat * list var * list (list Z)) :=
  match r with
  | Ok J => map (fun l : leaf plain => (l_idx l, [Qnum (l_prior l); Zpos (Qden (l_prior l))], l_samples l, map fst (l_path l), l_dists l)) (leaves J)
  | Err _ => []
  end.

(** One split on the symbolic column (rows 0 and 2 against rows 1 and 3); the second
    block is split again on column 0. *)
Example C35_example :
  learnt (plain_learn up_mid ex_data ex_imp ex_kinds (1 # 10) None 4) =
  [(1, [2; 4]%Z, 2, [2], [[3; 4]; [10; 10]; [0; 0]]%Z);
   (3, [1; 4]%Z, 1, [2; 0], [[1]; [20]; [1]]%Z);
   (4, [1; 4]%Z, 1, [2; 0], [[2]; [10]; [1]]%Z)].
Proof. vm_compute. reflexivity. Qed.

(** Adjacent doubles: their computed midpoint is one of them.  If it is the smaller one,
    the row with that value is counted in, and fitted to, the leaf [(-inf, a)] although
    it satisfies the path of the other leaf, which is fitted to one row but matched by two. *)
Theorem C35_adjacent_refuted : exists D imp kinds mid J l l',
  (forall a b, (a < b)%Z -> (a <= mid a b <= b)%Z) /\
  plain_learn mid D imp kinds 0 None 2 = Ok J /\ leaves J = [l; l'] /\
  l_samples l = 1 /\ rows_of D plain_cell 2 (l_path l) = [] /\ l_dists l = [[D 0 0]] /\
  l_samples l' = 1 /\ rows_of D plain_cell 2 (l_path l') = [0; 1].
Proof.
  exists (table [[0]; [1]]%Z), (from_tree 1 (fun _ => false) (fun _ => 0) (fun _ => false) [0] [0] (fun _ => [0]) 1), [Numeric], (fun a _ => a). eexists _, _, _.
  split; [intros; lia|]. split; [vm_compute; reflexivity|]. split; [reflexivity|]. vm_compute. auto 10.
Qed.
Print Assumptions C35_adjacent_refuted.

(** ** C36: hyper-parameters are honoured *)

(** No leaf is deeper than [max_depth] and no decision node is at that depth. *)
Theorem C36_max_depth_partial : forall (F : family) val inf neg1 D imp kinds mk mid fit min_improvement cell_in N (full : var -> vset F) m J,
  learnable val D kinds cell_in N neg1 imp mk mid fit ->
  learn val inf neg1 D imp kinds mk mid fit min_improvement (resolve_depth (Some (S m))) full N = Ok J ->
  (forall l, In l (leaves J) -> length (l_path l) <= S m) /\ (forall n, In n (innernodes J) -> length (i_path n) < S m).
Proof.
  intros F val inf neg1 D imp kinds mk mid fit mi cell_in N fl m J Lr E.
  assert (Pos : 0 < N) by (destruct N; [discriminate|lia]).
  destruct (learn_ok val inf neg1 D imp kinds mk mid fit mi (Some (S m)) cell_in N Lr (fun _ _ _ _ _ => True) (fun _ => True)) with (fl := fl) as (J' & ix & bl & ps & E' & _ & I); try (intros; exact Logic.I); [exact Pos|].
  cbn [resolve_depth] in E. rewrite E in E'. injection E' as <-. split.
  - intros l Il. exact (leaf_depth _ _ _ _ _ _ _ _ _ _ _ _ _ _ _ _ I l (S m) Il eq_refl).
  - intros n In_. destruct (finished_inner _ _ _ _ _ _ _ _ _ _ _ _ _ _ _ _ I n In_) as (_ & Dp & _). cbn [depth_allows] in Dp. apply Nat.ltb_lt, Dp.
Qed.
Print Assumptions C36_max_depth_partial.

(** [max_depth = 0] means no limit. *)
Theorem C36_max_depth_zero_refuted : exists D imp kinds J l,
  plain_learn up_mid D imp kinds 0 (resolve_depth (Some 0)) 2 = Ok J /\ In l (leaves J) /\ length (l_path l) = 1.
Proof.
  exists (table [[0]; [9]]%Z), (from_tree 1 (fun _ => false) (fun _ => 0) (fun _ => false) [0] [0] (fun _ => [0]) 1), [Numeric]. eexists _, _.
  split; [vm_compute; reflexivity|]. split; [left; reflexivity|reflexivity].
Qed.
Print Assumptions C36_max_depth_zero_refuted.

(** With finite feature values, the default dependencies and a symbolic target for
    symbolic features (as in C54): the splits of every decision node separate its rows
    into two legal sides, with an improvement of at least [min_improvement] and at
    least that of every other legal split; no leaf has fewer rows than
    [min_samples_leaf] demands, unless all data do; and a leaf which is not at the
    maximal depth has no legal split which improves by [min_improvement]. *)
Theorem C36_hyperparameters_partial : forall (F : family) val inf neg1 D imp kinds mk mid fit min_improvement max_depth cell_in N (full : var -> vset F) J,
  learnable val D kinds cell_in N neg1 imp mk mid fit ->
  (forall r v, r < N -> In v (numeric_features imp ++ symbolic_features imp) -> inf (D r v) = false) ->
  (forall v, In v (numeric_features imp ++ symbolic_features imp) -> full_dependencies imp v) ->
  (symbolic_features imp = [] \/ symbolic_vars imp <> []) ->
  learn val inf neg1 D imp kinds mk mid fit min_improvement max_depth full N = Ok J ->
  let rows := rows_of D cell_in N in
  (forall l, In l (leaves J) -> (min_samples_leaf imp <= Qn N)%Q -> (min_samples_leaf imp <= Qn (l_samples l))%Q) /\
  (forall n, In n (innernodes J) -> exists s0 s1 g, i_splits n = [s0; s1] /\
     let L := rows (i_path n ++ [(i_var n, s0)]) in let R := rows (i_path n ++ [(i_var n, s1)]) in
     legal_split D imp (i_var n) (rows (i_path n)) L R /\ (g == split_improvement val D imp (i_var n) (rows (i_path n)) L R)%Q /\ (min_improvement <= g)%Q /\
     forall v L' R', In v (numeric_features imp ++ symbolic_features imp) -> legal_split D imp v (rows (i_path n)) L' R' ->
       (split_improvement val D imp v (rows (i_path n)) L' R' <= g)%Q) /\
  (forall l v L R, In l (leaves J) -> (forall m, max_depth = Some m -> length (l_path l) < m) ->
     In v (numeric_features imp ++ symbolic_features imp) -> legal_split D imp v (rows (l_path l)) L R ->
     (split_improvement val D imp v (rows (l_path l)) L R < min_improvement)%Q).
Proof.
  intros F val inf neg1 D imp kinds mk mid fit mi md cell_in N fl J Lr Fin Full Guard E rows.
  assert (Pos : 0 < N) by (destruct N; [discriminate|lia]).
  assert (Guard' : symbolic_features imp = [] \/ has_symbolic_vars imp = true).
  { destruct Guard as [G|G]; [left; exact G|right]. unfold has_symbolic_vars, n_sym. destruct (symbolic_vars imp); [contradiction|reflexivity]. }
  assert (Neg : forall r v, r < N -> In v (symbolic_features imp) -> (neg1 < D r v)%Z).
  { intros r v Lt I. destruct (l_symbolic _ _ _ _ _ _ _ _ _ _ Lr v I) as [n K]. apply (neg1_below val neg1 D imp kinds mk mid fit cell_in N Lr r v n Lt K). }
  destruct (learn_ok val inf neg1 D imp kinds mk mid fit mi md cell_in N Lr (taken val D imp) (stopped val D imp mi)) with (fl := fl) as (J' & ix & bl & ps & E' & _ & I).
  { apply (taken_search val D imp inf neg1 N Fin Neg Full Guard'). }
  { apply taken_perm. }
  { apply (stopped_search val D imp inf neg1 N Fin Neg Full Guard'). }
  { apply stopped_perm. }
  { exact Pos. }
  rewrite E in E'. injection E' as <-. split; [|split].
  - intros l Il Ln. destruct (leaf_facts _ _ _ _ _ _ _ _ _ _ _ _ _ _ _ _ I l Il) as (Es & _). rewrite Es.
    destruct (leaf_parent _ _ _ _ _ _ _ _ _ _ _ _ _ _ _ _ I l Il) as [[_ ->]|(n & v & s0 & s1 & k & g & In_ & _ & _ & _ & _ & Pth & _ & _ & (_ & _ & _ & _ & M0 & M1) & _)]; [rewrite seq_length; exact Ln|].
    destruct Pth as [-> | ->]; assumption.
  - intros n In_. destruct (finished_inner _ _ _ _ _ _ _ _ _ _ _ _ _ _ _ _ I n In_) as (_ & _ & s0 & s1 & k & Es & _ & _ & g & Mg & (_ & Le & Eg & Opt)). exists (mk s0), (mk s1), g. split; [exact Es|]. cbv zeta. auto.
  - intros l v L R Il Dp Iv Le. destruct (leaf_stop _ _ _ _ _ _ _ _ _ _ _ _ _ _ _ _ I l Il) as [Z0|St]; [|apply St; assumption]. exfalso. unfold depth_allows in Z0. destruct md as [m|]; [|discriminate]. apply Nat.ltb_ge in Z0. specialize (Dp m eq_refl). lia.
Qed.
Print Assumptions C36_hyperparameters_partial.

(** The limit on the samples: an int is taken as it is, a float in (0,1) is a share of
    the rows, at least one. *)
Theorem C36_min_samples_limit : forall n z q,
  (resolve_limit (IntLimit z) n == inject_Z z)%Q /\
  (0 < q < 1 -> exists k, resolve_limit (FloatLimit q) n == Qn k /\ 1 <= Qn k /\ (Qn k <= q * Qn n \/ k = 1%nat) /\ q * Qn n < Qn k + 1)%Q /\
  ((0 < q < 1)%Q -> 0 < n -> (resolve_limit (FloatLimit q) n <= Qn n)%Q).
Proof.
  intros n z q. split; [reflexivity|].
  assert (K : (0 < q < 1 -> exists k, resolve_limit (FloatLimit q) n == Qn k /\ 1 <= Qn k /\ (Qn k <= q * Qn n \/ k = 1%nat) /\ q * Qn n < Qn k + 1)%Q).
  { intros [A B]. unfold resolve_limit. assert (Qltb 0 q && Qltb q 1 = true) as ->. { apply andb_true_iff. unfold Qltb. destruct (Qltb_spec 0 q); [|lra]. destruct (Qltb_spec q 1); [|lra]. auto. }
    exists (Z.to_nat (Z.max 1 (Qfloor (q * Qn n)))). assert (E : (Qn (Z.to_nat (Z.max 1 (Qfloor (q * Qn n)))) == inject_Z (Z.max 1 (Qfloor (q * Qn n))))%Q). { unfold Qn. rewrite Z2Nat.id by lia. reflexivity. }
    split; [rewrite E; reflexivity|]. split; [rewrite E; change 1%Q with (inject_Z 1); rewrite <- Zle_Qle; lia|]. pose proof (Qfloor_le (q * Qn n)) as F1. pose proof (Qlt_floor (q * Qn n)) as F2. split.
    - destruct (Z.max_spec 1 (Qfloor (q * Qn n))) as [[_ M]|[_ M]]; rewrite M; [left|right; reflexivity]. unfold Qn at 1. destruct (Z_lt_le_dec (Qfloor (q * Qn n)) 0) as [Ng|Nn]; [rewrite Z2Nat.id|rewrite Z2Nat.id by lia; exact F1]; lia.
    - rewrite E. eapply Qlt_le_trans; [exact F2|]. rewrite inject_Z_plus. apply Qplus_le_l. rewrite <- Zle_Qle. lia. }
  split; [exact K|]. intros H Pos. destruct (K H) as (k & E & _ & [C|C] & _); rewrite E.
  - eapply Qle_trans; [exact C|]. assert (0 < Qn n)%Q by (apply Qn_pos; exact Pos). nra.
  - subst k. unfold Qn. rewrite <- Zle_Qle. lia.
Qed.
Print Assumptions C36_min_samples_limit.

Example C36_example : exists J, plain_learn up_mid ex_data ex_imp ex_kinds (1 # 10) (resolve_depth (Some 1)) 4 = Ok J /\ map (fun l : leaf plain => length (l_path l)) (leaves J) = [1; 1] /\
  map (fun l : leaf plain => l_samples l) (leaves J) = [2; 2].
Proof. eexists. split; [vm_compute; reflexivity|]. split; reflexivity. Qed.
Example C36_limit_example : (resolve_limit (FloatLimit (1 # 3)) 10 == 3)%Q /\ (resolve_limit (FloatLimit (1 # 100)) 10 == 1)%Q /\ (resolve_limit (IntLimit 40) 10 == 40)%Q.
Proof. repeat split. Qed.

(** A symbolic feature without symbolic targets: a leaf with fewer rows than
    [min_samples_leaf] demands (from C54_sample_count_refuted). *)
Theorem C36_min_samples_refuted : exists D imp kinds J l,
  (forall v, In v (numeric_features imp ++ symbolic_features imp) -> full_dependencies imp v) /\
  plain_learn up_mid D imp kinds 0 None 5 = Ok J /\ In l (leaves J) /\ (min_samples_leaf imp == 2)%Q /\ l_samples l = 1.
Proof.
  exists (table [[0; 0]; [1; 10]; [2; 0]; [2; 0]; [2; 0]]%Z), (from_tree 2 (Nat.eqb 0) (fun _ => 3) (fun _ => false) [1] [0] (fun _ => [1]) 2), [Symbolic 3; Numeric]. eexists _, _.
  split; [intros v _; split; intros w Iw; vm_compute in Iw |- *; tauto|]. split; [vm_compute; reflexivity|]. split; [left; reflexivity|]. split; reflexivity.
Qed.
Print Assumptions C36_min_samples_refuted.

(** ** C37: the leaves of a learnt tree partition the worlds *)

(** For symbolic and integer variables. *)
Theorem C37_learnt_discrete : forall val inf neg1 D imp doms mid min_improvement max_depth N J w,
  coded val neg1 D imp doms N ->
  learn val inf neg1 D imp (map kind_of doms) dmk mid (dfit val D doms) min_improvement max_depth (dfull doms) N = Ok J ->
  In w (worlds doms) ->
  exists l, In l (leaves J) /\ encode J w = Ok (l_idx l) /\ sat (l_path l) w = true /\
    forall l', In l' (leaves J) -> sat (l_path l') w = true -> l' = l.
Proof.
  intros val inf neg1 D imp doms mid mi md N J w Cd E Iw. assert (Pos : 0 < N) by (destruct N; [discriminate|lia]).
  destruct (learn_ok val inf neg1 D imp (map kind_of doms) dmk mid (dfit val D doms) mi md (dcell val) N (coded_learnable val neg1 D imp doms mid N Cd) (fun _ _ _ _ _ => True) (fun _ => True)) with (fl := dfull doms) as (J' & ix & bl & ps & E' & _ & I); try (intros; exact Logic.I); [exact Pos|].
  rewrite E in E'. injection E' as <-. apply (C37_encode_partial doms J w); [exact (learnt_wf _ _ _ _ _ _ _ _ _ Cd _ _ _ _ _ _ I)|exact Iw|]. exact (learnt_partitioning _ _ _ _ _ _ _ _ _ _ _ _ _ I).
Qed.
Print Assumptions C37_learnt_discrete.

(** Numeric variables.  Intervals with optional bounds, the membership test of
    Node.contains (trees.py:179): [lower < x <= upper]. *)
Definition bounds : family := {|
  value := Z; vset := option Z * option Z; dist := unit;
  inter := fun a b => (match fst a, fst b with Some x, Some y => Some (Z.max x y) | Some x, None => Some x | None, o => o end,
                       match snd a, snd b with Some x, Some y => Some (Z.min x y) | Some x, None => Some x | None, o => o end);
  disj := fun _ _ => false; single := fun v => (Some v, Some v);
  v_in := fun s x => match fst s with Some l => (l <? x)%Z | None => true end && match snd s with Some u => (x <=? u)%Z | None => true end;
  d_p := fun _ _ => Ok 0%Q; d_prob := fun _ _ => Ok 0%Q; d_like := fun _ _ => Ok 0%Q; d_pdf := fun _ _ => Ok 0%Q; d_lik := fun _ _ => Ok 0%Q;
  d_crop := fun d _ => Ok d; d_merge := fun _ _ => Ok tt; d_mpe := fun _ => Err ValueError; d_expectation := fun _ => Err ValueError;
  d_moment := fun _ _ _ => Err ValueError; d_jaccard := fun _ _ => None |}.
Definition bounds_mk (s : split_set) : vset bounds := match s with Below m => (None, Some m) | From m => (Some m, None) | Values _ => (None, None) end.
(** The splits are (-inf, m) and [m, inf). *)
Definition bounds_cell (s : vset bounds) (x : Z) : bool :=
  match fst s with Some l => (l <=? x)%Z | None => true end && match snd s with Some u => (x <? u)%Z | None => true end.

(** The world at the split point satisfies the path of the right leaf only, but
    [encode] returns the left one. *)
Theorem C37_boundary_refuted : exists D imp N J x l l',
  learnable (F := bounds) inject_Z D [Numeric] bounds_cell N (-1)%Z imp bounds_mk up_mid (fun _ _ => Ok tt) /\
  learn (F := bounds) inject_Z huge (-1)%Z D imp [Numeric] bounds_mk up_mid (fun _ _ => Ok tt) 0%Q None (fun _ => (None, None)) N = Ok J /\
  leaves J = [l; l'] /\ encode J [x] = Ok (l_idx l) /\ l_idx l <> l_idx l' /\
  forallb (fun vs => bounds_cell (snd vs) x) (l_path l) = false /\ forallb (fun vs => bounds_cell (snd vs) x) (l_path l') = true.
Proof.
  exists (table [[0]; [8]]%Z), (from_tree 1 (fun _ => false) (fun _ => 0) (fun _ => false) [0] [0] (fun _ => [0]) 1), 2. eexists _, 4%Z, _, _.
  split; [|split; [vm_compute; reflexivity|]; split; [reflexivity|]; split; [vm_compute; reflexivity|]; split; [discriminate|]; split; reflexivity].
  constructor.
  - intros a b H. unfold Qlt. cbn. lia.
  - reflexivity.
  - intros r v n _ [K|K]; destruct v as [|[|v]]; discriminate.
  - intros v [<-|[]]. left. reflexivity.
  - intros v [].
  - intros r r' v _ _ _ H. unfold up_mid. set (a := table _ r v) in *. set (b := table _ r' v) in *. pose proof (Z.div_mod (a + b + 1) 2 ltac:(lia)). pose proof (Z.mod_pos_bound (a + b + 1) 2 ltac:(lia)). lia.
  - intros rows v _ _ _. eexists. reflexivity.
  - intros v k s0 s1 K Sp r0 _. destruct v as [|v]; [|destruct v; discriminate]. injection K as <-. destruct Sp as (r & r' & _ & _ & _ & -> & ->). unfold bounds_cell, bounds_mk, smem. cbn [fst snd]. rewrite andb_true_r. split; reflexivity.
Qed.
Print Assumptions C37_boundary_refuted.

(** ** C69: a learnt tree reproduces the marginals of the data *)

(** Symbolic and integer variables: the learnt tree is well-formed, so that all
    theorems about [wf_tree]s apply to it; the probability of every event of one
    variable is its relative frequency in the training data; and [infer] returns it. *)
Theorem C69_marginals : forall val inf neg1 D imp doms mid min_improvement max_depth N,
  coded val neg1 D imp doms N -> 0 < N ->
  exists J, learn val inf neg1 D imp (map kind_of doms) dmk mid (dfit val D doms) min_improvement max_depth (dfull doms) N = Ok J /\
    wf_tree doms J /\ (Qsum (map l_prior (leaves J)) == 1)%Q /\
    forall v s, v < length doms -> (forall x, In x s -> x < n_values (domain doms v)) ->
      let frequency := (Qn (length (filter (fun r => existsb (Nat.eqb (int_at val D r v)) s) (seq 0 N))) / Qn N)%Q in
      (Pr doms J [(v, s)] == frequency)%Q /\ exists p, infer J [(v, s)] [] true = Ok (Some p) /\ (p == frequency)%Q.
Proof.
  intros val inf neg1 D imp doms mid mi md N Cd Pos.
  destruct (learn_ok val inf neg1 D imp (map kind_of doms) dmk mid (dfit val D doms) mi md (dcell val) N (coded_learnable val neg1 D imp doms mid N Cd) (fun _ _ _ _ _ => True) (fun _ => True)) with (fl := dfull doms) as (J & ix & bl & ps & E & _ & I); try (intros; exact Logic.I); [exact Pos|].
  pose proof (learnt_wf _ _ _ _ _ _ _ _ _ Cd _ _ _ _ _ _ I) as W. pose proof (priors_sum _ _ _ _ _ _ _ _ _ _ _ _ _ _ _ _ I Pos) as Sp.
  exists J. split; [exact E|]. split; [exact W|]. split; [exact Sp|]. intros v s Lv Hs frequency.
  assert (M : (Pr doms J [(v, s)] == frequency)%Q) by exact (learnt_marginal _ _ _ _ _ _ _ _ _ Cd _ _ _ _ _ _ I v s Lv Hs). split; [exact M|].
  assert (W0 : wf_query doms []) by (split; [constructor|intros v' s' []]).
  assert (W1 : wf_query doms [(v, s)]) by (split; [constructor; [intros []|constructor]|intros v' s' [K|[]]; injection K as <- <-; auto]).
  assert (P1 : (Pr doms J [] == 1)%Q). { rewrite (Pr_mixture doms J W [] W0), <- Sp. apply Qsum_map_ext. intros l _. cbn [leaf_prob]. lra. }
  destruct (proj2 (C39_infer_partial doms J [(v, s)] [] true W W1 W0 ltac:(intros v' _ [])) ltac:(rewrite P1; discriminate)) as (p & Ep & Pp & _).
  exists p. split; [exact Ep|]. rewrite Pp. cbn [app]. rewrite M, P1. field.
Qed.
Print Assumptions C69_marginals.

(** The distributions of a leaf are the relative frequencies in the training rows which
    satisfy its path. *)
Theorem C69_leaf_frequencies : forall val inf neg1 D imp doms mid min_improvement max_depth N J l v x,
  coded val neg1 D imp doms N ->
  learn val inf neg1 D imp (map kind_of doms) dmk mid (dfit val D doms) min_improvement max_depth (dfull doms) N = Ok J ->
  In l (leaves J) -> v < length doms ->
  let rows := filter (fun r => forallb (fun vs => existsb (Nat.eqb (int_at val D r (fst vs))) (snd vs)) (l_path l)) (seq 0 N) in
  exists d, nth_error (l_dists l) v = Some d /\ (nth x (d_params d) 0 == Qn (length (filter (fun r => Nat.eqb x (int_at val D r v)) rows)) / Qn (length rows))%Q.
Proof.
  intros val inf neg1 D imp doms mid mi md N J l v x Cd E Il Lv rows. assert (Pos : 0 < N) by (destruct N; [discriminate|lia]).
  destruct (learn_ok val inf neg1 D imp (map kind_of doms) dmk mid (dfit val D doms) mi md (dcell val) N (coded_learnable val neg1 D imp doms mid N Cd) (fun _ _ _ _ _ => True) (fun _ => True)) with (fl := dfull doms) as (J' & ix & bl & ps & E' & _ & I); try (intros; exact Logic.I); [exact Pos|].
  rewrite E in E'. injection E' as <-. destruct (learnt_dists _ _ _ _ _ _ _ _ _ Cd _ _ _ _ _ _ I l v Il Lv) as (p & Ed & _ & _ & _ & G). destruct (leaf_facts _ _ _ _ _ _ _ _ _ _ _ _ _ _ _ _ I l Il) as (Es & _).
  exists (DDist (domain doms v) p). split; [exact Ed|]. cbn [d_params]. rewrite G, Es. reflexivity.
Qed.
Print Assumptions C69_leaf_frequencies.

(** A symbolic variable with three values and an integer variable 5..6. *)
Definition d_doms := [SymDom [None; None; None]; IntDom 5 6].
Definition d_data := table [[0; 0]; [1; 1]; [2; 0]; [1; 1]; [0; 1]]%Z.
Definition d_imp := from_tree 2 (Nat.eqb 0) (fun v => nth v [3; 2] 0) (fun _ => false) [0; 1] [0; 1] (fun _ => [0; 1]) 1.
Lemma d_coded : coded inject_Z (-1)%Z d_data d_imp d_doms 5.
Proof.
  constructor.
  - intros a b H. unfold Qlt. cbn. lia.
  - reflexivity.
  - intros r v Lr Lv. cbn in Lv. destruct v as [|[|v]]; [| |lia]; destruct r as [|[|[|[|[|r]]]]]; try lia;
      first [exists 0; split; [cbn; lia|reflexivity]|exists 1; split; [cbn; lia|reflexivity]|exists 2; split; [cbn; lia|reflexivity]].
  - intros v [<-|[]]. split; [cbn; lia|]. exists 5%Z, 6%Z. reflexivity.
  - intros v [<-|[]]. split; [cbn; lia|]. eexists. reflexivity.
Qed.
Definition d_learn := learn (F := discrete) inject_Z huge (-1)%Z d_data d_imp (map kind_of d_doms) dmk up_mid (dfit inject_Z d_data d_doms) 0 None (dfull d_doms) 5.
Definition d_infer (q : list (nat * list nat)) : option Q := match d_learn with Ok J => match infer J q [] true with Ok (Some p) => Some (Qred p) | _ => None end | Err _ => None end.
Example C69_example :
  match d_learn with Ok J => length (leaves J) | Err _ => 0 end = 4 /\ d_infer [(0, [0; 2])] = Some (3 # 5)%Q /\ d_infer [(1, [1])] = Some (3 # 5)%Q.
Proof. vm_compute. auto. Qed.
