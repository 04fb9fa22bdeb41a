(** Properties C21-C23: fitted distributions, the regressor, probabilities of intervals.
    The vocabulary is in [NumericSpec.v]. *)
Require Import ZArith QArith Qabs Lqa Bool List Arith Lia Sorted.
Require Import Verif.Base Verif.FloatLine Verif.FloatVal Verif.IntervalModel Verif.IntervalSpec Verif.IntervalProofs Verif.IntervalDec
  Verif.NumBase Verif.UtilModel Verif.FunctionModel Verif.FunctionSpec Verif.FunctionProofs Verif.NumericModel Verif.NumericSpec
  Verif.NumericReg Verif.NumericFit Verif.NumericProb.
Import ListNotations.
Open Scope Z_scope.

(** * C21: fitted cdfs *)

Lemma fit_plain : forall rows, fit_samples None None rows = Ok rows.
Proof.
  intro rows. unfold fit_samples. assert (forallb (fun _ : Z => true && true) rows = true) as ->.
  { apply forallb_forall. reflexivity. } cbn [app]. rewrite app_nil_r. reflexivity.
Qed.

(** Every non-empty sample: 0 to the left of the smallest sample, 1 from the largest sample
    on, monotone, within [0, 1] -- for any tolerance. *)
Theorem C21_fit_proper : forall epsilon rows, rows <> [] -> Forall finite rows ->
  exists p lo hi, fit_cdf epsilon None None rows = Ok p /\ least lo rows /\ largest hi rows /\ proper_cdf p lo hi.
Proof.
  intros epsilon rows N F. destruct (fit_nonempty epsilon None None rows rows (fit_plain rows) N F) as [(x & A & I & E)|(p & ks & E & Ft)].
  - exists (dirac x), x, x. split; [exact E|]. rewrite Forall_forall in F.
    split; [split; [exact I|intros y K; rewrite (A y K); lia]|]. split; [split; [exact I|intros y K; rewrite (A y K); lia]|].
    apply dirac_proper. apply F. exact I.
  - exists p, (hd 0 ks), (last ks 0). split; [exact E|]. split; [apply (ft_least _ _ _ Ft)|]. split; [apply (ft_largest _ _ _ Ft)|apply (ft_proper _ _ _ Ft)].
Qed.

(** With additional leftmost and rightmost points, which lie strictly outside the sample. *)
Theorem C21_fit_extended : forall epsilon leftmost rightmost rows data,
  (forall l x, leftmost = Some l -> In x rows -> l < x) -> (forall r x, rightmost = Some r -> In x rows -> x < r) ->
  data = match leftmost with Some l => [l] | None => [] end ++ rows ++ match rightmost with Some r => [r] | None => [] end ->
  data <> [] -> Forall finite data ->
  exists p lo hi, fit_cdf epsilon leftmost rightmost rows = Ok p /\ least lo data /\ largest hi data /\ proper_cdf p lo hi.
Proof.
  intros epsilon lm rm rows data Hl Hr Ed N F.
  assert (Es : fit_samples lm rm rows = Ok data).
  { unfold fit_samples. assert (forallb (fun x => match lm with Some l => (l <? x)%Z | None => true end
                       && match rm with Some r => (x <? r)%Z | None => true end) rows = true) as ->; [|subst data; reflexivity].
    apply forallb_forall. intros x I. destruct lm as [l|], rm as [r|]; cbn [andb]; rewrite ?andb_true_r;
      rewrite ?andb_true_iff; repeat split; apply Z.ltb_lt; auto. }
  destruct (fit_nonempty epsilon lm rm rows data Es N F) as [(x & A & I & E)|(p & ks & E & Ft)].
  - exists (dirac x), x, x. split; [exact E|]. rewrite Forall_forall in F.
    split; [split; [exact I|intros y K; rewrite (A y K); lia]|]. split; [split; [exact I|intros y K; rewrite (A y K); lia]|].
    apply dirac_proper. apply F. exact I.
  - exists p, (hd 0 ks), (last ks 0). split; [exact E|]. split; [apply (ft_least _ _ _ Ft)|]. split; [apply (ft_largest _ _ _ Ft)|apply (ft_proper _ _ _ Ft)].
Qed.

(** A sample with at least two different values: the cdf passes through empirical
    quantiles at a selection of the sample values, which contains the smallest and the
    largest one, and is straight in between. *)
Theorem C21_fit_quantiles : forall epsilon rows x y, In x rows -> In y rows -> x <> y -> Forall finite rows ->
  exists p knots, fit_cdf epsilon None None rows = Ok p
    /\ StronglySorted Z.lt knots /\ least (hd 0 knots) rows /\ largest (last knots 0) rows
    /\ (forall k, In k knots -> In k rows /\ plf_is p k (quantile rows k))
    /\ (forall a b z, consecutive a b knots -> a <= z <= b ->
          plf_is p z (interpolate (dval a) (quantile rows a) (dval b) (quantile rows b) (dval z))).
Proof.
  intros epsilon rows x y Ix Iy Nxy F. assert (N : rows <> []) by (intros ->; destruct Ix).
  destruct (fit_nonempty epsilon None None rows rows (fit_plain rows) N F) as [(z & A & _)|(p & ks & E & Ft)].
  { exfalso. apply Nxy. rewrite (A x Ix), (A y Iy). reflexivity. }
  exists p, ks. split; [exact E|]. split; [apply (ft_inc _ _ _ Ft)|]. split; [apply (ft_least _ _ _ Ft)|]. split; [apply (ft_largest _ _ _ Ft)|].
  split; [|apply (ft_line _ _ _ Ft)]. intros k I. split; [apply (ft_data _ _ _ Ft); exact I|].
  assert (C : (exists b, consecutive k b ks) \/ (exists a, consecutive a k ks)).
  { pose proof (ft_len _ _ _ Ft) as L. apply in_split in I. destruct I as (l1 & l2 & ->). destruct l2 as [|b l2].
    - right. destruct (exists_last (l := l1)) as (l1' & a & ->); [intros ->; cbn in L; lia|]. exists a, l1', []. rewrite <- app_assoc. reflexivity.
    - left. exists b, l1, l2. reflexivity. }
  pose proof (ft_inc _ _ _ Ft) as So. destruct C as [(b & C)|(a & C)]; pose proof C as (l1 & l2 & Ek).
  - assert (L : k < b).
    { rewrite Ek in So. replace (l1 ++ k :: b :: l2) with ((l1 ++ [k]) ++ b :: l2) in So by (rewrite <- app_assoc; reflexivity).
      apply (SS_inv_app _ _ _ _ _ So); [apply in_or_app; right; left; reflexivity|left; reflexivity]. }
    pose proof (dval_lt _ _ L). apply (plf_is_wd _ _ _ _) with (2 := ft_line _ _ _ Ft k b k C ltac:(lia)). unfold interpolate. field. lra.
  - assert (L : a < k).
    { rewrite Ek in So. replace (l1 ++ a :: k :: l2) with ((l1 ++ [a]) ++ k :: l2) in So by (rewrite <- app_assoc; reflexivity).
      apply (SS_inv_app _ _ _ _ _ So); [apply in_or_app; right; left; reflexivity|left; reflexivity]. }
    pose proof (dval_lt _ _ L). apply (plf_is_wd _ _ _ _) with (2 := ft_line _ _ _ Ft a k k C ltac:(lia)). unfold interpolate. field. lra.
Qed.

(** No samples and no additional points: an error. *)
Theorem C21_fit_empty : forall epsilon, exists e, fit_cdf epsilon None None [] = Err e.
Proof. intro epsilon. exists IndexError. reflexivity. Qed.

Print Assumptions C21_fit_proper.
Print Assumptions C21_fit_extended.
Print Assumptions C21_fit_quantiles.
Print Assumptions C21_fit_empty.
(** Samples 2, 0, 1, 0. *)
Example C21_example : [TWO; 0; ONE; 0] <> [] /\ Forall finite [TWO; 0; ONE; 0]
  /\ exists p, fit_cdf (1 # 100) None None [TWO; 0; ONE; 0] = Ok p /\ plf_is p HALF (1 # 2).
Proof.
  split; [discriminate|]. split; [repeat (apply Forall_cons || apply Forall_nil); split; vm_compute; reflexivity|].
  eexists. split; [vm_compute; reflexivity|]. eexists. split; [vm_compute; reflexivity|vm_compute; reflexivity].
Qed.

(** * C22: the regressor *)

(** For every data array of two or more columns, every tolerance and every limit on the
    number of splits the regressor terminates and selects columns in strictly increasing
    order, the first and the last one among them. *)
Theorem C22_support_points : forall X Y n eps max_splits, (2 <= n)%nat ->
  exists idx, regress X Y n eps max_splits = Ok idx
    /\ StronglySorted lt idx /\ hd O idx = O /\ last idx O = (n - 1)%nat /\ (forall k, In k idx -> (k < n)%nat).
Proof.
  intros X Y n eps ms H. destruct (regress_spec X Y n eps ms H) as (idx & E & A & B & C & D & _). exists idx. auto.
Qed.

Lemma bend_eq : forall (X Y : nat -> Q) a b s, (a < s < b)%nat -> (forall i j, (a <= i)%nat -> (i < j)%nat -> (j <= b)%nat -> (X i < X j)%Q) ->
  (split_err X Y a b s == bend_error X Y a s b)%Q.
Proof.
  intros X Y a b s H HX. unfold split_err, bend_error.
  assert (E : seq (S a) (b - a - 1) = seq (S a) (s - a) ++ seq (S s) (b - s - 1)).
  { replace (b - a - 1)%nat with ((s - a) + (b - s - 1))%nat by lia. rewrite seq_app. f_equal. f_equal. lia. }
  rewrite E, map_app, Qsum_app. apply Qmult_comp; [|reflexivity]. apply Qplus_comp.
  - unfold sse_left. apply Qsum_map_ext. intros k I. apply in_seq in I. cbv zeta. destruct (Nat.leb_spec k s); [|lia]. reflexivity.
  - unfold sse_right. apply Qsum_map_ext. intros k I. apply in_seq in I. cbv zeta. destruct (Nat.leb_spec k s); [lia|].
    pose proof (HX s b ltac:(lia) ltac:(lia) ltac:(lia)) as L.
    assert (line X Y b s k == chord X Y s b k)%Q as ->; [|reflexivity]. unfold line, chord. field. split; lra.
Qed.

(** One step of the regressor on the columns between [a] and [b]: no split if none lowers
    the given error (a negative error stands for "unknown"); otherwise the column is
    selected where the bent line deviates least from the data, and a part is examined
    further exactly if the mean squared deviation of its chord is [eps] or more. *)
Theorem C22_best_split : forall (X Y : nat -> Q) eps max_splits a b mse depth points, (a + 2 <= b)%nat ->
  (max_splits <= 0 \/ Z.of_nat depth < max_splits) ->
  (forall i j, (a <= i)%nat -> (i < j)%nat -> (j <= b)%nat -> (X i < X j)%Q) ->
  let '(points', jobs) := forward X Y eps max_splits (Job a b mse depth) points in
  (points' = points /\ jobs = [] /\ forall t, (a < t < b)%nat -> (0 <= mse <= bend_error X Y a t b)%Q)
  \/ exists t, (a < t < b)%nat /\ points' = pq_push t points
       /\ (mse < 0 \/ bend_error X Y a t b < mse)%Q
       /\ (forall u, (a < u < b)%nat -> (bend_error X Y a t b <= bend_error X Y a u b)%Q)
       /\ (forall j, In j jobs -> j_depth j = S depth /\ ((j_start j = a /\ j_end j = t) \/ (j_start j = t /\ j_end j = b)) /\ (eps <= j_mse j)%Q)
       /\ ((exists j, In j jobs /\ j_start j = a /\ j_end j = t) <-> (eps <= sse_left X Y a t / Qn (t - a))%Q)
       /\ ((exists j, In j jobs /\ j_start j = t /\ j_end j = b) <-> (eps <= sse_right X Y b t / Qn (b - t))%Q).
Proof.
  intros X Y eps ms a b mse depth points Hab Hms HX. unfold forward. cbn [j_start j_end j_mse j_depth].
  destruct (Nat.ltb_spec (b - a) 2); [lia|].
  assert (((0 <? ms) && (ms <=? Z.of_nat depth)) = false) as ->.
  { apply andb_false_iff. destruct Hms; [left; apply Z.ltb_ge; lia|right; apply Z.leb_gt; lia]. }
  cbn [orb]. pose proof (split_search X Y a b ltac:(lia) HX mse) as K. unfold start_sums in K.
  destruct (best _) as [[[t el] er]|].
  - destruct K as (Ht & Hl & Hr & Hm & Hu). right. exists t. split; [exact Ht|]. split; [reflexivity|].
    split; [rewrite <- (bend_eq X Y a b t Ht HX); exact Hm|]. split.
    { intros u Bu. rewrite <- (bend_eq X Y a b u Bu HX), <- (bend_eq X Y a b t Ht HX). apply Hu. exact Bu. }
    assert (Le : forall x y, (x == y)%Q -> (Qle_bool eps x = true <-> (eps <= y)%Q)).
    { intros x y E. rewrite Qle_bool_iff, E. reflexivity. }
    split; [|split].
    + intros j I. apply in_app_or in I. destruct I as [I|I].
      * destruct (Qle_bool eps el) eqn:B; [|destruct I]. destruct I as [<-|[]]. cbn. split; [reflexivity|]. split; [left; auto|]. apply Qle_bool_iff, B.
      * destruct (Qle_bool eps er) eqn:B; [|destruct I]. destruct I as [<-|[]]. cbn. split; [reflexivity|]. split; [right; auto|]. apply Qle_bool_iff, B.
    + rewrite <- (Le el _ Hl). split.
      * intros (j & I & A1 & A2). apply in_app_or in I. destruct (Qle_bool eps el); [reflexivity|]. destruct I as [[]|I].
        destruct (Qle_bool eps er); [|destruct I]. destruct I as [<-|[]]. cbn in *. lia.
      * intro B. rewrite B. eexists. split; [left; reflexivity|auto].
    + rewrite <- (Le er _ Hr). split.
      * intros (j & I & A1 & A2). apply in_app_or in I. destruct (Qle_bool eps er); [reflexivity|]. destruct I as [I|[]].
        destruct (Qle_bool eps el); [|destruct I]. destruct I as [<-|[]]. cbn in *. lia.
      * intro B. rewrite B. eexists. split; [apply in_or_app; right; left; reflexivity|auto].
  - left. split; [reflexivity|]. split; [reflexivity|]. intros t Ht. rewrite <- (bend_eq X Y a b t Ht HX). apply K. exact Ht.
Qed.

Print Assumptions C22_support_points.
Print Assumptions C22_best_split.
Example C22_example : (0 + 2 <= 4)%nat /\ exists idx, regress Qn (fun i => nth i [0; 1; 3; 4; 6] 0)%Q 5 0 (-1) = Ok idx /\ idx = [0; 1; 4]%nat.
Proof. split; [lia|]. eexists. split; vm_compute; reflexivity. Qed.

(** * C70: precision of the fit *)

(** The claim: the squared deviation of the support line from the quantiles, averaged over
    the columns between two consecutive support points, is below the squared precision.
    It fails: when no single split improves the chord of a stretch, the stretch is kept as
    it is, whatever its deviation. *)
Theorem C70_precision_refuted : exists (X Y : nat -> Q) n eps idx, regress X Y n eps (-1) = Ok idx
  /\ (forall i j, (i < j)%nat -> (j < n)%nat -> (X i < X j)%Q) /\ (forall i j, (i < j)%nat -> (j < n)%nat -> (Y i < Y j)%Q)
  /\ (0 < eps)%Q /\ exists i j, consecutive i j idx
  /\ (eps < Qsum (map (fun k => (Y k - chord X Y i j k) * (Y k - chord X Y i j k)) (seq i (j - i))) / Qn (j - i))%Q.
Proof.
  exists Qn, (fun i => nth i [0; 1; 3; 4; 6] 0)%Q, 5%nat, (1 # 100)%Q, [0; 1; 4]%nat.
  split; [vm_compute; reflexivity|]. split; [intros; apply Qn_lt; assumption|]. split.
  { intros i j L B. destruct i as [|[|[|[|[|i]]]]]; destruct j as [|[|[|[|[|j]]]]]; try lia; vm_compute; reflexivity. }
  split; [reflexivity|]. exists 1%nat, 4%nat. split; [exists [0%nat], []; reflexivity|]. vm_compute. reflexivity.
Qed.
Print Assumptions C70_precision_refuted.

(** * C23: probabilities of intervals *)

(** For a cdf without jumps the probability of any non-empty interval, whatever its
    bounds, is the difference of the cdf at its ends (0 at -inf, 1 at +inf). *)
Theorem C23_difference : forall p c ya yb, line_cdf p -> no_jumps p -> bounded c -> cs_isempty c = false ->
  cdf_at p (lower c) ya -> cdf_at p (upper c) yb -> exists q, p_interval p c = Ok q /\ (q == yb - ya)%Q.
Proof. exact p_interval_spec. Qed.

(** Probabilities of any interval lie in [0, 1]; the reals have probability 1; an interval
    that contains another one (as sets of real numbers) is at least as probable. *)
Theorem C23_range : forall p c, line_cdf p -> bounded c -> exists q, p_interval p c = Ok q /\ (0 <= q <= 1)%Q.
Proof. exact p_range. Qed.
Theorem C23_total : forall p, line_cdf p -> exists q, p_interval p RR = Ok q /\ (q == 1)%Q.
Proof. exact p_whole. Qed.
Theorem C23_monotone : forall p c d, line_cdf p -> bounded c -> bounded d -> cs_isempty c = false -> cs_isempty d = false ->
  (forall q, real_mem q c -> real_mem q d) ->
  exists x y, p_interval p c = Ok x /\ p_interval p d = Ok y /\ (x <= y)%Q.
Proof. intros p c d L Bc Bd Ec Ed S. apply p_mono; try assumption. apply subset_inside; assumption. Qed.
Theorem C23_empty : forall p c, line_cdf p -> cs_isempty c = true -> p_interval p c = Ok 0%Q.
Proof. intros p c L E. apply p_empty; [apply (ln_affine _ L)|apply (line_length _ L)|exact E]. Qed.

(** Two contiguous intervals: whatever the flags, the probability of the union is the sum. *)
Theorem C23_additive_partial : forall p a b c l m r, line_cdf p -> no_jumps p -> a < b -> b < c ->
  bounded (CS a c l r) -> cs_isempty (CS a b l m) = false -> cs_isempty (CS b c (flag_flip m) r) = false -> cs_isempty (CS a c l r) = false ->
  exists x y z, p_interval p (CS a b l m) = Ok x /\ p_interval p (CS b c (flag_flip m) r) = Ok y /\ p_interval p (CS a c l r) = Ok z
    /\ (z == x + y)%Q.
Proof.
  intros p a b c l m r L NJ L1 L2 B E1 E2 E3. destruct B as (B1 & B2 & B3 & B4 & B5). cbn [lower upper left right] in *.
  assert (Ba : bounded (CS a b l m)) by (unfold bounded; cbn [lower upper left right]; repeat split; try lia; try assumption; intro; lia).
  assert (Bb : bounded (CS b c (flag_flip m) r)) by (unfold bounded; cbn [lower upper left right]; repeat split; try lia; try assumption; intro; lia).
  assert (Bc : bounded (CS a c l r)) by (unfold bounded; cbn [lower upper left right]; repeat split; try lia; assumption).
  destruct (bounded_cdf p _ L Ba) as (ya & yb & Ha & Hb & _). destruct (bounded_cdf p _ L Bb) as (yb' & yc & Hb' & Hc & _). cbn [lower upper] in *.
  destruct (p_interval_spec p (CS a b l m) ya yb L NJ Ba E1 Ha Hb) as (x & Ex & Hx).
  destruct (p_interval_spec p (CS b c (flag_flip m) r) yb yc L NJ Bb E2 Hb Hc) as (y & Ey & Hy).
  destruct (p_interval_spec p (CS a c l r) ya yc L NJ Bc E3 Ha Hc) as (z & Ez & Hz).
  exists x, y, z. split; [exact Ex|]. split; [exact Ey|]. split; [exact Ez|]. lra.
Qed.

(** A union of intervals in ascending order: its probability is the sum of the differences
    of the cdf at their ends, and lies in [0, 1]. *)
Fixpoint ascending (a : Z) (l : list cs) : Prop :=
  match l with [] => True | c :: l' => a <= lower c /\ ascending (upper c) l' end.
Theorem C23_set : forall p l, line_cdf p -> no_jumps p -> Forall (fun c => bounded c /\ cs_isempty c = false) l -> ascending (- ORD_INF) l ->
  exists q, p_set p (NR l) = Ok q /\ (0 <= q <= 1)%Q /\
    forall F : Z -> Q, (forall c, In c l -> cdf_at p (lower c) (F (lower c)) /\ cdf_at p (upper c) (F (upper c))) ->
      (q == Qsum (map (fun c => F (upper c) - F (lower c)) l))%Q.
Proof.
  intros p l L NJ. destruct (ln_proper _ L) as (lo & hi & P).
  assert (G : forall l a, Forall (fun c => bounded c /\ cs_isempty c = false) l -> ascending a l -> exists q, p_set p (NR l) = Ok q /\ (0 <= q)%Q /\ (forall ya, cdf_at p a ya -> - ORD_INF <= a <= ORD_INF -> (q <= 1 - ya)%Q) /\
    forall F : Z -> Q, (forall c, In c l -> cdf_at p (lower c) (F (lower c)) /\ cdf_at p (upper c) (F (upper c))) -> (q == Qsum (map (fun c => F (upper c) - F (lower c)) l))%Q).
  { clear l. intro l. induction l as [|c l IH]; intros a Fo As.
    - exists 0%Q. split; [reflexivity|]. split; [lra|]. split; [|reflexivity]. intros ya Ha B. destruct (cdf_at_ex p lo hi a P B) as (y & Hy & R). pose proof (cdf_at_fun _ _ _ _ Ha Hy). lra.
    - apply Forall_cons_iff in Fo. destruct Fo as ((B & E) & Fo). destruct As as (A1 & A2). destruct (IH _ Fo A2) as (q & Eq & Q0 & Q1 & QF). destruct (bounded_cdf p c L B) as (y0 & y1 & H0 & H1 & R).
      destruct (p_interval_spec p c y0 y1 L NJ B E H0 H1) as (x & Ex & Hx). exists (x + q)%Q. cbn [p_set map sum_res]. rewrite Ex. cbn [p_set] in Eq. rewrite Eq. cbn [bind]. split; [reflexivity|]. split; [lra|]. split.
      + intros ya Ha Ba. pose proof (cdf_at_mono p lo hi a (lower c) ya y0 P A1 Ha H0). destruct B as (B1 & B2 & B3 & _). assert (Bu : - ORD_INF <= upper c <= ORD_INF) by lia. pose proof (Q1 y1 H1 Bu). lra.
      + intros F HF. cbn [map Qsum]. rewrite <- (QF F) by (intros d Id; apply HF; right; exact Id). destruct (HF c (or_introl eq_refl)) as (G0 & G1). pose proof (cdf_at_fun _ _ _ _ H0 G0). pose proof (cdf_at_fun _ _ _ _ H1 G1). lra. }
  intros Fo As. destruct (G l _ Fo As) as (q & Eq & Q0 & Q1 & QF). exists q. split; [exact Eq|]. split; [|exact QF]. split; [exact Q0|]. specialize (Q1 0%Q). assert (q <= 1 - 0)%Q; [|lra]. apply Q1; [left; split; reflexivity|]. unfold ORD_INF. lia.
Qed.

(** Distributions fitted to a sample with two or more different values whose smallest
    value occurs once have these properties (largest value below 2^53) ... *)
Theorem C23_fitted : forall epsilon rows x y, In x rows -> In y rows -> x <> y -> Forall (fun v => Z.abs v < ORD_53) rows ->
  exists p, fit_cdf epsilon None None rows = Ok p /\ line_cdf p
    /\ (forall lo, least lo rows -> count_occ Z.eq_dec rows lo = 1%nat -> no_jumps p).
Proof.
  intros epsilon rows x y Ix Iy Nxy M. pose proof ord_facts as O.
  assert (F : Forall finite rows) by (apply Forall_forall; intros v I; rewrite Forall_forall in M; specialize (M v I); unfold finite; lia).
  assert (N : rows <> []) by (intros ->; destruct Ix).
  destruct (fit_nonempty epsilon None None rows rows (fit_plain rows) N F) as [(z & A & _)|(p & ks & E & Ft)].
  { exfalso. apply Nxy. rewrite (A x Ix), (A y Iy). reflexivity. }
  exists p. split; [exact E|]. split.
  - apply (fitted_line rows p ks Ft F). rewrite Forall_forall in M. apply M. apply (ft_largest _ _ _ Ft).
  - intros lo [I1 L1] C. apply (fitted_no_jumps rows p ks Ft F). destruct (ft_least _ _ _ Ft) as [I2 L2].
    assert (hd 0 ks = lo) as -> by (pose proof (L1 _ I2); pose proof (L2 _ I1); lia). exact C.
Qed.

(** ... and a distribution fitted to equal samples is the point distribution. *)
Theorem C23_point : forall epsilon rows x, rows <> [] -> (forall v, In v rows -> v = x) -> Z.abs x < ORD_53 ->
  exists p, fit_cdf epsilon None None rows = Ok p /\
    forall c, bounded c -> exists q, p_interval p c = Ok q /\ (cs_mem x c -> q == 1)%Q /\ (~ cs_mem x c -> q == 0)%Q.
Proof.
  intros epsilon rows x N A M. pose proof ord_facts as O.
  assert (F : Forall finite rows) by (apply Forall_forall; intros v I; rewrite (A v I); unfold finite; lia).
  destruct (fit_nonempty epsilon None None rows rows (fit_plain rows) N F) as [(z & A' & I & E)|(p & ks & E & Ft)].
  - exists (dirac z). split; [exact E|]. rewrite (A z I). intros c B. apply dirac_p; assumption.
  - exfalso. pose proof (ft_len _ _ _ Ft) as L. destruct ks as [|a [|b ks]]; cbn in L; try lia.
    pose proof (ft_inc _ _ _ Ft) as So. apply StronglySorted_inv in So. destruct So as [_ So]. apply Forall_inv in So.
    rewrite (A a), (A b) in So by (apply (ft_data _ _ _ Ft); cbn; auto). lia.
Qed.

(** If the smallest sample is repeated, the cdf jumps there and probability is not
    additive: samples 0, 0, 1 give (-inf, 0) probability 0 and [0, inf) probability 1/2. *)
Theorem C23_additive_refuted : exists rows p x y z, fit_cdf (1 # 100) None None rows = Ok p
  /\ p_interval p (CS (- ORD_INF) 0 EXC EXC) = Ok x /\ p_interval p (CS 0 ORD_INF INC EXC) = Ok y
  /\ p_interval p (CS (- ORD_INF) ORD_INF EXC EXC) = Ok z /\ ~ (z == x + y)%Q.
Proof.
  exists [0; 0; ONE]. eexists. eexists. eexists. eexists. split; [vm_compute; reflexivity|].
  split; [vm_compute; reflexivity|]. split; [vm_compute; reflexivity|]. split; [vm_compute; reflexivity|]. vm_compute. discriminate.
Qed.
(** From 2^53 on the value of a point distribution has probability 0. *)
Theorem C23_point_refuted : exists rows x p q, rows <> [] /\ (forall v, In v rows -> v = x) /\ finite x /\ fit_cdf (1 # 100) None None rows = Ok p
  /\ p_interval p (CS x x INC INC) = Ok q /\ ~ (q == 1)%Q.
Proof.
  exists [ORD_53], ORD_53. eexists. eexists. split; [discriminate|]. split; [intros v [<-|[]]; reflexivity|]. split; [split; vm_compute; reflexivity|].
  split; [vm_compute; reflexivity|]. split; [vm_compute; reflexivity|]. vm_compute. discriminate.
Qed.

Print Assumptions C23_difference.
Print Assumptions C23_range.
Print Assumptions C23_total.
Print Assumptions C23_monotone.
Print Assumptions C23_empty.
Print Assumptions C23_additive_partial.
Print Assumptions C23_set.
Print Assumptions C23_fitted.
Print Assumptions C23_point.
Print Assumptions C23_additive_refuted.
Print Assumptions C23_point_refuted.

(** Samples 0, 1, 2 meet the hypotheses of C23_fitted, hence some cdf those of the other
    theorems; [0, 1) has probability 1/2. *)
Example C23_example : (exists p, line_cdf p /\ no_jumps p) /\
  exists p q, fit_cdf (1 # 100) None None [0; ONE; TWO] = Ok p /\ p_interval p (CS 0 ONE INC EXC) = Ok q /\ (q == 1 # 2)%Q.
Proof.
  split.
  - destruct (C23_fitted (1 # 100) [0; ONE; TWO] 0 ONE) as (p & _ & L & J); [left; reflexivity|right; left; reflexivity|discriminate| |].
    { repeat (apply Forall_cons || apply Forall_nil); vm_compute; reflexivity. }
    exists p. split; [exact L|]. apply (J 0); [|reflexivity]. split; [left; reflexivity|].
    intros y [<-|[<-|[<-|[]]]]; vm_compute; discriminate.
  - eexists. eexists. split; [vm_compute; reflexivity|]. split; vm_compute; reflexivity.
Qed.
Example C23_set_example : exists p q, fit_cdf (1 # 100) None None [0; ONE; TWO] = Ok p /\ p_set p (NR [CS 0 HALF INC EXC; CS ONE TWO INC INC]) = Ok q /\ (q == 3 # 4)%Q /\
  ascending (- ORD_INF) [CS 0 HALF INC EXC; CS ONE TWO INC INC] /\ Forall (fun c => bounded c /\ cs_isempty c = false) [CS 0 HALF INC EXC; CS ONE TWO INC INC].
Proof.
  eexists. eexists. split; [vm_compute; reflexivity|]. split; [vm_compute; reflexivity|]. split; [vm_compute; reflexivity|]. split; [vm_compute; repeat split; discriminate|].
  repeat constructor; try (vm_compute; reflexivity || discriminate); vm_compute; intro; discriminate.
Qed.

