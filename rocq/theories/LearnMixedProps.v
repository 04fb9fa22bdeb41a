(** Properties C35, C37, C39, C69 and C82: learning from tables with numeric columns
    (without [close_convex_gaps]), for every such table.

    [trainable] (LearnMixed.v) is the contract of the data, [samples_of l v] are the
    training values of variable [v] in the rows which satisfy the path of leaf [l]. *)
Require Import QArith Qround ZArith Bool List Arith Permutation Lia Lqa.
Require Import Verif.Base Verif.FloatLine Verif.FloatVal Verif.NumBase Verif.IntervalModel Verif.IntervalSpec Verif.IntervalProofs Verif.IntervalDec Verif.DiscreteModel Verif.DiscreteProofs
  Verif.FunctionModel Verif.FunctionSpec Verif.FunctionPlf Verif.NumericModel Verif.NumericSpec Verif.NumericFit Verif.NumericProb Verif.NumericProps
  Verif.TreeModel Verif.TreeSpec Verif.TreeApply Verif.TreeInfer Verif.TreeDiscrete Verif.NumericTree Verif.MixedTree Verif.MixedProps Verif.MixedPosteriorProps Verif.MixedCond Verif.MixedCondProps Verif.TreePartition
  Verif.ImpurityModel Verif.ImpuritySpec Verif.ImpurityProofs Verif.ImpurityProps Verif.LearnModel Verif.LearnSpec Verif.LearnTree Verif.LearnProofs Verif.LearnInv Verif.LearnDiscrete Verif.LearnProps Verif.LearnMixed.
Import ListNotations.
Open Scope nat_scope.

(** Learning with the distributions, value sets and domains of the three kinds of columns. *)
Notation learn_mixed epsilon val inf neg1 D imp kinds mid min_improvement max_depth N :=
  (learn (F := mixed numeric discrete) val inf neg1 D imp (map learn_kind kinds) mixed_mk mid (mixed_fit epsilon val D kinds) min_improvement max_depth (whole kinds) N).

(** ** C35: learning succeeds and its result is a well-formed tree *)

(** All theorems about [wf_mixed] trees (C38-C43, C55) apply to what [learn] returns. *)
Theorem C35_learn_mixed_partial : forall epsilon val inf neg1 D imp kinds G mid min_improvement max_depth N,
  trainable val neg1 D imp kinds G mid N -> 0 < N ->
  exists J, learn_mixed epsilon val inf neg1 D imp kinds mid min_improvement max_depth N = Ok J /\
    fitted_tree epsilon kinds G (samples_of val D N) J /\ wf_mixed kinds G J /\
    (Qsum (map l_prior (leaves J)) == 1)%Q /\ (forall l, In l (leaves J) -> (0 < l_prior l)%Q) /\
    forall n, In n (innernodes J) -> length (i_children n) = 2.
Proof.
  intros epsilon val inf neg1 D imp kinds G mid mi md N Td Pos.
  destruct (learn_ok val inf neg1 D imp (map learn_kind kinds) mixed_mk mid (mixed_fit epsilon val D kinds) mi md (mixed_cell val) N (trainable_learnable epsilon val neg1 D imp kinds G mid N Td) (fun _ _ _ _ _ => True) (fun _ => True)) with (fl := whole kinds) as (J & ix & bl & ps & E & _ & I); try (intros; exact Logic.I); [exact Pos|].
  pose proof (learnt_fitted _ _ _ _ _ _ _ _ _ _ _ Td _ _ _ _ _ _ I) as Ft. pose proof (fitted_mixed _ _ _ _ _ Ft) as W.
  exists J. split; [exact E|]. split; [exact Ft|]. split; [exact W|]. split; [exact (priors_sum _ _ _ _ _ _ _ _ _ _ _ _ _ _ _ _ I Pos)|]. split.
  - intros l Il. destruct (leaf_facts _ _ _ _ _ _ _ _ _ _ _ _ _ _ _ _ I l Il) as (_ & B & C & _). rewrite C. apply Qdiv_pos; apply Qn_pos; assumption.
  - intros n In_. destruct (finished_inner _ _ _ _ _ _ _ _ _ _ _ _ _ _ _ _ I n In_) as (_ & _ & s0 & s1 & k & Es & _). rewrite (lengths J (mx_tree _ _ _ W) n In_), Es. reflexivity.
Qed.
Print Assumptions C35_learn_mixed_partial.

(** ** C39: what [infer] answers about a learnt tree *)
Theorem C39_learnt_mixed_partial : forall epsilon val inf neg1 D imp kinds G mid min_improvement max_depth N J,
  trainable val neg1 D imp kinds G mid N ->
  learn_mixed epsilon val inf neg1 D imp kinds mid min_improvement max_depth N = Ok J ->
  exists pr : mdist -> mset -> Q,
    (forall l v d s, In l (leaves J) -> nth_error (l_dists l) v = Some d -> suits (G v) (nth v kinds None) s -> mass d s (pr d s)) /\
    forall q e fail, wf_mquery kinds G q -> wf_mquery kinds G e -> (forall v, In v (map fst q) -> ~ In v (map fst e)) ->
      (weight pr J e == 0 -> infer J q e fail = if fail then Err ValueError else Ok None)%Q /\
      (~ weight pr J e == 0 -> exists r, infer J q e fail = Ok (Some r) /\ r == weight pr J (q ++ e) / weight pr J e /\ 0 <= r <= 1)%Q.
Proof.
  intros epsilon val inf neg1 D imp kinds G mid mi md N J Td E. assert (Pos : 0 < N) by (destruct N; [discriminate|lia]).
  destruct (C35_learn_mixed_partial epsilon val inf neg1 D imp kinds G mid mi md N Td Pos) as (J' & E' & Ft & _). rewrite E in E'. injection E' as <-.
  exact (C39_infer_fitted_partial _ _ _ _ _ Ft).
Qed.
Print Assumptions C39_learnt_mixed_partial.

(** ** C37: the leaves of a learnt tree partition the worlds *)

Lemma nmem_In : forall x s, nmem x s = true <-> In x s.
Proof. intros x s. unfold nmem. rewrite existsb_exists. split; [intros (y & I & E); apply Nat.eqb_eq in E; subst; exact I|intro I; exists x; split; [exact I|apply Nat.eqb_refl]]. Qed.

Lemma off_grid : forall (G : grid) c x, gridded G -> on_grid G c -> finite x -> ~ G x -> ((lower c <? x)%Z && (x <=? upper c)%Z = true <-> cs_mem x c).
Proof.
  intros G c x GG [W Gc] Fx Nx. rewrite andb_true_iff, Z.ltb_lt, Z.leb_le. destruct Gc as [->|[Gl Gu]].
  - unfold cs_mem, EMPTY. cbn [lower upper left right]. split; [lia|]. intros (_ & A & B). lia.
  - assert (x <> lower c) by (intros ->; contradiction). assert (x <> upper c) by (intros ->; contradiction). unfold cs_mem. destruct (left c), (right c); (split; [intros [A B]; refine (conj Fx (conj _ _)); lia|intros (_ & A & B); lia]).
Qed.

Lemma row_at : forall kinds row v x, MixedPosteriorProps.row_ok kinds row -> nth_error row v = Some x -> v < length kinds /\
  match nth v kinds None, x with None, inl x => finite x | Some D, inr x => (x < n_values D)%nat | _, _ => False end.
Proof.
  intros kinds row v x R. unfold MixedPosteriorProps.row_ok in R. revert v. induction R as [|k y ks ys H R IH]; intros v E; [destruct v; discriminate|]. destruct v as [|v]; cbn in E.
  - injection E as ->. split; [cbn; lia|]. exact H.
  - destruct (IH v E) as [L M]. split; [cbn; lia|exact M].
Qed.
Lemma row_some : forall kinds row v, MixedPosteriorProps.row_ok kinds row -> v < length kinds -> exists x, nth_error row v = Some x.
Proof.
  intros kinds row v R. unfold MixedPosteriorProps.row_ok in R. revert v. induction R as [|k y ks ys H R IH]; intros v L; [cbn in L; lia|]. destruct v as [|v]; [exists y; reflexivity|]. cbn. apply IH. cbn in L. lia.
Qed.

(** The rows of all worlds with values off the bounds of interest, in particular off the
    split points, for which the claim fails (C37_boundary_refuted). *)
Theorem C37_learnt_mixed_partial : forall epsilon val inf neg1 D imp kinds G mid min_improvement max_depth N J row,
  trainable val neg1 D imp kinds G mid N ->
  learn_mixed epsilon val inf neg1 D imp kinds mid min_improvement max_depth N = Ok J ->
  MixedPosteriorProps.row_ok kinds row -> (forall v x, nth_error row v = Some (inl x) -> ~ G v x) ->
  let satisfied (l : leaf (mixed numeric discrete)) := forall v (s : mset), In (v, s) (l_path l) -> exists x, nth_error row v = Some x /\ sits x s in
  exists l, In l (leaves J) /\ encode J row = Ok (l_idx l) /\ satisfied l /\ forall l', In l' (leaves J) -> satisfied l' -> l' = l.
Proof.
  intros epsilon val inf neg1 D imp kinds G mid mi md N J row Td E R Off satisfied. assert (Pos : 0 < N) by (destruct N; [discriminate|lia]).
  destruct (learn_ok val inf neg1 D imp (map learn_kind kinds) mixed_mk mid (mixed_fit epsilon val D kinds) mi md (mixed_cell val) N (trainable_learnable epsilon val neg1 D imp kinds G mid N Td) (fun _ _ _ _ _ => True) (fun _ => True)) with (fl := whole kinds) as (J' & ix & bl & ps & E' & _ & I); try (intros; exact Logic.I); [exact Pos|].
  rewrite E in E'. injection E' as <-.
  pose proof (learnt_fitted _ _ _ _ _ _ _ _ _ _ _ Td _ _ _ _ _ _ I) as Ft. pose proof (fitted_mixed _ _ _ _ _ Ft) as W. pose proof (tr_grid _ _ _ _ _ _ _ _ Td) as GG.
  set (good := fun v (s : vset (mixed numeric discrete)) => suits (G v) (nth v kinds None) s).
  assert (Vin : forall v s (x : value (mixed numeric discrete)), good v s -> nth_error row v = Some x -> (v_in (mixed numeric discrete) s x = true <-> sits x s)).
  { intros v s x Gs Ex. destruct (row_at kinds row v x R Ex) as [_ Rx]. unfold good in Gs. unfold suits in Gs. destruct (nth v kinds None) as [d|]; destruct x as [x|x]; try contradiction.
    - destruct s as [s|s]; try contradiction. cbn [v_in mixed discrete sits]. apply nmem_In.
    - destruct s as [[c|l]|s]; try contradiction. cbn [v_in mixed numeric sits]. apply (off_grid (G v)); [apply GG|exact Gs|exact Rx|exact (Off v x Ex)]. }
  destruct (encode_good J row (mx_tree _ _ _ W)) with (good := good) as (l & Il & El & O & U).
  - (* exactly one split *)
    intros n In_. destruct (finished_inner _ _ _ _ _ _ _ _ _ _ _ _ _ _ _ _ I n In_) as (_ & _ & s0 & s1 & k & Es & Ek & Sp & _).
    assert (Gs : forall s, In s (i_splits n) -> i_var n < length kinds /\ good (i_var n) s) by (intros s Is; exact (mixed_splits _ _ _ _ _ _ _ _ _ _ _ Td _ _ _ _ _ _ I n s In_ Is)).
    assert (Lv : i_var n < length kinds) by (apply (Gs (mixed_mk s0)); rewrite Es; left; reflexivity).
    destruct (row_some kinds row (i_var n) R Lv) as (x & Ex). destruct (row_at kinds row (i_var n) x R Ex) as [_ Rx].
    rewrite lkind_at in Ek. destruct (Nat.ltb_spec (i_var n) (length kinds)); [|lia]. injection Ek as <-.
    assert (Hold : forall s, In s (i_splits n) -> (holds (F := mixed numeric discrete) row (i_var n, s) <-> sits x s)).
    { intros s Is. destruct (Gs s Is) as [_ Gd]. unfold holds. cbn [fst snd]. split; [intros (y & Ey & V)|intro V; exists x; split; [exact Ex|apply (Vin _ _ _ Gd Ex); exact V]].
      assert (y = x) by (assert (X : Some y = Some x) by (etransitivity; [symmetry; exact Ey|exact Ex]); injection X; auto). subst y. apply (Vin _ _ _ Gd Ex). exact V. }
    assert (One : (sits x (mixed_mk s0) /\ ~ sits x (mixed_mk s1)) \/ (~ sits x (mixed_mk s0) /\ sits x (mixed_mk s1))).
    { destruct (nth (i_var n) kinds None) as [[ls|lo hi]|] eqn:Kd; cbn [learn_kind kind_of split_pair] in Sp; destruct x as [x|x]; try contradiction.
      - destruct Sp as (y & Ly & -> & ->). cbn [mixed_mk sits]. rewrite filter_In, in_seq. cbn [In]. destruct (Nat.eqb_spec x y) as [->|Ne]; [left|right]; cbn [negb n_values] in *.
        + split; [left; reflexivity|]. intros [_ X]. discriminate.
        + split; [intros [X|[]]; congruence|]. split; [lia|reflexivity].
      - destruct Sp as (y & Ly & -> & ->). cbn [mixed_mk sits]. set (m := n_values (IntDom lo hi)) in *.
        assert (Nd : NoDup (firstn y (seq 0 m) ++ skipn y (seq 0 m))) by (rewrite firstn_skipn; apply seq_NoDup). destruct (NoDup_app_parts _ _ _ Nd) as (_ & _ & Dj).
        assert (Ix : In x (firstn y (seq 0 m) ++ skipn y (seq 0 m))) by (rewrite firstn_skipn; apply in_seq; lia). apply in_app_or in Ix. destruct Ix as [Ix|Ix]; [left|right]; (split; [|]); try assumption; [apply Dj, Ix|intro K; apply (Dj x K Ix)].
      - destruct Sp as (r1 & r2 & L1 & L2 & L & -> & ->). cbn [mixed_mk sits]. destruct (tr_mid _ _ _ _ _ _ _ _ Td r1 r2 (i_var n) L1 L2 Lv Kd L) as [M Gm]. set (m := mid _ _) in *. clearbody m.
        assert (x <> m) by (intros ->; exact (Off _ _ Ex Gm)). unfold cs_mem. cbn [lower upper left right]. unfold finite in *. lia. }
    assert (N0 : nth_error (i_splits n) 0 = Some (mixed_mk s0)) by (rewrite Es; reflexivity). assert (N1 : nth_error (i_splits n) 1 = Some (mixed_mk s1)) by (rewrite Es; reflexivity).
    assert (I0 : In (mixed_mk s0) (i_splits n)) by (rewrite Es; left; reflexivity). assert (I1 : In (mixed_mk s1) (i_splits n)) by (rewrite Es; right; left; reflexivity).
    assert (Two : forall k' s', nth_error (i_splits n) k' = Some s' -> (k' = 0 /\ s' = mixed_mk s0) \/ (k' = 1 /\ s' = mixed_mk s1)).
    { intros k' s' X. rewrite Es in X. destruct k' as [|[|[|k']]]; cbn in X; try discriminate; injection X as <-; auto. }
    destruct One as [[A B]|[A B]]; [exists 0, (mixed_mk s0)|exists 1, (mixed_mk s1)]; (split; [assumption|]); (split; [apply Hold; assumption|]); intros k' s' X Hs; destruct (Two k' s' X) as [[-> ->]|[-> ->]]; try reflexivity; exfalso; apply Hold in Hs; try assumption; contradiction.
  - intro v. unfold good. rewrite (mx_full _ _ _ W). unfold whole, is_numeric, suits. destruct (nth v kinds None) as [d|] eqn:K.
    + intros x Ix. rewrite (domain_of kinds v d K) in Ix. apply in_seq in Ix. lia.
    + pose proof (g_inf _ (GG v)) as [Gl Gu]. pose proof ord_facts as O. split; [|right; split; assumption]. unfold RR, wf, IntervalSpec.moderate. cbn [lower upper left right].
      refine (conj _ (conj _ (conj _ (conj _ (conj _ (conj _ _)))))); first [lia|intro; reflexivity].
  - intros v a b. unfold good, suits. destruct (nth v kinds None) as [d|]; destruct a as [[ca|la]|a], b as [[cb|lb]|b]; try contradiction; intros Ga Gb.
    + cbn [inter mixed discrete]. intros x Ix. apply filter_In in Ix. apply Ga, Ix.
    + cbn [inter mixed numeric]. rewrite n_inter_cut. apply (cut_grid (G v)); [exact Ga|exact Gb].
  - intros v a b x Ex Ga Gb. assert (Gab : good v (inter (mixed numeric discrete) a b)).
    { revert Ga Gb. clear - GG. unfold good, suits. destruct (nth v kinds None) as [d|]; destruct a as [[ca|la]|a], b as [[cb|lb]|b]; try contradiction; intros Ga Gb.
      - cbn [inter mixed discrete]. intros y Iy. apply filter_In in Iy. apply Ga, Iy.
      - cbn [inter mixed numeric]. rewrite n_inter_cut. apply (cut_grid (G v)); [exact Ga|exact Gb]. }
    apply eq_true_iff_eq. rewrite andb_true_iff, (Vin _ _ _ Gab Ex), (Vin _ _ _ Ga Ex), (Vin _ _ _ Gb Ex).
    destruct (row_at kinds row v x R Ex) as [_ Rx]. unfold good, suits in Ga, Gb. destruct (nth v kinds None) as [d|]; destruct x as [x|x]; try contradiction; destruct a as [[ca|la]|a], b as [[cb|lb]|b]; try contradiction.
    + cbn [inter mixed discrete sits]. rewrite filter_In, nmem_In. reflexivity.
    + cbn [inter mixed numeric sits]. rewrite n_inter_cut. cbn [sits]. apply cut_mem; [apply Ga|apply Gb].
  - intros v x Ex. destruct (row_at kinds row v x R Ex) as [_ Rx]. rewrite (mx_full _ _ _ W). unfold whole, is_numeric. destruct (nth v kinds None) as [d|] eqn:K; destruct x as [x|x]; try contradiction.
    + cbn [v_in mixed discrete]. apply nmem_In. rewrite (domain_of kinds v d K). apply in_seq. lia.
    + cbn [v_in mixed numeric RR lower upper]. unfold finite in Rx. apply andb_true_iff. split; [apply Z.ltb_lt; lia|apply Z.leb_le; lia].
  - intros l v s Il Is. exact (proj2 (mx_path _ _ _ W l v s Il Is)).
  - intros l v s Il Is. destruct (mx_path _ _ _ W l v s Il Is) as [Lv _]. destruct (row_some kinds row v R Lv) as (x & Ex). apply nth_error_Some. intro Z0. assert (X : @None (Z + nat) = Some x) by (etransitivity; [symmetry; exact Z0|exact Ex]). discriminate X.
  - exists l. assert (Eq : forall l, In l (leaves J) -> (satisfied l <-> TreePartition.on (F := mixed numeric discrete) row (l_path l))).
    { intros l0 Il0. unfold satisfied, TreePartition.on. rewrite Forall_forall. split.
      - intros H [v s] Iv. destruct (H v s Iv) as (x & Ex & Sx). exists x. split; [exact Ex|]. apply (Vin v s x); [exact (proj2 (mx_path _ _ _ W l0 v s Il0 Iv))|exact Ex|exact Sx].
      - intros H v s Iv. destruct (H (v, s) Iv) as (x & Ex & Sx). cbn [fst snd] in Ex, Sx. exists x. split; [exact Ex|]. apply (Vin v s x); [exact (proj2 (mx_path _ _ _ W l0 v s Il0 Iv))|exact Ex|exact Sx]. }
    split; [exact Il|]. split; [exact El|]. split; [apply Eq; assumption|]. intros l' Il' Sl'. apply U; [exact Il'|]. apply Eq; assumption.
Qed.
Print Assumptions C37_learnt_mixed_partial.

(** ** C69: the marginals of a learnt tree *)

(** Symbolic and integer variables: relative frequencies in the training data.
    Numeric variables: the mixture of the cdfs fitted to the training values of the leaves,
    weighted by the shares of the rows. *)
Theorem C69_mixed_marginals_partial : forall epsilon val inf neg1 D imp kinds G mid min_improvement max_depth N J v,
  trainable val neg1 D imp kinds G mid N ->
  learn_mixed epsilon val inf neg1 D imp kinds mid min_improvement max_depth N = Ok J -> v < length kinds ->
  match nth v kinds None with
  | Some d => forall s, (forall x, In x s -> x < n_values d) ->
      exists p, infer J [(v, inr s)] [] true = Ok (Some p) /\
        (p == Qn (length (filter (fun r => existsb (Nat.eqb (int_at val D r v)) s) (seq 0 N))) / Qn N)%Q
  | None => exists F : leaf (mixed numeric discrete) -> plf,
      (forall l, In l (leaves J) -> nth_error (l_dists l) v = Some (inl (F l)) /\
         exists samples, Permutation samples (samples_of val D N l v) /\ fit_cdf epsilon None None samples = Ok (F l)) /\
      forall c, on_grid (G v) c -> exists p (q : leaf (mixed numeric discrete) -> Q), infer J [(v, inl (NC c))] [] true = Ok (Some p) /\
        (forall l, In l (leaves J) -> mass (inl (F l)) (inl (NC c)) (q l)) /\
        (p == Qsum (map (fun l => Qn (length (rows_of D (mixed_cell val) N (l_path l))) / Qn N * q l) (leaves J)))%Q
  end.
Proof.
  intros epsilon val inf neg1 D imp kinds G mid mi md N J v Td E Lv. assert (Pos : 0 < N) by (destruct N; [discriminate|lia]). pose proof (Qn_pos _ Pos) as PN.
  destruct (learn_ok val inf neg1 D imp (map learn_kind kinds) mixed_mk mid (mixed_fit epsilon val D kinds) mi md (mixed_cell val) N (trainable_learnable epsilon val neg1 D imp kinds G mid N Td) (fun _ _ _ _ _ => True) (fun _ => True)) with (fl := whole kinds) as (J' & ix & bl & ps & E' & _ & I); try (intros; exact Logic.I); [exact Pos|].
  rewrite E in E'. injection E' as <-.
  pose proof (learnt_fitted _ _ _ _ _ _ _ _ _ _ _ Td _ _ _ _ _ _ I) as Ft. pose proof (fitted_mixed _ _ _ _ _ Ft) as W. pose proof (priors_sum _ _ _ _ _ _ _ _ _ _ _ _ _ _ _ _ I Pos) as Sp.
  destruct (C39_infer_fitted_partial _ _ _ _ _ Ft) as (pr & Pm & Inf).
  assert (W0 : wf_mquery kinds G []) by (split; [constructor|intros v' s' []]).
  assert (One : (weight pr J [] == 1)%Q). { unfold weight. rewrite <- Sp. apply Qsum_map_ext. intros l _. cbn [fold_right]. ring. }
  assert (Ask : forall s : mset, suits (G v) (nth v kinds None) s -> exists p, infer J [(v, s)] [] true = Ok (Some p) /\
     (p == Qsum (map (fun l : leaf (mixed numeric discrete) => l_prior l * match nth_error (l_dists l) v with Some d => pr d s | None => 0 end) (leaves J)))%Q).
  { intros s Ss. assert (W1 : wf_mquery kinds G [(v, s)]) by (split; [constructor; [intros []|constructor]|intros v' s' [K|[]]; injection K as <- <-; auto]).
    destruct (proj2 (Inf [(v, s)] [] true W1 W0 ltac:(intros v' _ [])) ltac:(rewrite One; discriminate)) as (p & Ep & Pp & _). exists p. split; [exact Ep|]. rewrite Pp. cbn [app]. rewrite One. unfold Qdiv. rewrite Qmult_1_r. unfold weight.
    apply Qsum_map_ext. intros l _. cbn [fold_right fst snd]. ring. }
  assert (Prior : forall l, In l (leaves J) -> l_prior l = (Qn (l_samples l) / Qn N)%Q /\ l_samples l = length (rows_of D (mixed_cell val) N (l_path l)) /\ 0 < l_samples l).
  { intros l Il. destruct (leaf_facts _ _ _ _ _ _ _ _ _ _ _ _ _ _ _ _ I l Il) as (A & B & C & _). auto. }
  destruct (nth v kinds None) as [d|] eqn:K.
  - intros s Hs. destruct (Ask (inr s) Hs) as (p & Ep & Pp). exists p. split; [exact Ep|]. rewrite Pp. clear p Ep Pp.
    assert (Gn : forall ls, incl ls (leaves J) -> (Qsum (map (fun l : leaf (mixed numeric discrete) => l_prior l * match nth_error (l_dists l) v with Some d => pr d (inr s) | None => 0 end) ls) ==
      Qn (length (filter (fun r => existsb (Nat.eqb (int_at val D r v)) s) (flat_map (fun l => rows_of D (mixed_cell val) N (l_path l)) ls))) / Qn N)%Q).
    { induction ls as [|l ls IH]; intro Inc; [cbn; unfold Qdiv; assert (Z0 : (Qn 0 == 0)%Q) by reflexivity; rewrite Z0; lra|]. cbn [map Qsum flat_map]. rewrite IH by (intros x Ix; apply Inc; right; exact Ix). clear IH.
      pose proof (Inc l (or_introl eq_refl)) as Il. destruct (Prior l Il) as (Ep & Es & Ps). destruct (mixed_frequencies _ _ _ _ _ _ _ _ _ _ _ Td _ _ _ _ _ _ I l v d Il Lv K) as (p & Ed & Lp & _ & Gm).
      assert (Ms : mass (inr (DDist d p)) (inr s) (pr (inr (DDist d p)) (inr s))) by (apply (Pm l v); [exact Il|exact Ed|rewrite K; exact Hs]).
      rewrite filter_app, app_length, Qn_plus. rewrite Ed, Ep. inversion Ms as [| | | |? ? ? Mq]; subst. rewrite Mq, <- pm_sum. unfold pm. cbn [d_params]. rewrite Lp, (Gm (fun x => nmem x s)). pose proof (Qn_pos _ Ps). unfold nmem. field. lra. }
    rewrite (Gn _ (incl_refl _)). rewrite (Permutation_length (filter_perm _ _ _ _ (leaf_rows _ _ _ _ _ _ _ _ _ _ _ _ _ _ _ _ I))). reflexivity.
  - exists (fun l : leaf (mixed numeric discrete) => match nth_error (l_dists l) v with Some (inl p) => p | _ => [] end).
    assert (Fl : forall l, In l (leaves J) -> exists p samples, nth_error (l_dists l) v = Some (inl p) /\ Permutation samples (samples_of val D N l v) /\ fit_cdf epsilon None None samples = Ok p).
    { intros l Il. destruct (nth_error (l_dists l) v) as [dd|] eqn:Ed; [|apply nth_error_None in Ed; rewrite (mx_len _ _ _ W l Il) in Ed; lia].
      destruct (fx_numeric _ _ _ _ _ Ft l v dd Il Ed K) as (_ & _ & _ & (samples & p & Ps & Ep & ->) & _). exists p, samples. auto. }
    split.
    + intros l Il. destruct (Fl l Il) as (p & samples & Ed & Ps & Ep). rewrite Ed. split; [reflexivity|]. exists samples. auto.
    + intros c Gc. destruct (Ask (inl (NC c)) Gc) as (p & Ep & Pp). exists p, (fun l : leaf (mixed numeric discrete) => match nth_error (l_dists l) v with Some d => pr d (inl (NC c)) | None => 0%Q end). split; [exact Ep|]. split.
      * intros l Il. destruct (Fl l Il) as (p' & samples & Ed & _). rewrite Ed. apply (Pm l v); [exact Il|exact Ed|]. rewrite K. exact Gc.
      * rewrite Pp. apply Qsum_map_ext. intros l Il. destruct (Prior l Il) as (Ep' & Es & _). rewrite Ep', Es. reflexivity.
Qed.
Print Assumptions C69_mixed_marginals_partial.

(** ** C82: the training data is possible *)

Lemma chain_cs : forall p a b i f, chain a p b -> In (i, f) p -> right i = EXC.
Proof.
  induction p as [|[j g] p IH]; intros a b i f C If; [destruct If|]. destruct C as (E & _ & C). destruct If as [If|If]; [|exact (IH _ _ _ _ C If)]. injection If as -> ->. rewrite E. reflexivity.
Qed.

(** The density of a fitted distribution is positive at each of its samples. *)
Lemma fitted_dense : forall epsilon rows p x, Forall (fun v => (Z.abs v < ORD_53)%Z) rows -> In x rows -> fit_cdf epsilon None None rows = Ok p ->
  (line_cdf p /\ exists f, plf_at p x = Some f /\ (0 < steepness f)%Q) \/ p = NumericModel.dirac x.
Proof.
  intros epsilon rows p x M Ix Ef. pose proof ord_facts as O. assert (N : rows <> []) by (intros ->; destruct Ix).
  assert (Fi : Forall finite rows) by (apply Forall_forall; intros v I; rewrite Forall_forall in M; specialize (M v I); unfold finite; lia).
  destruct (fit_nonempty epsilon None None rows rows (fit_plain rows) N Fi) as [(z & A & I & E)|(p' & ks & E & Ft)]; rewrite Ef in E; injection E as ->.
  - right. rewrite (A x Ix). reflexivity.
  - left. pose proof (ft_least _ _ _ Ft) as [_ Le]. pose proof (ft_largest _ _ _ Ft) as [Im La].
    assert (Mm : (Z.abs (last ks 0) < ORD_53)%Z) by (rewrite Forall_forall in M; apply M, Im).
    assert (L : line_cdf p') by (apply (fitted_line rows p' ks Ft Fi); exact Mm). split; [exact L|].
    assert (Fx : finite x) by (rewrite Forall_forall in Fi; apply Fi, Ix). specialize (Le x Ix). specialize (La x Ix).
    destruct (Z.eq_dec x (last ks 0%Z)) as [->|Ne].
    + destruct (ft_wide _ _ _ Ft) as (i & f & If & Sf & Lo & Up). exists f. split; [|exact Sf]. apply (chain_at p' (- ORD_INF) ORD_INF i f); [apply (ft_chain _ _ _ Ft)|lia|lia|exact If|exact Fx|].
      rewrite Up. unfold plus_eps, adds_one. destruct (Z.ltb_spec (Z.abs (last ks 0%Z)) ORD_53); lia.
    + destruct (pc_range _ _ _ (ft_proper _ _ _ Ft) x Fx) as (y & Y & _). apply plf_is_at in Y. destruct Y as (f & Ff & _). exists f. split; [exact Ff|].
      destruct (plf_at_in p' x f Fx Ff) as (i & If & Mi). destruct (ft_pieces _ _ _ Ft i f If) as [(_ & _ & U)|[[Sf _]|(_ & _ & U)]]; [|exact Sf|].
      * exfalso. pose proof (chain_cs _ _ _ i f (ft_chain _ _ _ Ft) If) as Ri. destruct Mi as (_ & _ & Mi). rewrite Ri in Mi. lia.
      * exfalso. destruct Mi as (_ & Mi & _). destruct (left i); lia.
Qed.

Lemma product_pos : forall l, Forall (fun q => 0 < q)%Q l -> (0 < product l)%Q.
Proof. induction 1 as [|q l H F IH]; cbn [product]; [reflexivity|]. apply Qmult_lt_0_compat; assumption. Qed.
Lemma product_nonneg : forall l, Forall (fun q => 0 <= q)%Q l -> (0 <= product l)%Q.
Proof. induction 1 as [|q l H F IH]; cbn [product]; [discriminate|]. apply Qmult_le_0_compat; assumption. Qed.

(** Row [r] of the training data, in the values of the variables. *)
Definition data_row (val : Z -> Q) (D : nat -> nat -> Z) (kinds : list MixedProps.kind) (r : nat) : list (Z + nat) :=
  map (fun v => match nth v kinds None with None => inl (D r v) | Some _ => inr (int_at val D r v) end) (seq 0 (length kinds)).

Lemma data_row_at : forall val D kinds r v x, nth_error (data_row val D kinds r) v = Some x ->
  v < length kinds /\ x = match nth v kinds None with None => inl (D r v) | Some _ => inr (int_at val D r v) end.
Proof.
  intros val D kinds r v x E. assert (L : v < length kinds) by (rewrite <- (seq_length (length kinds) 0), <- (map_length (fun v => match nth v kinds None with None => inl (D r v) | Some _ => inr (int_at val D r v) end)); apply nth_error_Some; unfold data_row in E; rewrite E; discriminate).
  split; [exact L|]. unfold data_row in E. rewrite nth_error_map in E. rewrite (nth_error_nth' _ 0) in E by (rewrite seq_length; exact L). rewrite seq_nth in E by exact L. cbn in E. injection E as <-. reflexivity.
Qed.
Lemma data_row_some : forall val D kinds r v, v < length kinds -> nth_error (data_row val D kinds r) v = Some match nth v kinds None with None => inl (D r v) | Some _ => inr (int_at val D r v) end.
Proof.
  intros val D kinds r v L. unfold data_row. rewrite nth_error_map. rewrite (nth_error_nth' _ 0) by (rewrite seq_length; exact L). rewrite seq_nth by exact L. reflexivity.
Qed.
Lemma data_row_ok : forall val neg1 D imp kinds G mid N r, trainable val neg1 D imp kinds G mid N -> r < N -> MixedPosteriorProps.row_ok kinds (data_row val D kinds r).
Proof.
  intros val neg1 D imp kinds G mid N r Td Lr. unfold MixedPosteriorProps.row_ok.
  assert (Ix : forall v d, v < length kinds -> nth v kinds None = Some d -> int_at val D r v < n_values d) by (intros v d Lv K; exact (mixed_index val neg1 D imp kinds G mid N Td r v d Lr Lv K)).
  assert (Nm : forall v, v < length kinds -> nth v kinds None = None -> finite (D r v)). { intros v Lv K. pose proof (tr_number _ _ _ _ _ _ _ _ Td r v Lr Lv K). pose proof ord_facts. unfold finite. lia. }
  assert (Go : forall ks k0, (forall v, v < length ks -> nth v ks None = nth (k0 + v) kinds None /\ k0 + v < length kinds) ->
    Forall2 (fun k x => match k, x with None, inl x => finite x | Some D, inr x => (x < n_values D)%nat | _, _ => False end) ks (map (fun v => match nth v kinds None with None => inl (D r v) | Some _ => inr (int_at val D r v) end) (seq k0 (length ks)))).
  { induction ks as [|k ks IH]; intros k0 H; cbn [length seq map]; constructor.
    - destruct (H 0 ltac:(cbn; lia)) as [K L]. cbn [nth] in K. rewrite Nat.add_0_r in *. rewrite <- K. destruct k as [d|]; [apply Ix|apply Nm]; auto.
    - apply IH. intros v Lv. destruct (H (S v) ltac:(cbn; lia)) as [K L]. cbn [nth] in K. rewrite Nat.add_succ_r in *. auto. }
  apply Go. intros v Lv. auto.
Qed.

Theorem C82_training_rows_partial : forall epsilon val inf neg1 D imp kinds G mid min_improvement max_depth N J r,
  trainable val neg1 D imp kinds G mid N ->
  learn_mixed epsilon val inf neg1 D imp kinds mid min_improvement max_depth N = Ok J -> r < N ->
  exists p, likelihood J (data_row val D kinds r) = Ok p /\ (0 < p)%Q.
Proof.
  intros epsilon val inf neg1 D imp kinds G mid mi md N J r Td E Lr. assert (Pos : 0 < N) by lia.
  destruct (learn_ok val inf neg1 D imp (map learn_kind kinds) mixed_mk mid (mixed_fit epsilon val D kinds) mi md (mixed_cell val) N (trainable_learnable epsilon val neg1 D imp kinds G mid N Td) (fun _ _ _ _ _ => True) (fun _ => True)) with (fl := whole kinds) as (J' & ix & bl & ps & E' & _ & I); try (intros; exact Logic.I); [exact Pos|].
  rewrite E in E'. injection E' as <-.
  pose proof (learnt_fitted _ _ _ _ _ _ _ _ _ _ _ Td _ _ _ _ _ _ I) as Ft. pose proof (fitted_mixed _ _ _ _ _ Ft) as W.
  destruct (C55_likelihood_mixed kinds G J (data_row val D kinds r) W (data_row_ok val neg1 D imp kinds G mid N r Td Lr)) as (p & fac & Ep & Fac & Pp). exists p. split; [exact Ep|]. rewrite Pp. clear p Ep Pp.
  assert (Prior : forall l, In l (leaves J) -> (0 < l_prior l)%Q). { intros l Il. destruct (leaf_facts _ _ _ _ _ _ _ _ _ _ _ _ _ _ _ _ I l Il) as (_ & B & C & _). rewrite C. apply Qdiv_pos; apply Qn_pos; assumption. }
  assert (Dist : forall l v, In l (leaves J) -> v < length kinds -> exists d, nth_error (l_dists l) v = Some d /\ fits (G v) (nth v kinds None) d).
  { intros l v Il Lv. destruct (nth_error (l_dists l) v) as [d|] eqn:Ed; [exists d; split; [reflexivity|exact (mx_dists _ _ _ W l v d Il Ed)]|apply nth_error_None in Ed; rewrite (mx_len _ _ _ W l Il) in Ed; lia]. }
  assert (Nn : forall l v, In l (leaves J) -> v < length kinds -> (0 <= fac l v)%Q).
  { intros l v Il Lv. destruct (Dist l v Il Lv) as (d & Ed & Fd). pose proof (Fac l v d _ Il Ed (data_row_some val D kinds r v Lv)) as F0. inversion F0 as [p x f q Ln Ff Eq|x q Eq|x y q Nq Eq|d' x y q Ey Eq]; subst; rewrite Eq.
    - assert (Fx : finite x). { destruct (nth v kinds None) eqn:K; try discriminate. injection H0 as H0. rewrite H0. pose proof (tr_number _ _ _ _ _ _ _ _ Td r v Lr Lv K). pose proof ord_facts. unfold finite. lia. }
      destruct (plf_at_in p x f Fx Ff) as (i & If & _). pose proof (ln_rise _ Ln) as R. rewrite Forall_forall in R. exact (R _ If).
    - discriminate.
    - discriminate.
    - destruct (nth v kinds None) as [dm|]; [|contradiction]. destruct Fd as (_ & _ & [Np _]). rewrite Forall_forall in Np. apply Np. exact (nth_error_In _ _ Ey). }
  destruct (row_one_leaf _ _ _ _ _ _ _ _ _ _ _ _ _ _ _ _ I r Lr) as (l1 & l & l2 & El & Rl & _).
  assert (Il : In l (leaves J)) by (rewrite El; apply in_or_app; right; left; reflexivity).
  assert (Ir : In r (rows_of D (mixed_cell val) N (l_path l))) by (unfold rows_of; apply filter_In; split; [apply in_seq; lia|exact Rl]).
  apply Qsum_pos with (x := (l_prior l * product (map (fac l) (seq 0 (length kinds))))%Q).
  - apply Forall_forall. intros y Iy. apply in_map_iff in Iy. destruct Iy as (l' & <- & Il'). apply Qmult_le_0_compat; [apply Qlt_le_weak, Prior, Il'|]. apply product_nonneg, Forall_forall. intros q Iq. apply in_map_iff in Iq. destruct Iq as (v & <- & Iv). apply in_seq in Iv. apply Nn; [exact Il'|lia].
  - apply in_map_iff. exists l. auto.
  - apply Qmult_lt_0_compat; [apply Prior, Il|]. apply product_pos, Forall_forall. intros q Iq. apply in_map_iff in Iq. destruct Iq as (v & <- & Iv). apply in_seq in Iv. assert (Lv : v < length kinds) by lia. clear Iv.
    destruct (Dist l v Il Lv) as (d & Ed & Fd). pose proof (Fac l v d _ Il Ed (data_row_some val D kinds r v Lv)) as F0. destruct (nth v kinds None) as [dm|] eqn:K.
    + destruct (mixed_frequencies _ _ _ _ _ _ _ _ _ _ _ Td _ _ _ _ _ _ I l v dm Il Lv K) as (p & Ed' & Lp & _ & Gm). assert (d = inr (DDist dm p)) as -> by (assert (X : Some d = Some (inr (DDist dm p))) by (etransitivity; [symmetry; exact Ed|exact Ed']); injection X; auto).
      inversion F0 as [| | |? ? y ? Ey Eq]; subst. rewrite Eq. cbn [d_params] in Ey. specialize (Gm (Nat.eqb (int_at val D r v))).
      assert (Lm : (0 < lmass (seq 0 (n_values dm)) p (Nat.eqb (int_at val D r v)))%Q).
      { rewrite Gm. destruct (leaf_facts _ _ _ _ _ _ _ _ _ _ _ _ _ _ _ _ I l Il) as (_ & B & _). apply Qdiv_pos; apply Qn_pos; [|exact B].
        assert (X : In r (filter (fun r0 => int_at val D r v =? int_at val D r0 v) (rows_of D (mixed_cell val) N (l_path l)))) by (apply filter_In; split; [exact Ir|apply Nat.eqb_refl]). destruct (filter _ _); [destruct X|cbn; lia]. }
      rewrite <- Lp, TreeWorlds.lmass_values in Lm. apply Qsum_pos_ex in Lm. destruct Lm as (z & Iz & Pz). apply in_map_iff in Iz. destruct Iz as (w & Ez & _). destruct (Nat.eqb_spec (int_at val D r v) w) as [Xw|Xw]; [|rewrite <- Ez in Pz; discriminate].
      rewrite <- Xw in Ez. rewrite (nth_error_nth _ _ _ Ey) in Ez. rewrite Ez. exact Pz.
    + destruct (fx_numeric _ _ _ _ _ Ft l v d Il Ed K) as (_ & Md & _ & (samples & p & Pm & Ef & ->) & _).
      assert (Ms : Forall (fun x => (Z.abs x < ORD_53)%Z) samples) by (apply Forall_forall; intros x Ix; rewrite Forall_forall in Md; apply Md; apply (Permutation_in x Pm), Ix).
      assert (Ix : In (D r v) samples). { apply (Permutation_in _ (Permutation_sym Pm)). unfold samples_of. apply in_map_iff. exists r. auto. }
      destruct (fitted_dense epsilon samples p (D r v) Ms Ix Ef) as [(Ln & f & Ff & Sf)| ->].
      * inversion F0 as [? ? f' ? _ Ff' Eq| | |]; subst; [|exfalso; exact (line_not_point _ Ln)|exfalso; exact (line_not_point _ Ln)]. rewrite Eq. congruence.
      * inversion F0 as [? ? ? ? Ln|? ? Eq|? ? ? Ne|]; subst; [exfalso; exact (line_not_point _ Ln)|rewrite Eq; reflexivity|contradiction].
Qed.
Print Assumptions C82_training_rows_partial.

(** ** A table with a numeric and a symbolic column *)
Definition num (k : Z) : Z := ((1023 + k) * 2 ^ 52)%Z.
(** Rows (1.0, "a"), (1.0, "a"), (2.0, "b"), (4.0, "b") *)
Definition n_data : nat -> nat -> Z := table [[num 0; 0]; [num 0; 0]; [num 1; num 0]; [num 2; num 0]]%Z.
Definition n_kinds : list MixedProps.kind := [None; Some (SymDom [None; None])].
Definition n_G (v : var) : grid := fun x => (x = - ORD_INF \/ x = num 0 + 2 ^ 51 \/ x = num 1 \/ x = num 1 + 2 ^ 51 \/ x = ORD_INF)%Z.
Definition n_imp := from_tree 2 (Nat.eqb 1) (fun _ => 2) (fun _ => false) [0; 1] [0; 1] (fun _ => [0; 1]) 2.
Definition n_learn : res mtree := learn_mixed (1 # 20) dval (fun x => Z.abs x =? ORD_INF)%Z (- num 0)%Z n_data n_imp n_kinds up_mid 0 None 4.
Definition n_show := match n_learn with Ok J => map (fun l : leaf (mixed numeric discrete) => (l_idx l, l_path l, l_samples l)) (leaves J) | Err _ => [] end.

Lemma n_trainable : trainable dval (- num 0)%Z n_data n_imp n_kinds n_G up_mid 4.
Proof.
  constructor.
  - intros a b L. apply dval_lt. exact L.
  - vm_compute. reflexivity.
  - intros r v Lr Lv K. destruct v as [|[|v]]; [|discriminate|cbn in Lv; lia]. destruct r as [|[|[|[|r]]]]; [..|lia]; vm_compute; reflexivity.
  - intros r v d Lr Lv K. destruct v as [|[|v]]; [discriminate| |cbn in Lv; lia]. injection K as <-. destruct r as [|[|[|[|r]]]]; [exists 0|exists 0|exists 1|exists 1|lia]; (split; [cbn; lia|vm_compute; reflexivity]).
  - intros v Iv. vm_compute in Iv. destruct Iv as [<-|[]]. split; [cbn; lia|left; reflexivity].
  - intros v Iv. vm_compute in Iv. destruct Iv as [<-|[]]. split; [cbn; lia|exists [None; None]; reflexivity].
  - intros r r' v Lr Lr' Lv K L. destruct v as [|[|v]]; [|discriminate|cbn in Lv; lia].
    assert (M : forall a b, (a < b)%Z -> (a < up_mid a b <= b)%Z). { intros a b Lab. unfold up_mid. pose proof (Z.div_mod (a + b + 1) 2 ltac:(lia)). pose proof (Z.mod_pos_bound (a + b + 1) 2 ltac:(lia)). lia. }
    split; [apply M, L|]. unfold n_G. revert L. destruct r as [|[|[|[|r]]]]; [..|lia]; (destruct r' as [|[|[|[|r']]]]; [..|lia]); intro L; try (vm_compute in L; discriminate L); vm_compute; tauto.
  - intro v. unfold n_G. constructor; [tauto|]. intros x y Hx Hy. unfold num in *. change (2 ^ 51)%Z with 2251799813685248%Z in *. change (2 ^ 52)%Z with 4503599627370496%Z in *. unfold ORD_INF in *. lia.
  - intros v x Lv K Gx. destruct v as [|[|v]]; [|discriminate|cbn in Lv; lia]. unfold n_G in Gx. destruct Gx as [->|[->|[->|[->| ->]]]]; vm_compute; lia.
Qed.

Definition ask (q e : list (var * mset)) (J : mtree) : option Q := match infer J q e true with Ok (Some p) => Some (Qred p) | _ => None end.
Definition lik (row : list (Z + nat)) (J : mtree) : option Q := match likelihood J row with Ok p => Some (Qred p) | Err _ => None end.
Definition from {A} (r : res mtree) (k : mtree -> option A) : option A := match r with Ok J => k J | Err _ => None end.
(** (-inf, 3.0): the second leaf is uniform on [2, 4]. *)
Definition n_low : mset := inl (NC (CS (- ORD_INF) (num 1 + 2 ^ 51)%Z EXC EXC)).
Example C82_example :
  n_show = [(1, [(1, inr [0])], 2); (2, [(1, inr [1])], 2)] /\ from n_learn (ask [(1, inr [1])] []) = Some (1 # 2)%Q /\ from n_learn (ask [(0, n_low)] []) = Some (3 # 4)%Q /\
  from n_learn (ask [(0, n_low)] [(1, inr [1])]) = Some (1 # 2)%Q /\
  map (fun r => from n_learn (lik (data_row dval n_data n_kinds r))) (seq 0 4) = [Some (1 # 2)%Q; Some (1 # 2)%Q; Some (1 # 4)%Q; Some (1 # 4)%Q].
Proof. vm_compute. repeat split. Qed.
