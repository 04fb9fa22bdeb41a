(** The split search, part 3: the loop over the positions finds the best of all
    legal splits of a feature, and the loop over the features the best of all. *)
Require Import QArith Qround Lqa ZArith Bool List Arith Lia Permutation Setoid.
Require Import Verif.Base Verif.NumBase Verif.SortModel Verif.SortProofs Verif.ImpurityModel Verif.ImpuritySpec Verif.ImpurityProofs Verif.ImpurityStats.
Import ListNotations.
Open Scope nat_scope.

Lemma firstn_S : forall A (l : list A) p x, nth_error l p = Some x -> firstn (S p) l = firstn p l ++ [x].
Proof.
  intros A l. induction l as [|a l IH]; intros p x E; [destruct p; discriminate|]. destruct p as [|p]; cbn in E; [inversion E; reflexivity|].
  cbn [firstn app]. f_equal. rewrite <- (IH p x E). reflexivity.
Qed.
Lemma skipn_S : forall A (l : list A) p x rest, skipn p l = x :: rest -> skipn (S p) l = rest /\ nth_error l p = Some x.
Proof.
  intros A l. induction l as [|a l IH]; intros p x rest E; [destruct p; discriminate|]. destruct p as [|p]; cbn [skipn nth_error] in *; [inversion E; auto|]. apply IH in E. exact E.
Qed.

Lemma better_refl : forall g, better g g = false.
Proof. intros [x|]; [|reflexivity]. cbn. unfold Qltb. destruct (Qltb_spec x x); [lra|reflexivity]. Qed.
Lemma better_trans : forall a b c, better a b = false -> better b c = false -> better a c = false.
Proof.
  intros [a|] [b|] [c|] H1 H2; cbn in *; try reflexivity; try discriminate. unfold Qltb in *. destruct (Qltb_spec b a), (Qltb_spec c b), (Qltb_spec c a); try discriminate; [lra|reflexivity].
Qed.
Lemma better_max : forall g b, let b' := if better g b then g else b in better g b' = false /\ better b b' = false.
Proof.
  intros g b. cbv zeta. destruct (better g b) eqn:E; split; try apply better_refl; try exact E.
  destruct g as [x|], b as [y|]; cbn in *; try reflexivity; try discriminate. unfold Qltb in *. destruct (Qltb_spec y x); [|discriminate]. destruct (Qltb_spec x y); [lra|reflexivity].
Qed.

Section Best.
  Variable val : Z -> Q.
  Variable inf : Z -> bool.
  Variable neg1 : Z.
  Variable D : nat -> nat -> Z.
  Variable imp : impurity.

  Definition gain_of (t : totals) (var : nat) (st : stats) : option Q :=
    if Qltb (Qn (n_left st)) (min_samples_leaf imp) || Qltb (Qn (n_samples t - n_left st)) (min_samples_leaf imp)
    then None else Some (improvement imp t var st).

  Section Loop.
    Variable t : totals.
    Variable var : nat.
    Variable symbolic : bool.
    Variable buf : list nat.
    Hypothesis N : n_samples t = length buf.
    Hypothesis B : by_key (fun r => D r var) buf.
    Hypothesis Full : full_dependencies imp var.
    Hypothesis Guard : symbolic = true -> has_symbolic_vars imp = true.

    Definition same (r r' : nat) : bool := Z.eqb (D r' var) (D r var).
    (** The rows left of the split at position [p] with row [r]. *)
    Definition left_rows (p r : nat) : list nat := if symbolic then filter (same r) buf else firstn (S p) buf.
    Definition before (p r : nat) : list nat := if symbolic then filter (same r) (firstn p buf) else firstn p buf.

    Definition reaches (p : nat) (st : stats) : Prop :=
      exists r, nth_error buf p = Some r /\ describes val D imp t var (length (left_rows p r)) (left_rows p r) st.

    Lemma filter_none : forall (f : nat -> bool) l, (forall x, In x l -> f x = false) -> filter f l = [].
    Proof. intros f l H. induction l as [|a l IH]; [reflexivity|]. cbn. rewrite (H a (or_introl eq_refl)). apply IH. intros; apply H; right; assumption. Qed.

    Lemma eval_best : forall rest pos st best bp b q, skipn pos buf = rest -> pos + length rest = length buf -> (symbolic = true \/ S pos < length buf) ->
      (forall r, nth_error buf pos = Some r -> describes val D imp t var (length (before pos r)) (before pos r) st) ->
      eval_loop val D imp t var symbolic rest pos st best bp = (b, q) ->
      better best b = false /\
      (forall p, pos <= p -> boundary D symbolic var buf p -> exists st', reaches p st' /\ better (gain_of t var st') b = false) /\
      ((b = best /\ q = bp) \/ exists p st', q = Some p /\ pos <= p /\ boundary D symbolic var buf p /\ reaches p st' /\ b = gain_of t var st').
    Proof.
      induction rest as [|r rest IH]; intros pos st best bp b q Sk Len Hp De E.
      - cbn in E. inversion E; subst b q. split; [apply better_refl|]. split; [|left; auto]. intros p Lp (r & Er & _). exfalso. assert (p < length buf) by (apply nth_error_Some; congruence). cbn in Len. lia.
      - cbn [length] in Len. destruct (skipn_S _ _ _ _ _ Sk) as [Sk' Er]. specialize (De r Er).
        cbn [eval_loop] in E. rewrite N in E.
        set (last := if symbolic then Nat.eqb (S pos) (length buf) else Nat.eqb (S (S pos)) (length buf)) in E.
        set (st1 := take val D imp t var r st) in E.
        set (eqn := match rest with r' :: _ => Z.eqb (D r var) (D r' var) | [] => false end) in E.
        assert (De1 : describes val D imp t var (length (before pos r ++ [r])) (before pos r ++ [r]) st1).
        { rewrite app_length. cbn [length]. rewrite Nat.add_1_r. apply take_describes; assumption. }
        assert (Up : before pos r ++ [r] = if symbolic then filter (same r) (firstn (S pos) buf) else firstn (S pos) buf).
        { unfold before. rewrite (firstn_S _ _ _ _ Er). destruct symbolic; [|reflexivity]. rewrite filter_app. cbn [filter]. unfold same at 3. rewrite Z.eqb_refl. reflexivity. }
        assert (Sort : forall x, In x (firstn (S pos) buf) -> (D x var <= D r var)%Z).
        { intros x I. apply In_nth_error in I. destruct I as [i Ei]. assert (i < S pos). { assert (i < length (firstn (S pos) buf)) by (apply nth_error_Some; congruence). rewrite firstn_length in H. lia. }
          apply (B i pos x r); [lia| |exact Er]. rewrite <- (firstn_skipn (S pos) buf). rewrite nth_error_app1; [exact Ei|]. apply nth_error_Some. congruence. }
        assert (Next : forall r' rest', rest = r' :: rest' -> nth_error buf (S pos) = Some r' /\ (D r var <= D r' var)%Z).
        { intros r' rest' Ere. rewrite Ere in Sk'. destruct (skipn_S _ _ _ _ _ Sk') as [_ E']. split; [exact E'|]. apply (B pos (S pos) r r'); [lia|exact Er|exact E']. }
        assert (NotB : forall p, pos <= p -> boundary D symbolic var buf p -> ~ S pos <= p -> p = pos) by (intros; lia).
        destruct eqn eqn:Eq.
        + (* equal to the next value *)
          unfold eqn in Eq. destruct rest as [|r' rest']; [discriminate|]. destruct (Next r' rest' eq_refl) as [Er' _]. apply Z.eqb_eq in Eq.
          assert (NB : ~ boundary D symbolic var buf pos).
          { intros (x & Ex & [[_ Z0]|(y & Ey & Nxy)]); [cbn in Len; lia|]. rewrite Er in Ex. rewrite Er' in Ey. inversion Ex; inversion Ey; subst. contradiction. }
          assert (La : last = true -> symbolic = false). { unfold last. destruct symbolic; [|reflexivity]. intro La. apply Nat.eqb_eq in La. cbn in Len. lia. }
          assert (((negb symbolic || negb last) && true) = true) as Cn. { destruct last; [rewrite (La eq_refl); reflexivity|]. destruct symbolic; reflexivity. }
          rewrite Cn in E. destruct last eqn:El.
          * inversion E; subst b q. split; [apply better_refl|]. split; [|left; auto]. intros p Lp Bd. exfalso. destruct (Nat.eq_dec p pos) as [->|Ne]; [exact (NB Bd)|].
            unfold last in El. rewrite (La eq_refl) in El. apply Nat.eqb_eq in El. destruct Bd as (x & Ex & [[Sy _]|(y & Ey & _)]); [rewrite (La eq_refl) in Sy; discriminate|].
            assert (S p < length buf) by (apply nth_error_Some; congruence). lia.
          * assert (De' : forall r0, nth_error buf (S pos) = Some r0 -> describes val D imp t var (length (before (S pos) r0)) (before (S pos) r0) st1).
            { intros r0 E0. rewrite Er' in E0. inversion E0; subst r0. assert (before (S pos) r' = before pos r ++ [r]) as ->; [|exact De1]. rewrite Up. unfold before. destruct symbolic; [|reflexivity].
              apply filter_ext. intro x. unfold same. rewrite Eq. reflexivity. }
            assert (Hp' : symbolic = true \/ S (S pos) < length buf). { unfold last in El. destruct symbolic; [left; reflexivity|right]. apply Nat.eqb_neq in El. destruct Hp; [discriminate|lia]. }
            destruct (IH (S pos) st1 best bp b q Sk' ltac:(cbn [length] in *; lia) Hp' De' E) as (I1 & I2 & I3). split; [exact I1|]. split.
            -- intros p Lp Bd. destruct (Nat.eq_dec p pos) as [->|Ne]; [contradiction|]. apply I2; [lia|exact Bd].
            -- destruct I3 as [I3|(p & st' & A & C & I3)]; [left; exact I3|right; exists p, st'; split; [exact A|]; split; [lia|exact I3]].
        + assert (Bd : rest <> [] \/ symbolic = true -> boundary D symbolic var buf pos).
          { intro Cs. exists r. split; [exact Er|]. destruct rest as [|r' rest']; [left; split; [destruct Cs; [contradiction|assumption]|cbn in Len; lia]|].
            right. exists r'. destruct (Next r' rest' eq_refl) as [Er' _]. split; [exact Er'|]. unfold eqn in Eq. apply Z.eqb_neq. exact Eq. }
          assert (Bd' : boundary D symbolic var buf pos). { apply Bd. destruct rest as [|r' rest']; [right|left; discriminate]. cbn in Len. destruct Hp; [assumption|lia]. }
          rewrite andb_false_r in E.
          assert (Lr : before pos r ++ [r] = left_rows pos r).
          { rewrite Up. unfold left_rows. destruct symbolic; [|reflexivity]. rewrite <- (firstn_skipn (S pos) buf) at 2. rewrite filter_app, Sk'. rewrite (filter_none (same r) rest); [rewrite app_nil_r; reflexivity|].
            intros x Ix. destruct rest as [|r' rest']; [contradiction|]. destruct (Next r' rest' eq_refl) as [Er' Le]. unfold eqn in Eq. apply Z.eqb_neq in Eq. unfold same. apply Z.eqb_neq.
            assert (D r' var <= D x var)%Z; [|lia]. apply In_nth_error in Ix. destruct Ix as [i Ei]. apply (B (S pos) (S pos + i) r' x); [lia|exact Er'|]. rewrite <- (firstn_skipn (S pos) buf). rewrite nth_error_app2; rewrite firstn_length, Nat.min_l by (cbn [length] in Len; lia); [|lia].
            replace (S pos + i - S pos) with i by lia. rewrite Sk'. exact Ei. }
          assert (Re : reaches pos st1). { exists r. split; [exact Er|]. rewrite <- Lr. exact De1. }
          cbv zeta in E. rewrite <- N in E. fold (gain_of t var st1) in E.
          set (g := gain_of t var st1) in *. set (st2 := if symbolic then reset imp t var st1 else st1) in E.
          destruct (better_max g best) as [M1 M2]. cbv zeta in M1, M2. set (best' := if better g best then g else best) in *. set (bp' := if better g best then Some pos else bp) in E.
          assert (Now : better g best = true -> exists p st', bp' = Some p /\ pos <= p /\ boundary D symbolic var buf p /\ reaches p st' /\ best' = gain_of t var st').
          { intro Be. exists pos, st1. unfold bp', best'. rewrite Be. repeat split; auto. }
          destruct last eqn:El.
          * inversion E; subst b q. split; [exact M2|]. split.
            -- intros p Lp Bp. assert (p = pos) as ->. { unfold last in El. destruct Bp as (x & Ex & Cs). assert (p < length buf) by (apply nth_error_Some; congruence). destruct symbolic; apply Nat.eqb_eq in El; [lia|].
                 destruct Cs as [[Sy _]|(y & Ey & _)]; [discriminate|]. assert (S p < length buf) by (apply nth_error_Some; congruence). lia. }
               exists st1. split; [exact Re|exact M1].
            -- destruct (better g best) eqn:Be; [right; apply Now; reflexivity|left; unfold best', bp'; auto].
          * assert (De' : forall r0, nth_error buf (S pos) = Some r0 -> describes val D imp t var (length (before (S pos) r0)) (before (S pos) r0) st2).
            { intros r0 E0. destruct rest as [|r' rest']; [exfalso; assert (S pos < length buf) by (apply nth_error_Some; congruence); cbn in Len; lia|].
              destruct (Next r' rest' eq_refl) as [Er' Le]. rewrite Er' in E0. inversion E0; subst r0. unfold eqn in Eq. apply Z.eqb_neq in Eq. unfold before, st2. destruct symbolic.
              - rewrite filter_none; [|intros x Ix; specialize (Sort x Ix); unfold same; apply Z.eqb_neq; lia]. pose proof (reset_describes val D imp t var _ _ _ De1) as Rs. rewrite (Guard eq_refl) in Rs. exact Rs.
              - rewrite Up in De1. exact De1. }
            assert (Hp' : symbolic = true \/ S (S pos) < length buf). { unfold last in El. destruct symbolic; [left; reflexivity|right]. apply Nat.eqb_neq in El. destruct Hp; [discriminate|lia]. }
            destruct (IH (S pos) st2 best' bp' b q Sk' ltac:(lia) Hp' De' E) as (I1 & I2 & I3). split; [eapply better_trans; eassumption|]. split.
            -- intros p Lp Bp. destruct (Nat.eq_dec p pos) as [->|Ne]; [exists st1; split; [exact Re|eapply better_trans; eassumption]|apply I2; [lia|exact Bp]].
            -- destruct I3 as [[-> ->]|(p & st' & A & C & I3)]; [|right; exists p, st'; split; [exact A|]; split; [lia|exact I3]].
               destruct (better g best) eqn:Be; [right; apply Now; reflexivity|left; unfold best', bp'; auto].
    Qed.
  End Loop.

  (** ** From the running statistics to the improvement of a split *)

  Open Scope Q_scope.

  Lemma Qdiv_opp : forall a b, (- a) / (- b) == a / b.
  Proof. intros a b. destruct (Qeq_dec b 0) as [Z0|NZ]; [rewrite Z0; unfold Qdiv; assert (/ - 0 == 0) as -> by reflexivity; assert (/ 0 == 0) as -> by reflexivity; ring|field; exact NZ]. Qed.

  Lemma variance_comp : forall a a' b b' n, a == a' -> b == b' -> variance a b n == variance a' b' n.
  Proof. intros a a' b b' n Ha Hb. unfold variance. destruct (n <=? 1)%nat; [reflexivity|]. rewrite Ha, Hb. reflexivity. Qed.

  Lemma var_improvements_ext : forall n old left right old' left' right' nl nr skip,
    (forall i, (i < n)%nat -> old i == old' i /\ left i == left' i /\ right i == right' i) ->
    var_improvements n old left right nl nr skip == var_improvements n old' left' right' nl nr skip.
  Proof.
    intros n old left right old' left' right' nl nr skip H. unfold var_improvements.
    set (f := fun (o l r : nat -> Q) (acc : Q * Q) (i : nat) => if match skip with Some k => Nat.eqb k i | None => false end || Qeq_bool (o i) 0 then acc
      else (fst acc * snd acc + ((o i - (l i * Qn nl + r i * Qn nr) / (Qn nl + Qn nr)) / o i) / (snd acc + 1), snd acc + 1)).
    assert (G : forall is acc acc', (forall i, In i is -> (i < n)%nat) -> fst acc == fst acc' -> snd acc == snd acc' ->
      fst (fold_left (f old left right) is acc) == fst (fold_left (f old' left' right') is acc')).
    { induction is as [|i is IH]; intros acc acc' Hi E1 E2; [exact E1|]. cbn [fold_left]. destruct (H i (Hi i (or_introl eq_refl))) as (Ho & Hl & Hr).
      assert (Qb : Qeq_bool (old i) 0 = Qeq_bool (old' i) 0) by (apply eq_true_iff_eq; rewrite !Qeq_bool_iff, Ho; reflexivity).
      apply IH; [intros; apply Hi; right; assumption| |]; unfold f; rewrite Qb; destruct (_ || _); cbn [fst snd]; try assumption; [rewrite E1, E2, Ho, Hl, Hr; reflexivity|rewrite E2; reflexivity]. }
    apply (G (seq 0 n) (0, 0) (0, 0)); [intros i I; apply in_seq in I; lia|reflexivity|reflexivity].
  Qed.

  Lemma pop_var_sums : forall c rows n, n = length rows -> rows <> [] ->
    variance (Qsum (map (fun r => val (D r c) * val (D r c)) rows)) (Qsum (map (fun r => val (D r c)) rows)) n == pop_var val D c rows.
  Proof.
    intros c rows n E Ne. rewrite (variance_sums (fun r => val (D r c)) rows n E) by (subst n; destruct rows; [contradiction|cbn; lia]). subst n. reflexivity.
  Qed.

  Lemma gini_spec : forall counts L n i, n = length L -> L <> [] -> (forall v, counts i v = count val D imp i v L) ->
    gini_impurity imp counts n i == target_gini val D imp L i.
  Proof.
    intros counts L n i E Ne H. unfold gini_impurity, target_gini. destruct (Nat.eqb (symbol_count imp i) 1); [reflexivity|]. cbv zeta.
    assert (K : (Qsum (map (fun j => inject_Z (counts i j * counts i j)) (seq 0 (symbol_count imp i))) / Qn (n * n) - 1) / (1 / Qn (symbol_count imp i) - 1) == gini val D (symbol_count imp i) (sym_var imp i) L).
    { unfold gini. rewrite <- (Qdiv_opp (1 - _)). assert (Pn : 0 < Qn n) by (apply Qn_pos; subst n; destruct L; [contradiction|cbn; lia]).
      assert (S : Qsum (map (fun j => inject_Z (counts i j * counts i j)) (seq 0 (symbol_count imp i))) / Qn (n * n) == Qsum (map (fun v => freq val D (sym_var imp i) L v * freq val D (sym_var imp i) L v) (seq 0 (symbol_count imp i)))).
      { rewrite <- Qsum_map_div. apply Qsum_map_ext. intros v _. rewrite H. unfold count, freq. rewrite <- E. fold (Qn (length (filter (fun r => Nat.eqb (symbol_at val D r (sym_var imp i)) v) L))).
        rewrite inject_Z_mult. fold (Qn (length (filter (fun r => Nat.eqb (symbol_at val D r (sym_var imp i)) v) L))). assert (Qn (n * n) == Qn n * Qn n) as -> by (unfold Qn; rewrite Nat2Z.inj_mul, inject_Z_mult; reflexivity). field. lra. }
      rewrite S. apply Qdiv_comp; ring. }
    destruct (inverted imp i); rewrite K; reflexivity.
  Qed.
  Lemma gini_mean_spec : forall counts L n, n = length L -> L <> [] -> (forall i v, (i < n_sym imp)%nat -> counts i v = count val D imp i v L) ->
    gini_mean imp counts n == mean_gini val D imp L.
  Proof.
    intros counts L n E Ne H. unfold gini_mean, mean_gini. apply Qdiv_comp; [|reflexivity]. apply Qsum_map_ext. intros i I. apply gini_spec; try assumption. intro v. apply H. apply in_seq in I. lia.
  Qed.

  Lemma S1_split : forall i rows L R, Permutation (L ++ R) rows -> S1 val D imp i rows == S1 val D imp i L + S1 val D imp i R.
  Proof. intros i rows L R P. unfold S1. rewrite <- Qsum_app, <- map_app. apply Qsum_perm, Permutation_map, Permutation_sym, P. Qed.
  Lemma S2_split : forall i rows L R, Permutation (L ++ R) rows -> S2 val D imp i rows == S2 val D imp i L + S2 val D imp i R.
  Proof. intros i rows L R P. unfold S2. rewrite <- Qsum_app, <- map_app. apply Qsum_perm, Permutation_map, Permutation_sym, P. Qed.
  Lemma count_split : forall j v rows L R, Permutation (L ++ R) rows -> count val D imp j v rows = (count val D imp j v L + count val D imp j v R)%Z.
  Proof.
    intros j v rows L R P. unfold count. rewrite (Permutation_length (filter_perm _ _ _ _ (Permutation_sym P))), filter_app, app_length. lia.
  Qed.

  Lemma describes_improvement : forall var rows L R st, Permutation (L ++ R) rows -> L <> [] -> R <> [] ->
    describes val D imp (block_totals val D imp rows) var (length L) L st ->
    improvement imp (block_totals val D imp rows) var st == split_improvement val D imp var rows L R.
  Proof.
    intros var rows L R st P NL NR (Nl & Hn & Hs). set (t := block_totals val D imp rows) in *.
    assert (Nr : rows <> []). { intro Z0. subst rows. apply Permutation_sym, Permutation_nil in P. destruct L; [contradiction|discriminate]. }
    assert (Len : (length rows - length L)%nat = length R). { rewrite <- (Permutation_length P), app_length. lia. }
    assert (Gt : has_symbolic_vars imp = true -> gini_total imp t == mean_gini val D imp rows).
    { intro Hv. unfold gini_total. rewrite Hv. apply gini_mean_spec; [reflexivity|exact Nr|]. intros i v _. apply bincount_spec. }
    unfold improvement, split_improvement. cbv zeta. assert (Nt : n_samples t = length rows) by reflexivity. rewrite Nl, Nt, Len. apply Qplus_comp.
    - destruct (has_numeric_vars imp var) eqn:Hv; [|reflexivity]. apply Qmult_comp; [|reflexivity]. unfold numeric_improvement. apply var_improvements_ext. intros i Li.
      destruct (Hn eq_refl i Li) as (A & B & C). destruct (C NL) as [C1 C2]. repeat split.
      + unfold variances_total, t. cbn [block_totals sq_sums_total sums_total n_samples]. rewrite <- (pop_var_sums _ rows (length rows) eq_refl Nr). apply variance_comp; [apply sq_sum_at_spec|apply sum_at_spec].
      + rewrite <- (pop_var_sums _ L (length L) eq_refl NL). apply variance_comp; assumption.
      + rewrite <- (pop_var_sums _ R (length R) eq_refl NR). apply variance_comp.
        * rewrite C2. unfold t. cbn [block_totals sq_sums_total]. rewrite sq_sum_at_spec. fold (S2 val D imp i rows) (S2 val D imp i R). rewrite (S2_split i rows L R P). lra.
        * rewrite C1. unfold t. cbn [block_totals sums_total]. rewrite sum_at_spec. fold (S1 val D imp i rows) (S1 val D imp i R). rewrite (S1_split i rows L R P). lra.
    - destruct (has_symbolic_vars imp) eqn:Hv; [|reflexivity]. specialize (Gt eq_refl). cbn [andb]. assert (Qeq_bool (gini_total imp t) 0 = Qeq_bool (mean_gini val D imp rows) 0) as -> by (apply eq_true_iff_eq; rewrite !Qeq_bool_iff, Gt; reflexivity).
      destruct (Qeq_bool (mean_gini val D imp rows) 0); [reflexivity|]. cbn [negb]. apply Qmult_comp; [|reflexivity]. unfold symbolic_improvement. rewrite Gt.
      rewrite (gini_mean_spec (symbols_left st) L (length L) eq_refl NL) by (intros i v Li; apply (Hs eq_refl i v Li)).
      rewrite (gini_mean_spec (symbols_right st) R (length R) eq_refl NR); [reflexivity|]. intros i v Li. destruct (Hs eq_refl i v Li) as [_ E]. rewrite E. unfold t. cbn [block_totals symbols_total]. rewrite bincount_spec, (count_split i v rows L R P). lia.
  Qed.
End Best.
