(** Range of the impurity measures and of the improvement of a split. *)
Require Import QArith Qfield Qround ZArith Bool List Arith Permutation Lia Lqa.
Require Import Verif.Base Verif.NumBase Verif.ImpurityModel Verif.ImpuritySpec Verif.ImpurityProofs Verif.ImpurityStats Verif.ImpurityBest Verif.ImpurityBest2.
Import ListNotations.
Open Scope Q_scope.

Lemma sq_nonneg : forall x : Q, 0 <= x * x.
Proof. intro x. destruct (Qlt_le_dec x 0); nra. Qed.

(** The variance of the whole is at least the weighted variance of the parts. *)
Lemma cauchy2 : forall a b p q : Q, 0 < p -> 0 < q -> (a + b) * (a + b) / (p + q) <= a * a / p + b * b / q.
Proof.
  intros a b p q P R. assert (E : a * a / p + b * b / q - (a + b) * (a + b) / (p + q) == (a * q - b * p) * (a * q - b * p) / (p * q * (p + q))) by (field; repeat split; intro H; lra).
  assert (0 <= (a * q - b * p) * (a * q - b * p) / (p * q * (p + q))). { apply Qdiv_nonneg; [apply sq_nonneg|]. assert (0 < p * q) by nra. nra. }
  lra.
Qed.

Section Range.
  Variable val : Z -> Q.
  Variable D : nat -> nat -> Z.
  Variable imp : impurity.

  Lemma pop_var_nonneg : forall c l, l <> [] -> 0 <= pop_var val D c l.
  Proof.
    intros c l N. unfold pop_var, pop_sum. apply Qdiv_nonneg; [|apply Qn_pos; destruct l; [contradiction|cbn; lia]].
    apply Qsum_map_nonneg. intros x _. apply sq_nonneg.
  Qed.
  Lemma pop_var_scaled : forall c l, l <> [] ->
    Qn (length l) * pop_var val D c l == pop_sum (fun r => val (D r c) * val (D r c)) l - pop_sum (fun r => val (D r c)) l * pop_sum (fun r => val (D r c)) l / Qn (length l).
  Proof.
    intros c l N. assert (Ln : (0 < length l)%nat) by (destruct l; [contradiction|cbn; lia]). pose proof (Qn_pos _ Ln) as Pn.
    pose proof (variance_sums (fun r => val (D r c)) l (length l) eq_refl Ln) as V. cbv beta in V. unfold variance in V.
    assert (P : pop_var val D c l == Qsum (map (fun r => (val (D r c) - Qsum (map (fun r0 => val (D r0 c)) l) / Qn (length l)) * (val (D r c) - Qsum (map (fun r0 => val (D r0 c)) l) / Qn (length l))) l) / Qn (length l)) by reflexivity.
    rewrite P, <- V. clear V P. destruct (Nat.leb_spec (length l) 1) as [L|L].
    - destruct l as [|a [|b l]]; cbn in Ln, L; try lia. unfold pop_sum. cbn [map Qsum length]. assert (E : Qn 1 == 1) by reflexivity. rewrite E. field.
    - unfold pop_sum. field. lra.
  Qed.
  Lemma pop_var_split : forall c L R, L <> [] -> R <> [] ->
    Qn (length L) * pop_var val D c L + Qn (length R) * pop_var val D c R <= Qn (length (L ++ R)) * pop_var val D c (L ++ R).
  Proof.
    intros c L R NL NR. rewrite (pop_var_scaled c L NL), (pop_var_scaled c R NR), pop_var_scaled by (intro Z0; apply app_eq_nil in Z0; tauto).
    unfold pop_sum. rewrite !map_app, !Qsum_app, app_length, Qn_plus.
    assert (PL : 0 < Qn (length L)) by (apply Qn_pos; destruct L; [contradiction|cbn; lia]).
    assert (PR : 0 < Qn (length R)) by (apply Qn_pos; destruct R; [contradiction|cbn; lia]).
    set (a := Qsum (map (fun r => val (D r c)) L)). set (b := Qsum (map (fun r => val (D r c)) R)). pose proof (cauchy2 a b _ _ PL PR). lra.
  Qed.

  (** Relative improvement of one numeric target. *)
  Lemma relative_range : forall old l r nl nr, 0 < old -> 0 <= l -> 0 <= r -> 0 < nl -> 0 < nr -> nl * l + nr * r <= (nl + nr) * old ->
    0 <= (old - (l * nl + r * nr) / (nl + nr)) / old <= 1.
  Proof.
    intros old l r nl nr O Hl Hr Nl Nr H. set (x := (l * nl + r * nr) / (nl + nr)).
    assert (X : x * (nl + nr) == l * nl + r * nr) by (unfold x; field; lra).
    assert (0 <= x). { unfold x. apply Qdiv_nonneg; [nra|lra]. }
    assert (x <= old) by nra. split; [apply Qdiv_nonneg; [lra|exact O]|]. apply Qdiv_le_1; lra.
  Qed.

  Lemma numeric_term_range : forall c rows L R, Permutation (L ++ R) rows -> L <> [] -> R <> [] -> ~ pop_var val D c rows == 0 ->
    0 <= (pop_var val D c rows - (pop_var val D c L * Qn (length L) + pop_var val D c R * Qn (length R)) / (Qn (length L) + Qn (length R))) / pop_var val D c rows <= 1.
  Proof.
    intros c rows L R P NL NR NZ. pose proof (pop_var_split c L R NL NR) as H. rewrite app_length, Qn_plus in H. rewrite (pop_var_perm val D c _ _ P) in H.
    assert (0 <= pop_var val D c rows). { apply pop_var_nonneg. intro Z0. subst rows. apply Permutation_sym, Permutation_nil, app_eq_nil in P. tauto. }
    apply relative_range; [destruct (Qeq_dec (pop_var val D c rows) 0); [contradiction|]; lra|apply pop_var_nonneg; assumption|apply pop_var_nonneg; assumption| | |exact H]; apply Qn_pos; [destruct L|destruct R]; try contradiction; cbn; lia.
  Qed.

  (** Targets that count for the numeric improvement. *)
  Definition active (var : nat) (rows : list nat) (i : nat) : bool :=
    negb (match num_feat_idx imp var with Some k => Nat.eqb k i | None => false end || Qeq_bool (pop_var val D (num_var imp i) rows) 0).
  Definition n_active (var : nat) (rows : list nat) : nat := length (filter (active var rows) (seq 0 (n_num imp))).

  Lemma numeric_improvement_range : forall var rows L R, Permutation (L ++ R) rows -> L <> [] -> R <> [] ->
    0 <= numeric_improvement val D imp var rows L R /\ ((n_active var rows <= 1)%nat -> numeric_improvement val D imp var rows L R <= 1).
  Proof.
    intros var rows L R P NL NR. unfold numeric_improvement, var_improvements, n_active. fold (active var rows).
    set (f := fun acc i => _).
    assert (G : forall l acc d, 0 <= acc -> (d = 0)%nat /\ acc == 0 \/ (0 < d)%nat ->
      0 <= fst (fold_left f l (acc, Qn d)) /\ ((d + length (filter (active var rows) l) <= 1)%nat -> acc <= 1 -> fst (fold_left f l (acc, Qn d)) <= 1)).
    { induction l as [|i l IH]; intros acc d Ha Hd; [cbn [fold_left fst filter length]; split; auto|].
      cbn [fold_left filter]. unfold f at 2 4. cbn [fst snd]. unfold active at 1.
      destruct (match num_feat_idx imp var with Some k => Nat.eqb k i | None => false end) eqn:Sk; cbn [orb negb]; [apply IH; assumption|].
      destruct (Qeqb_spec (pop_var val D (num_var imp i) rows) 0) as [Z0|NZ]; cbn [negb]; [apply IH; assumption|].
      pose proof (numeric_term_range (num_var imp i) rows L R P NL NR NZ) as [T0 T1]. set (x := _ / pop_var val D (num_var imp i) rows) in *.
      pose proof (Qn_nonneg d) as Pd.
      assert (E : forall l a a' b b', a == a' -> b == b' -> fst (fold_left f l (a, b)) == fst (fold_left f l (a', b')) ).
      { clear. induction l as [|i l IH]; intros a a' b b' Ea Eb; [exact Ea|]. cbn [fold_left]. unfold f at 2 4. cbn [fst snd]. destruct (_ || _); [apply IH; assumption|]. apply IH; rewrite ?Ea, ?Eb; reflexivity. }
      assert (Ed : Qn d + 1 == Qn (S d)) by (rewrite Qn_S; reflexivity).
      assert (Eq : fst (fold_left f l (acc * Qn d + x / (Qn d + 1), Qn d + 1)) == fst (fold_left f l (acc * Qn d + x / (Qn d + 1), Qn (S d)))) by (apply E; [reflexivity|exact Ed]).
      assert (X0 : 0 <= x / (Qn d + 1)) by (apply Qdiv_nonneg; lra).
      assert (A0 : 0 <= acc * Qn d + x / (Qn d + 1)) by nra.
      destruct (IH (acc * Qn d + x / (Qn d + 1)) (S d) A0 ltac:(right; lia)) as [I0 I1].
      split; [rewrite Eq; exact I0|]. cbn [length]. intros Le Ha1. rewrite Eq. apply I1; [lia|].
      destruct Hd as [[-> Hz]|Pos]; [|lia]. assert (Z0 : Qn 0 == 0) by reflexivity. rewrite Z0. setoid_replace (acc * 0 + x / (0 + 1)) with x by field. exact T1. }
    destruct (G (seq 0 (n_num imp)) 0 0%nat ltac:(lra) ltac:(left; split; [reflexivity|lra])) as [G0 G1]. split; [exact G0|]. intro H. apply G1; [exact H|lra].
  Qed.

  (** ** Gini impurity *)
  Lemma freq_nonneg : forall c rows v, rows <> [] -> 0 <= freq val D c rows v.
  Proof. intros c rows v N. unfold freq. apply Qdiv_nonneg; [apply Qn_nonneg|apply Qn_pos; destruct rows; [contradiction|cbn; lia]]. Qed.
  Lemma count_seq : forall (f : nat -> nat) k rows, Qsum (map (fun v => Qn (length (filter (fun r => Nat.eqb (f r) v) rows))) (seq 0 k)) == Qn (length (filter (fun r => (f r <? k)%nat) rows)).
  Proof.
    intros f k rows. induction rows as [|r rows IH].
    - cbn [filter length]. apply Qsum_map_zero. reflexivity.
    - cbn [filter]. rewrite (Qsum_map_ext _ _ (fun v => (if Nat.eqb (f r) v then 1 else 0) + Qn (length (filter (fun r0 => Nat.eqb (f r0) v) rows)))).
      2:{ intros v _. destruct (Nat.eqb (f r) v); cbn [length]; [rewrite Qn_S|]; lra. }
      rewrite Qsum_map_plus, IH.
      assert (One : Qsum (map (fun v => if Nat.eqb (f r) v then 1 else 0) (seq 0 k)) == if (f r <? k)%nat then 1 else 0).
      { clear. generalize (f r) as m. intro m. induction k as [|k IH]; [reflexivity|]. rewrite seq_S, map_app, Qsum_app, IH. cbn [map Qsum plus]. destruct (Nat.ltb_spec m k), (Nat.ltb_spec m (S k)), (Nat.eqb_spec m k); try lia; lra. }
      rewrite One. destruct (f r <? k)%nat; cbn [length]; [rewrite Qn_S|]; lra.
  Qed.
  Lemma filter_len_le : forall A (f : A -> bool) l, (length (filter f l) <= length l)%nat.
  Proof. intros A f l. induction l as [|x l IH]; cbn [filter]; [lia|]. destruct (f x); cbn [length]; lia. Qed.
  Lemma freq_sum : forall k c rows, rows <> [] -> Qsum (map (freq val D c rows) (seq 0 k)) == Qn (length (filter (fun r => (symbol_at val D r c <? k)%nat) rows)) / Qn (length rows).
  Proof. intros k c rows N. unfold freq. rewrite Qsum_map_div, count_seq. reflexivity. Qed.
  Lemma freq_le_1 : forall c rows v, rows <> [] -> freq val D c rows v <= 1.
  Proof. intros c rows v N. unfold freq. apply Qdiv_le_1; [apply Qn_le, filter_len_le|apply Qn_pos; destruct rows; [contradiction|cbn; lia]]. Qed.

  Lemma sq_sum_le_1 : forall k c rows, rows <> [] -> Qsum (map (fun v => freq val D c rows v * freq val D c rows v) (seq 0 k)) <= 1.
  Proof.
    intros k c rows N. apply Qle_trans with (Qsum (map (freq val D c rows) (seq 0 k))).
    - apply Qsum_map_le. intros v _. pose proof (freq_nonneg c rows v N). pose proof (freq_le_1 c rows v N). nra.
    - rewrite freq_sum by exact N. apply Qdiv_le_1; [apply Qn_le, filter_len_le|apply Qn_pos; destruct rows; [contradiction|cbn; lia]].
  Qed.
  (** Sum of squares is at least the squared sum over the number of terms. *)
  Lemma sq_sum_ge : forall (f : nat -> Q) l, l <> [] -> Qsum (map f l) * Qsum (map f l) / Qn (length l) <= Qsum (map (fun v => f v * f v) l).
  Proof.
    intros f l N. assert (Ln : (0 < length l)%nat) by (destruct l; [contradiction|cbn; lia]). pose proof (Qn_pos _ Ln) as Pn. set (m := Qsum (map f l) / Qn (length l)).
    assert (H : 0 <= Qsum (map (fun v => (f v - m) * (f v - m)) l)) by (apply Qsum_map_nonneg; intros; apply sq_nonneg).
    assert (E : forall l0, Qsum (map (fun v => (f v - m) * (f v - m)) l0) == Qsum (map (fun v => f v * f v) l0) - 2 * m * Qsum (map f l0) + Qn (length l0) * (m * m)).
    { induction l0 as [|x l0 IH]; [cbn [map Qsum length]; assert (Z0 : Qn 0 == 0) by reflexivity; rewrite Z0; ring|]. cbn [map Qsum length]. rewrite IH, Qn_S. ring. }
    rewrite E in H. assert (Em : m * Qn (length l) == Qsum (map f l)) by (unfold m; field; lra).
    assert (Es : Qsum (map f l) * Qsum (map f l) / Qn (length l) == m * Qsum (map f l)) by (unfold m; field; lra).
    rewrite Es. rewrite <- Em in *. nra.
  Qed.

  Lemma gini_denominator : forall k, k <> 1%nat -> 0 < 1 - 1 / Qn k.
  Proof.
    intros k N. destruct k as [|[|k]]; [reflexivity|contradiction|]. assert (Q2 : 2 <= Qn (S (S k))) by (rewrite !Qn_S; pose proof (Qn_nonneg k); lra).
    assert (1 / Qn (S (S k)) < 1); [|lra]. apply Qlt_shift_div_r; lra.
  Qed.

  Theorem gini_nonneg : forall k c rows, k <> 1%nat -> rows <> [] -> 0 <= gini val D k c rows.
  Proof. intros k c rows Nk N. unfold gini. apply Qdiv_nonneg; [|apply gini_denominator; exact Nk]. pose proof (sq_sum_le_1 k c rows N). lra. Qed.
  Theorem gini_le_1 : forall k c rows, k <> 1%nat -> rows <> [] -> (forall r, In r rows -> (symbol_at val D r c < k)%nat) -> gini val D k c rows <= 1.
  Proof.
    intros k c rows Nk N H. unfold gini. apply Qdiv_le_1; [|apply gini_denominator; exact Nk].
    destruct k as [|k]; [destruct rows as [|r rows]; [contradiction|]; specialize (H r (or_introl eq_refl)); lia|].
    pose proof (sq_sum_ge (freq val D c rows) (seq 0 (S k)) ltac:(discriminate)) as Hs. rewrite seq_length in Hs.
    assert (F1 : Qsum (map (freq val D c rows) (seq 0 (S k))) == 1).
    { rewrite freq_sum by exact N. assert (filter (fun r => (symbol_at val D r c <? S k)%nat) rows = rows) as ->; [|apply Qdiv_same; pose proof (Qn_pos (length rows) ltac:(destruct rows; [contradiction|cbn; lia])); lra].
      apply filter_all. intros r I. apply Nat.ltb_lt, H, I. }
    assert (E : Qsum (map (freq val D c rows) (seq 0 (S k))) * Qsum (map (freq val D c rows) (seq 0 (S k))) / Qn (S k) == 1 / Qn (S k)) by (rewrite F1; field; pose proof (Qn_pos (S k) ltac:(lia)); lra).
    rewrite E in Hs. lra.
  Qed.

  (** Splitting does not increase the (weighted) impurity. *)
  Lemma freq_split : forall c L R v, L <> [] -> R <> [] -> Qn (length (L ++ R)) * freq val D c (L ++ R) v == Qn (length L) * freq val D c L v + Qn (length R) * freq val D c R v.
  Proof.
    intros c L R v NL NR. unfold freq. rewrite filter_app, !app_length, !Qn_plus.
    assert (PL : 0 < Qn (length L)) by (apply Qn_pos; destruct L; [contradiction|cbn; lia]).
    assert (PR : 0 < Qn (length R)) by (apply Qn_pos; destruct R; [contradiction|cbn; lia]). field. repeat split; lra.
  Qed.
  Lemma gini_split : forall k c L R, k <> 1%nat -> L <> [] -> R <> [] ->
    Qn (length L) * gini val D k c L + Qn (length R) * gini val D k c R <= Qn (length (L ++ R)) * gini val D k c (L ++ R).
  Proof.
    intros k c L R Nk NL NR. pose proof (gini_denominator k Nk) as Pd. unfold gini. set (d := 1 - 1 / Qn k) in *.
    assert (PL : 0 < Qn (length L)) by (apply Qn_pos; destruct L; [contradiction|cbn; lia]).
    assert (PR : 0 < Qn (length R)) by (apply Qn_pos; destruct R; [contradiction|cbn; lia]).
    set (p := Qn (length L)) in *. set (q := Qn (length R)) in *.
    assert (En : Qn (length (L ++ R)) == p + q) by (rewrite app_length, Qn_plus; reflexivity). rewrite En.
    assert (H : (p + q) * Qsum (map (fun v => freq val D c (L ++ R) v * freq val D c (L ++ R) v) (seq 0 k)) <=
                p * Qsum (map (fun v => freq val D c L v * freq val D c L v) (seq 0 k)) + q * Qsum (map (fun v => freq val D c R v * freq val D c R v) (seq 0 k))).
    { rewrite <- !Qsum_map_scale, <- Qsum_map_plus. apply Qsum_map_le. intros v _. pose proof (freq_split c L R v NL NR) as E. rewrite En in E. fold p q in E.
      set (x := freq val D c (L ++ R) v) in *. set (a := freq val D c L v) in *. set (b := freq val D c R v) in *.
      pose proof (cauchy2 (p * a) (q * b) p q PL PR) as C.
      assert (E1 : (p * a + q * b) * (p * a + q * b) / (p + q) == (p + q) * (x * x)) by (rewrite <- E; field; lra).
      assert (E2 : p * a * (p * a) / p + q * b * (q * b) / q == p * (a * a) + q * (b * b)) by (field; split; lra). rewrite E1, E2 in C. exact C. }
    set (A := Qsum (map (fun v => freq val D c L v * freq val D c L v) (seq 0 k))) in *. set (B := Qsum (map (fun v => freq val D c R v * freq val D c R v) (seq 0 k))) in *.
    set (X := Qsum (map (fun v => freq val D c (L ++ R) v * freq val D c (L ++ R) v) (seq 0 k))) in *.
    assert (E : (p + q) * ((1 - X) / d) - (p * ((1 - A) / d) + q * ((1 - B) / d)) == (p * A + q * B - (p + q) * X) / d) by (field; lra).
    assert (0 <= (p * A + q * B - (p + q) * X) / d) by (apply Qdiv_nonneg; lra). lra.
  Qed.

  Definition not_inverted : Prop := forall i, (i < n_sym imp)%nat -> inverted imp i = false.

  Lemma target_gini_nonneg : forall rows i, not_inverted -> (i < n_sym imp)%nat -> rows <> [] -> 0 <= target_gini val D imp rows i.
  Proof.
    intros rows i NI Li N. unfold target_gini. destruct (Nat.eqb_spec (symbol_count imp i) 1); [lra|]. cbv zeta. rewrite (NI i Li). apply gini_nonneg; assumption.
  Qed.
  Lemma target_gini_split : forall L R i, not_inverted -> (i < n_sym imp)%nat -> L <> [] -> R <> [] ->
    Qn (length L) * target_gini val D imp L i + Qn (length R) * target_gini val D imp R i <= Qn (length (L ++ R)) * target_gini val D imp (L ++ R) i.
  Proof.
    intros L R i NI Li NL NR. unfold target_gini. destruct (Nat.eqb_spec (symbol_count imp i) 1); [lra|]. cbv zeta. rewrite (NI i Li). apply gini_split; assumption.
  Qed.

  Lemma mean_gini_nonneg : forall rows, not_inverted -> rows <> [] -> 0 <= mean_gini val D imp rows.
  Proof.
    intros rows NI N. unfold mean_gini. destruct (Nat.eq_dec (n_sym imp) 0) as [->|Ns]; [vm_compute; discriminate|]. apply Qdiv_nonneg; [|apply Qn_pos; lia].
    apply Qsum_map_nonneg. intros i I. apply in_seq in I. apply target_gini_nonneg; [exact NI|lia|exact N].
  Qed.
  Lemma mean_gini_split : forall L R, not_inverted -> L <> [] -> R <> [] ->
    Qn (length L) * mean_gini val D imp L + Qn (length R) * mean_gini val D imp R <= Qn (length (L ++ R)) * mean_gini val D imp (L ++ R).
  Proof.
    intros L R NI NL NR. unfold mean_gini. destruct (Nat.eq_dec (n_sym imp) 0) as [->|Ns]; [cbn [seq map Qsum]; unfold Qdiv; lra|]. pose proof (Qn_pos (n_sym imp) ltac:(lia)) as Pk.
    set (k := Qn (n_sym imp)) in *. set (GL := Qsum (map (target_gini val D imp L) (seq 0 (n_sym imp)))). set (GR := Qsum (map (target_gini val D imp R) (seq 0 (n_sym imp)))). set (G := Qsum (map (target_gini val D imp (L ++ R)) (seq 0 (n_sym imp)))).
    assert (H : Qn (length L) * GL + Qn (length R) * GR <= Qn (length (L ++ R)) * G).
    { unfold GL, GR, G. rewrite <- !Qsum_map_scale, <- Qsum_map_plus. apply Qsum_map_le. intros i I. apply in_seq in I. apply target_gini_split; [exact NI|lia|exact NL|exact NR]. }
    assert (E : Qn (length (L ++ R)) * (G / k) - (Qn (length L) * (GL / k) + Qn (length R) * (GR / k)) == (Qn (length (L ++ R)) * G - (Qn (length L) * GL + Qn (length R) * GR)) / k) by (field; lra).
    assert (0 <= (Qn (length (L ++ R)) * G - (Qn (length L) * GL + Qn (length R) * GR)) / k) by (apply Qdiv_nonneg; lra). lra.
  Qed.

  Lemma symbolic_improvement_range : forall rows L R, not_inverted -> Permutation (L ++ R) rows -> L <> [] -> R <> [] -> ~ mean_gini val D imp rows == 0 ->
    0 <= symbolic_improvement val D imp rows L R <= 1.
  Proof.
    intros rows L R NI P NL NR NZ. pose proof (mean_gini_split L R NI NL NR) as H. rewrite (mean_gini_perm val D imp _ _ P), (Permutation_length P) in H.
    assert (Nr : rows <> []). { intro Z0. subst rows. apply Permutation_sym, Permutation_nil, app_eq_nil in P. tauto. }
    pose proof (mean_gini_nonneg rows NI Nr) as G0. pose proof (mean_gini_nonneg L NI NL) as GL. pose proof (mean_gini_nonneg R NI NR) as GR.
    assert (Pn : 0 < Qn (length rows)) by (apply Qn_pos; destruct rows; [contradiction|cbn; lia]). pose proof (Qn_nonneg (length L)) as PL. pose proof (Qn_nonneg (length R)) as PR.
    unfold symbolic_improvement. set (g := mean_gini val D imp rows) in *. set (gl := mean_gini val D imp L) in *. set (gr := mean_gini val D imp R) in *.
    set (n := Qn (length rows)) in *. set (l := Qn (length L)) in *. set (r := Qn (length R)) in *.
    assert (Pg : 0 < g) by (destruct (Qlt_le_dec 0 g); [assumption|]; exfalso; apply NZ; lra).
    assert (X : 0 <= (l * gl + r * gr) / n) by (apply Qdiv_nonneg; nra).
    assert (E : g - gl * (l / n) - gr * (r / n) == g - (l * gl + r * gr) / n) by (field; lra). rewrite E.
    assert ((l * gl + r * gr) / n <= g) by (apply Qle_shift_div_r; [exact Pn|lra]).
    split; [apply Qdiv_nonneg; [lra|exact Pg]|apply Qdiv_le_1; lra].
  Qed.

  Lemma w_range : 0 <= w_numeric imp <= 1.
  Proof.
    unfold w_numeric. destruct (Nat.eq_dec (n_num imp + n_sym imp) 0) as [Z0|N]; [rewrite Z0; assert (n_num imp = 0%nat) as -> by lia; split; vm_compute; discriminate|].
    pose proof (Qn_pos (n_num imp + n_sym imp) ltac:(lia)). split; [apply Qdiv_nonneg; [apply Qn_nonneg|assumption]|apply Qdiv_le_1; [apply Qn_le; lia|assumption]].
  Qed.

  (** The improvement of any split is non-negative, and at most 1 when at most one numeric target counts. *)
  Theorem split_improvement_range : forall var rows L R, not_inverted -> Permutation (L ++ R) rows -> L <> [] -> R <> [] ->
    0 <= split_improvement val D imp var rows L R /\ ((n_active var rows <= 1)%nat -> split_improvement val D imp var rows L R <= 1).
  Proof.
    intros var rows L R NI P NL NR. destruct w_range as [W0 W1]. destruct (numeric_improvement_range var rows L R P NL NR) as [N0 N1]. unfold split_improvement.
    set (A := if has_numeric_vars imp var then numeric_improvement val D imp var rows L R * w_numeric imp else 0).
    set (B := if has_symbolic_vars imp && negb (Qeq_bool (mean_gini val D imp rows) 0) then symbolic_improvement val D imp rows L R * (1 - w_numeric imp) else 0).
    assert (A0 : 0 <= A) by (unfold A; destruct (has_numeric_vars imp var); [nra|lra]).
    assert (A1 : (n_active var rows <= 1)%nat -> A <= w_numeric imp) by (intro H; specialize (N1 H); unfold A; destruct (has_numeric_vars imp var); [nra|lra]).
    assert (B0 : 0 <= B /\ B <= 1 - w_numeric imp).
    { unfold B. destruct (has_symbolic_vars imp); cbn [andb]; [|lra]. destruct (Qeqb_spec (mean_gini val D imp rows) 0) as [|NZ]; cbn [negb]; [lra|].
      destruct (symbolic_improvement_range rows L R NI P NL NR NZ) as [S0 S1]. split; nra. }
    split; [lra|]. intro H. specialize (A1 H). lra.
  Qed.
End Range.
