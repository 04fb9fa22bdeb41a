(** Learning terminates and partitions the training rows. *)
Require Import QArith Qround ZArith Bool List Arith Permutation Lia Lqa.
Require Import Verif.Base Verif.NumBase Verif.TreeModel Verif.TreeSpec Verif.TreeApply Verif.ImpurityModel Verif.ImpuritySpec Verif.ImpurityProofs Verif.LearnModel Verif.LearnSpec Verif.LearnTree.
Import ListNotations.
Open Scope nat_scope.

(** ** Blocks of the index array *)
Definition block (ix : list nat) (s e : nat) : list nat := firstn (e - s) (skipn s ix).
Definition replaced (ix : list nat) (s e : nat) (sl : list nat) : list nat := firstn s ix ++ sl ++ skipn e ix.

Lemma nth_error_skipn : forall A n (l : list A) i, nth_error (skipn n l) i = nth_error l (n + i).
Proof. intros A n. induction n as [|n IH]; intros [|x l] i; cbn; try reflexivity; [destruct i; reflexivity|apply IH]. Qed.
Lemma nth_error_firstn : forall A n (l : list A) i, nth_error (firstn n l) i = if i <? n then nth_error l i else None.
Proof.
  intros A n. induction n as [|n IH]; intros [|x l] [|i]; cbn [firstn nth_error]; try reflexivity; [destruct (S i <? S n); reflexivity|]. rewrite IH. reflexivity.
Qed.
Lemma nth_block : forall ix s e i, nth_error (block ix s e) i = if i <? e - s then nth_error ix (s + i) else None.
Proof. intros. unfold block. rewrite nth_error_firstn, nth_error_skipn. reflexivity. Qed.
Lemma block_length : forall ix s e, e <= length ix -> length (block ix s e) = e - s.
Proof. intros. unfold block. rewrite firstn_length, skipn_length. lia. Qed.
Lemma nth_ext_eq : forall A (a b : list A), (forall i, nth_error a i = nth_error b i) -> a = b.
Proof.
  intros A a. induction a as [|x a IH]; intros [|y b] H; [reflexivity|specialize (H 0); discriminate|specialize (H 0); discriminate|].
  f_equal; [specialize (H 0); cbn in H; congruence|]. apply IH. intro i. exact (H (S i)).
Qed.
Lemma nth_replaced : forall ix s e sl i, s <= e -> e <= length ix -> length sl = e - s ->
  nth_error (replaced ix s e sl) i = if (s <=? i) && (i <? e) then nth_error sl (i - s) else nth_error ix i.
Proof.
  intros ix s e sl i L1 L2 L3. unfold replaced. assert (Lf : length (firstn s ix) = s) by (rewrite firstn_length; lia).
  destruct (Nat.leb_spec s i) as [H|H]; cbn [andb].
  - rewrite nth_error_app2 by lia. rewrite Lf. destruct (Nat.ltb_spec i e) as [H'|H'].
    + rewrite nth_error_app1 by lia. reflexivity.
    + rewrite nth_error_app2 by lia. rewrite nth_error_skipn. f_equal. lia.
  - rewrite nth_error_app1 by lia. rewrite nth_error_firstn. destruct (Nat.ltb_spec i s); [reflexivity|lia].
Qed.
Lemma block_replaced : forall ix s e sl, s <= e -> e <= length ix -> length sl = e - s -> block (replaced ix s e sl) s e = sl.
Proof.
  intros ix s e sl L1 L2 L3. apply nth_ext_eq. intro i. rewrite nth_block, nth_replaced by assumption. destruct (Nat.ltb_spec i (e - s)) as [H|H].
  - destruct (Nat.leb_spec s (s + i)); [|lia]. destruct (Nat.ltb_spec (s + i) e); [|lia]. cbn [andb]. f_equal. lia.
  - symmetry. apply nth_error_None. lia.
Qed.
Lemma block_other : forall ix s e sl s' e', s <= e -> e <= length ix -> length sl = e - s -> e' <= s \/ e <= s' -> block (replaced ix s e sl) s' e' = block ix s' e'.
Proof.
  intros ix s e sl s' e' L1 L2 L3 Dj. apply nth_ext_eq. intro i. rewrite !nth_block. destruct (Nat.ltb_spec i (e' - s')) as [H|H]; [|reflexivity].
  rewrite nth_replaced by assumption. destruct (Nat.leb_spec s (s' + i)), (Nat.ltb_spec (s' + i) e); cbn [andb]; try reflexivity; lia.
Qed.
Lemma replaced_perm : forall ix s e sl, s <= e -> e <= length ix -> Permutation (block ix s e) sl -> Permutation (replaced ix s e sl) ix.
Proof.
  intros ix s e sl L1 L2 P. unfold replaced. transitivity (firstn s ix ++ block ix s e ++ skipn e ix).
  - apply Permutation_app_head, Permutation_app_tail, Permutation_sym, P.
  - unfold block. assert (E : skipn e ix = skipn (e - s) (skipn s ix)). { apply nth_ext_eq. intro i. rewrite !nth_error_skipn. f_equal. lia. }
    rewrite E, firstn_skipn, firstn_skipn. reflexivity.
Qed.
Lemma block_firstn : forall ix s e a, a <= e - s -> block ix s (s + a) = firstn a (block ix s e).
Proof. intros ix s e a L. unfold block. rewrite firstn_firstn. f_equal. lia. Qed.
Lemma block_skipn : forall ix s e a, a <= e - s -> block ix (s + a) e = skipn a (block ix s e).
Proof.
  intros ix s e a L. apply nth_ext_eq. intro i. rewrite nth_error_skipn, !nth_block. destruct (Nat.ltb_spec i (e - (s + a))), (Nat.ltb_spec (a + i) (e - s)); try lia; [f_equal; lia|reflexivity].
Qed.
Lemma block_incl : forall ix s e, incl (block ix s e) ix.
Proof. intros ix s e x I. apply In_nth_error in I. destruct I as [i E]. rewrite nth_block in E. destruct (i <? e - s); [|discriminate]. eapply nth_error_In, E. Qed.

(** Spans as lists of positions. *)
Definition positions_of (b : nat * nat) : list nat := seq (fst b) (snd b - fst b).
Lemma spans_disjoint : forall (l : list (nat * nat)) b b' r N, Permutation (b :: b' :: r) l -> Permutation (flat_map positions_of l) (seq 0 N) ->
  fst b < snd b -> fst b' < snd b' -> snd b' <= fst b \/ snd b <= fst b'.
Proof.
  intros l b b' r N Pl P Nb Nb'. assert (Nd : NoDup (flat_map positions_of (b :: b' :: r))).
  { apply (Permutation_NoDup (l := seq 0 N)); [|apply seq_NoDup]. etransitivity; [symmetry; exact P|]. apply Permutation_flat_map, Permutation_sym, Pl. }
  cbn [flat_map] in Nd. destruct (NoDup_app_parts _ _ _ Nd) as (_ & _ & Dj).
  destruct (le_lt_dec (snd b') (fst b)) as [|H1]; [left; assumption|]. destruct (le_lt_dec (snd b) (fst b')) as [|H2]; [right; assumption|].
  exfalso. apply (Dj (Nat.max (fst b) (fst b'))).
  - unfold positions_of. apply in_seq. lia.
  - apply in_or_app. left. unfold positions_of. apply in_seq. lia.
Qed.

Lemma filter_firstn : forall (P : nat -> bool) (rows : list nat) k, (forall i r, nth_error rows i = Some r -> (i < k <-> P r = true)) ->
  firstn k rows = filter P rows /\ skipn k rows = filter (fun r => negb (P r)) rows.
Proof.
  intros P rows. induction rows as [|r rows IH]; intros k H; [rewrite firstn_nil, skipn_nil; auto|].
  pose proof (H 0 r eq_refl) as H0. destruct k as [|k].
  - assert (Pr : P r = false) by (destruct (P r); [assert (0 < 0) by (apply H0; reflexivity); lia|reflexivity]).
    destruct (IH 0) as [A B]; [intros i x E; exact (conj (fun L => False_ind _ (Nat.nlt_0_r _ L)) (fun Px => False_ind _ (Nat.nlt_0_r _ (proj2 (H (S i) x E) Px))))|].
    cbn [filter firstn skipn]. rewrite Pr. cbn [negb]. cbn [firstn] in A. cbn [skipn] in B. split; [exact A|f_equal; exact B].
  - assert (Pr : P r = true) by (apply H0; lia). destruct (IH k) as [A B]; [intros i x E; rewrite <- (H (S i) x E); lia|]. cbn [filter firstn skipn]. rewrite Pr. cbn [negb]. split; [f_equal; exact A|exact B].
Qed.

Section LearnProofs.
  Context {F : family}.
  Variable val : Z -> Q.
  Variable inf : Z -> bool.
  Variable neg1 : Z.
  Variable D : nat -> nat -> Z.
  Variable imp : impurity.
  Variable kinds : list kind.
  Variable mk : split_set -> vset F.
  Variable mid : Z -> Z -> Z.
  Variable fit : list nat -> var -> res (dist F).
  Variable min_improvement : Q.
  Variable max_depth : option nat.
  Variable cell_in : vset F -> Z -> bool.
  Variable N : nat.
  Hypothesis Lr : learnable val D kinds cell_in N neg1 imp mk mid fit.

  Notation row_ok := (row_ok D cell_in).
  Notation rows_of := (rows_of D cell_in N).
  Notation smem := (smem val).

  Lemma val_inj : forall a b, (val a == val b)%Q -> a = b.
  Proof. intros a b E. destruct (Z.lt_trichotomy a b) as [H|[H|H]]; [|exact H|]; apply (l_mono _ _ _ _ _ _ _ _ _ _ Lr) in H; lra. Qed.
  Lemma floor_Qn : forall q x, (q == Qn x)%Q -> Z.to_nat (Qfloor q) = x.
  Proof. intros q x E. rewrite (Qfloor_comp _ _ E). unfold Qn. rewrite Qfloor_Z. apply Nat2Z.id. Qed.
  Lemma coded_index : forall r v n, r < N -> nth_error kinds v = Some (Symbolic n) \/ nth_error kinds v = Some (Integer n) ->
    int_at val D r v < n /\ (val (D r v) == Qn (int_at val D r v))%Q.
  Proof. intros r v n L K. destruct (l_coded _ _ _ _ _ _ _ _ _ _ Lr r v n L K) as (x & Lx & E). unfold int_at, symbol_at. rewrite (floor_Qn _ _ E). auto. Qed.
  Lemma int_at_mono : forall r r' v n, r < N -> r' < N -> nth_error kinds v = Some (Symbolic n) \/ nth_error kinds v = Some (Integer n) ->
    ((D r v < D r' v)%Z <-> int_at val D r v < int_at val D r' v).
  Proof.
    intros r r' v n L L' K. destruct (coded_index r v n L K) as [_ E]. destruct (coded_index r' v n L' K) as [_ E']. rewrite Qn_lt, <- E, <- E'. split; [apply (l_mono _ _ _ _ _ _ _ _ _ _ Lr)|].
    intro H. destruct (Z.lt_trichotomy (D r v) (D r' v)) as [H1|[H1|H1]]; [exact H1|rewrite H1 in H; lra|apply (l_mono _ _ _ _ _ _ _ _ _ _ Lr) in H1; lra].
  Qed.
  Lemma neg1_below : forall r v n, r < N -> nth_error kinds v = Some (Symbolic n) -> (neg1 < D r v)%Z.
  Proof.
    intros r v n L K. destruct (coded_index r v n L (or_introl K)) as [_ E]. pose proof (l_neg1 _ _ _ _ _ _ _ _ _ _ Lr) as H. pose proof (Qn_nonneg (int_at val D r v)).
    destruct (Z.lt_trichotomy neg1 (D r v)) as [H1|[H1|H1]]; [exact H1|rewrite <- H1 in E; lra|apply (l_mono _ _ _ _ _ _ _ _ _ _ Lr) in H1; lra].
  Qed.

  (** The splits which [c45] creates separate the rows at the split position. *)
  Lemma make_splits_spec : forall v p rows, incl rows (seq 0 N) -> In v (features imp) -> splits_rows D imp v p rows ->
    exists a b s0 s1 k, nth_error rows p = Some a /\ nth_error rows (S p) = Some b /\ make_splits val D kinds mid v a b = Ok [s0; s1] /\
      nth_error kinds v = Some k /\ split_pair D N mid v k s0 s1 /\
      forall i r, nth_error rows i = Some r -> (i < S p <-> smem s0 (D r v) = true) /\ smem s1 (D r v) = negb (smem s0 (D r v)).
  Proof.
    intros v p rows Inc If (Lp & Sp).
    assert (Lt : forall i r, nth_error rows i = Some r -> r < N) by (intros i r E; apply nth_error_In, Inc, in_seq in E; lia).
    assert (Ft : In v (symbolic_features imp) \/ ~ In v (symbolic_features imp) /\ In v (numeric_features imp)).
    { destruct (in_dec Nat.eq_dec v (symbolic_features imp)) as [I|I]; [left; exact I|right]. split; [exact I|]. unfold features in If. apply in_app_or in If. tauto. }
    destruct Ft as [I|[NI I]].
    - rewrite (proj2 (nin_in _ _) I) in Sp. destruct Sp as (a & Ea & H). destruct (l_symbolic _ _ _ _ _ _ _ _ _ _ Lr v I) as [n K].
      destruct (nth_error rows (S p)) as [b|] eqn:Eb; [|apply nth_error_None in Eb; lia].
      destruct (coded_index a v n (Lt _ _ Ea) (or_introl K)) as [La Va].
      exists a, b, (Values [int_at val D a v]), (Values (filter (fun y => negb (Nat.eqb y (int_at val D a v))) (seq 0 n))), (Symbolic n).
      split; [exact Ea|]. split; [reflexivity|]. unfold make_splits. rewrite K. split; [reflexivity|]. split; [reflexivity|]. split; [exists (int_at val D a v); auto|].
      intros i r Er. destruct (coded_index r v n (Lt _ _ Er) (or_introl K)) as [Lr' Vr]. cbn [LearnSpec.smem]. change (Z.to_nat (Qfloor (val (D r v)))) with (int_at val D r v).
      assert (Eq : D r v = D a v <-> int_at val D r v = int_at val D a v).
      { split; [intro E; unfold int_at, symbol_at; rewrite E; reflexivity|]. intro E. apply val_inj. rewrite Vr, Va, E. reflexivity. }
      split.
      + rewrite nin_in. cbn [In]. specialize (H i r Er). rewrite Eq in H. split; [intro X; left; symmetry; apply H; lia|intros [X|[]]; assert (i <= p) by (apply H; symmetry; exact X); lia].
      + unfold nin at 2. cbn [existsb]. rewrite orb_false_r. destruct (Nat.eqb_spec (int_at val D r v) (int_at val D a v)) as [X|X]; cbn [negb].
        * destruct (nin _ _) eqn:Y; [|reflexivity]. apply nin_in, filter_In in Y. destruct Y as [_ Y]. rewrite X, Nat.eqb_refl in Y. discriminate.
        * apply nin_in, filter_In. split; [apply in_seq; lia|]. destruct (Nat.eqb_spec (int_at val D r v) (int_at val D a v)); [contradiction|reflexivity].
    - assert (Z0 : nin v (symbolic_features imp) = false) by (destruct (nin v (symbolic_features imp)) eqn:X; [apply nin_in in X; contradiction|reflexivity]). rewrite Z0 in Sp.
      destruct Sp as (a & b & Ea & Eb & Lab & H). pose proof (Lt _ _ Ea) as La. pose proof (Lt _ _ Eb) as Lb.
      destruct (l_numeric _ _ _ _ _ _ _ _ _ _ Lr v I) as [K|[n K]].
      + pose proof (l_mid _ _ _ _ _ _ _ _ _ _ Lr a b v La Lb K Lab) as M. set (m := mid (D a v) (D b v)) in *.
        exists a, b, (Below m), (From m), Numeric. split; [exact Ea|]. split; [exact Eb|]. unfold make_splits. rewrite K. split; [reflexivity|]. split; [reflexivity|]. split; [exists a, b; fold m; auto|].
        intros i r Er. destruct (H i r Er) as [H1 H2]. cbn [LearnSpec.smem]. split.
        * rewrite Z.ltb_lt. split; [intro X; specialize (H1 ltac:(lia)); lia|]. intro X. destruct (le_lt_dec i p) as [|Y]; [lia|]. specialize (H2 Y). lia.
        * destruct (Z.leb_spec m (D r v)), (Z.ltb_spec (D r v) m); try reflexivity; lia.
      + destruct (coded_index a v n La (or_intror K)) as [Na Va]. destruct (coded_index b v n Lb (or_intror K)) as [Nb Vb].
        pose proof (proj1 (int_at_mono a b v n La Lb (or_intror K)) Lab) as Lx. set (x := int_at val D b v) in *.
        exists a, b, (Values (firstn x (seq 0 n))), (Values (skipn x (seq 0 n))), (Integer n). split; [exact Ea|]. split; [exact Eb|]. unfold make_splits. rewrite K. fold x. destruct (Nat.ltb_spec x n); [|lia].
        split; [reflexivity|]. split; [reflexivity|]. split; [exists x; split; [lia|auto]|].
        intros i r Er. destruct (H i r Er) as [H1 H2]. destruct (coded_index r v n (Lt _ _ Er) (or_intror K)) as [Nr Vr]. cbn [LearnSpec.smem]. change (Z.to_nat (Qfloor (val (D r v)))) with (int_at val D r v).
        assert (Ef : firstn x (seq 0 n) = seq 0 x /\ skipn x (seq 0 n) = seq x (n - x)).
        { replace n with (x + (n - x)) at 1 2 by lia. rewrite seq_app. cbn [plus]. split; [rewrite firstn_app, seq_length, Nat.sub_diag; cbn [firstn]; rewrite app_nil_r, firstn_all2 by (rewrite seq_length; lia); reflexivity|].
          rewrite skipn_app, seq_length, Nat.sub_diag. cbn [skipn]. rewrite skipn_all2 by (rewrite seq_length; lia). reflexivity. }
        destruct Ef as [-> ->].
        assert (Lo : nin (int_at val D r v) (seq 0 x) = (int_at val D r v <? x)).
        { destruct (Nat.ltb_spec (int_at val D r v) x) as [X|X]; [apply nin_in, in_seq; lia|]. destruct (nin (int_at val D r v) (seq 0 x)) eqn:Y; [apply nin_in, in_seq in Y; lia|reflexivity]. }
        assert (Hi : nin (int_at val D r v) (seq x (n - x)) = negb (int_at val D r v <? x)).
        { destruct (Nat.ltb_spec (int_at val D r v) x) as [X|X]; cbn [negb]; [destruct (nin (int_at val D r v) (seq x (n - x))) eqn:Y; [apply nin_in, in_seq in Y; lia|reflexivity]|apply nin_in, in_seq; lia]. }
        rewrite Lo, Hi. split; [|reflexivity]. rewrite Nat.ltb_lt.
        pose proof (int_at_mono r b v n (Lt _ _ Er) Lb (or_intror K)) as Mb. fold x in Mb. split.
        * intro X. apply Mb. specialize (H1 ltac:(lia)). lia.
        * intro X. apply Mb in X. destruct (le_lt_dec i p) as [|Y]; [lia|]. specialize (H2 Y). lia.
  Qed.
End LearnProofs.
