(** The split search, part 2: the running statistics are exact. *)
Require Import QArith Qround Lqa ZArith Bool List Arith Lia Permutation Setoid.
Require Import Verif.Base Verif.NumBase Verif.SortModel Verif.SortProofs Verif.ImpurityModel Verif.ImpuritySpec Verif.ImpurityProofs.
Import ListNotations.
Open Scope Q_scope.

Lemma fold_sum : forall (f : nat -> Q) rows acc, fold_left (fun a r => a + f r) rows acc == acc + Qsum (map f rows).
Proof. intros f rows. induction rows as [|r rows IH]; intro acc; cbn [fold_left map Qsum]; [lra|]. rewrite IH. lra. Qed.

(** The shortcut formula is the population variance. *)
Lemma variance_sums : forall (f : nat -> Q) rows n, n = length rows -> (0 < n)%nat ->
  variance (Qsum (map (fun r => f r * f r) rows)) (Qsum (map f rows)) n ==
  Qsum (map (fun r => (f r - Qsum (map f rows) / Qn n) * (f r - Qsum (map f rows) / Qn n)) rows) / Qn n.
Proof.
  intros f rows n E P. unfold variance. destruct (Nat.leb_spec n 1) as [L|L].
  - destruct rows as [|a [|b rows]]; cbn in E; try lia. subst n. cbn [map Qsum]. assert (Q1 : Qn 1 == 1) by reflexivity. rewrite Q1. field.
  - pose proof (Qn_pos n ltac:(lia)) as Pn. set (m := Qsum (map f rows) / Qn n).
    assert (H : Qsum (map (fun r => (f r - m) * (f r - m)) rows) == Qsum (map (fun r => f r * f r) rows) - 2 * m * Qsum (map f rows) + Qn n * (m * m)).
    { assert (K : forall l, Qsum (map (fun r => (f r - m) * (f r - m)) l) == Qsum (map (fun r => f r * f r) l) - 2 * m * Qsum (map f l) + Qn (length l) * (m * m)).
      { induction l as [|x l IH]; [cbn [map Qsum length]; assert (Z0 : Qn 0 == 0) by reflexivity; rewrite Z0; ring|]. cbn [map Qsum length]. rewrite IH, Qn_S. ring. }
      rewrite K, E. reflexivity. }
    rewrite H. unfold m. field. lra.
Qed.

Section Stats.
  Variable val : Z -> Q.
  Variable inf : Z -> bool.
  Variable neg1 : Z.
  Variable D : nat -> nat -> Z.
  Variable imp : impurity.

  Lemma sum_at_spec : forall rows i, sum_at val D imp rows i == Qsum (map (fun r => val (D r (num_var imp i))) rows).
  Proof. intros rows i. unfold sum_at, value_at. rewrite fold_sum. lra. Qed.
  Lemma sq_sum_at_spec : forall rows i, sq_sum_at val D imp rows i == Qsum (map (fun r => val (D r (num_var imp i)) * val (D r (num_var imp i))) rows).
  Proof. intros rows i. unfold sq_sum_at, value_at. rewrite fold_sum. lra. Qed.
  Definition count (j v : nat) (rows : list nat) : Z := Z.of_nat (length (filter (fun r => Nat.eqb (symbol_at val D r (sym_var imp j)) v) rows)).
  Lemma bincount_spec : forall rows j v, bincount val D imp rows j v = count j v rows.
  Proof.
    intros rows j v. unfold bincount, count.
    assert (G : forall rows acc, fold_left (fun a r => if Nat.eqb (symbol_at val D r (sym_var imp j)) v then (a + 1)%Z else a) rows acc = (acc + Z.of_nat (length (filter (fun r => Nat.eqb (symbol_at val D r (sym_var imp j)) v) rows)))%Z).
    { clear rows. induction rows as [|r rows IH]; intro acc; cbn [fold_left filter]; [cbn; lia|]. rewrite IH. destruct (Nat.eqb _ v); cbn [length]; lia. }
    rewrite G. lia.
  Qed.

  Definition S1 (i : nat) (L : list nat) : Q := Qsum (map (fun r => val (D r (num_var imp i))) L).
  Definition S2 (i : nat) (L : list nat) : Q := Qsum (map (fun r => val (D r (num_var imp i)) * val (D r (num_var imp i))) L).

  (** Every target depends on every feature (the default, trees.py:768-772). *)
  Definition full_dependencies (var : nat) : Prop :=
    (forall v, In v (numeric_vars imp) -> In v (dependency_indices imp var)) /\
    (forall v, In v (symbolic_vars imp) -> In v (dependency_indices imp var)).

  Lemma positions_full : forall targets var, (forall v, In v targets -> In v (dependency_indices imp var)) ->
    forall i, In i (positions imp targets var) <-> (i < length targets)%nat.
  Proof.
    intros targets var H i. unfold positions. rewrite filter_In, in_seq. split; [intros [A _]; lia|]. intro L. split; [lia|]. apply nin_in. apply H, nth_In, L.
  Qed.
  Lemma positions_nodup : forall targets var, NoDup (positions imp targets var).
  Proof. intros. apply NoDup_filter, seq_NoDup. Qed.

  Definition describes (t : totals) (var m : nat) (L : list nat) (st : stats) : Prop :=
    n_left st = m /\
    (has_numeric_vars imp var = true -> forall i, (i < n_num imp)%nat ->
       sums_left st i == S1 i L /\ sq_sums_left st i == S2 i L /\
       (L <> [] -> sums_right st i == sums_total t i - S1 i L /\ sq_sums_right st i == sq_sums_total t i - S2 i L)) /\
    (has_symbolic_vars imp = true -> forall j v, (j < n_sym imp)%nat ->
       symbols_left st j v = count j v L /\ symbols_right st j v = (symbols_total t j v - count j v L)%Z).

  Lemma initial_describes : forall t var, describes t var 0 [] (initial t).
  Proof. intros t var. split; [reflexivity|]. split; [intros _ i Li; cbn; repeat split; try reflexivity; contradiction|]. intros _ j v Lj. cbn. unfold count. cbn. split; [reflexivity|lia]. Qed.

  Lemma fold_num_frame : forall t r ps st, n_left (fold_left (update_numeric val D imp t r) ps st) = n_left st /\
    symbols_left (fold_left (update_numeric val D imp t r) ps st) = symbols_left st /\ symbols_right (fold_left (update_numeric val D imp t r) ps st) = symbols_right st.
  Proof. intros t r ps. induction ps as [|p ps IH]; intro st; [repeat split|]. cbn [fold_left]. destruct (IH (update_numeric val D imp t r st p)) as (A & B & C). rewrite A, B, C. repeat split. Qed.
  Lemma fold_num_other : forall t r ps st i, ~ In i ps -> let st' := fold_left (update_numeric val D imp t r) ps st in
    sums_left st' i = sums_left st i /\ sq_sums_left st' i = sq_sums_left st i /\ sums_right st' i = sums_right st i /\ sq_sums_right st' i = sq_sums_right st i.
  Proof.
    intros t r ps. induction ps as [|p ps IH]; intros st i N; [cbn; auto|]. cbn [fold_left]. cbv zeta. destruct (IH (update_numeric val D imp t r st p) i) as (A & B & C & E); [intro; apply N; right; assumption|].
    rewrite A, B, C, E. unfold update_numeric, updf. cbn. destruct (Nat.eqb_spec i p) as [->|_]; [exfalso; apply N; left; reflexivity|auto].
  Qed.
  Lemma fold_num_in : forall t r ps st i, NoDup ps -> In i ps -> let st' := fold_left (update_numeric val D imp t r) ps st in
    let y := val (D r (num_var imp i)) in
    sums_left st' i = sums_left st i + y /\ sq_sums_left st' i = sq_sums_left st i + y * y /\ sums_right st' i = sums_total t i - (sums_left st i + y) /\ sq_sums_right st' i = sq_sums_total t i - (sq_sums_left st i + y * y).
  Proof.
    intros t r ps. induction ps as [|p ps IH]; intros st i Nd I; [contradiction|]. inversion Nd as [|? ? Np Nd' Eq]. cbn [fold_left]. cbv zeta. destruct (Nat.eq_dec i p) as [->|Ne].
    - destruct (fold_num_other t r ps (update_numeric val D imp t r st p) p Np) as (A & B & C & E). rewrite A, B, C, E. unfold update_numeric, updf, value_at. cbn. rewrite !Nat.eqb_refl. auto.
    - destruct I as [<-|I]; [contradiction|]. destruct (IH (update_numeric val D imp t r st p) i Nd' I) as (A & B & C & E). rewrite A, B, C, E. unfold update_numeric, updf. cbn. destruct (Nat.eqb_spec i p) as [->|_]; [contradiction|auto].
  Qed.

  Lemma fold_sym_frame : forall t r ps st, let st' := fold_left (update_symbolic val D imp t r) ps st in
    n_left st' = n_left st /\ sums_left st' = sums_left st /\ sums_right st' = sums_right st /\ sq_sums_left st' = sq_sums_left st /\ sq_sums_right st' = sq_sums_right st.
  Proof. intros t r ps. induction ps as [|p ps IH]; intro st; [cbn; auto|]. cbn [fold_left]. cbv zeta. destruct (IH (update_symbolic val D imp t r st p)) as (A & B & C & E & G). rewrite A, B, C, E, G. repeat split. Qed.
  Lemma fold_sym_other : forall t r ps st j, ~ In j ps -> let st' := fold_left (update_symbolic val D imp t r) ps st in
    symbols_left st' j = symbols_left st j /\ symbols_right st' j = symbols_right st j.
  Proof.
    intros t r ps. induction ps as [|p ps IH]; intros st j N; [cbn; auto|]. cbn [fold_left]. cbv zeta. destruct (IH (update_symbolic val D imp t r st p) j) as (A & B); [intro; apply N; right; assumption|].
    rewrite A, B. unfold update_symbolic, updf. cbn. destruct (Nat.eqb_spec j p) as [->|_]; [exfalso; apply N; left; reflexivity|auto].
  Qed.
  Lemma fold_sym_in : forall t r ps st j v, NoDup ps -> In j ps -> let st' := fold_left (update_symbolic val D imp t r) ps st in
    let here := Nat.eqb v (symbol_at val D r (sym_var imp j)) in
    symbols_left st' j v = (if here then symbols_left st j v + 1 else symbols_left st j v)%Z /\
    symbols_right st' j v = (if here then symbols_total t j v - (symbols_left st j v + 1) else symbols_right st j v)%Z.
  Proof.
    intros t r ps. induction ps as [|p ps IH]; intros st j v Nd I; [contradiction|]. inversion Nd as [|? ? Np Nd' Eq]. cbn [fold_left]. cbv zeta. destruct (Nat.eq_dec j p) as [->|Ne].
    - destruct (fold_sym_other t r ps (update_symbolic val D imp t r st p) p Np) as (A & B). rewrite A, B. unfold update_symbolic, updf. cbn. rewrite !Nat.eqb_refl. destruct (Nat.eqb_spec v (symbol_at val D r (sym_var imp p))) as [->|_]; auto.
    - destruct I as [<-|I]; [contradiction|]. destruct (IH (update_symbolic val D imp t r st p) j v Nd' I) as (A & B). cbv zeta in A, B. rewrite A, B. unfold update_symbolic, updf. cbn. destruct (Nat.eqb_spec j p) as [->|_]; [contradiction|auto].
  Qed.

  Lemma S1_snoc : forall i L r, S1 i (L ++ [r]) == S1 i L + val (D r (num_var imp i)).
  Proof. intros. unfold S1. rewrite map_app, Qsum_app. cbn. lra. Qed.
  Lemma S2_snoc : forall i L r, S2 i (L ++ [r]) == S2 i L + val (D r (num_var imp i)) * val (D r (num_var imp i)).
  Proof. intros. unfold S2. rewrite map_app, Qsum_app. cbn. lra. Qed.
  Lemma count_snoc : forall j v L r, count j v (L ++ [r]) = (count j v L + if Nat.eqb v (symbol_at val D r (sym_var imp j)) then 1 else 0)%Z.
  Proof. intros. unfold count. rewrite filter_app, app_length. cbn [filter]. rewrite (Nat.eqb_sym v). destruct (Nat.eqb _ v); cbn [length]; lia. Qed.

  Lemma take_describes : forall t var m L st r, full_dependencies var -> describes t var m L st -> describes t var (S m) (L ++ [r]) (take val D imp t var r st).
  Proof.
    intros t var m L st r [Fn Fs] (N & Hn & Hs). unfold take.
    set (st1 := Stats (S (n_left st)) (sums_left st) (sums_right st) (sq_sums_left st) (sq_sums_right st) (symbols_left st) (symbols_right st)).
    set (st2 := if has_numeric_vars imp var then fold_left (update_numeric val D imp t r) (positions imp (numeric_vars imp) var) st1 else st1).
    assert (F2 : n_left st2 = S m /\ symbols_left st2 = symbols_left st /\ symbols_right st2 = symbols_right st).
    { unfold st2. destruct (has_numeric_vars imp var); [destruct (fold_num_frame t r (positions imp (numeric_vars imp) var) st1) as (A & B & C); rewrite A, B, C|]; unfold st1; cbn; rewrite N; auto. }
    destruct F2 as (N2 & Hl2 & Hr2).
    assert (E2 : has_numeric_vars imp var = true -> forall i, (i < n_num imp)%nat -> sums_left st2 i == S1 i (L ++ [r]) /\ sq_sums_left st2 i == S2 i (L ++ [r]) /\ (L ++ [r] <> [] -> sums_right st2 i == sums_total t i - S1 i (L ++ [r]) /\ sq_sums_right st2 i == sq_sums_total t i - S2 i (L ++ [r]))).
    { intros Hv i Li. unfold st2. rewrite Hv. destruct (fold_num_in t r _ st1 i (positions_nodup (numeric_vars imp) var) (proj2 (positions_full _ _ Fn i) Li)) as (A & B & C & E). cbv zeta in A, B, C, E. rewrite A, B, C, E. unfold st1. cbn [sums_left sq_sums_left].
      destruct (Hn Hv i Li) as (P1 & P2 & _). rewrite S1_snoc, S2_snoc, P1, P2. repeat split; lra. }
    destruct (has_symbolic_vars imp) eqn:Hv.
    - set (st3 := fold_left (update_symbolic val D imp t r) (positions imp (symbolic_vars imp) var) st2).
      destruct (fold_sym_frame t r (positions imp (symbolic_vars imp) var) st2) as (A & B & C & E & G). cbv zeta in A, B, C, E, G. fold st3 in A, B, C, E, G.
      split; [rewrite A; exact N2|]. split; [rewrite B, C, E, G; exact E2|]. intros _ j v Lj.
      destruct (fold_sym_in t r _ st2 j v (positions_nodup (symbolic_vars imp) var) (proj2 (positions_full _ _ Fs j) Lj)) as (P1 & P2). cbv zeta in P1, P2. fold st3 in P1, P2. rewrite P1, P2, Hl2, Hr2. destruct (Hs eq_refl j v Lj) as [Q1 Q2]. rewrite Q1, Q2, count_snoc. destruct (Nat.eqb v _); split; lia.
    - split; [exact N2|]. split; [exact E2|]. intro Hx. rewrite Hx in Hv. discriminate Hv.
  Qed.

  Lemma reset_describes : forall t var m L st, describes t var m L st -> describes t var (if has_symbolic_vars imp then 0 else m) [] (reset imp t var st).
  Proof.
    intros t var m L st (N & Hn & Hs). unfold reset, describes. destruct (has_symbolic_vars imp), (has_numeric_vars imp var); cbn [n_left sums_left sums_right sq_sums_left sq_sums_right symbols_left symbols_right];
      (split; [first [exact N|reflexivity]|]); (split; [intros Hx i Li; first [discriminate Hx|repeat split; try reflexivity; contradiction]|]); intros Hx j v Lj; first [discriminate Hx|unfold count; cbn; split; [reflexivity|lia]].
  Qed.
End Stats.
