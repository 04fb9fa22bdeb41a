(** C87: sampling rows from a tree. *)
Require Import ZArith QArith Qabs Lqa Bool List Arith Lia.
Require Import Verif.Base Verif.FloatLine Verif.FloatVal Verif.NumBase Verif.UtilModel Verif.UtilProofs Verif.IntervalModel Verif.IntervalSpec Verif.FunctionModel Verif.DiscreteModel Verif.DiscreteProofs Verif.DiscreteProofs2
  Verif.NumericModel Verif.NumericSpec Verif.TreeModel Verif.TreeSpec Verif.TreeDiscrete Verif.NumericTree Verif.MixedTree Verif.MixedProps Verif.NumericMoment Verif.ModeProps Verif.SampleProps Verif.SampleModel Verif.MomentProps Verif.NumericExample Verif.NumericProps.
Import ListNotations.
Open Scope Q_scope.

(** ** Specification *)

(** How often the leaf of row [i] has been drawn before. *)
Definition earlier (sampled : list nat) (i : nat) : nat := count_occ Nat.eq_dec (firstn i sampled) (nth i sampled O).
(** A value that can be observed: positive probability, positive density, or the only one. *)
Definition possible (d : mdist) (x : Z + nat) : Prop :=
  match d, x with
  | inl p, inl x => p = dirac x \/ finite x /\ 0 < density p x
  | inr d, inr x => 0 < nth x (d_params d) 0
  | _, _ => False
  end.
(** Numeric: a single value, or a continuous cdf with at most 2^-26 beyond its end. *)
Definition samplable (k : kind) (d : mdist) : Prop :=
  match k, d with
  | None, inl p => (exists x, p = dirac x) \/ spread_cdf p /\ exists hi, climbs_to p hi /\ excess p (dval hi) <= 1 # 67108864
  | Some D, inr d => ok_dist D d
  | _, _ => False
  end.
(** What the random source promises: pieces of positive chance, members of intervals,
    numbers up to the sum of the weights (but not 0, see C58). *)
Definition promised (d : mdist) (o : outcome) : Prop :=
  match d with
  | inl p => (forall i x, cs_mem x i -> cs_mem (o_draw o i) i) /\ ((forall x, p <> dirac x) -> forall ps, piece_chances p = Ok ps -> exists q, nth_error ps (o_choose o) = Some q /\ 0 < q)
  | inr d => 0 < o_u o /\ o_u o <= Qsum (d_params d)
  end.

(** ** Rows *)
Lemma list_set_get : forall A (l : list A) i x j, nth_error (list_set l i x) j = if Nat.eqb j i then (if Nat.ltb i (length l) then Some x else None) else nth_error l j.
Proof.
  induction l as [|y l IH]; intros [|i] x [|j]; cbn [list_set nth_error Nat.eqb length]; try reflexivity.
  - destruct (Nat.eqb j i); reflexivity.
  - rewrite IH. reflexivity.
Qed.
Lemma positions_length : forall idx sampled k, length (positions idx k sampled) = count_occ Nat.eq_dec sampled idx.
Proof. intros idx. induction sampled as [|i s IH]; intro k; [reflexivity|]. cbn [positions count_occ]. destruct (Nat.eqb_spec i idx), (Nat.eq_dec i idx); try contradiction; cbn [length]; rewrite IH; reflexivity. Qed.
Lemma positions_at : forall idx sampled k i, nth_error sampled i = Some idx -> nth_error (positions idx k sampled) (count_occ Nat.eq_dec (firstn i sampled) idx) = Some (k + i)%nat.
Proof.
  intros idx. induction sampled as [|j s IH]; intros k [|i] E; try discriminate; cbn [nth_error firstn count_occ positions] in *.
  - injection E as ->. rewrite Nat.eqb_refl. cbn [nth_error]. f_equal. lia.
  - destruct (Nat.eqb_spec j idx), (Nat.eq_dec j idx); try contradiction; cbn [nth_error]; rewrite (IH (S k) i E); f_equal; lia.
Qed.
Lemma positions_in : forall idx sampled k i, In i (positions idx k sampled) -> (k <= i)%nat /\ nth_error sampled (i - k) = Some idx.
Proof.
  intros idx. induction sampled as [|j s IH]; intros k i I; [destruct I|]. cbn [positions] in I.
  assert (X : (i = k /\ j = idx) \/ In i (positions idx (S k) s)) by (destruct (Nat.eqb_spec j idx); [destruct I as [<-|I]; auto|auto]).
  destruct X as [[-> ->]|X]; [split; [lia|]; replace (k - k)%nat with O by lia; reflexivity|]. apply IH in X. destruct X as [L E]. split; [lia|]. replace (i - k)%nat with (S (i - S k)) by lia. exact E.
Qed.
Lemma positions_nodup : forall idx sampled k, NoDup (positions idx k sampled).
Proof.
  intros idx. induction sampled as [|j s IH]; intro k; cbn [positions]; [constructor|]. destruct (Nat.eqb j idx); [|apply IH]. constructor; [|apply IH]. intro I. apply positions_in in I. lia.
Qed.

Section Rows.
  Context {F : family}.
  Variables (outc lab : Type) (one : dist F -> outc -> res (value F)) (label : var -> value F -> lab).

  (** Row [row] holds the labels of the values drawn from the distributions [ds]. *)
  Definition drawn (src : var -> nat -> outc) (k : nat) (ds : list (dist F)) (row : list (option lab)) : Prop :=
    length row = length ds /\ forall v d, nth_error ds v = Some d -> exists x, one d (src v k) = Ok x /\ nth_error row v = Some (Some (label v x)).

  Lemma set_column_get : forall rows j col k row y, nth_error rows k = Some row -> nth_error col k = Some y -> nth_error (set_column lab rows j col) k = Some (list_set row j (Some y)).
  Proof.
    unfold set_column. induction rows as [|r rows IH]; intros j [|c col] [|k] row y E1 E2; try discriminate; cbn [combine map nth_error fst snd] in *; [injection E1 as <-; injection E2 as <-; reflexivity|apply IH; assumption].
  Qed.
  Lemma columns_ok : forall src amount ds j rows, (forall v d k, nth_error ds v = Some d -> (k < amount)%nat -> exists x, one d (src (j + v)%nat k) = Ok x) -> exists r, columns outc lab one label src amount j ds rows = Ok r.
  Proof.
    intros src amount. induction ds as [|d ds IH]; intros j rows H; cbn [columns]; [eauto|].
    assert (C : exists col, mapM (fun k => do x <- one d (src j k); Ok (label j x)) (seq 0 amount) = Ok col).
    { assert (G : forall l, (forall k, In k l -> (k < amount)%nat) -> exists col, mapM (fun k => do x <- one d (src j k); Ok (label j x)) l = Ok col).
      { induction l as [|k l IHl]; intro B; [eexists; reflexivity|]. destruct (IHl (fun k I => B k (or_intror I))) as [col E]. destruct (H O d k eq_refl (B k (or_introl eq_refl))) as [x X]. rewrite Nat.add_0_r in X. cbn [mapM]. rewrite X. cbn [bind]. rewrite E. eexists. reflexivity. }
      apply G. intros k I. apply in_seq in I. lia. }
    destruct C as [col E]. rewrite E. cbn [bind]. apply IH. intros v d' k N K. replace (S j + v)%nat with (j + S v)%nat by lia. exact (H (S v) d' k N K).
  Qed.
  Lemma columns_spec : forall src amount ds j rows r, columns outc lab one label src amount j ds rows = Ok r -> length rows = amount ->
    length r = amount /\ forall k row, nth_error rows k = Some row -> (j + length ds <= length row)%nat -> exists row', nth_error r k = Some row' /\ length row' = length row /\
      (forall v, (v < j)%nat -> nth_error row' v = nth_error row v) /\
      forall v d, nth_error ds v = Some d -> exists x, one d (src (j + v)%nat k) = Ok x /\ nth_error row' (j + v)%nat = Some (Some (label (j + v)%nat x)).
  Proof.
    intros src amount. induction ds as [|d ds IH]; intros j rows r E L; cbn [columns] in E.
    - injection E as <-. split; [exact L|]. intros k row R _. exists row. repeat split; auto. intros v d N. destruct v; discriminate.
    - destruct (mapM _ (seq 0 amount)) as [col|] eqn:C; [|discriminate]. cbn [bind] in E. apply mapM_Forall2 in C.
      assert (Lc : length col = amount) by (rewrite <- (seq_length amount 0); symmetry; clear - C; induction C; cbn; congruence).
      destruct (IH (S j) (set_column lab rows j col) r E) as [Lr H]; [unfold set_column; rewrite map_length, combine_length; lia|]. split; [exact Lr|].
      intros k row R Le. cbn [length] in Le. assert (Kn : (k < amount)%nat) by (rewrite <- L; apply nth_error_Some; congruence).
      assert (Y : exists x, one d (src j k) = Ok x /\ nth_error col k = Some (label j x)).
      { assert (G : forall a n col, Forall2 (fun (a : nat) b => (do x <- one d (src j a); Ok (label j x)) = Ok b) (seq a n) col -> forall k, (k < n)%nat -> exists x, one d (src j (a + k)%nat) = Ok x /\ nth_error col k = Some (label j x)).
        { clear. intros a n. revert a. induction n as [|n IHn]; intros a col H k K; [lia|]. inversion H as [|? y ? col' Ey H']; subst. destruct k as [|k].
          - rewrite Nat.add_0_r. destruct (one d (src j a)) as [x|]; [|discriminate]. cbn [bind] in Ey. injection Ey as <-. exists x. split; reflexivity.
          - destruct (IHn (S a) col' H' k ltac:(lia)) as (x & X & N). exists x. replace (a + S k)%nat with (S a + k)%nat by lia. split; [exact X|exact N]. }
        exact (G O amount col C k Kn). }
      destruct Y as (x & X & Ny). destruct (H k (list_set row j (Some (label j x))) (set_column_get rows j col k row _ R Ny)) as (row' & R' & L' & Low & High); [rewrite list_set_length; lia|].
      rewrite list_set_length in L'. exists row'. split; [exact R'|]. split; [exact L'|]. split.
      + intros v Lv. rewrite (Low v ltac:(lia)), list_set_get. destruct (Nat.eqb_spec v j); [lia|reflexivity].
      + intros [|v] d' N; cbn [nth_error] in N.
        * injection N as <-. rewrite !Nat.add_0_r. exists x. split; [exact X|]. rewrite (Low j ltac:(lia)), list_set_get, Nat.eqb_refl. destruct (Nat.ltb_spec j (length row)); [reflexivity|lia].
        * replace (j + S v)%nat with (S j + v)%nat by lia. exact (High v d' N).
  Qed.
  Lemma repeat_at : forall A (x : A) n k, (k < n)%nat -> nth_error (repeat x n) k = Some x.
  Proof. intros A x n. induction n as [|n IH]; intros [|k] H; try lia; cbn; [reflexivity|apply IH; lia]. Qed.
  Lemma leaf_rows : forall src l amount r, leaf_sample outc lab one label src l amount = Ok r -> length r = amount /\
    forall k, (k < amount)%nat -> exists row, nth_error r k = Some row /\ drawn src k (l_dists l) row.
  Proof.
    intros src l amount r E. destruct (columns_spec src amount _ _ _ _ E (repeat_length _ _)) as [L H]. split; [exact L|]. intros k K.
    destruct (H k _ (repeat_at _ _ amount k K)) as (row & R & Lr & _ & Hi); [rewrite repeat_length; lia|]. rewrite repeat_length in Lr. exists row. split; [exact R|]. split; [exact Lr|]. exact Hi.
  Qed.

  Lemma set_rows_length : forall is rows samples, length (set_rows lab samples is rows) = length samples.
  Proof. induction is as [|i is IH]; intros [|r rows] samples; cbn [set_rows]; try reflexivity. rewrite IH. apply list_set_length. Qed.
  Lemma set_rows_other : forall is rows samples i, ~ In i is -> nth_error (set_rows lab samples is rows) i = nth_error samples i.
  Proof.
    induction is as [|i0 is IH]; intros [|r rows] samples i N; cbn [set_rows]; try reflexivity. rewrite IH by (intro I; apply N; right; exact I). rewrite list_set_get. destruct (Nat.eqb_spec i i0); [|reflexivity]. destruct N. left. congruence.
  Qed.
  Lemma set_rows_at : forall is rows samples k i row, NoDup is -> nth_error is k = Some i -> nth_error rows k = Some row -> (i < length samples)%nat -> nth_error (set_rows lab samples is rows) i = Some row.
  Proof.
    induction is as [|i0 is IH]; intros [|r rows] samples [|k] i row N E1 E2 L; try discriminate; cbn [nth_error set_rows] in *; inversion N as [|? ? Ni Nd]; subst.
    - injection E1 as ->. injection E2 as ->. rewrite set_rows_other by exact Ni. rewrite list_set_get, Nat.eqb_refl. destruct (Nat.ltb_spec i (length samples)); [reflexivity|lia].
    - apply (IH rows _ k i row Nd E1 E2). rewrite list_set_length. exact L.
  Qed.

  Variables (src : nat -> var -> nat -> outc) (sampled : list nat).
  Lemma fill_spec : forall ls samples r, fill outc lab one label src sampled ls samples = Ok r -> NoDup (map (fun l => l_idx l) ls) -> length samples = length sampled ->
    length r = length samples /\
    (forall i, (forall l, In l ls -> nth_error sampled i <> Some (l_idx l)) -> nth_error r i = nth_error samples i) /\
    (forall i l, In l ls -> nth_error sampled i = Some (l_idx l) -> exists row, nth_error r i = Some row /\ drawn (src (l_idx l)) (earlier sampled i) (l_dists l) row).
  Proof.
    induction ls as [|l ls IH]; intros samples r E N L; cbn [fill] in E.
    - injection E as <-. split; [reflexivity|]. split; [reflexivity|]. intros i l [].
    - cbn [map] in N. inversion N as [|? ? Nl Nd]; subst. set (is := positions (l_idx l) 0 sampled) in *.
      assert (X : exists rows, length rows = length is /\ (forall k, (k < length is)%nat -> exists row, nth_error rows k = Some row /\ drawn (src (l_idx l)) k (l_dists l) row) /\ fill outc lab one label src sampled ls (set_rows lab samples is rows) = Ok r).
      { destruct is as [|i0 is]; [exists []; split; [reflexivity|]; split; [intros k K; cbn in K; lia|exact E]|]. destruct (leaf_sample _ _ _ _ _ l _) as [rows|] eqn:El; [|discriminate]. cbn [bind] in E. destruct (leaf_rows _ _ _ _ El) as [Lr H]. exists rows. auto. }
      destruct X as (rows & Lr & Hr & E'). destruct (IH _ r E' Nd) as (A & B & C); [rewrite set_rows_length; exact L|]. rewrite set_rows_length in A. split; [exact A|]. split.
      + intros i H. rewrite B by (intros l' I; apply H; right; exact I). apply set_rows_other. intro I. apply positions_in in I. rewrite Nat.sub_0_r in I. apply (H l (or_introl eq_refl)), I.
      + intros i l' [<-|I] Ei; [|exact (C i l' I Ei)].
        assert (Ek : nth_error is (earlier sampled i) = Some i). { unfold earlier. rewrite (nth_error_nth _ _ _ Ei). exact (positions_at (l_idx l) sampled 0 i Ei). }
        destruct (Hr (earlier sampled i)) as (row & Rk & D); [apply nth_error_Some; congruence|]. exists row. split; [|exact D].
        rewrite B; [apply (set_rows_at is rows samples (earlier sampled i)); [apply positions_nodup|assumption..|rewrite L; apply nth_error_Some; congruence]|].
        intros l' I' Q. apply Nl. rewrite Ei in Q. injection Q as ->. apply (in_map (fun l => l_idx l)), I'.
  Qed.
  Lemma fill_ok : forall ls samples, (forall l v d k, In l ls -> nth_error (l_dists l) v = Some d -> (k < count_occ Nat.eq_dec sampled (l_idx l))%nat -> exists x, one d (src (l_idx l) v k) = Ok x) -> exists r, fill outc lab one label src sampled ls samples = Ok r.
  Proof.
    induction ls as [|l ls IH]; intros samples H; cbn [fill]; [eauto|].
    assert (R : forall samples, exists r, fill outc lab one label src sampled ls samples = Ok r) by (intro; apply IH; intros l' v d k I; apply H; right; exact I).
    pose proof (positions_length (l_idx l) sampled 0) as P. destruct (positions (l_idx l) 0 sampled) as [|i is]; [apply R|]. unfold leaf_sample. rewrite P.
    destruct (columns_ok (src (l_idx l)) (count_occ Nat.eq_dec sampled (l_idx l)) (l_dists l) 0 (repeat (repeat None (length (l_dists l))) (count_occ Nat.eq_dec sampled (l_idx l)))) as [rows ->]; [|apply R].
    intros v d k Nv K. exact (H l v d k (or_introl eq_refl) Nv K).
  Qed.
End Rows.

(** ** C87 *)

(** For every kind of distribution and every random source: one row per leaf drawn; row [i]
    holds values drawn from the distributions of the leaf drawn for row [i], one outcome
    of the random source for each. *)
Theorem C87_rows : forall (F : family) outc lab (one : dist F -> outc -> res (value F)) (label : var -> value F -> lab) src (J : jpt F) sampled rows,
  NoDup (map (fun l => l_idx l) (leaves J)) -> (forall i, In i sampled -> exists l, In l (leaves J) /\ l_idx l = i) ->
  tree_sample outc lab one label src J sampled = Ok rows ->
  length rows = length sampled /\
  forall i row, nth_error rows i = Some row -> exists l, In l (leaves J) /\ nth_error sampled i = Some (l_idx l) /\ length row = length (l_dists l) /\
    forall v d, nth_error (l_dists l) v = Some d -> exists x, one d (src (l_idx l) v (earlier sampled i)) = Ok x /\ nth_error row v = Some (Some (label v x)).
Proof.
  intros F outc lab one label src J sampled rows N S E. unfold tree_sample in E. destruct (_ || _); [discriminate|].
  destruct (fill_spec outc lab one label src sampled _ _ _ E N (repeat_length _ _)) as (L & _ & H). rewrite repeat_length in L. split; [exact L|].
  intros i row R. assert (Li : (i < length sampled)%nat) by (rewrite <- L; apply nth_error_Some; congruence).
  destruct (nth_error sampled i) as [c|] eqn:Ei; [|apply nth_error_None in Ei; lia]. destruct (S c (nth_error_In _ _ Ei)) as (l & Il & <-).
  destruct (H i l Il Ei) as (row' & R' & D). assert (row' = row) as -> by congruence. exists l. split; [exact Il|]. split; [reflexivity|]. exact D.
Qed.
Print Assumptions C87_rows.

(** No outcome of the random source is used for two rows. *)
Theorem C87_fresh : forall sampled i j, (i < j < length sampled)%nat -> nth_error sampled i = nth_error sampled j -> (earlier sampled i < earlier sampled j)%nat.
Proof.
  intros sampled i j Lij E. unfold earlier.
  destruct (nth_error sampled j) as [c|] eqn:Ej; [|apply nth_error_None in Ej; lia]. rewrite (nth_error_nth _ _ _ Ej), (nth_error_nth _ _ _ E).
  assert (X : firstn j sampled = firstn i sampled ++ c :: firstn (j - S i) (skipn (S i) sampled)).
  { clear Ej. revert j E Lij. induction sampled as [|x s IH] in i |- *; intros j E Lij; [destruct i; discriminate|]. destruct j as [|j]; [lia|]. destruct i as [|i]; cbn [nth_error] in E.
    - injection E as ->. cbn [firstn app skipn]. rewrite Nat.sub_succ, Nat.sub_0_r. reflexivity.
    - cbn [firstn app]. f_equal. rewrite (IH i j E) by (cbn [length] in Lij; lia). reflexivity. }
  rewrite X, count_occ_app. cbn [count_occ]. destruct (Nat.eq_dec c c); [lia|contradiction].
Qed.
Print Assumptions C87_fresh.

Lemma one_possible : forall k d o, samplable k d -> promised d o -> exists x, one_value d o = Ok x /\ possible d x.
Proof.
  intros k d o S Pr. unfold samplable in S. destruct k as [D|], d as [p|d]; try contradiction; cbn [one_value promised possible] in *.
  - destruct Pr as [U1 U2]. destruct S as (Ed & Ld & Pp & _). rewrite Ed, <- Ld.
    destruct (lab_sample_support nat (seq 0 (length (d_params d))) (d_params d) (o_u o)) as (x & v & q & E & N1 & N2 & P); [rewrite seq_length; reflexivity|exact Pp|exact U1|exact U2|]. rewrite E. exists (inr x). split; [reflexivity|].
    assert (Lv : (v < length (d_params d))%nat) by (apply nth_error_Some; congruence). rewrite nth_error_nth' with (d := O) in N1 by (rewrite seq_length; exact Lv). rewrite seq_nth in N1 by exact Lv. injection N1 as <-. cbn [Nat.add]. rewrite (nth_error_nth _ _ _ N2). exact P.
  - destruct Pr as [Dr Ch]. destruct S as [[x ->]|(Sp & hi & Ct & Ex)].
    + exists (inl x). split; [reflexivity|left; reflexivity].
    + destruct (C58_numeric_partial p hi (o_draw o) (o_choose o) Sp Ct Ex Dr) as (ps & Eps & _ & _ & _ & H).
      destruct H as (x & E & Fx & D); [apply Ch; [|exact Eps]; intros x ->; pose proof (sp_len _ Sp) as L; cbn in L; lia|]. rewrite E. exists (inl x). split; [reflexivity|right; auto].
Qed.

(** Sampling succeeds and every row can be observed: it comes from a leaf with positive
    prior, and each of its values is possible there.
    Missing: numeric distributions with jumps (C58_numeric_jump_refuted), and the outcome 0 of
    the roulette wheel (C58_categorical_sample_refuted). *)
Theorem C87_sample_partial : forall lab (label : var -> Z + nat -> lab) kinds (J : mtree) src sampled,
  NoDup (map (fun l => l_idx l) (leaves J)) -> (forall l, In l (leaves J) -> 0 <= l_prior l) -> Qsum (map (fun l => l_prior l) (leaves J)) == 1 ->
  (forall l v d, In l (leaves J) -> nth_error (l_dists l) v = Some d -> samplable (nth v kinds None) d) ->
  (forall i, In i sampled -> exists l, In l (leaves J) /\ l_idx l = i /\ 0 < l_prior l) ->
  (forall l v d k, In l (leaves J) -> nth_error (l_dists l) v = Some d -> promised d (src (l_idx l) v k)) ->
  exists rows, tree_sample outcome lab one_value label src J sampled = Ok rows /\ length rows = length sampled /\
    forall i row, nth_error rows i = Some row -> exists l values, In l (leaves J) /\ nth_error sampled i = Some (l_idx l) /\ 0 < l_prior l /\
      Forall2 possible (l_dists l) values /\ row = map (fun vx => Some (label (fst vx) (snd vx))) (combine (seq 0 (length values)) values).
Proof.
  intros lab label kinds J src sampled N Pp P1 S Ch Pr.
  assert (Ok1 : exists rows, tree_sample outcome lab one_value label src J sampled = Ok rows).
  { unfold tree_sample. replace (forallb _ (leaves J)) with true; [|symmetry; apply forallb_forall; intros l I; apply Qle_bool_iff, Pp, I]. cbn [negb orb].
    replace (Qltb _ _) with false; [|symmetry; unfold Qltb; apply negb_false_iff, Qle_bool_iff; rewrite P1; vm_compute; discriminate].
    apply fill_ok. intros l v d k Il Nv _. destruct (one_possible _ d (src (l_idx l) v k) (S l v d Il Nv) (Pr l v d k Il Nv)) as (x & X & _). eauto. }
  destruct Ok1 as [rows E]. exists rows. split; [exact E|].
  destruct (C87_rows _ _ _ _ _ _ _ _ _ N (fun i I => let (l, H) := Ch i I in ex_intro _ l (conj (proj1 H) (proj1 (proj2 H)))) E) as [L H]. split; [exact L|].
  intros i row R. destruct (H i row R) as (l & Il & Ei & Lr & D).
  destruct (Ch _ (nth_error_In _ _ Ei)) as (l' & Il' & El' & Pl'). assert (l' = l) as ->.
  { clear - N Il Il' El'. induction (leaves J) as [|x ls IH]; [destruct Il|]. cbn [map] in N. inversion N as [|? ? Nx Nd]; subst.
    destruct Il as [->|Il], Il' as [->|Il']; auto; exfalso; apply Nx; [rewrite <- El'|rewrite El']; apply (in_map (fun l => l_idx l)); assumption. }
  assert (G : forall ds r j, length r = length ds -> (forall v d, nth_error ds v = Some d -> exists x, possible d x /\ nth_error r v = Some (Some (label (j + v)%nat x))) ->
    exists values, Forall2 possible ds values /\ r = map (fun vx => Some (label (fst vx) (snd vx))) (combine (seq j (length values)) values)).
  { clear. induction ds as [|d ds IH]; intros [|y r] j Lr H; try discriminate; [exists []; split; [constructor|reflexivity]|].
    destruct (H O d eq_refl) as (x & X & Y). cbn [nth_error] in Y. injection Y as ->. rewrite Nat.add_0_r.
    destruct (IH r (Datatypes.S j)) as (vs & F & ->); [cbn in Lr; lia|intros v d' Nv; destruct (H (Datatypes.S v) d' Nv) as (x' & X' & Y'); exists x'; split; [exact X'|]; replace (Datatypes.S j + v)%nat with (j + Datatypes.S v)%nat by lia; exact Y'|].
    exists (x :: vs). split; [constructor; assumption|reflexivity]. }
  destruct (G (l_dists l) row O Lr) as (values & Fv & Er).
  { intros v d Nv. destruct (D v d Nv) as (x & X & Y). destruct (one_possible _ d _ (S l v d Il Nv) (Pr l v d (earlier sampled i) Il Nv)) as (x' & X' & Px). assert (x' = x) as -> by congruence. exists x. split; [exact Px|exact Y]. }
  exists l, values. auto.
Qed.
Print Assumptions C87_sample_partial.

(** The chance of a value of a symbolic or integer variable is its probability: value [x] is
    drawn for the numbers in an interval of this length, (cum x, cum x + p x]. *)
Theorem C87_share : forall D d o x, ok_dist D d -> 0 < o_u o -> o_u o <= 1 -> (x < n_values D)%nat ->
  let before := Qsum (firstn x (d_params d)) in
  (one_value (inr d) o = Ok (inr x) <-> before < o_u o /\ o_u o <= before + nth x (d_params d) 0).
Proof.
  intros D d o x (Ed & Ld & Pp & P1) U1 U2 Lx before. cbn [one_value]. rewrite Ed, <- Ld. unfold lab_sample, roulette_weights. rewrite !seq_length, Nat.eqb_refl. cbn [negb bind].
  assert (U3 : o_u o <= Qsum (d_params d)) by (rewrite P1; exact U2). destruct (roulette_spec (d_params d) (o_u o) Pp U1 U3) as (i & Ei & B1 & B2 & (w & Nw & _) & Un). unfold roulette_get. rewrite Ei. cbn [bind].
  assert (Li : (i < length (d_params d))%nat) by (apply nth_error_Some; congruence).
  rewrite nth_error_nth' with (d := O) by (rewrite seq_length; exact Li). rewrite seq_nth by exact Li. cbn [Nat.add bind]. unfold value2label1.
  rewrite nth_error_nth' with (d := O) by (rewrite seq_length; exact Li). rewrite seq_nth by exact Li. cbn [Nat.add bind].
  assert (St : cum (d_params d) (S x) == before + nth x (d_params d) 0) by (apply cum_step; apply nth_error_nth'; lia). rewrite <- St. fold (cum (d_params d) x) in before. subst before. split.
  - intro Q. injection Q as ->. auto.
  - intros [C1 C2]. rewrite (Un x) by (assumption || lia). reflexivity.
Qed.
Print Assumptions C87_share.

(** Example: x uniform on [0, 1) or equal to 2, a symbol with two labels; three rows. *)
Definition sx_l1 : leaf (mixed numeric discrete) :=
  Leaf (F := mixed numeric discrete) 1 None (3 # 4) 3 [inl unit_cdf; inr (DDist (SymDom [Some 10%Z; Some 20%Z]) [1 # 3; 2 # 3])] [].
Definition sx_l2 : leaf (mixed numeric discrete) :=
  Leaf (F := mixed numeric discrete) 2 None (1 # 4) 1 [inl (dirac (1024 * 2 ^ 52)%Z); inr (DDist (SymDom [Some 10%Z; Some 20%Z]) [1; 0])] [].
Definition sx : mtree := JPT (F := mixed numeric discrete) 2 (fun _ => inr []) [] [sx_l1; sx_l2] None [].
Definition sx_kinds : list kind := [None; Some (SymDom [Some 10%Z; Some 20%Z])].
Definition sx_draw (i : cs) : Z := Z.max (1 - ORD_INF) match left i with INC => lower i | EXC => lower i + 1 end.
Definition sx_src (i : nat) (v : var) (k : nat) : outcome := Outcome (match k with O => 1 # 4 | _ => 1 # 2 end) 0 sx_draw.
Example C87_example :
  NoDup (map (fun l => l_idx l) (leaves sx)) /\ (forall l, In l (leaves sx) -> 0 <= l_prior l) /\ Qsum (map (fun l => l_prior l) (leaves sx)) == 1 /\
  (forall l v d, In l (leaves sx) -> nth_error (l_dists l) v = Some d -> samplable (nth v sx_kinds None) d) /\
  (forall i, In i [1; 2; 1]%nat -> exists l, In l (leaves sx) /\ l_idx l = i /\ 0 < l_prior l) /\
  (forall l v d k, In l (leaves sx) -> nth_error (l_dists l) v = Some d -> promised d (sx_src (l_idx l) v k)) /\
  tree_sample outcome (Z + nat) one_value (fun _ x => x) sx_src sx [1; 2; 1]%nat =
    Ok [[Some (inl 0%Z); Some (inr 0%nat)]; [Some (inl (1024 * 2 ^ 52)%Z); Some (inr 0%nat)]; [Some (inl 0%Z); Some (inr 1%nat)]].
Proof.
  destruct C58_example_numeric as (Sp & Ct & Ex & _).
  assert (Two : forall v (d : mdist) a b, nth_error [a; b] v = Some d -> v = O /\ d = a \/ v = 1%nat /\ d = b).
  { intros [|[|v]] d a b E; cbn [nth_error] in E; [injection E as <-; auto|injection E as <-; auto|destruct v; discriminate]. }
  split; [repeat constructor; cbn; intuition discriminate|]. split; [intros l [<-|[<-|[]]]; vm_compute; discriminate|]. split; [vm_compute; reflexivity|]. split.
  { intros l v d [<-|[<-|[]]] E; apply Two in E; destruct E as [[-> ->]|[-> ->]]; cbn [nth sx_kinds samplable].
    - right. split; [exact Sp|]. eexists. split; [exact Ct|exact Ex].
    - split; [reflexivity|]. split; [reflexivity|]. split; [repeat constructor; discriminate|reflexivity].
    - left. eexists. reflexivity.
    - split; [reflexivity|]. split; [reflexivity|]. split; [repeat constructor; discriminate|reflexivity]. }
  split. { intros i [<-|[<-|[<-|[]]]]; [exists sx_l1|exists sx_l2|exists sx_l1]; cbn; (split; [tauto|split; [reflexivity|reflexivity]]). }
  assert (Dr : forall i x, cs_mem x i -> cs_mem (sx_draw i) i). { intros i x (Fx & L & R). unfold cs_mem, sx_draw, finite in *. destruct (left i), (right i); lia. }
  split.
  { intros l v d k [<-|[<-|[]]] E; apply Two in E; destruct E as [[-> ->]|[-> ->]]; cbn [promised sx_src o_u o_draw o_choose].
    - split; [exact Dr|]. intros _ ps E. vm_compute in E. injection E as <-. eexists. split; [reflexivity|]. reflexivity.
    - destruct k; split; vm_compute; (reflexivity || discriminate).
    - split; [exact Dr|]. intro H. destruct (H _ eq_refl).
    - destruct k; split; vm_compute; (reflexivity || discriminate). }
  vm_compute. reflexivity.
Qed.
