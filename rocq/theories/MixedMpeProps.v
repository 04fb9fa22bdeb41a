(** Most probable explanations of trees over numeric, symbolic and integer variables. *)
Require Import ZArith QArith Qabs Lqa Bool List Arith Lia Permutation.
Require Import Verif.Base Verif.FloatLine Verif.FloatVal Verif.NumBase Verif.UtilModel Verif.IntervalModel Verif.IntervalSpec Verif.IntervalProofs Verif.IntervalExact Verif.IntervalDec Verif.DiscreteModel Verif.DiscreteProofs Verif.DiscreteProofs2
  Verif.FunctionModel Verif.FunctionSpec Verif.NumericModel Verif.NumericSpec Verif.NumericReg Verif.NumericFit Verif.NumericProb Verif.NumericCut Verif.NumericCropSpec Verif.NumericProps3 Verif.NumericExample Verif.NumericPoint Verif.ModeProps
  Verif.TreeModel Verif.TreeSpec Verif.TreeApply Verif.TreeInfer Verif.TreePosterior Verif.TreeDiscrete Verif.TreeCond Verif.TreeCond2 Verif.TreeCond3 Verif.TreeCond4 Verif.TreeWorlds Verif.TreeWorldProofs Verif.TreeWorldMore Verif.TreeMpe Verif.NumericTree Verif.MixedTree Verif.MixedProps Verif.EffectProps Verif.MixedPosterior Verif.MixedPosteriorProps Verif.MixedCond Verif.MixedCondProps.
Import ListNotations.
Open Scope Q_scope.

(** ** Specification *)

(** The density of a distribution at a value; 1 at the value of a distribution in one
    point, whose cdf has two pieces. *)
Definition worth (d : mdist) (x : Z + nat) : Q :=
  match d, x with
  | inl [(i, _); _], inl z => if (z =? upper i)%Z then 1 else 0
  | inl p, inl z => NumericSpec.density p z
  | inr d, inr k => nth k (d_params d) 0
  | _, _ => 0
  end.
(** A value of a variable, a world, a value from a set. *)
Definition value_of (k : kind) (x : Z + nat) : Prop :=
  match k, x with None, inl z => finite z | Some D, inr k => (k < n_values D)%nat | _, _ => False end.
Definition world (kinds : list kind) (row : list (Z + nat)) : Prop := Forall2 value_of kinds row.
Definition drawn (x : Z + nat) (s : mset) : Prop :=
  match x, s with inl z, inl r => ns_mem z r | inr k, inr l => In k l | _, _ => False end.
(** The world meets the evidence. *)
Definition agrees (e : list (var * mset)) (row : list (Z + nat)) : Prop :=
  forall v s, In (v, s) e -> exists x, nth_error row v = Some x /\ drawn x s.
(** The density of a world in a leaf, and given the evidence if it agrees with it. *)
Definition world_density (l : leaf (mixed numeric discrete)) (row : list (Z + nat)) : Q :=
  l_prior l * fold_right Qmult 1 (map (fun dx => worth (fst dx) (snd dx)) (combine (l_dists l) row)).
Definition given (pr : mdist -> mset -> Q) (J : mtree) (e : list (var * mset)) (l : leaf (mixed numeric discrete)) (row : list (Z + nat)) : Q :=
  world_density l row / weight pr J e.
(** [p] bounds the density of the worlds in all leaves where the evidence is possible,
    and every world drawn from a returned assignment attains it.  The largest number of an
    interval in the evidence is left out: restricted distributions have density 0 there. *)
Definition explains (kinds : list kind) (pr : mdist -> mset -> Q) (J : mtree) (e : list (var * mset)) (rs : list (list mset)) (p : Q) : Prop :=
  0 < p /\ rs <> [] /\
  (forall l row, In l (leaves J) -> 0 < chance pr l e -> world kinds row -> agrees e row ->
     (forall v c z, In (v, inl (NC c)) e -> nth_error row v = Some (inl z) -> (z < uppermost c)%Z) -> given pr J e l row <= p) /\
  (forall sets, In sets rs -> (exists row, Forall2 drawn row sets) /\
     exists l, In l (leaves J) /\ 0 < chance pr l e /\ forall row, Forall2 drawn row sets -> world kinds row /\ agrees e row /\ given pr J e l row == p).

(** ** Proof *)

Definition worths (ds : list mdist) (row : list (Z + nat)) : Q := fold_right Qmult 1 (map (fun dx => worth (fst dx) (snd dx)) (combine ds row)).

Definition prepared (k : kind) (d : mdist) : Prop :=
  match k, d with
  | None, inl p => (exists z, (Z.abs z < ORD_53)%Z /\ p = NumericModel.dirac z) \/ (spread_cdf p /\ tame p)
  | Some D, inr d => ok_dist D d
  | _, _ => False
  end.
Lemma prepared_length : forall ks ds, Forall2 prepared ks ds -> length ds = length ks.
Proof. intros ks ds F. induction F; [reflexivity|]. cbn. congruence. Qed.
Lemma prepared_nth : forall ks ds, Forall2 prepared ks ds -> forall v d, nth_error ds v = Some d -> prepared (nth v ks None) d.
Proof. intros ks ds F. induction F as [|k d ks ds Pk Pd IH]; intros [|u] d' Hu; try discriminate; [injection Hu as <-; exact Pk|exact (IH u d' Hu)]. Qed.
Lemma eq_Qeq : forall a b : Q, a = b -> a == b.
Proof. intros a b ->. reflexivity. Qed.
Lemma worth_spread : forall p z, spread_cdf p -> worth (inl p) (inl z) = NumericSpec.density p z.
Proof.
  intros p z Sp. pose proof (sp_len _ Sp) as Ln. unfold worth. destruct p as [|[i f] [|s [|t p]]]; try reflexivity. cbn in Ln. lia.
Qed.
Lemma worth_nonneg : forall k d x, prepared k d -> value_of k x -> 0 <= worth d x.
Proof.
  intros [D|] [p|d] [z|x] Pd Vx; try contradiction.
  - destruct Pd as (_ & Ln & Pp & _). cbn [worth]. destruct (Nat.lt_ge_cases x (length (d_params d))) as [H|H].
    + rewrite Forall_forall in Pp. apply Pp, nth_In, H.
    + rewrite nth_overflow by exact H. lra.
  - destruct Pd as [(y & _ & ->)|[Sp _]]; [cbn; destruct (z =? y)%Z; lra|]. rewrite worth_spread by exact Sp.
    destruct (piece_of p z Sp Vx) as (i & f & I & _ & ->). pose proof (sp_rise p Sp) as R. rewrite Forall_forall in R. specialize (R _ I). cbn [fst snd] in R. destruct f; cbn [steepness]; try lra.
Qed.
Lemma d_mpe_ok : forall k d, prepared k d -> exists s q, d_mpe (mixed numeric discrete) d = Ok (s, q) /\ 0 < q /\
  (forall x, value_of k x -> worth d x <= q) /\ (forall x, drawn x s -> value_of k x /\ worth d x == q) /\ exists x, drawn x s.
Proof.
  intros [D|] [p|d] Pd; try contradiction.
  - pose proof Pd as (_ & Len & Pp). destruct (mpe_spec (d_params d) Pp) as (S & q & Em & P0 & Hs & Hp & Ne).
    exists (inr S), q. cbn [d_mpe mixed MixedTree.on discrete]. rewrite Em. cbn [bind fst snd]. split; [reflexivity|]. split; [exact P0|].
    assert (B : forall a, In a S -> (a < n_values D)%nat).
    { intros a I. apply Hs in I. destruct I as (r & Er & _). rewrite <- Len. apply nth_error_Some. congruence. }
    split; [|split].
    + intros [z|a] La; [contradiction|]. cbn in La |- *. destruct S as [|b S]; [contradiction|]. destruct (proj1 (Hs b) (or_introl eq_refl)) as (r & Eb & Mx).
      rewrite <- (Hp b r (or_introl eq_refl) Eb). apply (Mx a). apply nth_param. lia.
    + intros [z|a] Da; [contradiction|]. cbn in Da. split; [exact (B a Da)|]. cbn [worth]. apply (Hp a _ Da). apply nth_param. rewrite Len. exact (B a Da).
    + destruct S as [|b S]; [contradiction|]. exists (inr b). left. reflexivity.
  - destruct Pd as [(z & Mz & ->)|[Sp Tm]].
    + destruct (C80_point z Mz) as (S & _ & Em & Hs). exists (inl S), 1. cbn [d_mpe mixed MixedTree.on numeric]. rewrite Em. cbn [bind fst snd capped]. split; [reflexivity|]. split; [reflexivity|].
      split; [|split].
      * intros [y|a] _; [|cbn; lra]. cbn. destruct (y =? z)%Z; lra.
      * intros [y|a] Dy; [|contradiction]. cbn in Dy. apply Hs in Dy. subst y. pose proof ord_facts. split; [cbn; unfold finite; lia|]. cbn. rewrite Z.eqb_refl. reflexivity.
      * exists (inl z). cbn. apply Hs. reflexivity.
    + destruct (C80_mpe p Sp Tm) as (S & q & Em & (P0 & Hs & x0 & X0) & Mx). exists (inl S), q. cbn [d_mpe mixed MixedTree.on numeric]. rewrite Em. cbn [bind fst snd capped].
      split; [reflexivity|]. split; [exact P0|]. split; [|split].
      * intros [y|a] Vy; [|contradiction]. rewrite worth_spread by exact Sp. apply Mx, Vy.
      * intros [y|a] Dy; [|contradiction]. cbn in Dy. apply Hs in Dy. rewrite worth_spread by exact Sp. exact Dy.
      * exists (inl x0). exact X0.
Qed.
Lemma worths_nonneg : forall kinds ds, Forall2 prepared kinds ds -> forall row, world kinds row -> 0 <= worths ds row.
Proof.
  intros kinds ds F. induction F as [|k d kinds ds Pd F IH]; intros row Wr; [unfold worths; cbn; lra|].
  inversion Wr as [|? x ? row' Vx Wr']; subst. unfold worths. cbn [combine map fold_right fst snd]. apply Qmult_le_0_compat; [exact (worth_nonneg k d x Pd Vx)|exact (IH row' Wr')].
Qed.
Lemma mpe_dists_mixed : forall kinds ds, Forall2 prepared kinds ds -> forall acc, 0 <= acc -> exists sets q, @mpe_dists (mixed numeric discrete) ds acc = Ok (sets, q) /\
  (forall row, world kinds row -> acc * worths ds row <= q) /\ (forall row, Forall2 drawn row sets -> world kinds row /\ acc * worths ds row == q) /\
  (exists row, Forall2 drawn row sets) /\ (0 < acc -> 0 < q).
Proof.
  intros kinds ds F. induction F as [|k d kinds ds Pd F IH]; intros acc A0.
  - exists [], acc. split; [reflexivity|]. split; [intros row Wr; unfold worths; cbn; lra|]. split; [|split; [exists []; constructor|auto]].
    intros row H. inversion H; subst. split; [constructor|unfold worths; cbn; ring].
  - destruct (d_mpe_ok k d Pd) as (s & q & Em & P0 & Mx & At & x0 & X0).
    destruct (IH (acc * q)) as (sets & r & Er & Ub & Av & (row0 & R0) & Ps); [apply Qmult_le_0_compat; lra|].
    exists (s :: sets), r. cbn [mpe_dists]. rewrite Em. cbn [bind snd fst]. rewrite Er. cbn [bind fst snd]. split; [reflexivity|]. split; [|split; [|split]].
    + intros row Wr. inversion Wr as [|? x ? row' Vx Wr']; subst. unfold worths. cbn [combine map fold_right fst snd]. fold (worths ds row').
      apply Qle_trans with (acc * q * worths ds row'); [|apply Ub, Wr']. rewrite Qmult_assoc. apply Qmult_le_compat_r; [|exact (worths_nonneg kinds ds F row' Wr')].
      rewrite (Qmult_comm acc), (Qmult_comm acc). apply Qmult_le_compat_r; [apply Mx, Vx|exact A0].
    + intros row H. inversion H as [|x ? row' ? Dx H']; subst. destruct (At x Dx) as [Vx Ex]. destruct (Av row' H') as [Wr Eq]. split; [constructor; assumption|].
      unfold worths in *. cbn [combine map fold_right fst snd]. rewrite <- Eq, Ex. ring.
    + exists (x0 :: row0). constructor; assumption.
    + intro Pa. apply Ps. apply Qmult_lt_0_compat; assumption.
Qed.

Lemma best_mixed : forall kinds (ls : list (leaf (mixed numeric discrete))), (forall l, In l ls -> Forall2 prepared kinds (l_dists l) /\ 0 <= l_prior l) -> 0 < Qsum (map l_prior ls) ->
  exists m ms, mapM leaf_mpe ls = Ok (m :: ms) /\ let p := maxQ (snd m) (map snd ms) in let rs := map fst (filter (fun m => Qeq_bool (snd m) p) (m :: ms)) in
    0 < p /\ rs <> [] /\ (forall l row, In l ls -> world kinds row -> world_density l row <= p) /\
    forall sets, In sets rs -> (exists row, Forall2 drawn row sets) /\ exists l, In l ls /\ forall row, Forall2 drawn row sets -> world kinds row /\ world_density l row == p.
Proof.
  intros kinds ls Fl Pos.
  destruct (mapM_all _ _ (@leaf_mpe (mixed numeric discrete)) (fun l (m : list mset * Q) =>
    (forall row, world kinds row -> world_density l row <= snd m) /\ (forall row, Forall2 drawn row (fst m) -> world kinds row /\ world_density l row == snd m) /\
    (exists row, Forall2 drawn row (fst m)) /\ (0 < l_prior l -> 0 < snd m)) ls) as (bs & Eb & F2).
  { intros l I. destruct (Fl l I) as [Fd P0]. destruct (mpe_dists_mixed kinds (l_dists l) Fd (l_prior l) P0) as (sets & x & Ex & A). exists (sets, x). split; [exact Ex|exact A]. }
  destruct bs as [|m ms].
  { inversion F2; subst. cbn in Pos. lra. }
  exists m, ms. split; [exact Eb|]. cbv zeta. destruct (maxQ_spec (map snd ms) (snd m)) as [In0 Ge]. set (p := maxQ (snd m) (map snd ms)) in *. change (snd m :: map snd ms) with (map snd (m :: ms)) in In0, Ge.
  clear Eb. set (bs := m :: ms) in *. clearbody bs. clearbody p. clear m ms.
  assert (Corr : forall b, In b bs -> exists l, In l ls /\ (exists row, Forall2 drawn row (fst b)) /\ forall row, Forall2 drawn row (fst b) -> world kinds row /\ world_density l row == snd b).
  { clear - F2. induction F2 as [|l b ls bs H F2 IH]; intros b' []; [subst b'; exists l; split; [left; reflexivity|]; destruct H as (_ & A & B & _); auto|].
    destruct (IH b' H0) as (l' & I & X). exists l'. split; [right; exact I|exact X]. }
  assert (Corr2 : forall l, In l ls -> exists b, In b bs /\ (forall row, world kinds row -> world_density l row <= snd b) /\ (0 < l_prior l -> 0 < snd b)).
  { clear - F2. induction F2 as [|l b ls bs H F2 IH]; intros l' []; [subst l'; exists b; split; [left; reflexivity|]; destruct H as (A & _ & _ & B); auto|].
    destruct (IH l' H0) as (b' & I & X). exists b'. split; [right; exact I|exact X]. }
  split; [|split; [|split]].
  - assert (exists l, In l ls /\ 0 < l_prior l) as (l & I & Pl).
    { destruct (Qsum_pos_ex (map l_prior ls)) as (x & Ix & Px); [exact Pos|]. apply in_map_iff in Ix. destruct Ix as (l & <- & I). exists l. auto. }
    destruct (Corr2 l I) as (b & Ib & _ & Pb). apply Qlt_le_trans with (snd b); [apply Pb, Pl|]. apply Ge. apply (in_map snd), Ib.
  - apply in_map_iff in In0. destruct In0 as (b & Eb & Ib). intro H. assert (In (fst b) (map fst (filter (fun m => Qeq_bool (snd m) p) bs))); [|rewrite H in *; contradiction].
    apply in_map. apply filter_In. split; [exact Ib|]. rewrite Eb. apply Qeq_bool_iff. reflexivity.
  - intros l row I Iw. destruct (Corr2 l I) as (b & Ib & Ub & _). apply Qle_trans with (snd b); [apply Ub, Iw|]. apply Ge. apply (in_map snd), Ib.
  - intros sets Is. apply in_map_iff in Is. destruct Is as (b & <- & Ib). apply filter_In in Ib. destruct Ib as [Ib Eq]. apply Qeq_bool_iff in Eq. destruct (Corr b Ib) as (l & Il & A & B).
    split; [exact A|]. exists l. split; [exact Il|]. intros row Fw. destruct (B row Fw) as [X Y]. split; [exact X|]. rewrite Y. exact Eq.
Qed.

(** ** Products with some factors divided *)
Section Factors.
  Variables (A : Type) (P : nat -> A -> Q).
  Lemma product_scaled : forall (w w' : nat -> Q) (r : Q) v n a, (v < n)%nat -> w' v == w v * r -> (forall u, (u < n)%nat -> u <> v -> w' u == w u) -> (a <= v)%nat ->
    fold_right Qmult 1 (map w' (seq a (n - a))) == fold_right Qmult 1 (map w (seq a (n - a))) * r.
  Proof.
    intros w w' r v n a Hv E H. intro Ha. remember (n - a)%nat as k. revert a Ha Heqk. induction k as [|k IH]; intros a Ha Ek; [lia|]. cbn [seq map fold_right].
    destruct (Nat.eq_dec a v) as [->|N].
    - rewrite E. assert (R : forall m b, (v < b)%nat -> (b + m = n)%nat -> fold_right Qmult 1 (map w' (seq b m)) == fold_right Qmult 1 (map w (seq b m))).
      { induction m as [|m IHm]; intros b Hb Em; [reflexivity|]. cbn [seq map fold_right]. rewrite (H b) by lia. rewrite IHm by lia. reflexivity. }
      rewrite (R k (S v)) by lia. ring.
    - rewrite (H a) by lia. rewrite (IH (S a)) by lia. ring.
  Qed.
End Factors.
Lemma product_divided : forall (f : nat -> mset -> Q) n (e : list (var * mset)) (w w' : nat -> Q), NoDup (map fst e) -> (forall v s, In (v, s) e -> (v < n)%nat /\ ~ f v s == 0) ->
  (forall v s, In (v, s) e -> w' v == w v / f v s) -> (forall v, (v < n)%nat -> ~ In v (map fst e) -> w' v == w v) ->
  fold_right Qmult 1 (map w' (seq 0 n)) == fold_right Qmult 1 (map w (seq 0 n)) / fold_right (fun vs acc => f (fst vs) (snd vs) * acc) 1 e.
Proof.
  intros f n. induction e as [|[v s] e IH]; intros w w' N Hf He Hn.
  - cbn [fold_right]. unfold Qdiv. change (/ 1) with 1. rewrite Qmult_1_r.
    assert (R : forall m b, (b + m = n)%nat -> fold_right Qmult 1 (map w' (seq b m)) == fold_right Qmult 1 (map w (seq b m))).
    { induction m as [|m IHm]; intros b Em; [reflexivity|]. cbn [seq map fold_right]. rewrite (Hn b) by (try (intros []); lia). rewrite IHm by lia. reflexivity. }
    apply R. reflexivity.
  - cbn [map fst] in N. inversion N as [|? ? Nv N']; subst. destruct (Hf v s (or_introl eq_refl)) as [Hv F0].
    set (w1 := fun u => if Nat.eqb u v then w u / f v s else w u).
    rewrite (IH w1 w' N'); [| | |].
    + assert (P1 : fold_right Qmult 1 (map w1 (seq 0 n)) == fold_right Qmult 1 (map w (seq 0 n)) * / f v s).
      { pose proof (product_scaled w w1 (/ f v s) v n 0 Hv) as PS. rewrite Nat.sub_0_r in PS. apply PS; [|intros u _ Nu|lia].
        - unfold w1. rewrite Nat.eqb_refl. reflexivity.
        - unfold w1. destruct (Nat.eqb_spec u v); [contradiction|reflexivity]. }
      rewrite P1. cbn [fold_right fst snd]. set (g := fold_right (fun vs acc => f (fst vs) (snd vs) * acc) 1 e).
      destruct (Qeq_dec g 0) as [Z|Z].
      * unfold Qdiv. assert (E1 : / g == 0) by (rewrite Z; reflexivity). assert (E2 : / (f v s * g) == 0) by (rewrite Z, Qmult_0_r; reflexivity). rewrite E1, E2. ring.
      * field. split; assumption.
    + intros u t I. apply Hf. right. exact I.
    + intros u t I. unfold w1. destruct (Nat.eqb_spec u v) as [->|Nu]; [exfalso; apply Nv; change v with (fst (v, t)); apply in_map, I|]. apply He. right. exact I.
    + intros u Hu Nu. unfold w1. destruct (Nat.eqb_spec u v) as [->|Nuv]; [apply (He v s (or_introl eq_refl))|]. apply Hn; [exact Hu|]. cbn. intros [E|I]; [congruence|contradiction].
Qed.
Definition worth_at (ds : list mdist) (row : list (Z + nat)) (v : nat) : Q :=
  match nth_error ds v, nth_error row v with Some d, Some x => worth d x | _, _ => 1 end.
Lemma worth_at_some : forall ds row v d x, nth_error ds v = Some d -> nth_error row v = Some x -> worth_at ds row v == worth d x.
Proof. intros ds row v d x E1 E2. unfold worth_at. rewrite E1, E2. reflexivity. Qed.
Lemma world_value : forall kinds row v x, world kinds row -> nth_error row v = Some x -> value_of (nth v kinds None) x.
Proof.
  intros kinds row v x Wr. revert v. induction Wr as [|k y ks row Vy Wr IH]; intros [|v] E; try discriminate; [injection E as ->; exact Vy|exact (IH v E)].
Qed.
Lemma worth_at_nonneg : forall ks ds row, Forall2 prepared ks ds -> world ks row -> forall u, 0 <= worth_at ds row u.
Proof.
  intros ks ds row Pd Wr u. unfold worth_at. destruct (nth_error ds u) as [du|] eqn:Hu; [|discriminate]. destruct (nth_error row u) as [y|] eqn:Hy; [|discriminate].
  apply (worth_nonneg (nth u ks None)); [exact (prepared_nth _ _ Pd u du Hu)|exact (world_value ks row u y Wr Hy)].
Qed.
Lemma worths_seq : forall ds row n, length ds = n -> length row = n -> worths ds row == fold_right Qmult 1 (map (worth_at ds row) (seq 0 n)).
Proof.
  induction ds as [|d ds IH]; intros [|x row] [|n] Ed Er; try discriminate; [reflexivity|]. unfold worths. cbn [combine map fold_right seq fst snd]. fold (worths ds row).
  rewrite (IH row n) by (cbn in *; lia). rewrite <- seq_shift, map_map. reflexivity.
Qed.
(** A positive product has positive factors if none is negative. *)
Lemma factors_positive : forall (w : nat -> Q) l, (forall v, In v l -> 0 <= w v) -> 0 < fold_right Qmult 1 (map w l) -> forall v, In v l -> 0 < w v.
Proof.
  intros w. induction l as [|u l IH]; intros Nn Pos v []; cbn [map fold_right] in Pos.
  - subst u. pose proof (Nn v (or_introl eq_refl)). destruct (Qlt_le_dec 0 (w v)) as [H1|H1]; [exact H1|]. assert (Z : w v == 0) by lra. rewrite Z in Pos. lra.
  - apply IH; [intros; apply Nn; right; assumption| |assumption]. assert (N2 : 0 <= fold_right Qmult 1 (map w l)).
    { clear - Nn. induction l as [|x l IHl]; [cbn; lra|]. cbn [map fold_right]. apply Qmult_le_0_compat; [apply Nn; right; left; reflexivity|]. apply IHl. intros y [<-|I]; apply Nn; [left; reflexivity|right; right; exact I]. }
    destruct (Qlt_le_dec 0 (fold_right Qmult 1 (map w l))) as [H1|H1]; [exact H1|]. assert (Z : fold_right Qmult 1 (map w l) == 0) by lra. rewrite Z in Pos. lra.
Qed.

Lemma pm_none : forall ps, pm ps [] == 0.
Proof. intro ps. unfold pm. rewrite (mass_ext _ _ _ _ (fun _ => false)) by reflexivity. apply DiscreteProofs.mass_empty. Qed.
Lemma crop_values : forall D d s d', ok_dist D d -> 0 < pm (d_params d) s -> (forall x, In x s -> (x < n_values D)%nat) -> dd_crop d s = Ok d' ->
  forall k, (k < n_values D)%nat -> nth k (d_params d') 0 == if nmem k s then nth k (d_params d) 0 / pm (d_params d) s else 0.
Proof.
  intros D d s d' (Ed & Len & Pp) Pos Bs E k Hk. unfold dd_crop in E.
  assert (exists r, d' = DDist (d_dom d) r /\ crop_spec (d_params d) s r) as (r & -> & Ln & Pr & Hr).
  { destruct (d_dom d) eqn:Dd; [destruct (mn_crop_pos (d_params d) s Pp Pos) as (r & Er & C)|destruct (int_crop_pos (d_params d) s Pp Pos) as (r & Er & C)]; rewrite Er in E; cbn [bind] in E; injection E as <-; exists r; split; auto. }
  cbn [d_params]. assert (One : forall ps, (k < length ps)%nat -> nth k ps 0 == pm ps [k]).
  { intros ps H. symmetry. apply pm_single. exact H. }
  rewrite (One r) by lia. rewrite Hr. cbn [filter]. destruct (nmem k s); [rewrite (One (d_params d)) by lia; reflexivity|]. rewrite (pm_none (d_params d)). unfold Qdiv. ring.
Qed.

Section Mpe.
  Variable kinds : list kind.
  Variable G : var -> grid.
  Variable J : mtree.
  Hypothesis W : wf_mixed kinds G J.
  Variable pr : mdist -> mset -> Q.
  Variable L : @measured (mixed numeric discrete) (full J).
  Hypothesis Rd : readied kinds G J pr L.
  Variable e : list (var * mset).
  Hypothesis We : wf_mquery kinds G e.
  Hypothesis Single : forall v c, In (v, inl (NC c)) e -> ~ exists x, forall y, cs_mem y c <-> y = x.
  Hypothesis Keep : forall l v p, In l (leaves J) -> 0 < chance pr l e -> nth_error (l_dists l) v = Some (inl p) ->
    (forall c, In (v, inl (NC c)) e -> restrictable p c) /\ (~ In v (map fst e) -> seamless p).

  (** What a restricted distribution is worth. *)
  Lemma worth_restricted : forall l v s d d', In l (leaves J) -> 0 < chance pr l e -> In (v, s) e -> nth_error (l_dists l) v = Some d -> d_crop (mixed numeric discrete) d s = Ok d' ->
    0 < pr d s /\ (forall p', d' = inl p' -> (exists z, (Z.abs z < ORD_53)%Z /\ p' = NumericModel.dirac z) \/ spread_cdf p') /\
    (forall x, value_of (nth v kinds None) x -> drawn x s -> (forall c z, s = inl (NC c) -> x = inl z -> (z < uppermost c)%Z) -> worth d' x == worth d x / pr d s) /\
    (forall x, value_of (nth v kinds None) x -> 0 < worth d' x -> drawn x s /\ worth d' x == worth d x / pr d s).
  Proof.
    intros l v s d d' Il Ch I Hd Ec. pose proof (mx_dists _ _ _ W l v d Il Hd) as Fd. destruct (proj2 We v s I) as [V Ss].
    assert (Po : 0 < leaf_prob L (l_dists l) e) by (rewrite <- (rd_chance _ _ _ _ _ Rd); exact Ch).
    destruct (tree_leaf J L (rd_proper _ _ _ _ _ Rd) (rd_support _ _ _ _ _ Rd) l Il) as [Pl _].
    destruct (leaf_factor _ (full J) L (n_vars J) l e v s Pl (rd_event _ _ _ _ _ Rd e We) I Po) as (d0 & Hd0 & Od & Os & Pe). rewrite Hd in Hd0. injection Hd0 as <-.
    rewrite <- (rd_pr _ _ _ _ _ Rd) in Pe. split; [exact Pe|].
    unfold fits in Fd. unfold suits in Ss. destruct (nth v kinds None) as [D|] eqn:K; destruct d as [p|d]; try contradiction; destruct s as [[c|r]|s]; try contradiction.
    - rewrite (rd_values _ _ _ _ _ Rd) in Pe |- *. cbn [d_crop mixed discrete] in Ec. destruct (dd_crop d s) as [d1|] eqn:E1; [|discriminate Ec]. cbn [bind] in Ec. injection Ec as <-.
      pose proof (crop_values D d s d1 Fd Pe Ss E1) as Cv. split; [intros; discriminate|]. split.
      + intros [z|k] Vx Dx _; [contradiction|]. cbn in Vx, Dx |- *. rewrite (Cv k Vx). apply nmem_spec in Dx. rewrite Dx. reflexivity.
      + intros [z|k] Vx Px; [contradiction|]. cbn in Vx, Px |- *. rewrite (Cv k Vx) in Px |- *. destruct (nmem k s) eqn:M; [|lra]. apply nmem_spec in M. split; [exact M|reflexivity].
    - rewrite (rd_np _ _ _ _ _ Rd) in Pe |- *. destruct (Keep l v p Il Ch Hd) as [Hr _]. specialize (Hr c I). pose proof (not_one kinds G e We Single v c I) as Sz.
      cbn [d_crop mixed numeric crop_set] in Ec. destruct (crop_interval p c) as [q|] eqn:Eq; [|discriminate Ec]. cbn [bind] in Ec. injection Ec as <-. pose proof (proj1 Ss) as Wc.
      assert (Ne : cs_isempty c = false). { destruct (cs_isempty c) eqn:E; [|reflexivity]. rewrite (np_empty (G v) p c Fd Wc E) in Pe. lra. }
      destruct Fd as [Sm|(z & -> & M)].
      + destruct Hr as [R|(z & -> & _)]; [|exfalso; exact (line_not_point _ (proj1 Sm))]. pose proof (proj1 R) as Sp.
        destruct (line_crop (G v) p c Sm Ss Ne Sz Sp (or_introl R)) as (q' & Eq' & Sq & Cq & Tq & Lt & Vq & Dq). rewrite Eq' in Eq. injection Eq as ->.
        destruct (np_smooth (G v) p c Sm Ss Ne) as [_ Hc]. split; [intros p' E; injection E as <-; right; exact Cq|].
        assert (Me : forall z, finite z -> (lowermost c <= z < uppermost c)%Z -> cs_mem z c).
        { intros z Fz B. destruct (ends_of c Wc Ne) as (AB & HA & HB & HU). pose proof ord_facts as O. unfold finite in Fz. unfold cs_mem. split; [exact Fz|].
          split; [destruct HA as [(-> & L0 & HA)|[(-> & L0 & HA)|(-> & L0 & HA)]]; lia|]. destruct HB as [(-> & HB)|(-> & L1 & HB)]; destruct HU as [(L2 & HU)|(L2 & L3 & HU)]; lia. }
        assert (Lw : forall z, cs_mem z c -> (lowermost c <= z)%Z).
        { intros z Mz. destruct (ends_of c Wc Ne) as (AB & HA & HB & HU). unfold cs_mem, finite in Mz. destruct Mz as (Fz & Lz & _). destruct HA as [(E & L0 & HA)|[(E & L0 & HA)|(E & L0 & HA)]]; rewrite E in Lz; lia. }
        split.
        * intros [z|k] Vx Dx Hz; [|contradiction]. cbn in Vx, Dx.
          transitivity (NumericSpec.density q z); [exact (eq_Qeq _ _ (worth_spread q z Cq))|]. transitivity (NumericSpec.density p z / np p c); [|apply Qdiv_comp; [exact (Qeq_sym _ _ (eq_Qeq _ _ (worth_spread p z Sp)))|reflexivity]]. rewrite (Dq z Vx). specialize (Lw z Dx). specialize (Hz c z eq_refl eq_refl).
          destruct (Z.leb_spec (lowermost c) z); [|lia]. destruct (Z.ltb_spec z (uppermost c)); [|lia]. cbn [andb]. rewrite Hc. reflexivity.
        * intros [z|k] Vx Px; [|contradiction]. cbn in Vx. assert (Px' : 0 < NumericSpec.density q z) by (rewrite <- (worth_spread q z Cq); exact Px). clear Px. rename Px' into Px. rewrite (Dq z Vx) in Px.
          destruct (Z.leb_spec (lowermost c) z); [|cbn [andb] in Px; lra]. destruct (Z.ltb_spec z (uppermost c)); [|cbn [andb] in Px; lra]. split; [apply Me; [exact Vx|lia]|].
          transitivity (NumericSpec.density q z); [exact (eq_Qeq _ _ (worth_spread q z Cq))|]. transitivity (NumericSpec.density p z / np p c); [|apply Qdiv_comp; [exact (Qeq_sym _ _ (eq_Qeq _ _ (worth_spread p z Sp)))|reflexivity]]. rewrite (Dq z Vx).
          destruct (Z.leb_spec (lowermost c) z); [|lia]. destruct (Z.ltb_spec z (uppermost c)); [|lia]. cbn [andb]. rewrite Hc. reflexivity.
      + destruct Hr as [R|(z' & E & Lz)]; [exfalso; exact (spread_not_point _ (proj1 R))|]. unfold NumericModel.dirac in E. injection E as <-.
        destruct (dirac_or z c M Wc) as [[Iz P1]|[_ Z]]; [|lra].
        pose proof (C24_point z c M Wc Iz Lz) as Ep. rewrite Ep in Eq. injection Eq as <-. split; [intros p' E; injection E as <-; left; exists z; auto|]. split.
        * intros x _ _ _. rewrite P1. unfold Qdiv. change (/ 1) with 1. rewrite Qmult_1_r. reflexivity.
        * intros [y|k] Vx Px; [|contradiction]. cbn in Px. destruct (Z.eqb_spec y z) as [->|]; [|lra]. split; [exact Iz|]. rewrite P1. cbn. rewrite Z.eqb_refl. reflexivity.
  Qed.

  Lemma restricted_leaf : forall l l' row, In l (leaves J) -> 0 < chance pr l e -> conditioned J L e l l' -> world kinds row ->
    (forall v s, In (v, s) e -> forall d d' x, nth_error (l_dists l) v = Some d -> nth_error (l_dists l') v = Some d' -> nth_error row v = Some x -> worth d' x == worth d x / pr d s) ->
    ~ weight pr J e == 0 -> world_density l' row == given pr J e l row.
  Proof.
    intros l l' row Il Ch (_ & _ & _ & _ & Pp & Len & _ & Nth) Wr H Nz.
    pose proof (mx_len _ _ _ W l Il) as Ll. assert (Lr : length row = length kinds) by (clear - Wr; induction Wr; cbn; congruence).
    assert (Ew : worths (l_dists l') row == worths (l_dists l) row / chance pr l e).
    { etransitivity; [exact (worths_seq (l_dists l') row (length kinds) (eq_trans Len Ll) Lr)|].
      etransitivity; [|apply Qdiv_comp; [exact (Qeq_sym _ _ (worths_seq (l_dists l) row (length kinds) Ll Lr))|reflexivity]].
      apply (product_divided (fun v s => match nth_error (l_dists l) v with Some d => pr d s | None => 0 end) (length kinds) e); [apply We| | |].
      - intros v s I. split; [apply (proj2 We v s I)|]. destruct (nth_error (l_dists l) v) as [d|] eqn:Hd; [|exfalso; apply nth_error_None in Hd; pose proof (proj1 (proj2 We v s I)); lia].
        destruct (Nth v d Hd) as (d' & Hd' & Ec). replace (@lookup (vset (mixed numeric discrete)) e v) with (Some s) in Ec by (symmetry; exact (in_lookup mset e v s (proj1 We) I)).
        destruct (worth_restricted l v s d d' Il Ch I Hd Ec) as (P0 & _). lra.
      - intros v s I. assert (V : (v < length kinds)%nat) by apply (proj2 We v s I). destruct (nth_error (l_dists l) v) as [d|] eqn:Hd; [|exfalso; apply nth_error_None in Hd; unfold var in *; lia].
        destruct (Nth v d Hd) as (d' & Hd' & _). destruct (nth_error row v) as [x|] eqn:Hx; [|exfalso; apply nth_error_None in Hx; unfold var in *; lia].
        etransitivity; [exact (worth_at_some (l_dists l') row v d' x Hd' Hx)|]. etransitivity; [exact (H v s I d d' x Hd Hd' Hx)|]. apply Qdiv_comp; [|reflexivity]. symmetry. exact (worth_at_some (l_dists l) row v d x Hd Hx).
      - intros v V Nv. destruct (nth_error (l_dists l) v) as [d|] eqn:Hd; [|exfalso; apply nth_error_None in Hd; unfold var in *; lia].
        destruct (Nth v d Hd) as (d' & Hd' & Ec). replace (@lookup (vset (mixed numeric discrete)) e v) with (@None mset) in Ec by (symmetry; exact (proj2 (lookup_none mset e v) Nv)). subst d'.
        destruct (nth_error row v) as [x|] eqn:Hx; [|exfalso; apply nth_error_None in Hx; unfold var in *; lia].
        etransitivity; [exact (worth_at_some (l_dists l') row v d x Hd' Hx)|]. symmetry. exact (worth_at_some (l_dists l) row v d x Hd Hx). }
    transitivity (l_prior l' * worths (l_dists l') row); [reflexivity|]. transitivity (l_prior l * worths (l_dists l) row / weight pr J e); [|reflexivity].
    revert Ew. generalize (worths (l_dists l') row) (worths (l_dists l) row). intros a b Ew.
    rewrite Pp, Ew, <- (rd_chance _ _ _ _ _ Rd), <- (rd_weight _ _ _ _ _ Rd). field. split; lra.
  Qed.

  (** The distributions of a leaf where the evidence is possible, restricted to it. *)
  Lemma leaf_prepared : forall l l', In l (leaves J) -> 0 < chance pr l e -> length (l_dists l') = length (l_dists l) ->
    (forall v d, nth_error (l_dists l) v = Some d -> exists d', nth_error (l_dists l') v = Some d' /\ match lookup e v with Some ev => d_crop (mixed numeric discrete) d ev = Ok d' | None => d' = d end) ->
    (forall v d', nth_error (l_dists l') v = Some d' -> fits (G v) (nth v kinds None) d') ->
    (forall v p', nth_error (l_dists l') v = Some (inl p') -> spread_cdf p' -> tame p') -> Forall2 prepared kinds (l_dists l').
  Proof.
    intros l l' Il Ch Len Nth Ft Tm. pose proof (mx_len _ _ _ W l Il) as Ll.
    assert (Each : forall v d', nth_error (l_dists l') v = Some d' -> prepared (nth v kinds None) d').
    { intros v d' Hd'. pose proof (Ft v d' Hd') as Fd. unfold prepared. unfold fits in Fd. destruct (nth v kinds None) as [D|] eqn:K; destruct d' as [p'|d']; try contradiction; [exact Fd|].
      assert (Hv : (v < length (l_dists l))%nat) by (rewrite <- Len; apply nth_error_Some; rewrite Hd'; discriminate).
      destruct (nth_error (l_dists l) v) as [d|] eqn:Hd; [|exfalso; apply nth_error_None in Hd; apply (Nat.lt_irrefl v); eapply Nat.lt_le_trans; [exact Hv|exact Hd]].
      destruct (Nth v d Hd) as (d1 & Hd1 & Ec). rewrite Hd' in Hd1. injection Hd1 as <-.
      assert (Sp : (exists z, (Z.abs z < ORD_53)%Z /\ p' = NumericModel.dirac z) \/ spread_cdf p').
      { destruct (@lookup mset e v) as [s|] eqn:Lk.
        - pose proof (lookup_in mset e v s Lk) as I.
          replace (@lookup (vset (mixed numeric discrete)) e v) with (Some s) in Ec by (symmetry; exact Lk).
          destruct (worth_restricted l v s d (inl p') Il Ch I Hd Ec) as (_ & Sp & _). exact (Sp p' eq_refl).
        - replace (@lookup (vset (mixed numeric discrete)) e v) with (@None mset) in Ec by (symmetry; exact Lk). subst d.
          destruct (Keep l v p' Il Ch Hd) as [_ Sm]. destruct Fd as [Sm'|(z & -> & M)]; [|left; exists z; auto].
          destruct Sm as [(z & _ & ->)|[Sp _]]; [apply (lookup_none mset e v); exact Lk|exfalso; exact (line_not_point _ (proj1 Sm'))|right; exact Sp]. }
      destruct Sp as [Sp|Sp]; [left; exact Sp|right]. split; [exact Sp|exact (Tm v p' Hd' Sp)]. }
    assert (Ln : length kinds = length (l_dists l')) by congruence. clear - Each Ln. revert Each Ln. generalize (l_dists l') as ds. clear. intros ds. revert ds. induction kinds as [|k ks IH]; intros [|d ds] Each Ln; try discriminate; constructor.
    - exact (Each 0%nat d eq_refl).
    - apply IH; [intros v d' H; exact (Each (S v) d' H)|injection Ln as Ln; exact Ln].
  Qed.

  Lemma world_bound : forall l l' row, In l (leaves J) -> 0 < chance pr l e -> conditioned J L e l l' -> world kinds row -> agrees e row ->
    (forall v c z, In (v, inl (NC c)) e -> nth_error row v = Some (inl z) -> (z < uppermost c)%Z) -> ~ weight pr J e == 0 -> world_density l' row == given pr J e l row.
  Proof.
    intros l l' row Il Ch C Wr Ag Up Nz. apply (restricted_leaf l l' row Il Ch C Wr); [|exact Nz]. intros v s I d d' x Hd Hd' Hx.
    destruct C as (_ & _ & _ & _ & _ & _ & _ & Nth). destruct (Nth v d Hd) as (d1 & Hd1 & Ec). rewrite Hd' in Hd1. injection Hd1 as <-.
    replace (@lookup (vset (mixed numeric discrete)) e v) with (Some s) in Ec by (symmetry; exact (in_lookup mset e v s (proj1 We) I)).
    destruct (worth_restricted l v s d d' Il Ch I Hd Ec) as (_ & _ & A & _). apply A; [exact (world_value kinds row v x Wr Hx)| |].
    - destruct (Ag v s I) as (x' & Hx' & Dx). rewrite Hx in Hx'. injection Hx' as <-. exact Dx.
    - intros c z -> ->. exact (Up v c z I Hx).
  Qed.
  Lemma world_attained : forall l l' row, In l (leaves J) -> 0 < chance pr l e -> conditioned J L e l l' -> Forall2 prepared kinds (l_dists l') -> world kinds row -> 0 < world_density l' row -> 0 <= l_prior l' -> ~ weight pr J e == 0 ->
    agrees e row /\ world_density l' row == given pr J e l row.
  Proof.
    intros l l' row Il Ch C Pd Wr Pos P0 Nz.
    assert (Lr : length row = length kinds) by (clear - Wr; induction Wr; cbn; congruence).
    assert (Ld : length (l_dists l') = length kinds) by exact (prepared_length _ _ Pd).
    assert (Pw : 0 < worths (l_dists l') row).
    { pose proof (worths_nonneg kinds _ Pd row Wr) as N0. destruct (Qlt_le_dec 0 (worths (l_dists l') row)) as [H|H]; [exact H|exfalso]. assert (Z : worths (l_dists l') row == 0) by lra.
      assert (X : world_density l' row == 0) by (transitivity (l_prior l' * worths (l_dists l') row); [reflexivity|]; revert Z; generalize (worths (l_dists l') row); intros w Z; rewrite Z; ring). rewrite X in Pos. lra. }
    assert (Fac : forall v s, In (v, s) e -> forall d d', nth_error (l_dists l) v = Some d -> nth_error (l_dists l') v = Some d' -> d_crop (mixed numeric discrete) d s = Ok d' ->
      forall x, nth_error row v = Some x -> drawn x s /\ worth d' x == worth d x / pr d s).
    { intros v s I d d' Hd Hd' Ec x Hx. destruct (worth_restricted l v s d d' Il Ch I Hd Ec) as (_ & _ & _ & B). apply B; [exact (world_value kinds row v x Wr Hx)|].
      assert (Pv : 0 < worth_at (l_dists l') row v).
      { pose proof (worths_seq (l_dists l') row (length kinds) Ld Lr) as Ws.
        apply (factors_positive (worth_at (l_dists l') row) (seq 0 (length kinds))).
        - intros u _. exact (worth_at_nonneg kinds _ row Pd Wr u).
        - eapply Qlt_le_trans; [exact Pw|]. apply Qle_lteq. right. exact Ws.
        - apply in_seq. pose proof (proj1 (proj2 We v s I)) as V. unfold var in *. lia. }
      eapply Qlt_le_trans; [exact Pv|]. apply Qle_lteq. right. exact (worth_at_some (l_dists l') row v d' x Hd' Hx). }
    assert (Ev : forall v s, In (v, s) e -> exists d d' x, nth_error (l_dists l) v = Some d /\ nth_error (l_dists l') v = Some d' /\ d_crop (mixed numeric discrete) d s = Ok d' /\ nth_error row v = Some x).
    { intros v s I. pose proof (proj1 (proj2 We v s I)) as V. destruct C as (_ & _ & _ & _ & _ & Len & _ & Nth). unfold var in *.
      destruct (nth_error (l_dists l) v) as [d|] eqn:Hd; [|exfalso; apply nth_error_None in Hd; lia]. destruct (nth_error row v) as [x|] eqn:Hx; [|exfalso; apply nth_error_None in Hx; lia].
      destruct (Nth v d Hd) as (d' & Hd' & Ec). replace (@lookup (vset (mixed numeric discrete)) e v) with (Some s) in Ec by (symmetry; exact (in_lookup mset e v s (proj1 We) I)). exists d, d', x. auto. }
    split.
    - intros v s I. destruct (Ev v s I) as (d & d' & x & Hd & Hd' & Ec & Hx). exists x. split; [exact Hx|]. apply (Fac v s I d d' Hd Hd' Ec x Hx).
    - apply (restricted_leaf l l' row Il Ch C Wr); [|exact Nz]. intros v s I d d' x Hd Hd' Hx. destruct (Ev v s I) as (d1 & d1' & x1 & Hd1 & Hd1' & Ec & Hx1).
      rewrite Hd in Hd1. injection Hd1 as <-. rewrite Hd' in Hd1'. injection Hd1' as <-. apply (Fac v s I d d' Hd Hd' Ec x Hx).
  Qed.
End Mpe.

(** ** C43: mpe with numeric variables

    [pr] is the probability of [mass].  The evidence is as for conditional trees.  The bounds
    of the pieces on which the conditional distributions rise are no neighbouring doubles.
    Missing: densities at the largest number of an interval in the evidence. *)
Theorem C43_mixed_partial : forall kinds G (J : mtree), wf_mixed kinds G J ->
  exists pr : mdist -> mset -> Q,
    (forall v d s, fits (G v) (nth v kinds None) d -> suits (G v) (nth v kinds None) s -> mass d s (pr d s)) /\
    forall e fail, wf_mquery kinds G e ->
      (e = [] -> Qsum (map l_prior (leaves J)) == 1) ->
      (e <> [] -> forall n, In n (innernodes J) -> length (i_children n) = 2%nat) ->
      (forall v c, In (v, inl (NC c)) e -> ~ exists x, forall y, cs_mem y c <-> y = x) ->
      (forall l v p, In l (leaves J) -> 0 < chance pr l e -> nth_error (l_dists l) v = Some (inl p) ->
         (forall c, In (v, inl (NC c)) e -> restrictable p c) /\ (~ In v (map fst e) -> seamless p)) ->
      (e <> [] -> forall v x, (v < length kinds)%nat -> nth v kinds None = None -> finite x ->
         average pr J e (kept_slope pr e v x) == 0 \/ 1 # 100000000 < average pr J e (kept_slope pr e v x)) ->
      (forall J', conditional_jpt J e fail = Ok (Some J') -> forall l v p, In l (leaves J') -> nth_error (l_dists l) v = Some (inl p) -> spread_cdf p -> tame p) ->
      (weight pr J e == 0 -> mpe J e fail = if fail then Err Unsatisfiability else Ok None) /\
      (~ weight pr J e == 0 -> exists rs p, mpe J e fail = Ok (Some (rs, p)) /\ explains kinds pr J e rs p).
Proof.
  intros kinds G J W. destruct (ready kinds G J W) as (pr & L & Rd & Ms). exists pr. split; [exact Ms|]. intros e fail We S1 Bin Single Keep Grain Tm.
  pose proof (rd_event _ _ _ _ _ Rd e We) as Ee. pose proof (rd_weight _ _ _ _ _ Rd e) as Wm. unfold mpe. rewrite (event_known J L e Ee). cbn [negb].
  destruct e as [|x0 e0] eqn:E0.
  - assert (W1 : weight pr J [] == 1).
    { rewrite <- (S1 eq_refl). unfold weight. apply Qsum_map_ext. intros l _. cbn [fold_right]. ring. }
    split; [intro Z; rewrite W1 in Z; discriminate Z|]. intros _. cbn [conditional_jpt bind].
    assert (Ch : forall l, 0 < chance pr l []) by (intro l; unfold chance; cbn [fold_right]; reflexivity).
    destruct (best_mixed kinds (leaves J)) as (m & ms & Em & B0 & B1 & B2 & B3).
    + intros l Il. split; [|exact (mx_prior _ _ _ W l Il)]. apply (leaf_prepared kinds G J W pr L Rd [] We Single Keep l l Il (Ch l) eq_refl).
      * intros v d Hd. exists d. split; [exact Hd|reflexivity].
      * intros v d Hd. exact (mx_dists _ _ _ W l v d Il Hd).
      * intros v p Hd. exact (Tm J eq_refl l v p Il Hd).
    + rewrite (S1 eq_refl). reflexivity.
    + rewrite Em. cbn [bind]. eexists _, _. split; [reflexivity|]. split; [exact B0|]. split; [exact B1|].
      assert (Gv : forall l row, given pr J [] l row == world_density l row) by (intros l row; unfold given; rewrite W1; unfold Qdiv; change (/ 1) with 1; ring).
      split.
      * intros l row Il _ Wr _ _. rewrite Gv. exact (B2 l row Il Wr).
      * intros sets Is. destruct (B3 sets Is) as (X & l & Il & Y). split; [exact X|]. exists l. split; [exact Il|]. split; [exact (Ch l)|]. intros row Fw. destruct (Y row Fw) as [Wr Eq].
        split; [exact Wr|]. split; [intros v s []|]. rewrite Gv. exact Eq.
  - rewrite <- E0 in *. assert (Ne : e <> []) by (rewrite E0; discriminate). clear E0 x0 e0.
    destruct (conditional_core kinds G J W (Bin Ne) pr L Rd Ms e We Ne Single Keep (Grain Ne) fail) as [A B].
    pose proof (mixture_nonneg J L (rd_proper _ _ _ _ _ Rd) (rd_support _ _ _ _ _ Rd) e Ee) as Mn.
    split; [intro Z; rewrite A by (rewrite <- Wm; exact Z); destruct fail; reflexivity|]. intro N. assert (Pm : 0 < TreeSpec.mixture J L e) by (destruct (Qlt_le_dec 0 (TreeSpec.mixture J L e)); [assumption|exfalso; apply N; rewrite Wm; lra]).
    destruct (B Pm) as (ns & ls & rt & ps & H). cbv zeta in H. destruct H as (Ec & T2 & _ & Pr2 & Su2 & Rc & S2 & _ & _). clear A B.
    pose proof (result_wf kinds G J W pr L Rd Ms ns ls rt ps T2 Pr2 Su2) as W2. set (J' := JPT (F := mixed numeric discrete) (n_vars J) (full J) ns ls rt ps) in *. rewrite Ec. cbn [bind].
    assert (Prep : forall l' : leaf (mixed numeric discrete), In l' ls -> Forall2 prepared kinds (l_dists l')).
    { intros l' Il'. destruct (result_leaf J L e ls Rc l' Il') as (l & Il & Pl & C). assert (Ch : 0 < chance pr l e) by (rewrite (rd_chance _ _ _ _ _ Rd); exact Pl).
      destruct C as (_ & _ & _ & _ & _ & Len & _ & Nth). apply (leaf_prepared kinds G J W pr L Rd e We Single Keep l l' Il Ch Len Nth).
      - intros v d Hd. exact (mx_dists _ _ _ W2 l' v d Il' Hd).
      - intros v p Hd. exact (Tm J' Ec l' v p Il' Hd). }
    destruct (best_mixed kinds ls) as (m & ms & Em & B0 & B1 & B2 & B3).
    + intros l' Il'. split; [exact (Prep l' Il')|exact (mx_prior _ _ _ W2 l' Il')].
    + rewrite S2. reflexivity.
    + change (leaves J') with ls. rewrite Em. cbn [bind]. eexists _, _. split; [reflexivity|]. split; [exact B0|]. split; [exact B1|]. split.
      * intros l row Il Ch Wr Ag Up. assert (exists l', In l' ls /\ conditioned J L e l l') as (l' & Il' & C).
        { assert (Ix : In l (filter (possible L e) (leaves J))).
          { apply filter_In. split; [exact Il|]. unfold possible. assert (Pl : 0 < leaf_prob L (l_dists l) e) by (rewrite <- (rd_chance _ _ _ _ _ Rd); exact Ch). unfold Qltb. destruct (Qltb_spec 0 (leaf_prob L (l_dists l) e)); [reflexivity|contradiction]. }
          clear - Rc Ix. induction Rc as [|a b xs ys C R IH]; [contradiction|]. destruct Ix as [->|Ix]; [exists b; split; [left; reflexivity|exact C]|]. destruct (IH Ix) as (l' & I' & C'). exists l'. split; [right; exact I'|exact C']. }
        rewrite <- (world_bound kinds G J W pr L Rd e We Single Keep l l' row Il Ch C Wr Ag Up N). exact (B2 l' row Il' Wr).
      * intros sets Is. destruct (B3 sets Is) as (X & l' & Il' & Y). split; [exact X|]. destruct (result_leaf J L e ls Rc l' Il') as (l & Il & Pl & C). assert (Ch : 0 < chance pr l e) by (rewrite (rd_chance _ _ _ _ _ Rd); exact Pl).
        exists l. split; [exact Il|]. split; [exact Ch|]. intros row Fw. destruct (Y row Fw) as [Wr Eq]. split; [exact Wr|].
        destruct (world_attained kinds G J W pr L Rd e We Single Keep l l' row Il Ch C (Prep l' Il') Wr) as [Ag Eg]; [rewrite Eq; exact B0|exact (mx_prior _ _ _ W2 l' Il')|exact N|].
        split; [exact Ag|]. rewrite <- Eg. exact Eq.
Qed.
Print Assumptions C43_mixed_partial.

(** The trees of the examples for C40 and C41; the other hypotheses are shown there.  Given
    a number from 1/2 on, the most probable worlds have a number in [1/2, 1) and the second
    symbol: the density is 3/5 * 2 * 2/3. *)
Definition tame_check (J : mtree) : bool :=
  forallb (fun l : leaf (mixed numeric discrete) => forallb (fun d : mdist => match d with
    | inl p => forallb (fun x => (Z.abs x <? ORD_53)%Z) (all_bounds (map fst (filter climbs p))) && spacedb (all_bounds (map fst (filter climbs p)))
    | inr _ => true
    end) (l_dists l)) (leaves J).
Lemma tame_check_ok : forall (J : mtree), tame_check J = true -> forall l v p, In l (leaves J) -> nth_error (l_dists l) v = Some (inl p) -> tame p.
Proof.
  intros J H l v p Il Hd. unfold tame_check in H. rewrite forallb_forall in H. specialize (H l Il). rewrite forallb_forall in H. specialize (H (inl p) (nth_error_In _ _ Hd)). cbn in H.
  apply andb_prop in H. destruct H as [H1 H2]. split; [|exact (spacedb_ok _ H2)]. apply Forall_forall. intros x I. rewrite forallb_forall in H1. specialize (H1 x I). lia.
Qed.
Definition tame_result (r : res (option mtree)) : bool := match r with Ok (Some J) => tame_check J | _ => true end.
Definition from_half : list (var * mset) := [(0%nat, inl (NC half_up))].
Lemma tame_result_cx : tame_result (conditional_jpt cx from_half true) = true.
Proof. vm_compute. reflexivity. Qed.
Lemma tame_result_ok : forall (r : res (option mtree)), tame_result r = true -> forall J', r = Ok (Some J') -> forall l v p, In l (leaves J') -> nth_error (l_dists l) v = Some (inl p) -> tame p.
Proof. intros r C J' E. subst r. exact (tame_check_ok J' C). Qed.
Example C43_mixed_example :
  wf_mixed mx_kinds cx_G cx /\ wf_mquery mx_kinds cx_G from_half /\ Qsum (map l_prior (leaves cx)) == 1 /\
  (forall J', conditional_jpt cx from_half true = Ok (Some J') -> forall l v p, In l (leaves J') -> nth_error (l_dists l) v = Some (inl p) -> tame p) /\
  match mpe cx from_half true with
  | Ok (Some ([[inl (NC c); inr [1%nat]]], p)) => (lower c =? HALF)%Z && (upper c =? ONE)%Z && Qeq_bool p (4 # 5)
  | _ => false
  end = true /\
  match mpe cx [] true with
  | Ok (Some ([[inl (NC c); inr [1%nat]]], p)) => (lower c =? 0)%Z && (upper c =? ONE)%Z && Qeq_bool p (1 # 2)
  | _ => false
  end = true.
Proof.
  split; [exact cx_wf|]. split; [apply C41_conditional_mixed_example|]. split; [reflexivity|]. split; [exact (tame_result_ok _ tame_result_cx)|split; vm_compute; reflexivity].
Qed.
