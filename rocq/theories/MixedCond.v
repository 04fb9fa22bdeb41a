(** Conditional trees over numeric, symbolic and integer variables: restricting the leaf
    distributions and their averages. *)
Require Import ZArith QArith Qabs Lqa Bool List Arith Lia Permutation.
Require Import Verif.Base Verif.FloatLine Verif.FloatVal Verif.NumBase Verif.UtilModel Verif.IntervalModel Verif.IntervalSpec Verif.IntervalProofs Verif.IntervalExact Verif.IntervalDec Verif.DiscreteModel Verif.DiscreteProofs
  Verif.FunctionModel Verif.FunctionSpec Verif.NumericModel Verif.NumericSpec Verif.NumericReg Verif.NumericFit Verif.NumericProb Verif.NumericCut Verif.NumericCropSpec Verif.NumericExample Verif.NumericPoint
  Verif.TreeModel Verif.TreeSpec Verif.TreeApply Verif.TreeInfer Verif.TreeDiscrete Verif.TreeCond4 Verif.NumericTree Verif.MixedTree Verif.MixedProps Verif.EffectProps Verif.MixedPosterior Verif.MixedPosteriorProps.
Import ListNotations.
Open Scope Q_scope.

(** ** Specification *)

(** A distribution whose restriction to [c] is exact: continuous, not cut into pieces of one
    double, no probability between the bounds of [c] and the numbers inside, and not all
    of the probability in one step between two doubles; or a point above the least number
    of [c]. *)
Definition restrictable (p : plf) (c : cs) : Prop :=
  (spread_cdf p /\ tiling p /\ Forall wf (ivs p) /\ roomy p c /\
   (forall y, cdf_at p (lower c) y -> cdf_at p (lowermost c) y) /\ (forall y, cdf_at p (upper c) y -> cdf_at p (uppermost c) y) /\
   exists x y ya yb, finite x /\ plf_is p x y /\ cdf_at p (lower c) ya /\ cdf_at p (upper c) yb /\ ya < y < yb)
  \/ exists x, p = dirac x /\ (lowermost c < x)%Z.
(** The cdf of [p] restricted to [c], at [x]. *)
Inductive kept_cdf : plf -> cs -> Z -> Q -> Prop :=
| kept_line : forall p c x y ya yb, line_cdf p -> cdf_at p (lower c) ya -> cdf_at p (upper c) yb ->
    cdf_at p (Z.max (lower c) (Z.min x (upper c))) y -> kept_cdf p c x ((y - ya) / (yb - ya))
| kept_point : forall z c x, kept_cdf (dirac z) c x (if (z <=? x)%Z then 1 else 0).

(** ** Proof *)

Definition clamp (c : cs) (x : Z) : Z := Z.max (lower c) (Z.min x (upper c)).

Lemma cdfv_eq : forall p x y, line_cdf p -> (- ORD_INF <= x <= ORD_INF)%Z -> cdf_at p x y -> cdfv p x == y.
Proof. intros p x y L B H. exact (cdf_at_fun p x _ _ (cdfv_at p x L B) H). Qed.
Lemma line_not_point : forall z, ~ line_cdf (dirac z).
Proof. intros z L. pose proof (line_length _ L) as H. cbn in H. lia. Qed.
Lemma spread_not_point : forall z, ~ spread_cdf (dirac z).
Proof. intros z S. pose proof (sp_len _ S) as H. cbn in H. lia. Qed.

Section Leaf.
  Variable G : grid.
  Hypothesis GG : gridded G.

  Lemma line_crop : forall p c, smooth G p -> on_grid G c -> cs_isempty c = false -> cs_size c <> Some 1%Z ->
    spread_cdf p -> restrictable p c ->
    exists q, crop_interval p c = Ok q /\ smooth G q /\ spread_cdf q /\ tiling q /\ cdfv p (lower c) < cdfv p (upper c) /\
      (forall x, (- ORD_INF <= x <= ORD_INF)%Z -> cdfv q x == (cdfv p (clamp c x) - cdfv p (lower c)) / (cdfv p (upper c) - cdfv p (lower c))) /\
      (forall x, finite x -> density q x == if (lowermost c <=? x)%Z && (x <? uppermost c)%Z then density p x / (cdfv p (upper c) - cdfv p (lower c)) else 0).
  Proof.
    intros p c Sm Gc Ne Sz Sp [(_ & Tp & Wp & Ro & El & Eu & Hx)|(z & -> & _)]; [|exfalso; exact (spread_not_point _ Sp)].
    destruct Hx as (x0 & y0 & ya & yb & F0 & Y0 & Ya & Yb & B0). pose proof (proj1 Gc) as Wc. pose proof ord_facts as O. pose proof (proj1 Sm) as L.
    destruct (wf_bounded c Wc) as (B1 & B2 & B3 & _).
    assert (Cn : continuous_in p c) by (intros pre i f j g post Eq _; rewrite Eq in Tp; exact (tiling_split _ _ _ _ _ _ Tp)).
    destruct (crop_spec_wide p c ya yb Sp Cn Wp Wc Ne Ro (El _ Ya) (Eu _ Yb) ltac:(lra)) as (q & Eq & Sq & Tq & V1 & V2 & V3 & Wd).
    destruct (ends_of c Wc Ne) as (AB & HA & HB & HU).
    assert (Lo : (lower c <= lowermost c)%Z /\ (uppermost c <= upper c)%Z /\ (- ORD_INF <= lowermost c)%Z /\ (uppermost c <= ORD_INF)%Z /\ (lowermost c <= uppermost c)%Z).
    { clear - AB HA HB HU O B1 B2 B3. revert AB HA HB HU. generalize (lowermost c) (beyond c) (uppermost c). intros A B u AB HA HB HU.
      destruct HA as [(_ & L0 & HA)|[(_ & L0 & HA)|(_ & L0 & HA)]]; destruct HB as [(_ & HB)|(_ & L1 & HB)]; destruct HU as [(L2 & HU)|(L2 & L3 & HU)]; lia. }
    destruct Lo as (K1 & K2 & K3 & K4 & K5).
    assert (Ea : cdfv p (lower c) == ya) by (apply cdfv_eq; [exact L|lia|exact Ya]). assert (Eb : cdfv p (upper c) == yb) by (apply cdfv_eq; [exact L|lia|exact Yb]).
    assert (Ea' : cdfv p (lowermost c) == ya) by (apply cdfv_eq; [exact L|lia|exact (El _ Ya)]). assert (Eb' : cdfv p (uppermost c) == yb) by (apply cdfv_eq; [exact L|lia|exact (Eu _ Yb)]).
    assert (Ev : forall x, finite x -> plf_is p x (cdfv p x)).
    { intros x Fx. pose proof (cdfv_at p x L ltac:(unfold finite in Fx; lia)) as H. destruct H as [[E _]|[[E _]|[_ H]]]; [unfold finite in Fx; lia|unfold finite in Fx; lia|exact H]. }
    assert (E0 : cdfv p x0 == y0). { apply cdfv_eq; [exact L|unfold finite in F0; lia|]. right. right. auto. }
    assert (R0 : (lowermost c <= x0 <= uppermost c)%Z).
    { split.
      - destruct (Z_lt_le_dec x0 (lowermost c)) as [H|H]; [|exact H]. exfalso. pose proof (cdfv_mono p x0 (lowermost c) L ltac:(unfold finite in F0; lia) ltac:(lia) ltac:(lia)). lra.
      - destruct (Z_lt_le_dec (uppermost c) x0) as [H|H]; [|exact H]. exfalso. pose proof (cdfv_mono p (uppermost c) x0 L ltac:(lia) ltac:(lia) ltac:(unfold finite in F0; lia)). lra. }
    assert (Sq' : smooth G q).
    { apply tiling_smooth; [exact Sq|exact Tq|]. apply (Wd x0 ((y0 - ya) / (yb - ya)) F0 (V2 x0 y0 F0 R0 Y0)).
      split; [apply Qlt_shift_div_l; lra|apply Qlt_shift_div_r; lra]. }
    pose proof (proj1 Sq') as Lq.
    assert (Vq : forall x, finite x -> cdfv q x == (cdfv p (clamp c x) - cdfv p (lower c)) / (cdfv p (upper c) - cdfv p (lower c))).
    { intros x Fx. assert (At : forall y, plf_is q x y -> cdfv q x == y) by (intros y Y; apply cdfv_eq; [exact Lq|unfold finite in Fx; lia|right; right; auto]).
      destruct (Z_lt_le_dec x (lowermost c)) as [D|D]; [|destruct (Z_le_gt_dec (uppermost c) x) as [D'|D']].
      - rewrite (At 0 (V1 x Fx D)). assert (Ec : cdfv p (clamp c x) == ya).
        { pose proof (cdfv_mono p (lower c) (clamp c x) L ltac:(lia) ltac:(unfold clamp; lia) ltac:(unfold clamp; lia)). pose proof (cdfv_mono p (clamp c x) (lowermost c) L ltac:(unfold clamp; lia) ltac:(unfold clamp; lia) ltac:(lia)). lra. }
        rewrite Ec, Ea, Eb. field. lra.
      - rewrite (At 1 (V3 x Fx D')). assert (Ec : cdfv p (clamp c x) == yb).
        { pose proof (cdfv_mono p (uppermost c) (clamp c x) L ltac:(lia) ltac:(unfold clamp; lia) ltac:(unfold clamp; lia)). pose proof (cdfv_mono p (clamp c x) (upper c) L ltac:(unfold clamp; lia) ltac:(unfold clamp; lia) ltac:(lia)). lra. }
        rewrite Ec, Ea, Eb. field. lra.
      - rewrite (At _ (V2 x (cdfv p x) Fx ltac:(lia) (Ev x Fx))). replace (clamp c x) with x by (unfold clamp; lia). rewrite Ea, Eb. reflexivity. }
    exists q. split.
    { unfold crop_interval. destruct (cs_size c) as [k|]; [|exact Eq]. destruct k as [|[k|k|]|k]; try exact Eq. contradiction. }
    split; [exact Sq'|]. split; [exact Sq|]. split; [exact Tq|]. split; [rewrite Ea, Eb; lra|]. split.
    - intros x Bx. destruct (Z.eq_dec x (- ORD_INF)) as [->|N1].
      { unfold cdfv at 1. rewrite Z.eqb_refl. replace (clamp c (- ORD_INF)) with (lower c) by (unfold clamp; lia). rewrite Ea, Eb. field. lra. }
      destruct (Z.eq_dec x ORD_INF) as [->|N2]; [|apply Vq; unfold finite; lia].
      unfold cdfv at 1. rewrite (proj2 (Z.eqb_neq _ _) N1), Z.eqb_refl. replace (clamp c ORD_INF) with (upper c) by (unfold clamp; lia). rewrite Ea, Eb. field. lra.
    - intros x Fx. assert (Eq' : forall x, finite x -> plf_is q x (cdfv q x)).
      { intros t Ft. pose proof (cdfv_at q t Lq ltac:(unfold finite in Ft; lia)) as H. destruct H as [[E _]|[[E _]|[_ H]]]; [unfold finite in Ft; lia|unfold finite in Ft; lia|exact H]. }
      destruct (Z.eq_dec x (ORD_INF - 1)) as [->|N].
      { rewrite (slope_last q Sq). destruct ((lowermost c <=? ORD_INF - 1)%Z && (ORD_INF - 1 <? uppermost c)%Z); [|reflexivity]. rewrite (slope_last p Sp). unfold Qdiv. ring. }
      assert (Fx' : finite (x + 1)) by (unfold finite in *; lia). pose proof (dval_lt x (x + 1) ltac:(lia)) as Dl.
      rewrite (slope_quotient q x _ _ Sq Tq Fx Fx' (Eq' x Fx) (Eq' _ Fx')), (Vq x Fx), (Vq _ Fx').
      destruct (Z.leb_spec (lowermost c) x) as [D1|D1]; [destruct (Z.ltb_spec x (uppermost c)) as [D2|D2]; cbn [andb]|cbn [andb]].
      + rewrite (slope_quotient p x _ _ Sp Tp Fx Fx' (Ev x Fx) (Ev _ Fx')). replace (clamp c x) with x by (unfold clamp; lia). replace (clamp c (x + 1)) with (x + 1)%Z by (unfold clamp; lia). rewrite Ea, Eb. field. split; lra.
      + assert (Ec : cdfv p (clamp c x) == yb /\ cdfv p (clamp c (x + 1)) == yb).
        { split; [pose proof (cdfv_mono p (uppermost c) (clamp c x) L ltac:(lia) ltac:(unfold clamp; lia) ltac:(unfold clamp; lia)); pose proof (cdfv_mono p (clamp c x) (upper c) L ltac:(unfold clamp; lia) ltac:(unfold clamp; lia) ltac:(lia)); lra|].
          pose proof (cdfv_mono p (uppermost c) (clamp c (x + 1)) L ltac:(lia) ltac:(unfold clamp; lia) ltac:(unfold clamp; lia)). pose proof (cdfv_mono p (clamp c (x + 1)) (upper c) L ltac:(unfold clamp; lia) ltac:(unfold clamp; lia) ltac:(lia)). lra. }
        destruct Ec as [-> ->]. rewrite Ea, Eb. field. split; lra.
      + assert (Ec : cdfv p (clamp c x) == ya /\ cdfv p (clamp c (x + 1)) == ya).
        { split; [pose proof (cdfv_mono p (lower c) (clamp c x) L ltac:(lia) ltac:(unfold clamp; lia) ltac:(unfold clamp; lia)); pose proof (cdfv_mono p (clamp c x) (lowermost c) L ltac:(unfold clamp; lia) ltac:(unfold clamp; lia) ltac:(lia)); lra|].
          pose proof (cdfv_mono p (lower c) (clamp c (x + 1)) L ltac:(lia) ltac:(unfold clamp; lia) ltac:(unfold clamp; lia)). pose proof (cdfv_mono p (clamp c (x + 1)) (lowermost c) L ltac:(unfold clamp; lia) ltac:(unfold clamp; lia) ltac:(lia)). lra. }
        destruct Ec as [-> ->]. rewrite Ea, Eb. field. split; lra.
  Qed.

  (** The probabilities of the restricted distribution. *)
  Lemma line_crop_np : forall p q c t, smooth G p -> smooth G q -> on_grid G c -> cs_isempty c = false -> on_grid G t ->
    cdfv p (lower c) < cdfv p (upper c) ->
    (forall x, (- ORD_INF <= x <= ORD_INF)%Z -> cdfv q x == (cdfv p (clamp c x) - cdfv p (lower c)) / (cdfv p (upper c) - cdfv p (lower c))) ->
    np q t == np p (cut t c) / np p c.
  Proof.
    intros p q c t Sp Sq Gc Ec Gt Lt Vq. destruct (np_smooth G p c Sp Gc Ec) as [_ Hc]. pose proof (proj1 Gc) as Wc. pose proof (proj1 Gt) as Wt.
    destruct (wf_bounded c Wc) as (C1 & C2 & C3 & _). destruct (wf_bounded t Wt) as (T1 & T2 & T3 & _). pose proof (cut_grid G t c Gt Gc) as Gk.
    pose proof (cut_mem t c Wt Wc) as Mk. rewrite Hc. destruct (cs_isempty t) eqn:Et.
    { rewrite (np_empty G q t (or_introl Sq) Wt Et), (np_empty G p (cut t c) (or_introl Sp) (proj1 Gk)); [unfold Qdiv; ring|].
      apply (isempty_spec _ (proj1 Gk)). intros x I. apply Mk in I. exact (isempty_sound t Et x (proj1 I)). }
    destruct (np_smooth G q t Sq Gt Et) as [_ ->]. rewrite (Vq (upper t)), (Vq (lower t)) by lia.
    destruct (cs_isempty (cut t c)) eqn:Ek.
    - rewrite (np_empty G p (cut t c) (or_introl Sp) (proj1 Gk) Ek). pose proof (cut_empty G GG t c Gt Gc Et Ec Ek) as H.
      assert (D : clamp c (upper t) = clamp c (lower t) \/ (upper c <= lower c)%Z) by (unfold clamp; lia). destruct D as [-> |D]; [unfold Qdiv; ring|]. exfalso. replace (upper c) with (lower c) in Lt by lia. lra.
    - destruct (np_smooth G p (cut t c) Sp Gk Ek) as [_ ->]. destruct (cut_bounds t c Wt Wc) as [E|(E1 & E2 & E3 & _)]; [rewrite E in Ek; discriminate|].
      rewrite E1, E2 in *. replace (clamp c (upper t)) with (Z.min (upper t) (upper c)) by (unfold clamp; lia). replace (clamp c (lower t)) with (Z.max (lower t) (lower c)) by (unfold clamp; lia). field. lra.
  Qed.
  Lemma point_crop_np : forall x c t, (Z.abs x < ORD_53)%Z -> wf c -> wf t -> wf (cut t c) -> cs_mem x c -> np (dirac x) t == np (dirac x) (cut t c) / np (dirac x) c.
  Proof.
    intros x c t M Wc Wt Wk I. pose proof (cut_mem t c Wt Wc) as Mk. destruct (dirac_or x c M Wc) as [[_ ->]|[N _]]; [|contradiction].
    destruct (dirac_or x t M Wt) as [[It ->]|[It ->]]; destruct (dirac_or x _ M Wk) as [[Ik ->]|[Ik ->]]; try reflexivity; exfalso; [apply Ik, Mk; auto|apply It; apply Mk in Ik; apply Ik].
  Qed.

  (** Restricting keeps the contract. *)
  Lemma numeric_crop : forall p c, ok_numeric G p -> on_grid G c -> cs_size c <> Some 1%Z -> 0 < np p c -> restrictable p c ->
    exists q, crop_interval p c = Ok q /\ ok_numeric G q /\ seamless q /\ (forall t, on_grid G t -> np q t == np p (cut t c) / np p c) /\
      (forall x y, finite x -> kept_cdf p c x y -> plf_is q x y) /\
      (forall x, finite x -> density q x == if (lowermost c <=? x)%Z && (x <? uppermost c)%Z then density p x / np p c else 0).
  Proof.
    intros p c Op Gc Sz Pos R. pose proof (proj1 Gc) as Wc.
    assert (Ne : cs_isempty c = false). { destruct (cs_isempty c) eqn:E; [|reflexivity]. rewrite (np_empty G p c Op Wc E) in Pos. lra. }
    destruct (wf_bounded c Wc) as (C1 & C2 & C3 & _).
    destruct Op as [Sm|(z & -> & M)].
    - destruct R as [R|(z & -> & _)]; [|exfalso; exact (line_not_point _ (proj1 Sm))]. pose proof (proj1 R) as Sp.
      destruct (line_crop p c Sm Gc Ne Sz Sp (or_introl R)) as (q & Eq & Sq & Cq & Tq & Lt & Vq & Dq). exists q. split; [exact Eq|]. split; [left; exact Sq|]. split; [right; split; assumption|].
      destruct (np_smooth G p c Sm Gc Ne) as [_ Hc]. split; [|split].
      + intros t Gt. apply line_crop_np; assumption.
      + intros x y Fx K. inversion K as [p' c' x' y' ya yb L Ha Hb Hy|z]; subst; [|exfalso; exact (line_not_point _ (proj1 Sm))].
        pose proof (cdfv_at q x (proj1 Sq) ltac:(unfold finite in Fx; lia)) as H. destruct H as [[E _]|[[E _]|[_ H]]]; [unfold finite in Fx; lia|unfold finite in Fx; lia|].
        apply (plf_is_wd q x (cdfv q x)); [|exact H]. rewrite (Vq x ltac:(unfold finite in Fx; lia)).
        fold (clamp c x) in Hy. rewrite (cdfv_eq p (lower c) _ L ltac:(lia) Ha), (cdfv_eq p (upper c) _ L ltac:(lia) Hb), (cdfv_eq p (clamp c x) _ L ltac:(unfold clamp; lia) Hy). reflexivity.
      + intros x Fx. rewrite (Dq x Fx). destruct ((lowermost c <=? x)%Z && (x <? uppermost c)%Z); [rewrite Hc; reflexivity|reflexivity].
    - destruct R as [R|(z' & E & Lz)]; [exfalso; exact (spread_not_point _ (proj1 R))|]. unfold dirac in E. injection E as <-.
      destruct (dirac_or z c M Wc) as [[I _]|[_ Z]]; [|lra]. exists (dirac z).
      split; [unfold crop_interval; destruct (cs_size c) as [k|]; [destruct k as [|[k|k|]|k]; try (apply point_crop; assumption); contradiction|apply point_crop; assumption]|].
      split; [right; exists z; auto|]. pose proof ord_facts as O. split; [left; exists z; split; [unfold finite; lia|reflexivity]|]. split; [|split].
      + intros t Gt. apply point_crop_np; [exact M|exact Wc|apply Gt|apply (cut_grid G t c Gt Gc)|exact I].
      + intros x y Fx K. inversion K as [p' c' x' y' ya yb L|z']; subst; [exfalso; exact (line_not_point _ L)|].
        assert (Fz : finite z) by (unfold finite; lia). destruct (Z.leb_spec z x) as [D|D]; [apply (pc_right _ _ _ (dirac_proper z Fz) x Fx D)|apply (pc_left _ _ _ (dirac_proper z Fz) x Fx D)].
      + intros x Fx. assert (Fz : finite z) by (unfold finite; lia). replace (density (dirac z) x) with 0 by (symmetry; apply (dirac_density z x Fz Fx)). destruct ((lowermost c <=? x)%Z && (x <? uppermost c)%Z); [unfold Qdiv; ring|reflexivity].
  Qed.
End Leaf.
