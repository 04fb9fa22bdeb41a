(** Property C26: quantiles.  The vocabulary is in [NumericSpec.v]. *)
Require Import ZArith QArith Qabs Lqa Bool List Arith Lia Sorted.
Require Import Verif.Base Verif.FloatLine Verif.FloatVal Verif.IntervalModel Verif.IntervalSpec Verif.IntervalProofs Verif.IntervalDec
  Verif.NumBase Verif.FunctionModel Verif.FunctionSpec Verif.FunctionProofs Verif.FunctionPlf Verif.NumericModel Verif.NumericSpec
  Verif.NumericReg Verif.NumericFit Verif.NumericProb Verif.NumericMerge Verif.NumericMix Verif.NumericClose Verif.NumericExample Verif.NumericProps
  Verif.NumericCut Verif.NumericCrop Verif.NumericCropSpec Verif.NumericProps3 Verif.NumericQuant.
Import ListNotations.
Open Scope Z_scope.

(** * C26: quantiles *)

(** A cdf that rises continuously to 1, with slopes of at least 1e-4: the quantile function
    exists; it maps every probability [y] to a point where the cdf is [y]; it maps the value
    of the cdf at any point [x] of a rising piece back to [x]; it is undefined below 0 and
    above 1 (from the double after 1 on). *)
Theorem C26_inverse_partial : forall p hi, spread_cdf p -> climbs_to p hi -> steep_cdf p ->
  exists l, ppf_of p = Ok l
    /\ (forall y, (0 <= y <= 1)%Q -> exists x, ppf_eval l y = Some x /\ cdf_real p x y)
    /\ (forall i m c x y, In (i, FLin m c) p -> real_mem x i -> (y == m * x + c)%Q -> (y <= 1)%Q -> exists x', ppf_eval l y = Some x' /\ (x' == x)%Q)
    /\ (forall y, (y < 0 \/ 1 + (1 # 4503599627370496) <= y)%Q -> ppf_eval l y = None).
Proof. exact ppf_inverse. Qed.

Lemma chain_apart : forall p a b i f j g, chain a p b -> In (i, f) p -> In (j, g) p -> i = j \/ upper i <= lower j \/ upper j <= lower i.
Proof.
  induction p as [|[k h] p IH]; intros a b i f j g C I J; [destruct I|]. destruct C as (E & L & C). destruct I as [I|I], J as [J|J].
  - left. congruence.
  - injection I as <- <-. pose proof (chain_in _ _ _ _ _ C J). right. left. lia.
  - injection J as <- <-. pose proof (chain_in _ _ _ _ _ C I). right. right. lia.
  - exact (IH _ _ _ _ _ _ C I J).
Qed.

(** Distributions fitted to samples (at least two different values) rise continuously to 1,
    which they reach at the largest sample, if the least sample occurs once. *)
Theorem C26_fitted : forall epsilon rows x y lo hi, In x rows -> In y rows -> x <> y -> Forall (fun v => Z.abs v + 1 < ORD_53) rows ->
  least lo rows -> largest hi rows -> count_occ Z.eq_dec rows lo = 1%nat ->
  exists p, fit_cdf epsilon None None rows = Ok p /\ spread_cdf p /\ climbs_to p hi.
Proof.
  intros epsilon rows x y lo hi Ix Iy Nxy M [I1 L1] [I2 L2] One. pose proof ord_facts as O.
  assert (F : Forall finite rows) by (apply Forall_forall; intros v I; rewrite Forall_forall in M; specialize (M v I); unfold finite; lia).
  assert (N : rows <> []) by (intros ->; destruct Ix).
  destruct (fit_nonempty epsilon None None rows rows (fit_plain rows) N F) as [(z & A & _)|(p & ks & E & Ft)].
  { exfalso. apply Nxy. rewrite (A x Ix), (A y Iy). reflexivity. }
  exists p. split; [exact E|]. split; [exact (fitted_spread rows p ks Ft F)|].
  destruct (ft_least _ _ _ Ft) as [I3 L3]. destruct (ft_largest _ _ _ Ft) as [I4 L4].
  assert (El : hd 0 ks = lo) by (pose proof (L1 _ I3); pose proof (L3 _ I1); lia). assert (Eh : last ks 0 = hi) by (pose proof (L2 _ I4); pose proof (L4 _ I2); lia).
  rewrite Forall_forall in M, F. specialize (M _ I2). pose proof (F _ I2) as Fh.
  constructor.
  - split; [exact Fh|]. rewrite <- Eh. apply (pc_right _ _ _ (ft_proper _ _ _ Ft)); [rewrite Eh; exact Fh|lia].
  - intros i m c I. destruct (ft_pieces _ _ _ Ft i _ I) as [(K & _)|[(_ & K)|(K & _)]]; try discriminate K.
    pose proof (L2 _ (ft_data _ _ _ Ft _ K)) as B. destruct (Z.eq_dec (lower i) hi) as [E1|]; [exfalso|lia].
    destruct (ft_wide _ _ _ Ft) as (j & g & J & _ & Lj & Uj). rewrite Eh in Lj, Uj.
    assert (B2 : Z.abs hi < ORD_53) by lia. destruct (plus_eps_mod hi (or_introl B2)) as [(_ & Pe)|(H & _)]; [|lia].
    pose proof (chain_in _ _ _ _ _ (ft_chain _ _ _ Ft) I) as (Bi & _). pose proof (chain_in _ _ _ _ _ (ft_chain _ _ _ Ft) J) as (Bj & _).
    destruct (chain_apart _ _ _ _ _ _ _ (ft_chain _ _ _ Ft) I J) as [->|[K1|K1]]; lia.
  - intros pre i f j g post Ep U.
    assert (Ci : continuous_in p (CS (- ORD_INF) hi INC INC)).
    { apply (fitted_continuous rows p ks _ Ft); [rewrite Eh; lia|rewrite Eh; apply Z.le_refl|]. right. rewrite El. exact One. }
    apply (Ci pre i f j g post Ep). change (- ORD_INF < upper i <= hi).
    assert (I : In (i, f) p) by (rewrite Ep; apply in_or_app; right; left; reflexivity).
    pose proof (chain_in _ _ _ _ _ (ft_chain _ _ _ Ft) I) as (B & _). lia.
Qed.

(** A point distribution: undefined below 1, the point at 1. *)
Theorem C26_point_partial : forall x, finite x -> exists l, ppf_of (dirac x) = Ok l
  /\ (forall y, (y < 1)%Q -> ppf_eval l y = None)
  /\ (forall y, (1 <= y < 1 + (1 # 4503599627370496))%Q -> ppf_eval l y = Some (dval x))
  /\ (forall y, (1 + (1 # 4503599627370496) <= y)%Q -> ppf_eval l y = None).
Proof.
  intros x _. eexists. split; [reflexivity|]. pose proof ope_gt as O. cbn [lower]. split; [|split]; intros y Y; unfold ppf_eval; cbn [ppf_at]; unfold Qltb; fold ope in Y.
  - destruct (Qleb_spec 1 y) as [K|_]; [lra|]. reflexivity.
  - destruct (Qleb_spec 1 y) as [_|K]; [|lra]. cbn [negb andb]. destruct (Qleb_spec ope y) as [K|_]; [lra|]. reflexivity.
  - destruct (Qleb_spec 1 y) as [_|K]; [|lra]. cbn [negb andb]. destruct (Qleb_spec ope y) as [_|K]; [|lra]. reflexivity.
Qed.

(** The full claim fails: a slope below 1e-4 counts as not invertible.  The samples
    {0, 100000} have no quantile function, ... *)
Theorem C26_flat_refuted : exists a p, (dval a == 100000)%Q /\ fit_cdf (1 # 100) None None [0; a] = Ok p /\ ppf_of p = Err ValueError.
Proof.
  exists (1039 * 2 ^ 52 + 34464 * 2 ^ 36), (fitted_to [0; 1039 * 2 ^ 52 + 34464 * 2 ^ 36]). split; [vm_compute; reflexivity|].
  split; [apply got_ok; vm_compute; reflexivity|vm_compute; reflexivity].
Qed.
(** ... and the samples {1, 100001} have one that maps 1/2 beyond 100001. *)
Theorem C26_flat_value_refuted : exists a p l x, (dval a == 100001)%Q /\ fit_cdf (1 # 100) None None [ONE; a] = Ok p /\ ppf_of p = Ok l
  /\ ppf_eval l (1 # 2) = Some x /\ (100001 < x)%Q.
Proof.
  exists (1039 * 2 ^ 52 + 34465 * 2 ^ 36), (fitted_to [ONE; 1039 * 2 ^ 52 + 34465 * 2 ^ 36]), (got [] (ppf_of (fitted_to [ONE; 1039 * 2 ^ 52 + 34465 * 2 ^ 36]))).
  eexists. split; [vm_compute; reflexivity|].
  split; [apply got_ok; vm_compute; reflexivity|]. split; [apply got_ok; vm_compute; reflexivity|]. split; vm_compute; reflexivity.
Qed.
(** A jump at the least sample: the samples {0, 0, 1} have the 1/4-quantile -1/2. *)
Theorem C26_jump_refuted : exists p l x, fit_cdf (1 # 100) None None [0; 0; ONE] = Ok p /\ ppf_of p = Ok l
  /\ ppf_eval l (1 # 4) = Some x /\ (x == - (1 # 2))%Q.
Proof.
  exists (fitted_to [0; 0; ONE]), (got [] (ppf_of (fitted_to [0; 0; ONE]))).
  eexists. split; [apply got_ok; vm_compute; reflexivity|]. split; [apply got_ok; vm_compute; reflexivity|]. split; vm_compute; reflexivity.
Qed.

Print Assumptions C26_inverse_partial.
Print Assumptions C26_fitted.
Print Assumptions C26_point_partial.
Print Assumptions C26_flat_refuted.
Print Assumptions C26_flat_value_refuted.
Print Assumptions C26_jump_refuted.

Example C26_example : spread_cdf unit_cdf /\ climbs_to unit_cdf ONE /\ steep_cdf unit_cdf.
Proof.
  pose proof one_facts as (O1 & O2 & D1 & D0). pose proof ord_facts as O. split; [exact unit_spread|]. split.
  - constructor.
    + split; [unfold finite; lia|]. apply (pc_right _ _ _ unit_proper); [unfold finite; lia|lia].
    + intros i m c [I|[I|[I|[]]]]; try discriminate I. injection I as <- _ _. exact O1.
    + intros pre i f j g post E _. pose proof unit_tiling as T. rewrite E in T. exact (tiling_split _ _ _ _ _ _ T).
  - intros i m c [I|[I|[I|[]]]]; try discriminate I. injection I as _ <- _. lra.
Qed.
(** Three samples -1, 0, 1. *)
Example C26_example_fitted : exists p, fit_cdf (1 # 100) None None [0; - ONE; ONE] = Ok p /\ spread_cdf p /\ climbs_to p ONE.
Proof.
  assert (F : 0 < ONE /\ ONE + 1 < ORD_53) by (split; vm_compute; reflexivity). set (o := ONE) in *. clearbody o. destruct F as (F1 & F2).
  apply (C26_fitted (1 # 100) [0; - o; o] 0 o (- o) o).
  - left. reflexivity.
  - right. right. left. reflexivity.
  - lia.
  - repeat (apply Forall_cons || apply Forall_nil); lia.
  - split; [right; left; reflexivity|]. intros y [<-|[<-|[<-|[]]]]; lia.
  - split; [right; right; left; reflexivity|]. intros y [<-|[<-|[<-|[]]]]; lia.
  - cbn [count_occ]. destruct (Z.eq_dec 0 (- o)); [lia|]. destruct (Z.eq_dec (- o) (- o)); [|lia]. destruct (Z.eq_dec o (- o)); [lia|]. reflexivity.
Qed.
