(** Property C25: merging.  The vocabulary is in [NumericSpec.v]. *)
Require Import ZArith QArith Qabs Lqa Bool List Arith Lia Sorted.
Require Import Verif.Base Verif.FloatLine Verif.FloatVal Verif.IntervalModel Verif.IntervalSpec Verif.IntervalProofs Verif.IntervalDec
  Verif.NumBase Verif.UtilModel Verif.FunctionModel Verif.FunctionSpec Verif.FunctionProofs Verif.NumericModel Verif.NumericSpec
  Verif.UtilProofs Verif.UtilProps Verif.NumericReg Verif.NumericFit Verif.NumericProb Verif.NumericMerge Verif.NumericMix Verif.NumericClose Verif.NumericExample Verif.NumericProps.
Import ListNotations.
Open Scope Z_scope.

(** * C25: merging *)

(** Any number of continuous cdfs and point distributions, any weights which sum to 1: the
    merged cdf is the weighted mixture, everywhere, and again a proper cdf -- unless the
    mixture has densities of 1e-8 or less. *)
Theorem C25_mixture_partial : forall ds ws, length ds = length ws -> Forall seamless ds -> Forall (fun w => 0 <= w)%Q ws ->
  (Qsum ws == 1)%Q -> grained ds ws ->
  exists q lo hi, merge_cdf ds ws = Ok q /\ proper_cdf q lo hi
    /\ forall x ys, finite x -> Forall2 (fun p y => plf_is p x y) ds ys -> plf_is q x (mixture ws ys).
Proof.
  intros ds ws L S N W G. destruct (merge_seamless ds ws L S N W G) as (q & la & E & _ & V & lo & P). exists q, lo, la. auto.
Qed.

(** The mixture of continuous cdfs is continuous and can be merged again. *)
Theorem C25_closed : forall ds ws, length ds = length ws -> Forall (fun p => spread_cdf p /\ tiling p) ds ->
  Forall (fun w => 0 <= w)%Q ws -> (Qsum ws == 1)%Q -> grained ds ws ->
  exists q, merge_cdf ds ws = Ok q /\ spread_cdf q /\ tiling q.
Proof. exact merge_closed. Qed.

(** Cdfs with jumps: the jumps are lost, up to the last bound of all, from where on the
    result is 1. *)
Theorem C25_jumps_lost : forall ds ws, length ds = length ws -> Forall component ds -> Forall (fun w => 0 <= w)%Q ws ->
  (Qsum ws == 1)%Q -> grained ds ws ->
  exists q last, merge_cdf ds ws = Ok q /\ finish_of ds ws last
    /\ (forall x ys, finite x -> x < last -> Forall2 (fun p y => plf_is p x y) ds ys ->
          plf_is q x (mixture ws ys - mixture ws (map (fun p => lost p x) ds)))
    /\ (forall x, finite x -> last <= x -> plf_is q x 1).
Proof.
  intros ds ws L C N W G. assert (W' : (Qabs (Qsum ws - 1) <= tiny)%Q) by (rewrite W; vm_compute; discriminate).
  destruct (merge_general ds ws L C N W' G) as (q & la & E & M & V). exists q, la. split; [exact E|]. split; [exact (merge_finish ds ws _ la q (dws_of ds ws C N) M)|exact V].
Qed.

(** Weights which do not sum to 1 (up to 1e-8) are an error. *)
Theorem C25_weights : forall ds ws, (1 # 100000000 < Qabs (Qsum ws - 1))%Q -> merge_cdf ds ws = Err ValueError.
Proof. intros ds ws H. unfold merge_cdf, Qltb. destruct (Qltb_spec tiny (Qabs (Qsum ws - 1))) as [A|A]; [reflexivity|]. unfold tiny in A. lra. Qed.

(** What fitted distributions bring: they can be merged; the jump at the smallest sample
    is (k - 1) / (n - 1) if that occurs k times among the n samples, and right of the
    largest sample the last linear piece ends one double late. *)
Theorem C25_fitted : forall epsilon rows, rows <> [] -> Forall finite rows ->
  exists p lo hi, fit_cdf epsilon None None rows = Ok p /\ component p /\ least lo rows /\ largest hi rows
    /\ (point_cdf p \/ exists j h, In (j, h) p /\ forall x,
          (lost p x == (if (lo <=? x)%Z then quantile rows lo else 0)
                       - (if (plus_eps hi <=? x)%Z then steepness h * (dval (plus_eps hi) - dval hi) else 0))%Q).
Proof.
  intros epsilon rows N F. destruct (fit_nonempty epsilon None None rows rows (fit_plain rows) N F) as [(x & A & I & E)|(p & ks & E & Ft)].
  - assert (P : point_cdf (dirac x)) by (exists x; split; [rewrite Forall_forall in F; apply F; exact I|reflexivity]).
    exists (dirac x), x, x. split; [exact E|]. split; [left; exact P|].
    split; [split; [exact I|intros y K; rewrite (A y K); lia]|]. split; [split; [exact I|intros y K; rewrite (A y K); lia]|left; exact P].
  - exists p, (hd 0 ks), (last ks 0). split; [exact E|]. split; [right; apply (fitted_spread rows p ks Ft F)|].
    split; [apply (ft_least _ _ _ Ft)|]. split; [apply (ft_largest _ _ _ Ft)|]. right.
    destruct (fitted_lost rows p ks Ft) as (h & (j & I) & V). exists j, h. split; [exact I|exact V].
Qed.

(** The full claim fails.  Samples 0, 0, 1: the jump at 0 is dropped, so that already the
    distribution alone, with weight 1, changes ... *)
Theorem C25_jump_refuted : exists rows p q x y y', fit_cdf (1 # 100) None None rows = Ok p /\ merge_cdf [p] [1%Q] = Ok q
  /\ plf_is p x y /\ plf_is q x y' /\ ~ (y == y')%Q.
Proof.
  exists [0; 0; ONE]. eexists. eexists. exists HALF, (3 # 4)%Q, (1 # 4)%Q. split; [vm_compute; reflexivity|]. split; [vm_compute; reflexivity|].
  split; [eexists; split; vm_compute; reflexivity|]. split; [eexists; split; vm_compute; reflexivity|]. vm_compute. discriminate.
Qed.
(** ... and so does a distribution that spreads over 2^30: all its density is dropped and
    the cdf becomes 1 everywhere. *)
Theorem C25_density_refuted : exists rows p q, fit_cdf (1 # 100) None None rows = Ok p /\ merge_cdf [p] [1%Q] = Ok q
  /\ plf_is p (- ONE) 0 /\ plf_is q (- ONE) 1.
Proof.
  exists [0; 1053 * 2 ^ 52]. eexists. eexists. split; [vm_compute; reflexivity|]. split; [vm_compute; reflexivity|].
  split; eexists; split; vm_compute; reflexivity.
Qed.

Print Assumptions C25_mixture_partial.
Print Assumptions C25_closed.
Print Assumptions C25_jumps_lost.
Print Assumptions C25_weights.
Print Assumptions C25_fitted.
Print Assumptions C25_jump_refuted.
Print Assumptions C25_density_refuted.

Lemma mixed_grained : grained [unit_cdf; dirac HALF] [1 # 4; 3 # 4]%Q.
Proof.
  intros x F. cbn [map]. rewrite (unit_density x F), (dirac_density HALF x) by (assumption || (split; vm_compute; reflexivity)).
  destruct (Z.leb_spec 0 x); [destruct (Z.ltb_spec x ONE)|]; [right|left|left]; vm_compute; reflexivity.
Qed.
(** The uniform distribution on [0, 1) and the point distribution at 1/2, with weights 1/4
    and 3/4, meet the hypotheses; so do two copies of the former. *)
Example C25_example : Forall seamless [unit_cdf; dirac HALF] /\ grained [unit_cdf; dirac HALF] [1 # 4; 3 # 4]%Q
  /\ Forall (fun p => spread_cdf p /\ tiling p) [unit_cdf] /\ grained [unit_cdf] [1%Q]
  /\ exists q, merge_cdf [unit_cdf; dirac HALF] [1 # 4; 3 # 4]%Q = Ok q /\ plf_is q HALF (7 # 8).
Proof.
  split. { constructor; [right; split; [exact unit_spread|exact unit_tiling]|]. constructor; [|constructor]. left. exists HALF. split; [split; vm_compute; reflexivity|reflexivity]. }
  split; [exact mixed_grained|]. split; [constructor; [split; [exact unit_spread|exact unit_tiling]|constructor]|].
  split. { intros x F. cbn [map]. rewrite (unit_density x F). destruct (Z.leb_spec 0 x); [destruct (Z.ltb_spec x ONE)|]; [right|left|left]; vm_compute; reflexivity. }
  eexists. split; [vm_compute; reflexivity|]. eexists. split; vm_compute; reflexivity.
Qed.

(** * C72: updating *)

(** [update(d, w)]: the weights are 1 / (1 + w) and w / (1 + w). *)
Theorem C72_update_partial : forall p d w, seamless p -> seamless d -> (0 <= w <= 1)%Q ->
  (forall x, finite x -> (density p x + w * density d x == 0)%Q \/ ((1 + w) * (1 # 100000000) < density p x + w * density d x)%Q) ->
  exists q lo hi, update_cdf p d w = Ok q /\ proper_cdf q lo hi
    /\ forall x y z, finite x -> plf_is p x y -> plf_is d x z -> plf_is q x ((y + w * z) / (1 + w)).
Proof.
  intros p d w Sp Sd (W0 & W1) G. unfold update_cdf.
  assert (Qle_bool 0 w && Qle_bool w 1 = true) as -> by (apply andb_true_iff; split; apply Qle_bool_iff; assumption). cbn [negb].
  destruct (normalized [1%Q; w] false false 0) as [ws|e] eqn:E.
  2:{ exfalso. destruct (proj1 (C48_normalized_raises [1%Q; w] false false) (ex_intro _ e E)) as [(_ & x & [<-|[<-|[]]] & L)|(_ & A)]; try lra.
      specialize (A 1%Q (or_introl eq_refl)). lra. }
  cbn [bind]. destruct (C48_normalized_sum [1%Q; w] false false ws) as (S1 & F2); [repeat constructor; lra|cbn [Qsum]; lra|exact E|].
  inversion F2 as [|? a ? r Ha F3 E1 E2]; subst. inversion F3 as [|? b ? r' Hb F4 E1 E2]; subst. inversion F4; subst. cbn [Qsum] in Ha, Hb, S1.
  assert (Va : (a == 1 / (1 + w))%Q).
  { apply (Qmult_inj_r _ _ (1 + w)); [lra|]. assert (1 / (1 + w) * (1 + w) == 1)%Q by (field; lra). lra. }
  assert (Vb : (b == w / (1 + w))%Q).
  { apply (Qmult_inj_r _ _ (1 + w)); [lra|]. assert (w / (1 + w) * (1 + w) == w)%Q by (field; lra). lra. }
  assert (Pos : (0 < 1 + w)%Q) by lra.
  assert (Na : (0 <= a)%Q) by (rewrite Va; apply Qle_shift_div_l; lra).
  assert (Nb : (0 <= b)%Q) by (rewrite Vb; apply Qle_shift_div_l; lra).
  assert (Gr : grained [p; d] [a; b]).
  { intros x F. unfold mixture. cbn [map combine fst snd Qsum].
    assert (V : (a * density p x + (b * density d x + 0) == (density p x + w * density d x) / (1 + w))%Q) by (rewrite Va, Vb; field; lra).
    destruct (G x F) as [Z|P]; [left; rewrite V, Z; field; lra|right; rewrite V; apply Qlt_shift_div_l; lra]. }
  destruct (C25_mixture_partial [p; d] [a; b]) as (q & lo & hi & M & P & V); try assumption; try reflexivity.
  { apply Forall_cons; [exact Sp|]. apply Forall_cons; [exact Sd|apply Forall_nil]. }
  { apply Forall_cons; [exact Na|]. apply Forall_cons; [exact Nb|apply Forall_nil]. }
  exists q, lo, hi. split; [exact M|]. split; [exact P|]. intros x y z F Y Z.
  apply (plf_is_wd q x (mixture [a; b] [y; z])); [|apply V; [exact F|constructor; [exact Y|constructor; [exact Z|constructor]]]].
  unfold mixture. cbn [map combine fst snd Qsum]. rewrite Va, Vb. field. lra.
Qed.
(** ... not 1 - w and w, as for symbolic distributions: with weight 1 the result should be [d]. *)
Theorem C72_update_refuted : exists p d q x y z, seamless p /\ seamless d /\ update_cdf p d 1 = Ok q
  /\ plf_is d x y /\ plf_is q x z /\ ~ (z == y)%Q.
Proof.
  exists unit_cdf, (dirac HALF). eexists. exists HALF, 1%Q, (3 # 4)%Q.
  split; [right; split; [exact unit_spread|exact unit_tiling]|]. split; [left; exists HALF; split; [split; vm_compute; reflexivity|reflexivity]|].
  split; [vm_compute; reflexivity|]. split; [eexists; split; vm_compute; reflexivity|]. split; [eexists; split; vm_compute; reflexivity|]. vm_compute. discriminate.
Qed.
Print Assumptions C72_update_partial.
Print Assumptions C72_update_refuted.
Example C72_example : forall x, finite x -> (density unit_cdf x + (1 # 2) * density (dirac HALF) x == 0)%Q
  \/ ((1 + (1 # 2)) * (1 # 100000000) < density unit_cdf x + (1 # 2) * density (dirac HALF) x)%Q.
Proof.
  intros x F. rewrite (unit_density x F), (dirac_density HALF x) by (assumption || (split; vm_compute; reflexivity)).
  destruct (Z.leb_spec 0 x); [destruct (Z.ltb_spec x ONE)|]; [right|left|left]; vm_compute; reflexivity.
Qed.
