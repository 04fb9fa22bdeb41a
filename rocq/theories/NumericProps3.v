(** Property C24: cropping.  The vocabulary is in [NumericSpec.v]. *)
Require Import ZArith QArith Qabs Lqa Bool List Arith Lia Sorted.
Require Import Verif.Base Verif.FloatLine Verif.FloatVal Verif.IntervalModel Verif.IntervalSpec Verif.IntervalProofs Verif.IntervalDec
  Verif.NumBase Verif.FunctionModel Verif.FunctionSpec Verif.FunctionProofs Verif.FunctionPlf Verif.NumericModel Verif.NumericSpec
  Verif.NumericReg Verif.NumericFit Verif.NumericProb Verif.NumericMerge Verif.NumericMix Verif.NumericClose Verif.NumericExample Verif.NumericProps
  Verif.NumericCut Verif.NumericCrop Verif.NumericCropSpec.
Import ListNotations.
Open Scope Z_scope.

(** * C24: cropping *)

(** A cdf that is continuous inside the interval, and an interval with positive probability
    (between its first and its last double): cropping yields the rescaled restriction, again
    a continuous cdf. *)
Theorem C24_crop_partial : forall p c ya yu, spread_cdf p -> continuous_in p c -> Forall wf (ivs p) -> wf c -> cs_isempty c = false -> roomy p c ->
  cdf_at p (lowermost c) ya -> cdf_at p (uppermost c) yu -> (ya < yu)%Q ->
  exists q, crop_cdf p c = Ok q /\ spread_cdf q /\ tiling q
    /\ (forall x, finite x -> x < lowermost c -> plf_is q x 0)
    /\ (forall x y, finite x -> lowermost c <= x <= uppermost c -> plf_is p x y -> plf_is q x ((y - ya) / (yu - ya)))
    /\ (forall x, finite x -> uppermost c <= x -> plf_is q x 1).
Proof. exact crop_spec. Qed.

(** An interval on one side of the support cannot be satisfied. *)
Theorem C24_unsat_outside : forall p c i0 p' il pl vl, spread_cdf p -> p = (i0, FConst 0) :: p' -> p = pl ++ [(il, FConst vl)] ->
  uppermost c < upper i0 \/ lower il < lowermost c -> crop_cdf p c = Err Unsatisfiability.
Proof.
  intros p c i0 p' il pl vl S E1 E2 H. unfold crop_cdf. assert (R : rev p = (il, FConst vl) :: rev pl) by (rewrite E2, rev_app_distr; reflexivity).
  rewrite E1 in R |- *. cbv beta iota. rewrite R. assert (((uppermost c <? upper i0) || (lower il <? lowermost c)) = true) as ->; [|reflexivity].
  apply orb_true_iff. destruct H as [H|H]; [left|right]; apply Z.ltb_lt; exact H.
Qed.
(** ... and a restriction of positive probability is never refused. *)
Theorem C24_unsat_sound : forall p c ya yu, spread_cdf p -> continuous_in p c -> Forall wf (ivs p) -> wf c -> cs_isempty c = false -> roomy p c ->
  cdf_at p (lowermost c) ya -> cdf_at p (uppermost c) yu -> crop_cdf p c = Err Unsatisfiability -> (ya == yu)%Q.
Proof.
  intros p c ya yu S T W Wc Ne R Ya Yu E. destruct (Qlt_le_dec ya yu) as [L|L].
  - destruct (crop_spec p c ya yu S T W Wc Ne R Ya Yu L) as (q & E' & _). rewrite E in E'. discriminate E'.
  - destruct (sp_proper _ S) as (lo & hi & _ & P). pose proof (cdf_at_mono p lo hi (lowermost c) (uppermost c) ya yu P) as M.
    destruct (ends_of c Wc Ne) as (AB & _ & _ & HU). assert (lowermost c <= uppermost c) by (destruct HU as [(_ & ->)|(_ & _ & ->)]; [lia|destruct Ya as [(E' & _)|[(E' & _)|(F & _)]]; unfold finite in *; pose proof ord_facts; lia]).
    specialize (M H Ya Yu). lra.
Qed.

(** Fitted distributions meet the hypotheses inside the range of the samples. *)
Lemma chain_next : forall p a b i f, chain a p b -> In (i, f) p -> upper i = b \/ exists j g, In (j, g) p /\ lower j = upper i.
Proof.
  induction p as [|[k h] p IH]; intros a b i f C I; [destruct I|]. destruct C as (E & L & C). destruct I as [I|I].
  - injection I as <- <-. destruct p as [|[j g] p]; [left; exact C|]. right. exists j, g. split; [right; left; reflexivity|]. destruct C as (E' & _). rewrite E'. reflexivity.
  - destruct (IH _ _ _ _ C I) as [H|(j & g & J & H)]; [left; exact H|right; exists j, g; split; [right; exact J|exact H]].
Qed.
Lemma single_quantile : forall data x, least x data -> count_occ Z.eq_dec data x = 1%nat -> (quantile data x == 0)%Q.
Proof. intros data x L C. unfold quantile. replace (count_le data x) with 1%nat by (symmetry; exact (cnt_one data x L C)). unfold Qdiv. change (Qn 1) with 1%Q. ring. Qed.
Lemma fitted_continuous : forall data p ks c, fitted data p ks -> Z.abs (last ks 0) < ORD_53 -> uppermost c <= last ks 0 ->
  hd 0 ks <= lowermost c \/ count_occ Z.eq_dec data (hd 0 ks) = 1%nat -> continuous_in p c.
Proof.
  intros data p ks c Ft Fi U L pre i f j g post E B. destruct (ft_seams _ _ _ Ft) as (i0 & r0 & j0 & h0 & k0 & Ep & T & _ & _ & Us & Uj & _ & i1 & f1 & r1 & E1 & V).
  rewrite Ep in E. destruct pre as [|s pre]; cbn [app] in E.
  - injection E as -> <- E. assert (E2 : (j, g) = (i1, f1)).
    { destruct r0 as [|s r0]; cbn [app] in E, E1; congruence. }
    injection E2 as -> ->. destruct L as [L|L]; [lia|]. exists 0%Q. split; [exists 0%Q; split; reflexivity|]. rewrite Us.
    destruct V as (v & V1 & V2). exists v. split; [exact V1|]. rewrite V2. apply single_quantile; [exact (ft_least _ _ _ Ft)|exact L].
  - injection E as _ E. destruct (rev post) as [|s' post'] eqn:Er.
    + assert (post = []) by (rewrite <- (rev_involutive post), Er; reflexivity). subst post.
      change (r0 ++ [(j0, h0); (k0, FConst 1)] = pre ++ [(i, f); (j, g)]) in E.
      assert (E' : r0 ++ [(j0, h0)] = pre ++ [(i, f)] /\ (k0, FConst 1) = (j, g)).
      { apply app_inj_tail. rewrite <- !app_assoc. exact E. } destruct E' as (E' & _). apply app_inj_tail in E'. destruct E' as (_ & E'). injection E' as <- <-.
      rewrite Uj in B. destruct (plus_eps_mod (last ks 0) (or_introl Fi)) as [(_ & H)|(H & _)]; pose proof ord_facts; lia.
    + assert (Ep' : post = rev post' ++ [s']) by (rewrite <- (rev_involutive post), Er; reflexivity). subst post.
      assert (E' : r0 ++ [(j0, h0)] = pre ++ (i, f) :: (j, g) :: rev post' /\ (k0, FConst 1) = s').
      { apply app_inj_tail. rewrite <- !app_assoc. exact E. } destruct E' as (E' & _). rewrite E' in T. exact (tiling_split _ _ _ _ _ _ T).
Qed.

Lemma fitted_wf : forall data p ks, fitted data p ks -> Forall (fun v => Z.abs v + 1 < ORD_53) data -> Forall wf (ivs p).
Proof.
  intros data p ks Ft M. rewrite Forall_forall in M. pose proof ord_facts as O.
  assert (Mk : forall k, In k ks -> Z.abs k + 1 < ORD_53) by (intros k I; apply M, (ft_data _ _ _ Ft), I).
  pose proof (ft_largest _ _ _ Ft) as (Il & _). specialize (M _ Il).
  destruct (plus_eps_mod (last ks 0) ltac:(left; lia)) as [(_ & Pe)|(H & _)]; [|lia].
  pose proof (ft_chain _ _ _ Ft) as C.
  assert (Lo : forall i f, In (i, f) p -> (lower i = - ORD_INF /\ left i = EXC) \/ Z.abs (lower i) < ORD_53).
  { intros i f I. destruct (ft_seams _ _ _ Ft) as (i0 & r0 & j0 & h0 & k0 & Ep & _ & _ & _ & _ & Uj & Lk & _).
    destruct (ft_pieces _ _ _ Ft i f I) as [(E & E1 & _)|[(_ & K)|(E & U & _)]]; [left|right; specialize (Mk _ K); lia|].
    - split; [exact E1|]. clear - C I E1. assert (K : forall p a b, chain a p b -> In (i, f) p -> left i = if lower i =? - ORD_INF then EXC else INC).
      { clear. induction p as [|[k h] p IH]; intros a b C I; [destruct I|]. destruct C as (E & L & C). destruct I as [I|I]; [|exact (IH _ _ C I)].
        injection I as <- <-. rewrite E. reflexivity. }
      rewrite (K _ _ _ C I), E1. reflexivity.
    - right. rewrite Ep in I, C. destruct C as (E0 & _ & C). destruct I as [I|I]; [injection I as _ <-; discriminate E|].
      replace (r0 ++ [(j0, h0); (k0, FConst 1)]) with ((r0 ++ [(j0, h0)]) ++ [(k0, FConst 1)]) in I, C by (rewrite <- app_assoc; reflexivity).
      apply chain_app_inv in C. destruct C as (x & C1 & C2). apply in_app_or in I. destruct I as [I|[I|[]]].
      + pose proof (chain_in _ _ _ _ _ C1 I) as B. cbn [chain] in C2. lia.
      + injection I as <- <-. rewrite Lk, Pe. lia. }
  apply Forall_forall. intros i I. unfold ivs in I. apply in_map_iff in I. destruct I as ([j f] & <- & I). cbn [fst].
  destruct (chain_in _ _ _ _ _ C I) as (B1 & B2 & _). pose proof (Lo _ _ I) as Li.
  assert (Ri : right j = EXC).
  { clear - C I. assert (K : forall p a b, chain a p b -> In (j, f) p -> right j = EXC).
    { clear. induction p as [|[k h] p IH]; intros a b C I; [destruct I|]. destruct C as (E & L & C). destruct I as [I|I]; [|exact (IH _ _ C I)].
      injection I as <- <-. rewrite E. reflexivity. } exact (K _ _ _ C I). }
  assert (Ui : upper j = ORD_INF \/ Z.abs (upper j) < ORD_53).
  { destruct (chain_next _ _ _ _ _ C I) as [E|(k & g & Ik & E)]; [left; exact E|]. right. destruct (Lo _ _ Ik) as [(E' & _)|E']; lia. }
  unfold wf, moderate. repeat split; try lia; [|intros _; exact Ri]. intro E. destruct Li as [(_ & Li)|Li]; [exact Li|lia].
Qed.

(** Distributions fitted to samples (with at least two different values): the restriction
    may not reach beyond the largest sample, nor below the least if that occurs repeatedly. *)
Theorem C24_fitted : forall epsilon rows x y, In x rows -> In y rows -> x <> y -> Forall (fun v => Z.abs v + 1 < ORD_53) rows ->
  exists p, fit_cdf epsilon None None rows = Ok p /\ spread_cdf p /\ Forall wf (ivs p)
    /\ forall c lo hi, least lo rows -> largest hi rows -> uppermost c <= hi -> (lo <= lowermost c \/ count_occ Z.eq_dec rows lo = 1%nat) -> continuous_in p c.
Proof.
  intros epsilon rows x y Ix Iy Nxy M. pose proof ord_facts as O.
  assert (F : Forall finite rows) by (apply Forall_forall; intros v I; rewrite Forall_forall in M; specialize (M v I); unfold finite; lia).
  assert (N : rows <> []) by (intros ->; destruct Ix).
  destruct (fit_nonempty epsilon None None rows rows (fit_plain rows) N F) as [(z & A & _)|(p & ks & E & Ft)].
  { exfalso. apply Nxy. rewrite (A x Ix), (A y Iy). reflexivity. }
  exists p. split; [exact E|]. split; [exact (fitted_spread rows p ks Ft F)|]. split; [exact (fitted_wf rows p ks Ft M)|].
  intros c lo hi [I1 L1] [I2 L2] U H. destruct (ft_least _ _ _ Ft) as [I3 L3]. destruct (ft_largest _ _ _ Ft) as [I4 L4].
  pose proof (L1 _ I3). pose proof (L3 _ I1). pose proof (L2 _ I4). pose proof (L4 _ I2).
  apply (fitted_continuous rows p ks c Ft); [|lia|].
  - rewrite Forall_forall in M. specialize (M _ I4). lia.
  - replace (hd 0 ks) with lo by lia. exact H.
Qed.

(** Checking by computation, without writing down the (large) numbers. *)
Definition got {A} (d : A) (r : res A) : A := match r with Ok x => x | Err _ => d end.
Definition isok {A} (r : res A) : bool := match r with Ok _ => true | Err _ => false end.
Lemma got_ok : forall A (d : A) r, isok r = true -> r = Ok (got d r).
Proof. intros A d [x|e] H; [reflexivity|discriminate H]. Qed.
Lemma plf_is_check : forall p x y, match plf_eval p x with Ok (Some v) => Qeq_bool v y | _ => false end = true -> plf_is p x y.
Proof. intros p x y H. unfold plf_is. destruct (plf_eval p x) as [[v|]|]; try discriminate H. exists v. split; [reflexivity|]. apply Qeq_bool_iff. exact H. Qed.
Lemma cdf_at_check : forall p x y, (- ORD_INF <? x) && (x <? ORD_INF) = true -> match plf_eval p x with Ok (Some v) => Qeq_bool v y | _ => false end = true -> cdf_at p x y.
Proof. intros p x y F H. apply andb_true_iff in F. destruct F as (F1 & F2). apply Z.ltb_lt in F1, F2. right. right. split; [split; assumption|apply plf_is_check; exact H]. Qed.
Definition fitted_to (rows : list Z) : plf := got [] (fit_cdf (1 # 100) None None rows).

(** The full claim fails.  An interval of probability 0 which touches the support, or lies
    in a gap, is not refused: the result is concentrated at its upper end. *)
Theorem C24_zero_refuted : exists rows p c y q, fit_cdf (1 # 100) None None rows = Ok p /\ cdf_at p (lowermost c) y /\ cdf_at p (uppermost c) y
  /\ p_interval p c = Ok 0%Q /\ crop_interval p c = Ok q.
Proof.
  exists [0; ONE], (fitted_to [0; ONE]), (CS (- ONE) 0 INC INC), 0%Q, (got [] (crop_interval (fitted_to [0; ONE]) (CS (- ONE) 0 INC INC))).
  split; [apply got_ok; vm_compute; reflexivity|]. split; [apply cdf_at_check; vm_compute; reflexivity|]. split; [apply cdf_at_check; vm_compute; reflexivity|].
  split; [vm_compute; reflexivity|]. apply got_ok. vm_compute. reflexivity.
Qed.
(** A jump inside the interval is scaled by the probability of the interval instead of its
    inverse: samples 0, 0, 1 restricted to [-1, 1/2]. *)
Theorem C24_jump_refuted : exists rows p c q x y y0 y1 z, fit_cdf (1 # 100) None None rows = Ok p /\ crop_interval p c = Ok q
  /\ cdf_at p (lowermost c) y0 /\ cdf_at p (uppermost c) y1 /\ lowermost c <= x <= uppermost c
  /\ plf_is p x y /\ plf_is q x z /\ ((y - y0) / (y1 - y0) == 2 # 3)%Q /\ (z == 3 # 8)%Q.
Proof.
  exists [0; 0; ONE], (fitted_to [0; 0; ONE]), (CS (- ONE) HALF INC INC), (got [] (crop_interval (fitted_to [0; 0; ONE]) (CS (- ONE) HALF INC INC))).
  exists 0, (1 # 2)%Q, 0%Q, (3 # 4)%Q, (3 # 8)%Q.
  split; [apply got_ok; vm_compute; reflexivity|]. split; [apply got_ok; vm_compute; reflexivity|].
  split; [apply cdf_at_check; vm_compute; reflexivity|]. split; [apply cdf_at_check; vm_compute; reflexivity|].
  split; [split; vm_compute; discriminate|]. split; [apply plf_is_check; vm_compute; reflexivity|]. split; [apply plf_is_check; vm_compute; reflexivity|]. split; vm_compute; reflexivity.
Qed.
(** A restriction beyond the largest sample: the cdf exceeds 1, and so do probabilities. *)
Theorem C24_beyond_refuted : exists rows p c q d z, fit_cdf (1 # 100) None None rows = Ok p /\ crop_interval p c = Ok q
  /\ p_interval q d = Ok z /\ (1 < z)%Q.
Proof.
  exists [0; ONE], (fitted_to [0; ONE]), (CS HALF ORD_INF INC EXC), (got [] (crop_interval (fitted_to [0; ONE]) (CS HALF ORD_INF INC EXC))), (CS HALF TWO INC EXC).
  exists (got 0%Q (p_interval (got [] (crop_interval (fitted_to [0; ONE]) (CS HALF ORD_INF INC EXC))) (CS HALF TWO INC EXC))).
  split; [apply got_ok; vm_compute; reflexivity|]. split; [apply got_ok; vm_compute; reflexivity|]. split; [apply got_ok; vm_compute; reflexivity|]. vm_compute. reflexivity.
Qed.
(** A number, or an interval of one double, is never refused. *)
Theorem C24_point_refuted : exists p c q, spread_cdf p /\ p_interval p c = Ok 0%Q /\ crop_interval p c = Ok q.
Proof. exists unit_cdf, (CS TWO TWO INC INC), (dirac TWO). split; [exact unit_spread|]. split; vm_compute; reflexivity. Qed.
(** The intervals of a union get equal weights instead of their probabilities: the uniform
    distribution restricted to [0, 1/4) or [1/2, 1). *)
Theorem C24_union_refuted : exists a b q, (dval a == 1 # 4)%Q /\ (dval b == 1 # 2)%Q
  /\ crop_set unit_cdf (NR [CS 0 a INC EXC; CS b ONE INC EXC]) = Ok q /\ plf_is q b (1 # 2).
Proof.
  exists (1021 * 2 ^ 52), HALF, (got [] (crop_set unit_cdf (NR [CS 0 (1021 * 2 ^ 52) INC EXC; CS HALF ONE INC EXC]))).
  split; [vm_compute; reflexivity|]. split; [vm_compute; reflexivity|]. split; [apply got_ok; vm_compute; reflexivity|]. apply plf_is_check. vm_compute. reflexivity.
Qed.

Print Assumptions C24_crop_partial.
Print Assumptions C24_unsat_outside.
Print Assumptions C24_unsat_sound.
Print Assumptions C24_fitted.
Print Assumptions C24_zero_refuted.
Print Assumptions C24_jump_refuted.
Print Assumptions C24_beyond_refuted.
Print Assumptions C24_point_refuted.
Print Assumptions C24_union_refuted.

Lemma quarter_facts : 0 < 1021 * 2 ^ 52 /\ 1021 * 2 ^ 52 + 1 < HALF /\ HALF + 1 < ONE /\ ONE < ORD_53 /\ (dval HALF == 1 # 2)%Q /\ (dval (1021 * 2 ^ 52) == 1 # 4)%Q.
Proof. repeat split; vm_compute; reflexivity. Qed.
Example C24_example : let c := CS (1021 * 2 ^ 52) HALF INC INC in
  spread_cdf unit_cdf /\ continuous_in unit_cdf c /\ Forall wf (ivs unit_cdf) /\ wf c /\ cs_isempty c = false /\ roomy unit_cdf c
  /\ cdf_at unit_cdf (lowermost c) (1 # 4) /\ cdf_at unit_cdf (uppermost c) (1 # 2).
Proof.
  pose proof one_facts as (O1 & O2 & _). pose proof quarter_facts as (Q1 & Q2 & Q3 & Q4 & Q5 & Q6). pose proof ord_facts as O. intro c.
  assert (E1 : lowermost c = 1021 * 2 ^ 52) by reflexivity. assert (E2 : uppermost c = HALF) by reflexivity.
  set (q := 1021 * 2 ^ 52) in *. clearbody q.
  split; [exact unit_spread|]. split.
  { intros pre i f j g post E B. pose proof unit_tiling as T. rewrite E in T. exact (tiling_split _ _ _ _ _ _ T). }
  split; [unfold unit_cdf, ivs; cbn [map fst]; repeat apply Forall_cons; try apply Forall_nil; unfold wf, moderate; cbn [lower upper left right]; repeat split; try lia; discriminate|].
  split; [unfold wf, moderate, c; cbn [lower upper left right]; repeat split; try lia|]. split.
  { unfold cs_isempty, c. cbn [lower upper]. destruct (Z.ltb_spec HALF q); [lia|]. destruct (Z.eqb_spec q HALF); [lia|]. rewrite andb_false_r. reflexivity. }
  split.
  { split; [|intros i f _ H; discriminate H]. rewrite E1, E2. intros i m k I B. unfold unit_cdf in I. destruct I as [I|[I|[I|[]]]]; apply (f_equal fst) in I; cbn [fst] in I; rewrite <- I in B |- *; cbn [lower upper] in B |- *; lia. }
  split; right; right; (split; [unfold finite; rewrite ?E1, ?E2; lia|]); rewrite ?E1, ?E2;
    (apply (plf_is_of _ _ (FLin 1 0)); [rewrite unit_at by (unfold finite; lia)|]).
  1, 3: rewrite (proj2 (Z.leb_le _ _)), (proj2 (Z.ltb_lt _ _)) by lia; reflexivity.
  all: eexists; split; [reflexivity|]; rewrite ?Q5, ?Q6; reflexivity.
Qed.
