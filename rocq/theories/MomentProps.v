(** Expectation, variance and moments of numeric distributions. *)
Require Import ZArith QArith Qabs Qminmax Qpower Lqa Bool List Arith Lia Sorted.
Require Import Verif.Base Verif.FloatLine Verif.FloatVal Verif.IntervalModel Verif.IntervalSpec Verif.IntervalProofs
  Verif.NumBase Verif.UtilModel Verif.FunctionModel Verif.FunctionSpec
  Verif.FunctionProofs Verif.FunctionPlf Verif.FunctionInt Verif.NumericModel Verif.NumericSpec Verif.NumericFit Verif.NumericProb
  Verif.NumericMix Verif.NumericClose Verif.NumericExample Verif.IntervalDec Verif.NumericProps Verif.NumericProps4 Verif.NumericMoment.
Import ListNotations.
Open Scope Q_scope.

(** * C79: moments are integrals against the cdf *)

(** The moment of order [n] around [c] of a cdf that rises continuously to 1 at [hi] is
    the Riemann-Stieltjes integral [T] of [(x - c)^n] (it lies between all lower and upper
    sums), up to the contribution of the piece which extends beyond [hi]: the excess mass
    times a value that [(x - c)^n] takes there.
    Missing: cdfs with jumps and pieces of a single double, for which the claim is false. *)
Theorem C79_moment_partial : forall p hi n c, spread_cdf p -> climbs_to p hi -> wide p ->
  exists M T, moment_of p n c = Ok M /\ integral p (deviation c n) (dval hi) T /\
    (forall g, (forall x, dval hi <= x -> reach p x -> g <= deviation c n x) -> g * excess p (dval hi) <= M - T) /\
    (forall g, (forall x, dval hi <= x -> reach p x -> deviation c n x <= g) -> M - T <= g * excess p (dval hi)).
Proof. exact moment_integral. Qed.
Print Assumptions C79_moment_partial.

Lemma chain_next : forall p a b i f, chain a p b -> In (i, f) p -> (upper i < b)%Z -> exists pre j g post, p = pre ++ (i, f) :: (j, g) :: post /\ upper i = lower j.
Proof.
  induction p as [|[k h] p I]; intros a b i f C H U; [destruct H|]. destruct C as (E & L & C). destruct H as [H|H].
  - injection H as -> ->. destruct p as [|[j g] p]; [cbn in C; lia|]. exists [], j, g, p. split; [reflexivity|]. destruct C as (Ej & _). rewrite Ej. reflexivity.
  - destruct (I _ _ _ _ C H U) as (pre & j & g & post & E1 & E2). exists ((k, h) :: pre), j, g, post. rewrite E1. split; [reflexivity|exact E2].
Qed.
Lemma tiling_meet : forall pre i f j g post, tiling (pre ++ (i, f) :: (j, g) :: post) -> exists y, fn_is f (dval (upper i)) y /\ fn_is g (dval (upper i)) y.
Proof.
  induction pre as [|[k h] pre I]; intros i f j g post T.
  - destruct T as (_ & _ & Y & _). exact Y.
  - destruct pre as [|[k' h'] pre]; apply (I i f j g post); destruct T as (_ & _ & _ & T); exact T.
Qed.

Lemma no_excess : forall p hi, spread_cdf p -> tiling p -> climbs_to p hi -> excess p (dval hi) == 0.
Proof.
  intros p hi Sp T Ct. unfold excess. apply Qsum_map_zero. intros [i f] I. cbn [fst snd].
  pose proof (sp_affine p Sp) as Af. unfold affines in Af. rewrite Forall_forall in Af. pose proof (Af _ I) as Afi. cbn [snd] in Afi. destruct f as [|v|m k|]; cbn in Afi; try contradiction; cbn [steepness]; [ring|].
  pose proof (sp_rise p Sp) as R. rewrite Forall_forall in R. destruct (R _ I) as (Pm & Fl & Fu). cbn [fst] in Fl, Fu.
  pose proof (ct_rising p hi Ct i m k I) as Lh. destruct (ct_one p hi Ct) as [Fh One].
  destruct (Z_lt_le_dec hi (upper i)) as [X|X].
  2: { rewrite Q.max_l; [ring|]. assert (dval (upper i) <= dval hi) by (apply dval_le; exact X). lra. }
  exfalso. pose proof (sp_chain p Sp) as C. unfold finite in Fu. destruct (chain_next p _ _ i _ C I) as (pre & j & g & post & E & Ej); [lia|].
  rewrite E in T. destruct (tiling_meet _ _ _ _ _ _ T) as (y & (v & V1 & V2) & Y2). cbn in V1. injection V1 as <-.
  assert (A1 : plf_at p hi = Some (FLin m k)) by (apply (chain_at p _ _ i _ hi C); try assumption; lia).
  assert (Ij : In (j, g) p) by (rewrite E; apply in_or_app; right; right; left; reflexivity).
  assert (A2 : plf_at p (upper i) = Some g).
  { apply (chain_at p _ _ j g (upper i) C); try assumption; try lia. rewrite Ej. pose proof (chain_in _ _ _ _ _ C Ij) as (Q & _). lia. }
  destruct (sp_proper p Sp) as (lo & h & Fhh & P). destruct (pc_range p lo h P (upper i) Fu) as (z & Z1 & Z2 & Z3).
  pose proof (plf_is_fun _ _ _ _ (plf_is_of _ _ _ _ A2 Y2) Z1) as E1.
  assert (H1 : plf_is p hi (m * dval hi + k)) by (apply (plf_is_of _ _ _ _ A1); exists (m * dval hi + k); split; reflexivity).
  pose proof (plf_is_fun _ _ _ _ H1 One) as E2. assert (L : dval hi < dval (upper i)) by (apply dval_lt; exact X).
  assert (m * dval hi < m * dval (upper i)) by (rewrite !(Qmult_comm m); apply Qmult_lt_compat_r; assumption). lra.
Qed.

(** Continuous cdfs: exactly the integral. *)
Theorem C79_continuous : forall p hi n c, spread_cdf p -> tiling p -> climbs_to p hi -> wide p ->
  exists M, moment_of p n c = Ok M /\ integral p (deviation c n) (dval hi) M.
Proof.
  intros p hi n c Sp T Ct W. destruct (moment_area p n c Sp W) as (M & E & V). destruct (spread_order p Sp) as [O U]. exists M. split; [exact E|].
  pose proof (area_integral p n c O U (dval hi) (spread_rep p hi Sp Ct)) as J.
  assert (Eq : M == areato n c p (dval hi)).
  { rewrite V. unfold area, areato. apply Qsum_map_ext. intros s I. pose proof (no_excess p hi Sp T Ct) as X. unfold excess in X.
    assert (N : Forall (fun y => 0 <= y) (map (fun s : cs * fn => steepness (snd s) * Qmax 0 (dval (upper (fst s)) - dval hi)) p)).
    { apply Forall_forall. intros y Y. apply in_map_iff in Y. destruct Y as (k & <- & K). apply Qmult_le_0_compat; [apply (U k K)|apply Q.le_max_l]. }
    pose proof (Qsum_zero_all _ N X _ (in_map (fun s : cs * fn => steepness (snd s) * Qmax 0 (dval (upper (fst s)) - dval hi)) _ _ I)) as Z. cbn beta in Z.
    destruct (Qmult_integral _ _ Z) as [Z1|Z1]; [unfold rise; rewrite Z1; ring|].
    assert (Le : fin s <= dval hi) by (unfold fin; pose proof (Q.le_max_r 0 (dval (upper (fst s)) - dval hi)); lra).
    rewrite (prim_wd n (upto s (dval hi) - c) (fin s - c)); [ring|]. unfold upto. rewrite clip_high; [reflexivity|apply (O s I)|exact Le]. }
  intros s Zs. destruct (J s Zs) as [J1 J2]. split; intros S H; rewrite Eq; [apply J1|apply J2]; exact H.
Qed.
Print Assumptions C79_continuous.

Lemma mem_real : forall x i, cs_mem x i -> real_mem (dval x) i.
Proof.
  intros x i (F & A & B). split; right.
  - destruct (left i); [apply dval_le|apply dval_lt]; assumption.
  - destruct (right i); [apply dval_le|apply dval_lt]; assumption.
Qed.
Lemma cdf_double : forall p x y, spread_cdf p -> finite x -> plf_is p x y -> cdf_real p (dval x) y.
Proof.
  intros p x y Sp F H. destruct (spread_total p x Sp F) as (h & z & A & _ & Z & E). destruct (plf_at_in p x h F A) as (i & I & M).
  exists i, h. split; [exact I|]. split; [exact (mem_real x i M)|]. rewrite <- E. exact (plf_is_fun _ _ _ _ Z H).
Qed.
Lemma dev_1 : forall c x, deviation c 1 x == x - c.
Proof. intros. unfold deviation. rewrite pw_S. change ((x - c) ^ Z.of_nat 0) with 1. ring. Qed.
Lemma dev_2 : forall c x, deviation c 2 x == (x - c) * (x - c).
Proof. intros. unfold deviation. rewrite !pw_S. change ((x - c) ^ Z.of_nat 0) with 1. ring. Qed.

(** The lower and upper sums determine the integral. *)
Theorem C79_integral_unique : forall p hi n c T T', spread_cdf p -> climbs_to p hi ->
  integral p (deviation c n) (dval hi) T -> integral p (deviation c n) (dval hi) T' -> T == T'.
Proof.
  intros p hi n c T T' Sp Ct J J'. destruct (sp_first p Sp) as (i & r & E).
  apply (integral_unique p hi (Qmin (dval (upper i) - 1) (dval hi)) n c T T' Sp Ct); try assumption; [|apply Q.le_min_r].
  exists i, (FConst 0). split; [rewrite E; left; reflexivity|]. split; [|reflexivity].
  pose proof (sp_chain p Sp) as C. rewrite E in C. destruct C as (Ei & _ & _). split; [left; rewrite Ei; reflexivity|].
  right. rewrite Ei. cbn [right upper]. pose proof (Q.le_min_l (dval (upper i) - 1) (dval hi)). lra.
Qed.
Print Assumptions C79_integral_unique.

(** The mean of a continuous distribution lies between any point below the distribution
    and the point where the cdf reaches 1. *)
Theorem C79_mean_between : forall p hi s, spread_cdf p -> tiling p -> climbs_to p hi -> wide p -> cdf_real p s 0 -> s <= dval hi ->
  exists E, expectation_of p = Ok E /\ s <= E <= dval hi.
Proof.
  intros p hi s Sp T Ct W Zs L. destruct (C79_continuous p hi 1 0 Sp T Ct W) as (M & E & J). exists M. split; [exact E|].
  destruct (J s Zs) as [J1 J2]. destruct (ct_one p hi Ct) as [F One]. pose proof (cdf_double p hi 1 Sp F One) as Top. split.
  - assert (H : lower_sum p (deviation 0 1) s (dval hi) (s * (1 - 0) + 0)).
    { apply (ls_cons _ _ s (dval hi) (dval hi) s 0 1 0 L Zs Top); [|apply ls_nil; reflexivity]. intros x X. rewrite dev_1. lra. }
    specialize (J1 _ H). lra.
  - assert (H : upper_sum p (deviation 0 1) s (dval hi) (dval hi * (1 - 0) + 0)).
    { apply (us_cons _ _ s (dval hi) (dval hi) (dval hi) 0 1 0 L Zs Top); [|apply us_nil; reflexivity]. intros x X. rewrite dev_1. lra. }
    specialize (J2 _ H). lra.
Qed.
Print Assumptions C79_mean_between.

Lemma area_total : forall p hi c, spread_cdf p -> tiling p -> climbs_to p hi -> area 0 c p == 1.
Proof.
  intros p hi c Sp T Ct. destruct (ct_one p hi Ct) as [F One]. pose proof (cdf_double p hi 1 Sp F One) as Top.
  rewrite (spread_rep p hi Sp Ct (dval hi) 1 Top (Qle_refl _)) at 1. unfold area, massto. apply Qsum_map_ext. intros s I. destruct (spread_order p Sp) as [O U].
  pose proof (no_excess p hi Sp T Ct) as X. unfold excess in X.
  assert (N : Forall (fun y => 0 <= y) (map (fun s : cs * fn => steepness (snd s) * Qmax 0 (dval (upper (fst s)) - dval hi)) p)).
  { apply Forall_forall. intros y Y. apply in_map_iff in Y. destruct Y as (k & <- & K). apply Qmult_le_0_compat; [apply (U k K)|apply Q.le_max_l]. }
  pose proof (Qsum_zero_all _ N X _ (in_map (fun s : cs * fn => steepness (snd s) * Qmax 0 (dval (upper (fst s)) - dval hi)) _ _ I)) as Z. cbn beta in Z.
  destruct (Qmult_integral _ _ Z) as [Z1|Z1]; [unfold rise; rewrite Z1; ring|].
  assert (Le : fin s <= dval hi) by (unfold fin; pose proof (Q.le_max_r 0 (dval (upper (fst s)) - dval hi)); lra).
  unfold upto. rewrite clip_high by (try apply (O s I); exact Le). unfold prim. rewrite !pw_S. change ((fin s - c) ^ Z.of_nat 0) with 1. change ((beg s - c) ^ Z.of_nat 0) with 1. change (Qn 1) with 1. field.
Qed.

(** The moments of order 0 are 1, those of order 1 around [c] the mean minus [c], and the
    variance is the mean square minus the squared mean and never negative. *)
Theorem C79_variance : forall p hi c, spread_cdf p -> tiling p -> climbs_to p hi -> wide p ->
  exists E S V M0 M1, expectation_of p = Ok E /\ moment_of p 2 0 = Ok S /\ variance_of p = Ok V /\ moment_of p 0 c = Ok M0 /\ moment_of p 1 c = Ok M1 /\
    M0 == 1 /\ M1 == E - c /\ V == S - E * E /\ 0 <= V.
Proof.
  intros p hi c Sp T Ct W. pose proof (area_total p hi) as Tot.
  assert (A1 : forall c, area 1 c p == area 1 0 p - c).
  { intro d. assert (X : area 1 d p == area 1 0 p - d * area 0 0 p).
    { unfold area. rewrite <- Qsum_map_scale, <- Qsum_map_minus. apply Qsum_map_ext. intros s _. unfold prim. rewrite !pw_S.
      change (Qn 2) with 2. change (Qn 1) with 1. repeat match goal with |- context [?x ^ Z.of_nat 0] => change (x ^ Z.of_nat 0) with 1 end. field. }
    rewrite X, (Tot 0 Sp T Ct). ring. }
  assert (A2 : forall c, area 2 c p == area 2 0 p - 2 * c * area 1 0 p + c * c).
  { intro d. assert (X : area 2 d p == area 2 0 p - 2 * d * area 1 0 p + d * d * area 0 0 p).
    { unfold area. rewrite <- !Qsum_map_scale, <- Qsum_map_minus, <- Qsum_map_plus. apply Qsum_map_ext. intros s _. unfold prim. rewrite !pw_S.
      change (Qn 3) with 3. change (Qn 2) with 2. change (Qn 1) with 1. repeat match goal with |- context [?x ^ Z.of_nat 0] => change (x ^ Z.of_nat 0) with 1 end. field. }
    rewrite X, (Tot 0 Sp T Ct). ring. }
  destruct (moment_area p 1 0 Sp W) as (E & E1 & E2), (moment_area p 2 0 Sp W) as (S & S1 & S2), (moment_area p 0 c Sp W) as (M0 & M01 & M02), (moment_area p 1 c Sp W) as (M1 & M11 & M12).
  destruct (C79_continuous p hi 2 E Sp T Ct W) as (V & V1 & J). destruct (moment_area p 2 E Sp W) as (V' & V1' & V2). rewrite V1 in V1'. injection V1' as <-.
  exists E, S, V, M0, M1. split; [exact E1|]. split; [exact S1|]. split; [unfold variance_of, expectation_of; rewrite E1; exact V1|]. split; [exact M01|]. split; [exact M11|].
  split; [rewrite M02; apply Tot; assumption|]. split; [rewrite M12, E2; apply A1|]. split; [rewrite V2, S2, A2, E2; ring|].
  destruct (ct_one p hi Ct) as [F One]. pose proof (cdf_double p hi 1 Sp F One) as Top.
  assert (Bot : exists s, cdf_real p s 0 /\ s <= dval hi).
  { destruct (sp_first p Sp) as (i & r & Er). pose proof (sp_chain p Sp) as C. rewrite Er in C. destruct C as (Ei & Li & C).
    set (lo := (Z.min hi (upper i - 1))%Z). exists (dval lo). split; [|apply dval_le; lia].
    exists i, (FConst 0). split; [rewrite Er; left; reflexivity|]. split; [|unfold height; cbn; ring]. split; [left; rewrite Ei; reflexivity|]. right. rewrite Ei. cbn [right upper]. apply dval_lt. lia. }
  destruct Bot as (s & Zs & Ls). destruct (J s Zs) as [J1 _].
  assert (H : lower_sum p (deviation E 2) s (dval hi) (0 * (1 - 0) + 0)).
  { apply (ls_cons _ _ s (dval hi) (dval hi) 0 0 1 0 Ls Zs Top); [|apply ls_nil; reflexivity]. intros x X. rewrite dev_2. destruct (Qlt_le_dec (x - E) 0); nra. }
  specialize (J1 _ H). lra.
Qed.
Print Assumptions C79_variance.

(** Distributions fitted to samples meet the hypotheses of C79_moment_partial if the least
    sample occurs once and no two samples are neighbouring doubles; the last piece reaches
    one double beyond the largest sample. *)
Theorem C79_fitted : forall epsilon rows x y lo hi, In x rows -> In y rows -> x <> y -> Forall (fun v => (Z.abs v + 1 < ORD_53)%Z) rows ->
  least lo rows -> largest hi rows -> count_occ Z.eq_dec rows lo = 1%nat -> (forall a b, In a rows -> In b rows -> (a < b)%Z -> (a + 1 < b)%Z) ->
  exists p, fit_cdf epsilon None None rows = Ok p /\ spread_cdf p /\ climbs_to p hi /\ wide p /\ forall q, reach p q -> q <= dval (hi + 1)%Z.
Proof.
  intros epsilon rows x y lo hi Ix Iy Nxy M Lo Hi One Ap. pose proof ord_facts as O.
  destruct (C26_fitted epsilon rows x y lo hi Ix Iy Nxy M Lo Hi One) as (p & E & Sp & Ct). exists p. split; [exact E|]. split; [exact Sp|]. split; [exact Ct|].
  assert (F : Forall finite rows) by (apply Forall_forall; intros v I; rewrite Forall_forall in M; specialize (M v I); unfold finite; lia).
  assert (N : rows <> []) by (intros ->; destruct Ix).
  destruct (fit_nonempty epsilon None None rows rows (fit_plain rows) N F) as [(z & A & _)|(p' & ks & E' & Ft)].
  { exfalso. apply Nxy. rewrite (A x Ix), (A y Iy). reflexivity. }
  rewrite E in E'. injection E' as <-. destruct Hi as [Ih Lh]. destruct (ft_largest _ _ _ Ft) as [I4 L4].
  assert (Eh : last ks 0%Z = hi) by (pose proof (Lh _ I4); pose proof (L4 _ Ih); lia).
  assert (K : forall i m c, In (i, FLin m c) p -> In (lower i) rows /\ ((In (upper i) rows /\ (upper i <= hi)%Z) \/ (hi <= upper i)%Z)).
  { intros i m c I. assert (D : In (lower i) rows).
    { destruct (ft_pieces _ _ _ Ft i _ I) as [(K & _)|[(_ & K)|(K & _)]]; try discriminate K. exact (ft_data _ _ _ Ft _ K). }
    split; [exact D|]. pose proof (sp_rise p Sp) as R. rewrite Forall_forall in R. destruct (R _ I) as (_ & _ & Fu). cbn [fst] in Fu. unfold finite in Fu.
    destruct (chain_next p _ _ i _ (sp_chain p Sp) I) as (pre & j & g & post & Ep & Ej); [lia|].
    assert (Ij : In (j, g) p) by (rewrite Ep; apply in_or_app; right; right; left; reflexivity). rewrite Ej.
    destruct (ft_pieces _ _ _ Ft j _ Ij) as [(_ & K & _)|[(_ & K)|(_ & _ & K)]].
    - exfalso. pose proof (chain_in _ _ _ _ _ (sp_chain p Sp) I) as (B & _). lia.
    - left. pose proof (ft_data _ _ _ Ft _ K) as D2. split; [exact D2|]. apply Lh, D2.
    - right. lia. }
  split.
  - intros i m c I. destruct (K i m c I) as [D [[D2 _]|U]].
    + apply Ap; try assumption. pose proof (chain_in _ _ _ _ _ (sp_chain p Sp) I). lia.
    + pose proof (ct_rising p hi Ct i m c I) as L. specialize (Ap (lower i) hi D Ih L). lia.
  - intros q (i & f & I & Pf & Q). apply Qle_trans with (dval (upper i)); [exact Q|]. apply dval_le.
    destruct f as [|v|m c|]; cbn [steepness] in Pf; try (exfalso; lra).
    destruct (ft_wide _ _ _ Ft) as (j & g & J & _ & Lj & Uj). rewrite Eh in Lj, Uj.
    pose proof (ct_rising p hi Ct i m c I) as L.
    destruct (plus_eps_cases hi) as [P|P]; rewrite P in Uj.
    + pose proof (chain_in _ _ _ _ _ (sp_chain p Sp) I) as (Bi & _). pose proof (chain_in _ _ _ _ _ (sp_chain p Sp) J) as (Bj & _).
      destruct (chain_apart _ _ _ _ _ _ _ (sp_chain p Sp) I J) as [->|[K1|K1]]; lia.
    + pose proof (chain_in _ _ _ _ _ (sp_chain p Sp) I) as (Bi & _). pose proof (chain_in _ _ _ _ _ (sp_chain p Sp) J) as (Bj & _).
      destruct (chain_apart _ _ _ _ _ _ _ (sp_chain p Sp) I J) as [->|[K1|K1]]; lia.
Qed.
Print Assumptions C79_fitted.

(** A single value: its mean is the value, its variance 0. *)
Theorem C79_point : forall x, (Z.abs x < ORD_53)%Z -> exists E V, expectation_of (dirac x) = Ok E /\ E == dval x /\ variance_of (dirac x) = Ok V /\ V == 0.
Proof.
  intros x X. unfold variance_of, expectation_of, moment_of. rewrite (dirac_pdf x X). cbn [bind is_dirac dirac length Nat.eqb].
  eexists. eexists. split; [reflexivity|]. split; [reflexivity|]. split; reflexivity.
Qed.
Print Assumptions C79_point.

(** The moments of a single value around another one are wrong: the first is the value
    itself and not the difference, the second is 0. *)
Theorem C79_point_center_refuted : exists x c M1 M2, dval x == 1 /\ c == 3 /\ moment_of (dirac x) 1 c = Ok M1 /\ M1 == 1 /\ moment_of (dirac x) 2 c = Ok M2 /\ M2 == 0.
Proof.
  exists ONE, 3. eexists. eexists. split; [vm_compute; reflexivity|]. split; [reflexivity|]. split; [vm_compute; reflexivity|]. split; [vm_compute; reflexivity|].
  split; [vm_compute; reflexivity|]. reflexivity.
Qed.
Print Assumptions C79_point_center_refuted.

(** Samples whose least value occurs twice: the mass of the jump is missing and the
    expectation of 1, 1, 2 is 3/4, below all samples. *)
Definition TWO : Z := (1024 * 2 ^ 52)%Z.
Theorem C79_jump_refuted : exists p E M0, fit_cdf (1 # 100) None None [ONE; ONE; TWO] = Ok p /\ expectation_of p = Ok E /\ E < dval ONE /\
  moment_of p 0 0 = Ok M0 /\ M0 < 6 # 10.
Proof.
  eexists. eexists. eexists. split; [vm_compute; reflexivity|]. split; [vm_compute; reflexivity|]. split; [vm_compute; reflexivity|].
  split; [vm_compute; reflexivity|]. vm_compute. reflexivity.
Qed.
Print Assumptions C79_jump_refuted.

(** Neighbouring doubles: the mass between them is missing. *)
Theorem C79_neighbours_refuted : exists p E, fit_cdf (1 # 100) None None [ONE; (ONE + 1)%Z; TWO] = Ok p /\ expectation_of p = Ok E /\ E < dval ONE.
Proof. eexists. eexists. split; [vm_compute; reflexivity|]. split; [vm_compute; reflexivity|]. vm_compute. reflexivity. Qed.
Print Assumptions C79_neighbours_refuted.

(** Hypotheses: the uniform distribution on [0, 1), of mean 1/2 and variance 1/12. *)
Example C79_example : spread_cdf unit_cdf /\ tiling unit_cdf /\ climbs_to unit_cdf ONE /\ wide unit_cdf /\ cdf_real unit_cdf (dval 0) 0.
Proof.
  destruct C26_example as (A & B & _). split; [exact A|]. split; [exact unit_tiling|]. split; [exact B|]. split.
  - intros i m c [I|[I|[I|[]]]]; try discriminate I. injection I as <- _ _. vm_compute. reflexivity.
  - pose proof one_facts as (O1 & O2 & D1 & D0). apply (cdf_double unit_cdf 0 0); [exact A|unfold finite; lia|].
    eexists. split; [vm_compute; reflexivity|]. vm_compute. reflexivity.
Qed.
Example C79_example_values : match expectation_of unit_cdf, variance_of unit_cdf with
  | Ok E, Ok V => Qeq_bool E (1 # 2) && Qeq_bool V (1 # 12) | _, _ => false end = true.
Proof. vm_compute. reflexivity. Qed.
