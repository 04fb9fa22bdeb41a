(** Incremental Gaussian statistics (C34), affine maps (C75) and regression (C76). *)
Require Import QArith Qabs Lqa List Bool Arith Lia.
Require Import Verif.Base Verif.NumBase Verif.GaussModel Verif.GaussSpec Verif.GaussProofs.
Import ListNotations.
Open Scope Q_scope.

(** Feeding samples with positive weights one by one gives the weighted mean and the unbiased
    weighted covariance of all samples, if they are separated in the sense of the specification. *)
Theorem C34_batch_partial : forall d data, separated d data -> exists g, update_all fresh d data = Ok g /\ describes d g data /\ g_n g = length data.
Proof.
  intros d data H. destruct (update_all_describes d data [] fresh H (fresh_describes d) (or_intror (conj eq_refl eq_refl)) eq_refl) as (g & E & D & _ & _ & N). exists g. split; [exact E|]. split; [exact D|exact N].
Qed.
(** Continuing with more samples. *)
Theorem C34_continue_partial : forall d old data g, separated d (old ++ data) -> update_all fresh d old = Ok g -> exists g', update_all g d data = Ok g' /\ describes d g' (old ++ data).
Proof.
  intros d old data g H E. pose proof (separated_prefix d old data H) as H0. destruct (update_all_describes d old [] fresh H0 (fresh_describes d) (or_intror (conj eq_refl eq_refl)) eq_refl) as (g0 & E0 & D0 & L0 & G0 & _).
  rewrite E in E0. injection E0 as <-. cbn [app] in D0, G0.
  assert (Hd : g_dim g = Some d \/ old = [] /\ g_dim g = None). { destruct old as [|s o]; [right; cbn in E; injection E as <-; split; reflexivity|left; apply G0; discriminate]. }
  destruct (update_all_describes d data old g H D0 Hd L0) as (g' & E' & D' & _). exists g'. split; assumption.
Qed.
(** Retracting any one of at least two samples gives the statistics of the others. *)
Theorem C34_retract_partial : forall d p w x q g, separated d (p ++ (w, x) :: q) -> p ++ q <> [] -> update_all fresh d (p ++ (w, x) :: q) = Ok g ->
  exists g', retract g d x w = Ok g' /\ describes d g' (p ++ q).
Proof.
  intros d p w x q g H N E. destruct (update_all_describes d _ [] fresh H (fresh_describes d) (or_intror (conj eq_refl eq_refl)) eq_refl) as (g0 & E0 & D0 & L0 & G0 & N0). rewrite E in E0. injection E0 as <-. cbn [app] in *.
  destruct (retract_describes d g p w x q D0 (separated_positive d _ H)) as (g' & E' & D' & _); [apply G0; destruct p; discriminate|rewrite N0, app_length; cbn [length]; lia|exact N|].
  exists g'. split; assumption.
Qed.
(** Equal weights: the covariance is the usual one with n - 1. *)
Theorem C34_unweighted : forall l j k, Forall (fun s => fst s == 1) l -> (2 <= length l)%nat ->
  cov_of l j k == scatter l j k / (inject_Z (Z.of_nat (length l)) - 1) /\ mean_of l j == Qsum (map (fun s => snd s j) l) / inject_Z (Z.of_nat (length l)).
Proof.
  intros l j k F L. assert (W : weight l == inject_Z (Z.of_nat (length l)) /\ weight_sq l == inject_Z (Z.of_nat (length l)) /\ Qsum (map (fun s => fst s * snd s j) l) == Qsum (map (fun s => snd s j) l)).
  { clear L. unfold weight, weight_sq. induction F as [|s l Hs F (I1 & I2 & I3)]; [repeat split|]. cbn [map Qsum length]. rewrite Nat2Z.inj_succ. unfold Z.succ. rewrite inject_Z_plus, I1, I2, I3, Hs. repeat split; ring. }
  destruct W as (W1 & W2 & W3). assert (Np : 2 <= inject_Z (Z.of_nat (length l))) by (change 2 with (inject_Z 2); rewrite <- Zle_Qle; lia).
  destruct l as [|s [|t l]]; [cbn in L; lia|cbn in L; lia|]. set (l0 := s :: t :: l) in *. split.
  - change (cov_of l0 j k) with (scatter l0 j k / (weight l0 - weight_sq l0 / weight l0)). rewrite W1, W2. apply Qdiv_comp; [reflexivity|]. field. lra.
  - unfold mean_of. unfold l0 at 1. rewrite W3, W1. reflexivity.
Qed.
Print Assumptions C34_batch_partial.
Print Assumptions C34_continue_partial.
Print Assumptions C34_retract_partial.
Print Assumptions C34_unweighted.

(** Three weighted samples in two dimensions, one component constant at first. *)
Definition vv (a b : Q) : nat -> Q := fun i => match i with O => a | _ => b end.
Definition ex_data : list (Q * (nat -> Q)) := [(1, vv 1 2); (2, vv 4 2); (1, vv 3 6)].
Lemma split3 : forall A (a b c : A) p s q, [a; b; c] = p ++ s :: q -> (p = [] /\ s = a) \/ (p = [a] /\ s = b) \/ (p = [a; b] /\ s = c).
Proof.
  intros A a b c [|p1 [|p2 [|p3 p]]] s q E; cbn in E.
  - left. split; congruence.
  - right. left. split; congruence.
  - right. right. split; congruence.
  - exfalso. injection E as _ _ _ E. destruct p; discriminate E.
Qed.
Example C34_instance : separated 2 ex_data /\ mean_of ex_data 0 == 3 /\ cov_of ex_data 0 1 == 0 /\ cov_of ex_data 0 0 == 12 # 5.
Proof.
  split; [|repeat split].
  intros p w x q E. unfold ex_data in E. destruct (split3 _ _ _ _ _ _ _ E) as [(-> & S)|[(-> & S)|(-> & S)]]; injection S as -> ->;
    (split; [reflexivity|]); split; intros [|[|j]] Hj; try lia; vm_compute; auto; try (left; reflexivity); try (right; discriminate); right; reflexivity.
Qed.
(** A difference below the precision is ignored: the mean of 0 and 10^-15 stays 0. *)
Theorem C34_precision_refuted : exists data g, update_all fresh 1 data = Ok g /\ Forall (fun s => 0 < fst s) data /\ ~ g_mean g 0%nat == mean_of data 0.
Proof.
  exists [(1, fun _ => 0); (1, fun _ => 1 # 1000000000000000)]. eexists. split; [reflexivity|]. split; [repeat constructor|]. vm_compute. discriminate.
Qed.
(** Retracting the only sample raises ZeroDivisionError instead of giving an empty distribution. *)
Theorem C34_retract_last_refuted : exists g x, update fresh 1 x 1 = Ok g /\ retract g 1 x 1 = Err ZeroDivisionError.
Proof. eexists. exists (fun _ => 5). split; reflexivity. Qed.
(** After retracting down to one sample, no further sample can be added. *)
Theorem C34_retract_stuck_refuted : exists g g', separated 1 [(1, fun _ => 5); (1, fun _ => 7)] /\ update_all fresh 1 [(1, fun _ => 5); (1, fun _ => 7)] = Ok g /\ retract g 1 (fun _ => 7) 1 = Ok g' /\
  forall x w, update g' 1 x w = Err AttributeError.
Proof.
  eexists. eexists. split; [|split; [reflexivity|split; [reflexivity|reflexivity]]].
  intros [|p1 [|p2 p]] w x q E; cbn in E.
  - injection E as <- <- <-. split; [reflexivity|]. split; intros [|j] Hj; try lia; vm_compute; [right; reflexivity|left; reflexivity].
  - injection E as <- <- <- <-. split; [reflexivity|]. split; intros [|j] Hj; try lia; vm_compute; right; [reflexivity|discriminate].
  - injection E as <- <- E. destruct p; discriminate E.
Qed.
(** Estimating anew keeps the weight of the samples seen before. *)
Theorem C34_estimate_refuted : exists g g', update fresh 1 (fun _ => 5) 1 = Ok g /\ estimate g 1 [(1, fun _ => 8)] = Ok g' /\ ~ g_mean g' 0%nat == mean_of [(1, fun _ => 8)] 0.
Proof. eexists. eexists. split; [reflexivity|]. split; [reflexivity|]. vm_compute. discriminate. Qed.
Print Assumptions C34_precision_refuted.
Print Assumptions C34_retract_last_refuted.
Print Assumptions C34_retract_stuck_refuted.
Print Assumptions C34_estimate_refuted.

(** ** C75: scaling, shifting and adding *)
(** [a * g + c] has mean and covariance of the samples transformed by [a * x + c]. *)
Theorem C75_affine_partial : forall d data g a c, separated d data -> data <> [] -> update_all fresh d data = Ok g ->
  let g' := g_shift c (g_scale a g) in
  (forall j, (j < d)%nat -> g_mean g' j == mean_of (map (fun s => (fst s, fun i => a * snd s i + c)) data) j) /\
  (forall j k, (j < d)%nat -> (k < d)%nat -> g_cov g' j k == cov_of (map (fun s => (fst s, fun i => a * snd s i + c)) data) j k).
Proof.
  intros d data g a c H N E g'. destruct (C34_batch_partial d data H) as (g0 & E0 & (_ & _ & Dm & Dc) & _). rewrite E in E0. injection E0 as <-. pose proof (separated_positive d data H) as P. split.
  - intros j Hj. pose proof (affine_mean a c data j P N) as M. unfold map_data in M. rewrite M. unfold g', g_shift, g_scale. cbn [g_mean]. rewrite (Dm j Hj). ring.
  - intros j k Hj Hk. pose proof (affine_cov a c data j k P) as M. unfold map_data in M. rewrite M. unfold g', g_shift, g_scale. cbn [g_cov]. rewrite (Dc j k Hj Hk). ring.
Qed.
(** Adding distributions adds means and covariances; other dimensions raise. *)
Theorem C75_add : forall g h n m, g_dim g = Some n -> g_dim h = Some m ->
  (n = m -> exists s, g_add g h = Ok s /\ forall j k, g_mean s j == g_mean g j + g_mean h j /\ g_cov s j k == g_cov g j k + g_cov h j k) /\ (n <> m -> g_add g h = Err TypeError).
Proof.
  intros g h n m E1 E2. unfold g_add. rewrite E1, E2. split.
  - intros ->. rewrite Nat.eqb_refl. eexists. split; [reflexivity|]. intros j k. split; reflexivity.
  - intro N. apply Nat.eqb_neq in N. rewrite N. reflexivity.
Qed.
(** The result has forgotten the weight of the samples: the next sample replaces the mean. *)
Theorem C75_update_after_refuted : exists data, match update_all fresh 1 data with
  | Ok g => match update (g_shift 1 g) 1 (fun _ => 10) 1 with
      | Ok g' => g_mean g 0%nat == 2 /\ g_mean g' 0%nat == 10 /\ ~ g_mean g' 0%nat == mean_of (map (fun s => (fst s, fun i => snd s i + 1)) data ++ [(1, fun _ => 10)]) 0
      | Err _ => False
      end
  | Err _ => False
  end.
Proof. exists [(1, fun _ => 1); (1, fun _ => 3)]. vm_compute. repeat split; discriminate. Qed.
Print Assumptions C75_affine_partial.
Print Assumptions C75_add.
Print Assumptions C75_update_after_refuted.

(** ** C76: linear regression *)
(** For samples whose variances exceed 10^-8, [linreg] returns the line with the smallest weighted
    sum of squared residuals, that sum in units of the covariance, and the share of the variance
    explained. *)
Theorem C76_linreg_partial : forall data g, separated 2 data -> (2 <= length data)%nat -> update_all fresh 2 data = Ok g ->
  eps8 < cov_of data 0 0 -> eps8 < cov_of data 1 1 ->
  exists m b rss noise, linreg g = Ok (Some (m, b, rss, noise)) /\
    (forall m' b', residuals data m b <= residuals data m' b') /\
    rss * (weight data - weight_sq data / weight data) == residuals data m b /\
    noise == 1 - residuals data m b / residuals data 0 (mean_of data 1).
Proof.
  intros data g H L E V0 V1. destruct (update_all_describes 2 data [] fresh H (fresh_describes 2) (or_intror (conj eq_refl eq_refl)) eq_refl) as (g0 & E0 & (_ & _ & Dm & Dc) & Ll & Gd & Nn). rewrite E in E0. injection E0 as <-. cbn [app] in *.
  pose proof (separated_positive 2 data H) as P. assert (N : data <> []) by (intro Z; rewrite Z in L; cbn in L; lia).
  pose proof (Dm 0%nat ltac:(lia)) as M0. pose proof (Dm 1%nat ltac:(lia)) as M1. pose proof (Dc 0%nat 0%nat ltac:(lia) ltac:(lia)) as C0. pose proof (Dc 1%nat 1%nat ltac:(lia) ltac:(lia)) as C1. pose proof (Dc 0%nat 1%nat ltac:(lia) ltac:(lia)) as C01.
  assert (Ep : 0 < eps8) by reflexivity.
  unfold linreg. rewrite (Gd N), Nn, Ll. destruct (Nat.ltb_spec (g_n fresh + length data) 2) as [X|_]; [cbn in X; lia|]. cbv zeta.
  destruct (Qeqb_spec (g_cov g 0%nat 0%nat) 0) as [Z|_]; [rewrite C0 in Z; lra|].
  assert (A0 : Qltb eps8 (Qabs (g_cov g 0%nat 0%nat)) = true). { unfold Qltb. destruct (Qltb_spec eps8 (Qabs (g_cov g 0%nat 0%nat))) as [_|X]; [reflexivity|]. exfalso. apply X. rewrite Qabs_pos; rewrite C0; lra. }
  assert (A1 : Qltb eps8 (Qabs (g_cov g 1%nat 1%nat)) = true). { unfold Qltb. destruct (Qltb_spec eps8 (Qabs (g_cov g 1%nat 1%nat))) as [_|X]; [reflexivity|]. exfalso. apply X. rewrite Qabs_pos; rewrite C1; lra. }
  rewrite A0, A1. cbn [andb]. destruct (Qeqb_spec (g_cov g 1%nat 1%nat) 0) as [Z|_]; [rewrite C1 in Z; lra|].
  (* the scatter *)
  set (D := weight data - weight_sq data / weight data). destruct (many data) as [Z|[(s & Z)|(s & t & l' & Ed)]]; [contradiction|rewrite Z in L; cbn in L; lia|].
  assert (DP : 0 < D). { unfold D. pose proof (weight_pos data P N). assert (weight_sq data / weight data < weight data) by (apply Qlt_shift_div_r; [lra|]; rewrite Ed; apply sq_lt; rewrite <- Ed; exact P). lra. }
  assert (Cs : forall j k, cov_of data j k * D == scatter data j k). { intros j k. assert (Eq : cov_of data j k = scatter data j k / D) by (unfold D; rewrite Ed; reflexivity). rewrite Eq. field. lra. }
  pose proof (Cs 0%nat 0%nat) as S0. pose proof (Cs 1%nat 1%nat) as S1. pose proof (Cs 0%nat 1%nat) as S01.
  set (c0 := g_cov g 0%nat 0%nat) in *. set (c1 := g_cov g 1%nat 1%nat) in *. set (c := g_cov g 0%nat 1%nat) in *. rewrite <- C0 in S0, V0. rewrite <- C1 in S1, V1. rewrite <- C01 in S01.
  do 4 eexists. split; [reflexivity|].
  assert (Rm : residuals data (c / c0) (g_mean g 1%nat - c / c0 * g_mean g 0%nat) == c1 * (1 - c * c / (c0 * c1)) * D).
  { rewrite (residuals_split data _ _ P), <- S0, <- S1, <- S01, M0, M1. field. split; lra. }
  split; [|split].
  - intros m' b'. apply line_best; [exact P|rewrite <- S0; nra|rewrite <- S0, <- S01; field; lra|rewrite M0, M1; reflexivity].
  - rewrite Rm. reflexivity.
  - assert (R0 : residuals data 0 (mean_of data 1) == c1 * D) by (rewrite (residuals_split data 0 (mean_of data 1) P), <- S0, <- S1, <- S01; ring).
    rewrite Rm, R0. field. repeat split; lra.
Qed.
(** Fewer than two samples or another dimension raise ValueError. *)
Theorem C76_errors : forall g, (g_dim g <> Some 2%nat \/ (g_n g < 2)%nat) -> linreg g = Err ValueError.
Proof.
  intros g H. unfold linreg. destruct (g_dim g) as [[|[|[|n]]]|]; try reflexivity. destruct H as [H|H]; [contradiction|]. destruct (Nat.ltb_spec (g_n g) 2); [reflexivity|lia].
Qed.
Print Assumptions C76_linreg_partial.
Print Assumptions C76_errors.
Example C76_instance : separated 2 ex_data /\ eps8 < cov_of ex_data 0 0 /\ eps8 < cov_of ex_data 1 1.
Proof. split; [apply C34_instance|]. split; reflexivity. Qed.
(** With a variance below 10^-8 a perfect fit is reported. *)
Theorem C76_small_refuted : exists data, match update_all fresh 2 data with
  | Ok g => match linreg g with Ok (Some (m, b, rss, noise)) => rss == 0 /\ noise == 1 /\ ~ residuals data m b == 0 | _ => False end
  | Err _ => False
  end.
Proof.
  exists [(1, vv 0 0); (1, vv 1 (1 # 100000)); (1, vv 2 0)]. vm_compute. repeat split; discriminate.
Qed.
Print Assumptions C76_small_refuted.
