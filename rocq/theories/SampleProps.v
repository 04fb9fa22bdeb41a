(** Sampling numeric distributions. *)
Require Import ZArith QArith Qabs Qminmax Lqa Bool List Arith Lia Sorted.
Require Import Verif.Base Verif.FloatLine Verif.FloatVal Verif.IntervalModel Verif.IntervalSpec Verif.IntervalProofs Verif.IntervalDec
  Verif.NumBase Verif.UtilModel Verif.FunctionModel Verif.FunctionSpec
  Verif.FunctionProofs Verif.FunctionPlf Verif.NumericModel Verif.NumericSpec Verif.NumericFit Verif.NumericProb
  Verif.NumericMix Verif.NumericClose Verif.NumericExample Verif.NumericProps Verif.NumericProps4 Verif.NumericMoment Verif.MomentProps Verif.ModeProps.
Import ListNotations.
Open Scope Q_scope.

(** * C58, numeric part *)

Lemma chances_spec : forall p, spread_cdf p -> exists ps, piece_chances p = Ok ps /\ Forall2 (fun s q => q == rise s * (fin s - beg s)) (middle p) ps.
Proof.
  intros p Sp. unfold piece_chances. apply mapM_forall2. intros [i f] I.
  assert (Ip : In (i, f) p).
  { destruct (spread_split p Sp) as (a & q & b & v & E & _). rewrite E in *. rewrite middle_spec in I. right. apply in_or_app. left. exact I. }
  pose proof (sp_affine p Sp) as A. unfold affines in A. rewrite Forall_forall in A. specialize (A _ Ip). cbn [snd fst] in *.
  destruct f as [|v|m c|]; cbn in A; try contradiction; cbn [eval_num fn_eval bind]; unfold eval_num; cbn [fn_eval bind]; eexists; (split; [reflexivity|]);
    unfold rise, fin, beg; cbn [snd fst steepness]; ring.
Qed.
Lemma chances_sum : forall l qs, Forall2 (fun (s : cs * fn) q => q == rise s * (fin s - beg s)) l qs -> Qsum qs == Qsum (map (fun s => rise s * (fin s - beg s)) l).
Proof. intros l qs H. induction H as [|s q l qs E H I]; [reflexivity|]. cbn [map Qsum]. rewrite E, I. reflexivity. Qed.

(** The chances sum to 1 plus the mass beyond the point where the cdf reaches 1. *)
Lemma chances_total : forall p hi ps, spread_cdf p -> climbs_to p hi -> piece_chances p = Ok ps -> Qsum ps == 1 + excess p (dval hi).
Proof.
  intros p hi ps Sp Ct E. destruct (chances_spec p Sp) as (qs & E' & F). rewrite E in E'. injection E' as <-. rewrite (chances_sum _ _ F).
  destruct (ct_one p hi Ct) as [Fh One]. pose proof (spread_rep p hi Sp Ct (dval hi) 1 (cdf_double p hi 1 Sp Fh One) (Qle_refl _)) as Mass.
  assert (All : Qsum (map (fun s => rise s * (fin s - beg s)) (middle p)) == Qsum (map (fun s => rise s * (fin s - beg s)) p)).
  { destruct (spread_split p Sp) as (a & q & b & v & Ep & _). rewrite Ep, middle_spec.
    set (g := fun s : cs * fn => rise s * (fin s - beg s)). cbn [map]. rewrite map_app. cbn [map].
    assert (Ga : g (a, FConst 0) == 0) by (unfold g, rise; cbn [snd steepness]; ring). assert (Gb : g (b, FConst v) == 0) by (unfold g, rise; cbn [snd steepness]; ring).
    cbn [Qsum]. rewrite Qsum_app. cbn [Qsum]. rewrite Ga, Gb. ring. }
  rewrite All, Mass. unfold massto, excess. rewrite <- Qsum_map_plus. apply Qsum_map_ext. intros [i f] I. cbn [fst snd]. fold (rise (i, f)).
  destruct f as [|v|m c|]; unfold rise; cbn [snd steepness]; try ring. pose proof (ct_rising p hi Ct i m c I) as L. apply dval_lt in L.
  pose proof (spread_order p Sp) as [O _]. pose proof (O _ I) as Oi. unfold upto. unfold beg, fin in *. cbn [fst] in *.
  destruct (Qlt_le_dec (dval hi) (dval (upper i))) as [G|G].
  - rewrite clip_mid by lra. rewrite Q.max_r by lra. ring.
  - rewrite clip_high by lra. rewrite Q.max_l by lra. ring.
Qed.

(** Whatever the random source does: a sample has positive density, the chance to draw
    from a piece is its share of the probability, and nothing is refused, as long as the
    mass beyond the largest sample is at most 2^-26.  [draw] yields members of intervals
    (C58_interval_sample), [choose] only indices of positive chance.
    Missing: cdfs with jumps, for which the sampling fails (C58_numeric_jump_refuted). *)
Theorem C58_numeric_partial : forall p hi draw choose, spread_cdf p -> climbs_to p hi -> excess p (dval hi) <= 1 # 67108864 ->
  (forall i x, cs_mem x i -> cs_mem (draw i) i) ->
  exists ps, piece_chances p = Ok ps /\ Forall (fun q => 0 <= q) ps /\ Qsum ps == 1 + excess p (dval hi) /\
    (forall k i f q, nth_error (middle p) k = Some (i, f) -> nth_error ps k = Some q -> q == height f (dval (upper i)) - height f (dval (lower i))) /\
    ((exists q, nth_error ps choose = Some q /\ 0 < q) -> exists x, sample_cdf choose draw p = Ok x /\ finite x /\ 0 < density p x).
Proof.
  intros p hi draw choose Sp Ct Ex Dr. destruct (chances_spec p Sp) as (ps & E & F). exists ps. split; [exact E|].
  pose proof (chances_total p hi ps Sp Ct E) as Tot. destruct (spread_order p Sp) as [O U].
  assert (Mid : forall s, In s (middle p) -> In s p).
  { intros s I. destruct (spread_split p Sp) as (a & q & b & v & Ep & _). rewrite Ep in *. rewrite middle_spec in I. right. apply in_or_app. left. exact I. }
  assert (Pos : Forall (fun q => 0 <= q) ps).
  { apply Forall_forall. intros q Q. destruct (Forall2_in_r' _ _ _ _ _ F q Q) as (s & I & ->). pose proof (O s (Mid s I)). apply Qmult_le_0_compat; [apply U, Mid, I|lra]. }
  assert (Nth : forall k q, nth_error ps k = Some q -> exists s, nth_error (middle p) k = Some s /\ q == rise s * (fin s - beg s)).
  { clear - F. induction F as [|s q l ps Eq F I]; intros [|k] r H; try discriminate; cbn [nth_error] in *; [injection H as <-; exists s; split; [reflexivity|exact Eq]|exact (I k r H)]. }
  split; [exact Pos|]. split; [exact Tot|]. split.
  - intros k i f q Nk Nq. destruct (Nth k q Nq) as (s & Ns & ->). rewrite Nk in Ns. injection Ns as <-. unfold rise, fin, beg. cbn [fst snd]. unfold height. ring.
  - intros (q & Nq & Pq). destruct (Nth choose q Nq) as ([i f] & Ns & Eq). exists (draw i).
    assert (Ip : In (i, f) p) by (apply Mid; exact (nth_error_In _ _ Ns)).
    assert (Up : 0 < steepness f).
    { rewrite Eq in Pq. unfold rise in Pq. cbn [snd] in Pq. pose proof (O _ Ip) as Oi. specialize (U _ Ip). unfold rise in U. cbn [snd] in U.
      destruct (Qlt_le_dec 0 (steepness f)) as [L|L]; [exact L|]. exfalso. assert (Z : steepness f == 0) by lra. rewrite Z in Pq. lra. }
    assert (Cl : climbs (i, f) = true) by (destruct f; cbn [steepness] in Up; try reflexivity; exfalso; lra).
    destruct (piece_point p i f Sp Ip Cl) as (x0 & X0). pose proof (Dr i x0 X0) as Mx. split.
    + assert (S : sample_cdf choose draw p = do ps <- piece_chances p;
        if negb (forallb (fun p => Qle_bool 0 p) ps) || Qltb (1 # 67108864) (Qabs (Qsum ps - 1)) then Err ValueError
        else match nth_error (middle p) choose with None => Err IndexError | Some s => Ok (draw (fst s)) end).
      { pose proof (sp_len p Sp) as L. destruct p as [|[a1 a2] [|b [|c p]]]; cbn in L; try lia. reflexivity. }
      rewrite S, E. cbn [bind].
      assert (B1 : forallb (fun p => Qle_bool 0 p) ps = true) by (apply forallb_forall; intros y Y; apply Qle_bool_iff; rewrite Forall_forall in Pos; apply Pos, Y).
      assert (B2 : Qltb (1 # 67108864) (Qabs (Qsum ps - 1)) = false).
      { unfold Qltb. apply negb_false_iff. apply Qle_bool_iff. rewrite Tot.
        assert (Ez : 1 + excess p (dval hi) - 1 == excess p (dval hi)) by ring. rewrite Ez. rewrite Qabs_pos; [exact Ex|].
        unfold excess. apply Qsum_nonneg. apply Forall_forall. intros y Y. apply in_map_iff in Y. destruct Y as (s & <- & Is). apply Qmult_le_0_compat; [apply (U s Is)|apply Q.le_max_l]. }
      rewrite B1, B2. cbn [negb orb]. rewrite Ns. reflexivity.
    + pose proof (density_piece p i f _ Sp Ip Mx) as D. split; [|rewrite D; exact Up]. exact (proj1 (proj1 (chain_piece _ _ _ _ _ (sp_chain p Sp) Ip _) Mx)).
Qed.
Print Assumptions C58_numeric_partial.

(** A single value is drawn always. *)
Theorem C58_numeric_point : forall x choose draw, sample_cdf choose draw (dirac x) = Ok x.
Proof. reflexivity. Qed.
Print Assumptions C58_numeric_point.

(** Samples 1, 1, 2: the chances sum to 1/3 and the random source refuses them, whatever is chosen. *)
Theorem C58_numeric_jump_refuted : exists p, fit_cdf (1 # 100) None None [ONE; ONE; TWO] = Ok p /\ forall choose draw, sample_cdf choose draw p = Err ValueError.
Proof.
  eexists. split; [vm_compute; reflexivity|]. intros choose draw. unfold sample_cdf.
  match goal with |- context [piece_chances ?p] => let ps := eval vm_compute in (piece_chances p) in assert (E : piece_chances p = ps) by (vm_compute; reflexivity); rewrite E; clear E end.
  cbn [bind]. match goal with |- (if ?b then _ else _) = _ => replace b with true by (vm_compute; reflexivity) end. reflexivity.
Qed.
Print Assumptions C58_numeric_jump_refuted.
(** Two samples with one double between them: the chances sum to 3/2. *)
Theorem C58_numeric_close_refuted : exists p, fit_cdf (1 # 100) None None [ONE; ONE + 2]%Z = Ok p /\ forall choose draw, sample_cdf choose draw p = Err ValueError.
Proof.
  eexists. split; [vm_compute; reflexivity|]. intros choose draw. unfold sample_cdf.
  match goal with |- context [piece_chances ?p] => let ps := eval vm_compute in (piece_chances p) in assert (E : piece_chances p = ps) by (vm_compute; reflexivity); rewrite E; clear E end.
  cbn [bind]. match goal with |- (if ?b then _ else _) = _ => replace b with true by (vm_compute; reflexivity) end. reflexivity.
Qed.
Print Assumptions C58_numeric_close_refuted.

(** Hypotheses: the uniform distribution on [0, 1). *)
Example C58_example_numeric : spread_cdf unit_cdf /\ climbs_to unit_cdf ONE /\ excess unit_cdf (dval ONE) <= 1 # 67108864 /\
  (exists draw, forall i x, cs_mem x i -> cs_mem (draw i) i).
Proof.
  destruct C26_example as (A & B & _). split; [exact A|]. split; [exact B|]. split.
  - rewrite (no_excess _ _ A unit_tiling B). vm_compute. discriminate.
  - exists (fun i => Z.max (1 - ORD_INF) match left i with INC => lower i | EXC => lower i + 1 end)%Z. intros i x (F & L & R). unfold cs_mem, finite in *. destruct (left i), (right i); lia.
Qed.
