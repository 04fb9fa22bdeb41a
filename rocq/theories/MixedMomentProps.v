(** C42 for trees with numeric variables: expectations and moments. *)
Require Import ZArith QArith Qabs Qminmax Qpower Qfield Lqa Bool List Arith Lia.
Require Import Verif.Base Verif.FloatLine Verif.FloatVal Verif.NumBase Verif.UtilModel Verif.UtilProofs Verif.IntervalModel Verif.IntervalSpec Verif.IntervalProofs Verif.IntervalExact Verif.IntervalDec Verif.RealSetOps Verif.DiscreteModel Verif.DiscreteProofs Verif.DiscreteProofs2
  Verif.FunctionModel Verif.FunctionSpec Verif.NumericModel Verif.NumericSpec Verif.NumericReg Verif.NumericFit Verif.NumericProb Verif.NumericClose Verif.NumericProps Verif.NumericProps2 Verif.NumericCut Verif.NumericCrop Verif.NumericCropSpec Verif.NumericProps3 Verif.FunctionPlf Verif.NumericExample
  Verif.NumericMoment Verif.MomentProps
  Verif.TreeModel Verif.TreeSpec Verif.TreeApply Verif.TreeInfer Verif.TreePosterior Verif.TreeDiscrete Verif.TreeWorlds Verif.TreeWorldProofs Verif.TreeWorldMore Verif.NumericTree Verif.MixedTree Verif.MixedProps Verif.EffectProps Verif.MixedPosterior
  Verif.MixedPosteriorProps Verif.MixedMoment.
Import ListNotations.
Open Scope Q_scope.

(** ** Specification *)

(** The moment of order [n] around [c] of variable [v] given [e]: for a numeric variable
    the average of the moments in the leaves, for an integer variable the sum over its
    values of the power times the conditional probability. *)
Definition moment_given (kinds : list kind) (J : mtree) (pr : mdist -> mset -> Q) (e : list (var * mset)) (n : nat) (c : Q) (v : var) (r : Q) : Prop :=
  match nth v kinds None with
  | None => exists f, (forall l p, In l (leaves J) -> nth_error (l_dists l) v = Some (inl p) -> moment_is p n c (f l)) /\ r == average pr J e f
  | Some (IntDom lo hi) => r == Qsum (map (fun k => (inject_Z (lo + Z.of_nat k) - c) ^ Z.of_nat n * (weight pr J ((v, inr [k]) :: e) / weight pr J e)) (seq 0 (Z.to_nat (hi - lo + 1))))
  | Some (SymDom _) => False
  end.
(** The expectation: the first moment around 0, for symbolic variables the set of the most
    probable values. *)
Definition expected (kinds : list kind) (J : mtree) (pr : mdist -> mset -> Q) (e : list (var * mset)) (v : var) (r : Q + mset) : Prop :=
  match nth v kinds None, r with
  | Some (SymDom ls), inr (inr s) => s <> [] /\ forall a, In a s <-> (a < length ls)%nat /\ forall b, (b < length ls)%nat -> weight pr J ((v, inr [b]) :: e) <= weight pr J ((v, inr [a]) :: e)
  | _, inl x => moment_given kinds J pr e 1 0 v x
  | _, _ => False
  end.

(** ** Proofs *)

Lemma mix_combine : forall (ls : list (leaf (mixed numeric discrete))) f ws, length ls = length ws -> NumericSpec.mixture ws (map f ls) == Qsum (map (fun lw => snd lw * f (fst lw)) (combine ls ws)).
Proof.
  intros ls f. unfold NumericSpec.mixture. induction ls as [|l ls IH]; intros [|w ws] L; cbn in L; try discriminate; cbn [map combine Qsum fst snd]; [reflexivity|]. rewrite IH by lia. reflexivity.
Qed.

Section Moments.
  Variable kinds : list kind.
  Variable G : var -> grid.
  Variable J : mtree.
  Hypothesis W : wf_mixed kinds G J.
  Variable pr : mdist -> mset -> Q.
  Variable L : @measured (mixed numeric discrete) (full J).
  Hypothesis Rd : readied kinds G J pr L.
  Variable e : list (var * mset).
  Hypothesis We : wf_mquery kinds G e.
  Hypothesis Np : forall l v c, In l (leaves J) -> In (v, inl (NC c)) e -> ~ pinned l v c.
  Variable vs : list var.
  Hypothesis Hv : forall v, In v vs -> (v < length kinds)%nat /\ ~ In v (map fst e).
  Hypothesis Cn : forall v l p, In v vs -> In l (leaves J) -> nth_error (l_dists l) v = Some (inl p) -> spread_cdf p /\ tiling p.
  Hypothesis Sep : forall v, In v vs -> spaced (fun p => exists l, In l (leaves J) /\ nth_error (l_dists l) v = Some (inl p)).
  Hypothesis Gr : forall v x, In v vs -> nth v kinds None = None -> finite x -> average pr J e (fun l => slope_of l v x) == 0 \/ 1 # 100000000 < average pr J e (fun l => slope_of l v x).

  Lemma unasked_dist : forall l v d, In v vs -> nth_error (l_dists l) v = Some d -> leaf_posterior J l e v = Ok d.
  Proof.
    intros l v d Iv Hd. unfold leaf_posterior, leaf_dist. rewrite Hd. cbn [bind].
    assert (En : @lookup (vset (mixed numeric discrete)) e v = None) by (apply lookup_none; apply (Hv v Iv)). rewrite En. reflexivity.
  Qed.
  Lemma some_dist : forall l v, In v vs -> In l (leaves J) -> exists d, nth_error (l_dists l) v = Some d /\ fits (G v) (nth v kinds None) d.
  Proof.
    intros l v Iv Il. destruct (nth_error (l_dists l) v) as [d|] eqn:E; [exists d; split; [reflexivity|exact (mx_dists _ _ _ W l v d Il E)]|].
    apply nth_error_None in E. rewrite (mx_len _ _ _ W l Il) in E. pose proof (proj1 (Hv v Iv)). lia.
  Qed.
  Definition mom (n : nat) (c : Q) (v : var) (l : leaf (mixed numeric discrete)) : Q :=
    match nth_error (l_dists l) v with Some (inl p) => match moment_of p n c with Ok M => M | Err _ => 0 end | _ => 0 end.
  Lemma mom_is : forall n c v l p, In v vs -> In l (leaves J) -> nth_error (l_dists l) v = Some (inl p) -> moment_is p n c (mom n c v l).
  Proof.
    intros n c v l p Iv Il Hd. destruct (Cn v l p Iv Il Hd) as [Sp Tp]. unfold mom. rewrite Hd.
    destruct (moment_exact p n c Sp Tp) as (M & -> & _ & H & _); [|exact H]. apply (spaced_wide _ p Sp (Sep v Iv)). exists l. auto.
  Qed.

  (** What the merged distributions of the answer offer. *)
  Lemma answer_moment : forall v d, In v vs -> answer kinds J pr L e v d ->
    (forall n c, match nth v kinds None with Some (SymDom _) => True | _ => exists r, d_moment (mixed numeric discrete) n c d = Ok r /\ moment_given kinds J pr e n c v r end) /\
    (~ weight pr J e == 0 -> exists x, d_expectation (mixed numeric discrete) d = Ok x /\ expected kinds J pr e v x).
  Proof.
    intros v d Iv A. unfold answer in A. destruct (nth v kinds None) as [Dm|] eqn:K.
    - destruct A as (d' & -> & Od & Vd).
      assert (Px : forall x, (x < n_values Dm)%nat -> nth x (d_params d') 0 == weight pr J ((v, inr [x]) :: e) / weight pr J e).
      { intros x Lx. rewrite <- (Vd [x]) by (intros y [<-|[]]; exact Lx). symmetry. apply pm_single. destruct Od as (_ & -> & _). exact Lx. }
      assert (Mg : forall lo hi n c, Dm = IntDom lo hi -> int_moment (IDist lo hi (d_params d')) n c ==
        Qsum (map (fun k => (inject_Z (lo + Z.of_nat k) - c) ^ Z.of_nat n * (weight pr J ((v, inr [k]) :: e) / weight pr J e)) (seq 0 (Z.to_nat (hi - lo + 1))))).
      { intros lo hi n c ->. pose proof Od as (Ed & Len & _). cbn [n_values] in *.
        pose proof (iexp_values lo hi (d_params d') (fun z => Qpower (inject_Z z - c) (Z.of_nat n)) Len) as X. unfold iexp in X. unfold int_moment. rewrite X.
        apply Qsum_map_ext. intros k Ik. apply in_seq in Ik. rewrite (Px k) by lia. reflexivity. }
      pose proof Od as (Ed & Len & Pp). split.
      + intros n c. destruct Dm as [ls|lo hi] eqn:ED; [exact I|]. exists (int_moment (IDist lo hi (d_params d')) n c). split; [cbn [d_moment mixed discrete on]; unfold dd_moment; rewrite Ed; reflexivity|].
        unfold moment_given. rewrite K. apply Mg. reflexivity.
      + intro NZ. unfold expected, moment_given. rewrite K. destruct Dm as [ls|lo hi] eqn:ED.
        * destruct (mpe_spec (d_params d') Pp) as (S0 & p & Em & _ & Hs & _ & Ne). exists (inr (inr S0)). split.
          { cbn [d_expectation mixed discrete on]. unfold dd_expectation. rewrite Ed, Em. reflexivity. }
          split; [exact Ne|]. cbn [n_values] in Len, Px.
          assert (Pos : 0 < weight pr J e).
          { rewrite (rd_weight _ _ _ _ _ Rd e) in NZ |- *. pose proof (mixture_nonneg J L (rd_proper _ _ _ _ _ Rd) (rd_support _ _ _ _ _ Rd) e (rd_event _ _ _ _ _ Rd e We)). lra. }
          intro a. rewrite Hs. split.
          -- intros (q & Eq & Mx). assert (La : (a < length ls)%nat) by (rewrite <- Len; apply nth_error_Some; congruence). split; [exact La|]. intros b Lb.
             assert (Le : nth b (d_params d') 0 <= nth a (d_params d') 0). { rewrite (nth_error_nth _ _ 0 Eq). apply (Mx b). apply nth_param. lia. }
             rewrite (Px a La), (Px b Lb) in Le. unfold Qdiv in Le. apply Qmult_lt_0_le_reg_r in Le; [exact Le|]. apply Qinv_lt_0_compat, Pos.
          -- intros [La Mx]. exists (nth a (d_params d') 0). split; [apply nth_param; lia|]. intros b q Eb. assert (Lb : (b < length ls)%nat) by (rewrite <- Len; apply nth_error_Some; congruence).
             rewrite <- (nth_error_nth _ _ 0 Eb). rewrite (Px a La), (Px b Lb). unfold Qdiv. apply Qmult_le_compat_r; [apply Mx, Lb|]. apply Qlt_le_weak, Qinv_lt_0_compat, Pos.
        * exists (inl (int_expectation (IDist lo hi (d_params d')))). split; [cbn [d_expectation mixed discrete on]; unfold dd_expectation; rewrite Ed; reflexivity|].
          rewrite <- (Mg lo hi 1%nat 0 eq_refl). eapply Qeq_trans; [apply int_expectation_iexp|]. unfold iexp, int_moment. apply Qsum_map_ext. intros [k y] _. cbn [fst snd].
          apply Qmult_comp; [|reflexivity]. transitivity (inject_Z k - 0); [ring|reflexivity].
    - destruct A as (q & la & -> & _ & _ & _ & _ & _ & ls & ps & ws & Lp & Fp & Lw & Wn & W1 & Gd & Em & Av).
      assert (Hp : Forall2 (fun (l : leaf (mixed numeric discrete)) (p : plf) => nth_error (l_dists l) v = Some (inl p)) ls ps).
      { clear - Fp Lp Iv W Hv. induction Fp as [|l p ls ps E _ IH]; constructor; [|apply IH; intros; apply Lp; right; assumption].
        destruct (Lp l (or_introl eq_refl)) as [Il _]. destruct (some_dist l v Iv Il) as (d & Hd & _). rewrite (unasked_dist l v d Iv Hd) in E. injection E as ->. exact Hd. }
      assert (Ds : Forall (fun p => spread_cdf p /\ tiling p) ps).
      { clear - Hp Lp Cn Iv. induction Hp as [|l p ls ps E _ IH]; constructor; [exact (Cn v l p Iv (proj1 (Lp l (or_introl eq_refl))) E)|apply IH; intros; apply Lp; right; assumption]. }
      assert (Sp : spaced (fun p => In p ps)).
      { assert (In2 : forall p, In p ps -> exists l, In l (leaves J) /\ nth_error (l_dists l) v = Some (inl p)).
        { clear - Hp Lp. induction Hp as [|l p ls ps E _ IH]; intros p' []; [subst p'; exists l; split; [apply Lp; left; reflexivity|exact E]|apply IH; [intros; apply Lp; right; assumption|assumption]]. }
        intros p p' x y I1 I2. apply (Sep v Iv p p' x y); auto. }
      assert (Mo : forall n c, exists r, moment_of q n c = Ok r /\ moment_given kinds J pr e n c v r).
      { intros n c. destruct (moment_merge ps ws n c Lw Ds Wn W1 Gd Sp) as (q' & M & Em' & _ & _ & _ & EM & V). rewrite Em in Em'. injection Em' as <-.
        exists M. split; [exact EM|]. unfold moment_given. rewrite K. exists (mom n c v). split; [intros l p Il Hd; exact (mom_is n c v l p Iv Il Hd)|].
        rewrite (V (map (mom n c v) ls)).
        - rewrite mix_combine by (rewrite (Forall2_len _ _ _ _ _ Fp); exact Lw). apply Av.
        - clear - Hp Lp Cn Sep Iv. induction Hp as [|l p ls ps E _ IH]; constructor; [exact (mom_is n c v l p Iv (proj1 (Lp l (or_introl eq_refl))) E)|apply IH; intros; apply Lp; right; assumption]. }
      split.
      + intros n c. destruct (Mo n c) as (r & E & H). exists r. split; [exact E|exact H].
      + intros _. destruct (Mo 1%nat 0) as (r & E & H). exists (inl r). split; [cbn [d_expectation mixed numeric on]; unfold expectation_of; rewrite E; reflexivity|].
        unfold expected. rewrite K. exact H.
  Qed.

  Lemma posterior_moments : forall fail,
    (weight pr J e == 0 -> posterior J vs e fail = if fail then Err Unsatisfiability else Ok None) /\
    (~ weight pr J e == 0 -> exists ds, posterior J vs e fail = Ok (Some (combine vs ds)) /\ Forall2 (fun v d => In v vs /\ answer kinds J pr L e v d) vs ds).
  Proof.
    intro fail. destruct (posterior_core kinds G J W pr L Rd e We Np vs (fun v l x => slope_of l v x)) with (fail := fail) as [A B].
    - intros v Iv. apply (Hv v Iv).
    - intros v l Iv K Il _. destruct (some_dist l v Iv Il) as (d & Hd & Fd). rewrite K in Fd. destruct d as [p|d]; [|destruct Fd]. exists p. split; [exact (unasked_dist l v _ Iv Hd)|].
      split; [right; apply (Cn v l p Iv Il Hd)|]. intros x _. unfold slope_of. rewrite Hd. reflexivity.
    - exact Gr.
    - intros v Iv _. apply (Hv v Iv).
    - split; [exact A|]. intro N. destruct (B N) as (ds & E & F2). exists ds. split; [exact E|].
      clear - F2. assert (G0 : forall us, (forall v, In v us -> In v vs) -> forall ds, Forall2 (answer kinds J pr L e) us ds -> Forall2 (fun v d => In v vs /\ answer kinds J pr L e v d) us ds).
      { intros us I ds0 H. induction H; constructor; [split; [apply I; left; reflexivity|assumption]|apply IHForall2; intros; apply I; right; assumption]. }
      apply G0; [auto|exact F2].
  Qed.
End Moments.

(** ** C42 *)

(** [expectation] and [moment] of variables without evidence, in trees with numeric
    variables whose leaf distributions are continuous.  [pr] is the probability of
    [mass].
    Missing: distributions with points or jumps, where the answer is wrong
    (C42_points_refuted, C79_jump_refuted), variables with evidence, ends of pieces that
    are neighbouring doubles (C79_neighbours_refuted). *)
Theorem C42_mixed_partial : forall kinds G (J : mtree), wf_mixed kinds G J ->
  exists pr : mdist -> mset -> Q,
    (forall v d s, fits (G v) (nth v kinds None) d -> suits (G v) (nth v kinds None) s -> mass d s (pr d s)) /\
    forall v0 vs0 e fail, let vs := v0 :: vs0 in wf_mquery kinds G e -> (forall v, In v vs -> (v < length kinds)%nat /\ ~ In v (map fst e)) ->
      (* no evidence and path leave a single number *)
      (forall l v c, In l (leaves J) -> In (v, inl (NC c)) e -> ~ pinned l v c) ->
      (* the numeric distributions asked for are continuous *)
      (forall v l p, In v vs -> In l (leaves J) -> nth_error (l_dists l) v = Some (inl p) -> spread_cdf p /\ tiling p) ->
      (* the ends of their pieces are no neighbouring doubles *)
      (forall v, In v vs -> spaced (fun p => exists l, In l (leaves J) /\ nth_error (l_dists l) v = Some (inl p))) ->
      (* the density of the posterior is 0 or above 1e-8 *)
      (forall v x, In v vs -> nth v kinds None = None -> finite x -> average pr J e (fun l => slope_of l v x) == 0 \/ 1 # 100000000 < average pr J e (fun l => slope_of l v x)) ->
      (weight pr J e == 0 -> expectation J (Some vs) e fail = (if fail then Err Unsatisfiability else Ok None) /\
         forall n center, moment J vs n center e fail = if fail then Err Unsatisfiability else Ok None) /\
      (~ weight pr J e == 0 ->
         (exists r, expectation J (Some vs) e fail = Ok (Some r) /\ Forall2 (fun v vr => fst vr = v /\ expected kinds J pr e v (snd vr)) vs r) /\
         forall n center, (forall v ls, In v vs -> nth v kinds None <> Some (SymDom ls)) ->
           exists r, moment J vs n center e fail = Ok (Some r) /\
             Forall2 (fun v vr => fst vr = v /\ moment_given kinds J pr e n (match lookup center v with Some c => c | None => 0 end) v (snd vr)) vs r).
Proof.
  intros kinds G J W. destruct (ready kinds G J W) as (pr & L & Rd & Ms). exists pr. split; [exact Ms|]. intros v0 vs0 e fail vs We Hv Np Cn Sep Gr.
  destruct (posterior_moments kinds G J W pr L Rd e We Np vs Hv Cn Gr fail) as [A B].
  unfold expectation, moment. change (expectation_vars J (Some vs) e) with vs. split.
  - intro Z. rewrite (A Z). destruct fail; cbn [bind]; auto.
  - intro N. destruct (B N) as (ds & E & F2). rewrite E. cbn [bind]. split.
    + destruct (mapM_combine _ _ _ (fun vd : var * mdist => do x <- d_expectation (mixed numeric discrete) (snd vd); Ok (fst vd, x)) (fun v (vr : var * (Q + mset)) => fst vr = v /\ expected kinds J pr e v (snd vr)) vs ds) as (r & Er & Fr).
      { refine (Forall2_impl _ _ _ _ _ _ _ F2). intros v d _ [Iv H]. destruct (answer_moment kinds G J W pr L Rd e We vs Hv Cn Sep v d Iv H) as [_ X]. destruct (X N) as (x & Ex & Hx).
        exists (v, x). cbn [fst snd]. rewrite Ex. split; [reflexivity|]. split; [reflexivity|exact Hx]. }
      exists r. split; [exact (f_equal (fun z => bind z (fun r => Ok (Some r))) Er)|exact Fr].
    + intros n center Ns.
      destruct (mapM_combine _ _ _ (fun vd : var * mdist => do x <- d_moment (mixed numeric discrete) n (match lookup center (fst vd) with Some c => c | None => 0 end) (snd vd); Ok (fst vd, x))
        (fun v (vr : var * Q) => fst vr = v /\ moment_given kinds J pr e n (match lookup center v with Some c => c | None => 0 end) v (snd vr)) vs ds) as (r & Er & Fr).
      { refine (Forall2_impl _ _ _ _ _ _ _ F2). intros v d _ [Iv H]. destruct (answer_moment kinds G J W pr L Rd e We vs Hv Cn Sep v d Iv H) as [X _].
        specialize (X n (match lookup center v with Some c => c | None => 0 end)). specialize (Ns v). destruct (nth v kinds None) as [[ls|lo hi]|]; [exfalso; exact (Ns ls Iv eq_refl)| |];
          destruct X as (x & Ex & Hx); exists (v, x); cbn [fst snd]; rewrite Ex; (split; [reflexivity|split; [reflexivity|exact Hx]]). }
      exists r. split; [exact (f_equal (fun z => bind z (fun r => Ok (Some r))) Er)|exact Fr].
Qed.
Print Assumptions C42_mixed_partial.

(** A leaf in which the variable has always the same value makes the expectation of the
    tree wrong: the first leaf of [cx] (prior 3/4) has mean 1/2, the second 2, and the
    answer is 3/8 instead of 7/8. *)
Theorem C42_points_refuted : exists kinds G (J : mtree) v r (f : leaf (mixed numeric discrete) -> Q), wf_mixed kinds G J /\ Qsum (map l_prior (leaves J)) == 1 /\
  (forall l p, In l (leaves J) -> nth_error (l_dists l) v = Some (inl p) -> spread_cdf p /\ tiling p /\ moment_is p 1 0 (f l) \/ exists x, p = dirac x /\ f l == dval x) /\
  (forall l, In l (leaves J) -> exists p, nth_error (l_dists l) v = Some (inl p)) /\
  expectation J (Some [v]) [] true = Ok (Some [(v, inl r)]) /\ ~ r == Qsum (map (fun l => l_prior l * f l) (leaves J)).
Proof.
  set (r := match expectation cx (Some [0%nat]) [] true with Ok (Some [(_, inl q)]) => q | _ => 0 end).
  exists mx_kinds, cx_G, cx, 0%nat, r, (fun l => if Nat.eqb (l_idx l) 1 then 1 # 2 else 2).
  split; [exact cx_wf|]. split; [reflexivity|]. split; [|split; [|split]].
  - intros l p [<-|[<-|[]]] E; cbn [nth_error l_dists cx_l1 cx_l2] in E; injection E as <-; [left|right; exists IntervalDec.TWO; split; [reflexivity|vm_compute; reflexivity]].
    split; [exact unit_spread|]. split; [exact unit_tiling|]. destruct (moment_exact ramp 1 0 unit_spread unit_tiling) as (M & EM & _ & (hi & H1 & H2) & _).
    { intros i m k [E|[E|[E|[]]]]; try discriminate E. injection E as <- _ _. vm_compute. reflexivity. }
    assert (V : M == 1 # 2).
    { assert (X : match moment_of ramp 1 0 with Ok y => Qeq_bool y (1 # 2) | _ => false end = true) by (vm_compute; reflexivity). rewrite EM in X. apply Qeq_bool_iff in X. exact X. }
    exists hi. split; [exact H1|]. intros s Hs. destruct (H2 s Hs) as [A B]. cbn [l_idx cx_l1 Nat.eqb]. split; intros S0 HS; [rewrite <- V; apply A, HS|rewrite <- V; apply B, HS].
  - intros l [<-|[<-|[]]]; eexists; reflexivity.
  - unfold r. vm_compute. reflexivity.
  - vm_compute. discriminate.
Qed.
Print Assumptions C42_points_refuted.

(** ** Example: the uniform distributions on [0, 1) and on [2, 4) *)

Definition uniform (a b : Z) : plf :=
  [(CS (- ORD_INF) a EXC EXC, FConst 0); (CS a b INC EXC, FLin (1 / (dval b - dval a)) (- dval a / (dval b - dval a))); (CS b ORD_INF INC EXC, FConst 1)].
Section Uniform.
  Variables a b : Z.
  Hypothesis Fa : finite a.
  Hypothesis Fb : finite b.
  Hypothesis Lt : (a < b)%Z.
  Lemma un_gap : 0 < dval b - dval a.
  Proof. pose proof (dval_lt a b Lt). lra. Qed.
  Lemma un_chain : chain (- ORD_INF) (uniform a b) ORD_INF.
  Proof.
    unfold finite in *. unfold uniform, chain. cbn [upper]. destruct (Z.eqb_spec a (- ORD_INF)); [lia|].
    destruct (Z.eqb_spec b (- ORD_INF)); [lia|]. rewrite Z.eqb_refl. repeat split; lia.
  Qed.
  Lemma un_at : forall x, finite x -> plf_at (uniform a b) x = Some (if (a <=? x)%Z then if (x <? b)%Z then FLin (1 / (dval b - dval a)) (- dval a / (dval b - dval a)) else FConst 1 else FConst 0).
  Proof.
    intros x F. pose proof F as F'. unfold finite in F', Fa, Fb. destruct (Z.leb_spec a x); [destruct (Z.ltb_spec x b)|].
    - eapply (chain_at _ _ _ (CS a b INC EXC) _ x un_chain); try assumption; cbn [lower upper]; try lia. right. left. reflexivity.
    - apply (chain_at _ _ _ (CS b ORD_INF INC EXC) (FConst 1) x un_chain); try assumption; cbn [lower upper]; try lia. right. right. left. reflexivity.
    - apply (chain_at _ _ _ (CS (- ORD_INF) a EXC EXC) (FConst 0) x un_chain); try assumption; cbn [lower upper]; try lia. left. reflexivity.
  Qed.
  Definition un_value (x : Z) : Q := if (a <=? x)%Z then if (x <? b)%Z then (dval x - dval a) / (dval b - dval a) else 1 else 0.
  Lemma un_is : forall x, finite x -> plf_is (uniform a b) x (un_value x).
  Proof.
    intros x F. apply (plf_is_of _ _ _ _ (un_at x F)). unfold un_value. pose proof un_gap as D.
    destruct (a <=? x)%Z; [destruct (x <? b)%Z|]; eexists; (split; [reflexivity|]); cbn beta; try reflexivity. field. lra.
  Qed.
  Lemma un_density : forall x, finite x -> NumericSpec.density (uniform a b) x = (if (a <=? x)%Z then if (x <? b)%Z then 1 / (dval b - dval a) else 0 else 0)%Q.
  Proof. intros x F. unfold NumericSpec.density. rewrite (un_at x F). destruct (a <=? x)%Z; [destruct (x <? b)%Z|]; reflexivity. Qed.
  Lemma un_tiling : tiling (uniform a b).
  Proof.
    pose proof un_gap as D. unfold finite in *. unfold uniform, tiling. cbn [lower upper]. repeat split; try lia.
    - exists 0%Q. split; eexists; (split; [reflexivity|]); cbn beta; [reflexivity|]. field. lra.
    - exists 1%Q. split; eexists; (split; [reflexivity|]); cbn beta; [|reflexivity]. field. lra.
  Qed.
  Lemma un_proper : proper_cdf (uniform a b) a b.
  Proof.
    pose proof un_gap as D.
    assert (R : forall x, (a <= x)%Z -> (x < b)%Z -> 0 <= (dval x - dval a) / (dval b - dval a) < 1).
    { intros x A B. apply dval_le in A. apply dval_lt in B. split; [apply Qle_shift_div_l; [exact D|lra]|apply Qlt_shift_div_r; [exact D|lra]]. }
    constructor.
    - intros x F L. pose proof (un_is x F) as V. unfold un_value in V. destruct (Z.leb_spec a x); [lia|exact V].
    - intros x F L. pose proof (un_is x F) as V. unfold un_value in V. destruct (Z.leb_spec a x); [|lia]. destruct (Z.ltb_spec x b); [lia|exact V].
    - intros x F. exists (un_value x). split; [exact (un_is x F)|]. unfold un_value. destruct (Z.leb_spec a x); [destruct (Z.ltb_spec x b)|]; try lra.
      specialize (R x ltac:(lia) ltac:(lia)). lra.
    - intros x x' y y' F F' L Y Y'. rewrite (plf_is_fun _ _ _ _ Y (un_is x F)), (plf_is_fun _ _ _ _ Y' (un_is x' F')). unfold un_value.
      destruct (Z.leb_spec a x), (Z.leb_spec a x'); try lia; try lra.
      + destruct (Z.ltb_spec x b), (Z.ltb_spec x' b); try lia; try lra; [|pose proof (R x ltac:(lia) ltac:(lia)); lra].
        unfold Qdiv. apply Qmult_le_compat_r; [pose proof (dval_le x x' L); lra|]. apply Qlt_le_weak, Qinv_lt_0_compat, D.
      + destruct (Z.ltb_spec x' b); [|lra]. pose proof (R x' ltac:(lia) ltac:(lia)). lra.
  Qed.
  Lemma un_spread : spread_cdf (uniform a b).
  Proof.
    pose proof un_gap as D. constructor.
    - exact un_chain.
    - unfold uniform. repeat (apply Forall_cons || apply Forall_nil); cbn; exact I.
    - cbn. lia.
    - eexists. eexists. reflexivity.
    - unfold uniform. repeat (apply Forall_cons || apply Forall_nil); cbn [fst snd lower upper]; try exact I. split; [|split; assumption]. unfold Qdiv. rewrite Qmult_1_l. apply Qinv_lt_0_compat, D.
    - eexists (CS a b INC EXC), _, _. right. left. reflexivity.
    - exists a, b. split; [exact Fb|exact un_proper].
  Qed.
End Uniform.

Definition FOUR : Z := (1025 * 2 ^ 52)%Z.
Definition dx_l2 : leaf (mixed numeric discrete) :=
  Leaf (F := mixed numeric discrete) 2 (Some 0%nat) (1 # 4) 1 [inl (uniform IntervalDec.TWO FOUR); inr (DDist (SymDom [Some 10%Z; Some 20%Z]) [1; 0])] [(0%nat, inl (NC above))].
Definition dx : mtree := JPT (F := mixed numeric discrete) 2 (whole mx_kinds) [mx_root] [cx_l1; dx_l2] (Some 0%nat) [].
Lemma four_facts : (IntervalDec.TWO + 1 < FOUR)%Z /\ (FOUR < ORD_53)%Z /\ dval IntervalDec.TWO == 2 /\ dval FOUR == 4.
Proof. repeat split; vm_compute; reflexivity. Qed.
Lemma dx_spread : spread_cdf (uniform IntervalDec.TWO FOUR) /\ tiling (uniform IntervalDec.TWO FOUR).
Proof.
  pose proof four_facts as (F1 & F2 & _). pose proof cx_order as (O1 & O2 & O3 & O4 & O5 & O6). pose proof ord_facts as O.
  assert (A : finite IntervalDec.TWO) by (unfold finite; lia). assert (B : finite FOUR) by (unfold finite; lia). assert (C : (IntervalDec.TWO < FOUR)%Z) by lia. split; [exact (un_spread _ _ A B C)|exact (un_tiling _ _ A B C)].
Qed.
Lemma dx_wf : wf_mixed mx_kinds cx_G dx.
Proof.
  pose proof cx_order as (O1 & O2 & O3 & O4 & O5 & O6). pose proof ord_facts as O. pose proof four_facts as (F1 & F2 & _). pose proof cx_wf as C.
  assert (Sm : forall G, smooth G (uniform IntervalDec.TWO FOUR)).
  { intro G. destruct dx_spread as [S T]. apply tiling_smooth; [exact S|exact T|]. eexists (CS IntervalDec.TWO FOUR INC EXC), _, _. split; [right; left; reflexivity|exact F1]. }
  constructor; try reflexivity.
  - constructor.
    + cbn. repeat constructor; cbn; intuition discriminate.
    + exists 0%nat, (NInner mx_root). repeat split.
    + intros n [<-|[]]. reflexivity.
    + intros n [<-|[]]. cbn. repeat constructor; cbn; intuition discriminate.
    + intros n k c s [<-|[]] Ec Es. destruct k as [|[|k]]; cbn in Ec, Es; [| |destruct k; discriminate]; inversion Ec; inversion Es; subst; eexists _, _; repeat split.
    + intros i m H. destruct i as [|[|[|i]]]; cbn in H; try discriminate; inversion H; subst m; cbn; try reflexivity; exists mx_root; split; try reflexivity; cbn; tauto.
  - exact (mx_grid _ _ _ C).
  - intros l [<-|[<-|[]]]; reflexivity.
  - intros l v d [<-|[<-|[]]] E; [exact (mx_dists _ _ _ C cx_l1 v d (or_introl eq_refl) E)|]. destruct v as [|[|v]]; [| |destruct v; discriminate E]; cbn [nth_error l_dists dx_l2] in E; injection E as <-.
    + left. apply Sm.
    + repeat split; try reflexivity; repeat constructor; vm_compute; discriminate.
  - intros l [<-|[<-|[]]]; cbn; lra.
  - intros l v s [<-|[<-|[]]] E; [exact (mx_path _ _ _ C cx_l1 v s (or_introl eq_refl) E)|exact (mx_path _ _ _ C cx_l2 v s (or_intror (or_introl eq_refl)) E)].
  - intros l v s d [<-|[<-|[]]] E Ed; [exact (mx_support _ _ _ C cx_l1 v s d (or_introl eq_refl) E Ed)|]. destruct E as [E|[]]; injection E as <- <-. cbn [nth_error l_dists dx_l2] in Ed; injection Ed as <-.
    apply (mass_interval (uniform IntervalDec.TWO FOUR) above IntervalDec.TWO 0 1); [exact (proj1 (Sm (fun _ => True)))|unfold cs_mem, finite, above; cbn [lower upper left right]; lia| |right; left; split; reflexivity|reflexivity].
    right; right. unfold above. cbn [lower]. assert (F : finite MID) by (unfold finite; lia). split; [exact F|]. pose proof (un_is IntervalDec.TWO FOUR) as V. specialize (V ltac:(unfold finite; lia) ltac:(unfold finite; lia) ltac:(lia) MID F).
    unfold un_value in V. destruct (Z.leb_spec IntervalDec.TWO MID); [lia|exact V].
Qed.
Example C42_mixed_example : wf_mixed mx_kinds cx_G dx /\ let e := [(1%nat, inr [0%nat])] in
  wf_mquery mx_kinds cx_G e /\ (forall l v c, In l (leaves dx) -> In (v, inl (NC c)) e -> ~ pinned l v c) /\
  (forall v l p, In v [0%nat] -> In l (leaves dx) -> nth_error (l_dists l) v = Some (inl p) -> spread_cdf p /\ tiling p) /\
  (forall v, In v [0%nat] -> spaced (fun p => exists l, In l (leaves dx) /\ nth_error (l_dists l) v = Some (inl p))) /\
  (forall pr : mdist -> mset -> Q, (forall v d s, fits (cx_G v) (nth v mx_kinds None) d -> suits (cx_G v) (nth v mx_kinds None) s -> mass d s (pr d s)) ->
     weight pr dx e == 1 # 2 /\
     forall v x, In v [0%nat] -> nth v mx_kinds None = None -> finite x -> average pr dx e (fun l => slope_of l v x) == 0 \/ 1 # 100000000 < average pr dx e (fun l => slope_of l v x)) /\
  (* the means of the leaves are 1/2 and 3, their variances around 0 are 1/3 and 28/3 *)
  match expectation dx (Some [0%nat]) e true with Ok (Some [(_, inl r)]) => Qeq_bool r (7 # 4) | _ => false end = true /\
  match moment dx [0%nat] 2 [] e true with Ok (Some [(_, r)]) => Qeq_bool r (29 # 6) | _ => false end = true.
Proof.
  pose proof cx_order as (O1 & O2 & O3 & O4 & O5 & O6). pose proof ord_facts as O. pose proof four_facts as (F1 & F2 & D2 & D4).
  split; [exact dx_wf|]. cbv zeta. split; [|split; [|split; [|split; [|split; [|split]]]]].
  - split; [repeat constructor; intros []|]. intros v s [E|[]]. injection E as <- <-. split; [cbn; lia|]. intros x [<-|[]]. cbn. lia.
  - intros l v c _ [E|[]]. discriminate E.
  - intros v l p [<-|[]] [<-|[<-|[]]] E; cbn [nth_error l_dists cx_l1 dx_l2] in E; injection E as <-; [exact (conj unit_spread unit_tiling)|exact dx_spread].
  - intros v [<-|[]] p p' x y (l & Il & Ep) (l' & Il' & Ep') (i & m & k & Ii & Hx) (i' & m' & k' & Ii' & Hy).
    assert (K : forall l p i m k, In l (leaves dx) -> nth_error (l_dists l) 0 = Some (inl p) -> In (i, FLin m k) p -> i = CS 0 ONE INC EXC \/ i = CS IntervalDec.TWO FOUR INC EXC).
    { clear. intros l p i m k [<-|[<-|[]]] E I; cbn [nth_error l_dists cx_l1 dx_l2] in E; injection E as <-; destruct I as [I|[I|[I|[]]]]; try discriminate I; injection I as <- _ _; auto. }
    destruct (K l p i m k Il Ep Ii) as [->| ->], (K l' p' i' m' k' Il' Ep' Ii') as [->| ->]; cbn [lower upper] in Hx, Hy; clear - O1 O2 O3 O4 O5 O6 F1 F2 Hx Hy; lia.
  - intros pr H.
    assert (V : forall l d, In l (leaves dx) -> nth_error (l_dists l) 1 = Some d -> mass d (inr [0%nat]) (pr d (inr [0%nat]))).
    { intros l d Il Ed. apply (H 1%nat); [exact (mx_dists _ _ _ dx_wf l 1%nat d Il Ed)|]. cbn. intros x [<-|[]]. lia. }
    assert (V1 : pr (inr (DDist (SymDom [Some 10%Z; Some 20%Z]) [1 # 3; 2 # 3])) (inr [0%nat]) == 1 # 3).
    { pose proof (V cx_l1 _ (or_introl eq_refl) eq_refl) as M. inversion M as [| | | |? ? ? E]; subst. rewrite E. reflexivity. }
    assert (V2 : pr (inr (DDist (SymDom [Some 10%Z; Some 20%Z]) [1; 0])) (inr [0%nat]) == 1).
    { pose proof (V dx_l2 _ (or_intror (or_introl eq_refl)) eq_refl) as M. inversion M as [| | | |? ? ? E]; subst. rewrite E. reflexivity. }
    assert (Ew : weight pr dx [(1%nat, inr [0%nat])] == 1 # 2).
    { unfold weight, dx. cbn [leaves map Qsum fold_right fst snd l_dists cx_l1 dx_l2 nth_error l_prior]. rewrite V1, V2. reflexivity. }
    split; [exact Ew|]. intros v x [<-|[]] _ Fx. unfold average. rewrite Ew. unfold dx. cbn [leaves map Qsum]. unfold share, chance. cbn [fold_right fst snd l_dists cx_l1 dx_l2 nth_error l_prior].
    rewrite V1, V2. unfold slope_of. cbn [nth_error l_dists cx_l1 dx_l2]. rewrite (un_density IntervalDec.TWO FOUR) by (unfold finite in *; lia). unfold ramp. rewrite (unit_density x Fx).
    destruct (Z.leb_spec 0 x); [destruct (Z.ltb_spec x ONE)|]; (destruct (Z.leb_spec IntervalDec.TWO x); [destruct (Z.ltb_spec x FOUR)|]); try lia; [right|right|left|left|left]; rewrite ?D2, ?D4; vm_compute; reflexivity.
  - vm_compute. reflexivity.
  - vm_compute. reflexivity.
Qed.
