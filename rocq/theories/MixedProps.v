(** Inference in trees over numeric, symbolic and integer variables. *)
Require Import ZArith QArith Lqa Bool List Arith Lia Permutation.
Require Import Verif.Base Verif.FloatLine Verif.FloatVal Verif.NumBase Verif.UtilModel Verif.UtilProofs Verif.IntervalModel Verif.IntervalSpec Verif.IntervalProofs Verif.IntervalExact Verif.IntervalDec Verif.DiscreteModel Verif.DiscreteProofs
  Verif.FunctionModel Verif.FunctionSpec Verif.NumericModel Verif.NumericSpec Verif.NumericReg Verif.NumericFit Verif.NumericProb Verif.NumericProps
  Verif.TreeModel Verif.TreeSpec Verif.TreeApply Verif.TreeInfer Verif.TreeDiscrete Verif.NumericTree Verif.MixedTree.
Import ListNotations.
Open Scope Q_scope.

(** ** Specification

    A variable is numeric ([None]) or has a finite domain ([Some D]). *)
Definition kind : Type := option dom.
Definition is_numeric (kinds : list kind) (v : var) : bool := match nth v kinds None with None => true | Some _ => false end.
Definition domains (kinds : list kind) : list dom := map (fun k => match k with Some D => D | None => IntDom 0 0 end) kinds.
(** Distributions, events and trees of both kinds. *)
Notation mdist := (plf + ddist)%type.
Notation mset := (nset + list nat)%type.
Notation mtree := (jpt (mixed numeric discrete)).
(** The whole domain of a variable: R or all values. *)
Definition whole (kinds : list kind) (v : var) : vset (mixed numeric discrete) :=
  if is_numeric kinds v then inl (NC RR) else inr (seq 0 (n_values (domain (domains kinds) v))).

(** Probability of an event: the difference of the cdf at the bounds of an interval;
    membership of a single value; the sum of the probabilities of the values. *)
Inductive mass : mdist -> mset -> Q -> Prop :=
| mass_empty : forall p c q, (forall x, ~ cs_mem x c) -> q == 0 -> mass (inl p) (inl (NC c)) q
| mass_interval : forall p c x ya yb q, line_cdf p -> cs_mem x c -> cdf_at p (lower c) ya -> cdf_at p (upper c) yb -> q == yb - ya ->
    mass (inl p) (inl (NC c)) q
| mass_inside : forall x c q, cs_mem x c -> q == 1 -> mass (inl (dirac x)) (inl (NC c)) q
| mass_outside : forall x c q, ~ cs_mem x c -> q == 0 -> mass (inl (dirac x)) (inl (NC c)) q
| mass_values : forall d s q, q == Qsum (map (fun x => if existsb (Nat.eqb x) s then nth x (d_params d) 0 else 0) (seq 0 (length (d_params d)))) ->
    mass (inr d) (inr s) q.

(** A distribution of the kind of its variable.  [G] holds the bounds which occur in
    splits and queries: the cdf must not jump there. *)
Definition fits (G : grid) (k : kind) (d : mdist) : Prop :=
  match k, d with
  | None, inl p => ok_numeric G p
  | Some D, inr d => ok_dist D d
  | _, _ => False
  end.
(** An interval with bounds in [G], or a set of values. *)
Definition suits (G : grid) (k : kind) (s : mset) : Prop :=
  match k, s with
  | None, inl (NC c) => on_grid G c
  | Some D, inr s => forall x, In x s -> (x < n_values D)%nat
  | _, _ => False
  end.

Record wf_mixed (kinds : list kind) (G : var -> grid) (J : mtree) : Prop := WfMixed {
  mx_vars : n_vars J = length kinds;
  mx_full : full J = whole kinds;
  mx_tree : tree_ok J;
  mx_grid : forall v, gridded (G v);
  mx_len : forall l, In l (leaves J) -> length (l_dists l) = length kinds;
  mx_dists : forall l v d, In l (leaves J) -> nth_error (l_dists l) v = Some d -> fits (G v) (nth v kinds None) d;
  mx_prior : forall l, In l (leaves J) -> 0 <= l_prior l;
  mx_path : forall l v s, In l (leaves J) -> In (v, s) (l_path l) -> (v < length kinds)%nat /\ suits (G v) (nth v kinds None) s;
  (* the distributions of a leaf have all their mass in the sets of its path *)
  mx_support : forall l v s d, In l (leaves J) -> In (v, s) (l_path l) -> nth_error (l_dists l) v = Some d -> mass d s 1
}.
Definition wf_mquery (kinds : list kind) (G : var -> grid) (q : list (var * mset)) : Prop :=
  NoDup (map fst q) /\ forall v s, In (v, s) q -> (v < length kinds)%nat /\ suits (G v) (nth v kinds None) s.

(** The probability of a conjunction: independent within a leaf, mixed over the leaves. *)
Definition weight (pr : mdist -> mset -> Q) (J : mtree) (q : list (var * mset)) : Q :=
  Qsum (map (fun l : leaf (mixed numeric discrete) => l_prior l *
    fold_right (fun vs acc => match nth_error (l_dists l) (fst vs) with Some d => pr d (snd vs) | None => 0 end * acc) 1 q) (leaves J)).

(** ** Proof *)

Lemma pm_sum : forall d s, pm (d_params d) s == Qsum (map (fun x => if existsb (Nat.eqb x) s then nth x (d_params d) 0 else 0) (seq 0 (length (d_params d)))).
Proof.
  intros d s. unfold pm, lmass. assert (G : forall ps k, Qsum (map snd (filter (fun lp : nat * Q => nmem (fst lp) s) (combine (seq k (length ps)) ps))) == 0 \/ True) by auto. clear G.
  assert (G : forall ps k, lmass (seq k (length ps)) ps (fun v => nmem v s) == Qsum (map (fun x => if existsb (Nat.eqb x) s then nth (x - k) ps 0 else 0) (seq k (length ps)))).
  { unfold lmass. induction ps as [|p ps IH]; intro k; cbn [length seq combine map Qsum fst snd]; [reflexivity|]. rewrite IH, Nat.sub_diag. apply Qplus_comp; [reflexivity|].
    apply Qsum_map_ext. intros x I. apply in_seq in I. replace (x - k)%nat with (S (x - S k)) by lia. reflexivity. }
  specialize (G (d_params d) 0%nat). unfold lmass in G. rewrite G. apply Qsum_map_ext. intros x _. rewrite Nat.sub_0_r. reflexivity.
Qed.

Section Mixed.
  Variable kinds : list kind.
  Variable G : var -> grid.
  Hypothesis GG : forall v, gridded (G v).

  Definition LM : @measured (mixed numeric discrete) (whole kinds) :=
    mixed_measured numeric discrete (is_numeric kinds) nfull (dfull (domains kinds)) (numeric_measured G GG) (discrete_measured (domains kinds)).

  Lemma domain_of : forall v D, nth v kinds None = Some D -> domain (domains kinds) v = D.
  Proof.
    intros v D. unfold domain, domains. revert v. induction kinds as [|k ks IH]; intros [|v] E; cbn in *; try discriminate; [subst k; reflexivity|auto].
  Qed.
  Lemma fits_okd : forall v d, fits (G v) (nth v kinds None) d -> okd LM v d.
  Proof.
    intros v d H. unfold LM. cbn [okd mixed_measured numeric_measured discrete_measured]. unfold fits in H. unfold is_numeric.
    destruct (nth v kinds None) as [D|] eqn:E; destruct d as [p|d]; try contradiction; cbn [on]; (split; [reflexivity|]); [rewrite (domain_of v D E); exact H|exact H].
  Qed.
  Lemma suits_oks : forall v s, suits (G v) (nth v kinds None) s -> oks LM v s.
  Proof.
    intros v s H. unfold LM. cbn [oks mixed_measured numeric_measured discrete_measured]. unfold suits in H. unfold is_numeric.
    destruct (nth v kinds None) as [D|] eqn:E; destruct s as [[c|l]|s]; try contradiction; cbn [on]; (split; [reflexivity|]).
    - rewrite (domain_of v D E). apply Forall_forall. exact H.
    - exists c. split; [reflexivity|exact H].
  Qed.
  Lemma mass_P : forall v d s q, fits (G v) (nth v kinds None) d -> suits (G v) (nth v kinds None) s -> mass d s q -> q == P LM d s.
  Proof.
    intros v d s q Fd Ss M. unfold fits in Fd. unfold suits in Ss. unfold LM. cbn [P mixed_measured numeric_measured discrete_measured].
    destruct M as [p c q N Z|p c x ya yb q L I Ha Hb E|x c q I E|x c q N E|d s q E].
    - destruct (nth v kinds None); [contradiction|]. rewrite Z. symmetry. apply (np_empty (G v)); [exact Fd|apply Ss|]. apply isempty_spec; [apply Ss|exact N].
    - destruct (nth v kinds None); [contradiction|]. assert (Ne : cs_isempty c = false) by (destruct (cs_isempty c) eqn:K; [exfalso; exact (isempty_sound c K _ I)|reflexivity]).
      destruct Fd as [S|(z & -> & _)]; [|pose proof (line_length _ L) as Ln; cbn in Ln; lia]. destruct (np_smooth (G v) p c S Ss Ne) as [_ ->].
      destruct (wf_bounded c (proj1 Ss)) as (B1 & B2 & B3 & _). rewrite E. pose proof (cdf_at_fun _ _ _ _ Ha (cdfv_at p (lower c) L ltac:(lia))). pose proof (cdf_at_fun _ _ _ _ Hb (cdfv_at p (upper c) L ltac:(lia))). lra.
    - destruct (nth v kinds None); [contradiction|]. destruct Fd as [S|(z & E' & Mz)]; [pose proof (line_length _ (proj1 S)) as Ln; cbn in Ln; lia|].
      unfold dirac in E'. injection E' as <-. rewrite E. symmetry. apply (np_dirac x c Mz (proj1 Ss)). exact I.
    - destruct (nth v kinds None); [contradiction|]. destruct Fd as [S|(z & E' & Mz)]; [pose proof (line_length _ (proj1 S)) as Ln; cbn in Ln; lia|].
      unfold dirac in E'. injection E' as <-. rewrite E. symmetry. apply (np_dirac x c Mz (proj1 Ss)). exact N.
    - rewrite E. symmetry. apply pm_sum.
  Qed.
  Lemma P_mass : forall v d s, fits (G v) (nth v kinds None) d -> suits (G v) (nth v kinds None) s -> mass d s (P LM d s).
  Proof.
    intros v d s Fd Ss. unfold fits in Fd. unfold suits in Ss. unfold LM. cbn [P mixed_measured numeric_measured discrete_measured].
    destruct (nth v kinds None) as [D|]; destruct d as [p|d]; try contradiction; destruct s as [[c|l]|s]; try contradiction.
    - apply mass_values. apply pm_sum.
    - destruct (cs_isempty c) eqn:E.
      + apply mass_empty; [exact (isempty_sound c E)|apply (np_empty (G v)); [exact Fd|apply Ss|exact E]].
      + destruct Fd as [S|(z & -> & Mz)].
        * destruct (np_smooth (G v) p c S Ss E) as [_ H]. destruct (wf_bounded c (proj1 Ss)) as (B1 & B2 & B3 & _). pose proof (proj1 S) as L.
          destruct (isempty_lo1_f c (proj1 Ss)) as [K _]. specialize (K E).
          apply (mass_interval p c (lo1 c) (cdfv p (lower c)) (cdfv p (upper c))); [exact L|apply mem_ends; [apply Ss|lia]|apply cdfv_at; [exact L|lia]..|exact H].
        * destruct (dirac_or z c Mz (proj1 Ss)) as [[I E1]|[I E1]]; [apply mass_inside|apply mass_outside]; assumption.
  Qed.

  Lemma weight_mixture : forall (J : mtree) (E : full J = whole kinds) q, weight (P LM) J q == mixture J (eq_rect_r (fun f => @measured _ f) LM E) q.
  Proof.
    intros [n fl inn lv rt prs] E q. cbn [full] in E. subst fl. cbn. unfold weight, mixture. cbn [leaves]. apply Qsum_map_ext. intros l _. apply Qmult_comp; [reflexivity|].
    induction q as [|[v s] q IH]; cbn [fold_right leaf_prob fst snd]; [reflexivity|]. rewrite IH. reflexivity.
  Qed.
End Mixed.

Theorem mixed_infer : forall kinds G (J : mtree), wf_mixed kinds G J ->
  exists pr : mdist -> mset -> Q,
    (forall v d s, fits (G v) (nth v kinds None) d -> suits (G v) (nth v kinds None) s -> mass d s (pr d s)) /\
    forall q e fail, wf_mquery kinds G q -> wf_mquery kinds G e ->
      (weight pr J e == 0 -> infer J q e fail = if fail then Err ValueError else Ok None) /\
      (~ weight pr J e == 0 -> exists r, infer J q e fail = Ok (Some r) /\ r == weight pr J (q ++ e) / weight pr J e /\ 0 <= r <= 1).
Proof.
  intros kinds G J W. exists (P (LM kinds G (mx_grid _ _ _ W))). split; [intros v d s Fd Ss; apply (P_mass kinds G _ v); assumption|].
  intros q e fail Wq We. destruct W as [Hv Hf Ht Hg Hl Hd Hp Hpa Hs]. cbn [mx_grid]. destruct J as [n fl inn lv rt prs]. cbn [n_vars full leaves] in *. subst n. subst fl.
  set (J := JPT (length kinds) (whole kinds) inn lv rt prs : mtree) in *. set (L := LM kinds G Hg).
  assert (Pt : proper_tree J L).
  { apply Forall_forall. intros l I. split; [apply Hl, I|]. split; [intros v d E; apply fits_okd; exact (Hd l v d I E)|]. split; [apply Hp, I|].
    intros v s Is. destruct (Hpa l v s I Is) as [A B]. split; [exact A|apply suits_oks; exact B]. }
  assert (Su : supported_tree J L).
  { apply Forall_forall. intros l I v d s E Is. symmetry. destruct (Hpa l v s I Is) as [A B]. apply (mass_P kinds G Hg v d s 1 (Hd l v d I E) B). exact (Hs l v s d I Is E). }
  assert (Ev : forall q, wf_mquery kinds G q -> event L (n_vars J) q).
  { clear. intros q [N H]. split; [exact N|]. apply Forall_forall. intros [v s] I. destruct (H v s I) as [A B]. split; [exact A|apply suits_oks; exact B]. }
  pose proof (weight_mixture kinds G Hg J eq_refl) as Wm. fold L in Wm. cbn [eq_rect_r eq_rect eq_sym] in Wm.
  destruct (infer_spec J L Ht Pt Su q e fail (Ev q Wq) (Ev e We)) as [A B]. pose proof (Wm e) as W1. pose proof (Wm (q ++ e)) as W2. rewrite W1.
  split; [exact A|]. intro N. destruct (B N) as (r & E & R). exists r. split; [exact E|]. split; [rewrite W1, W2; exact R|]. rewrite R.
  pose proof (mixture_nonneg J L Pt Su e (Ev e We)) as M0. pose proof (mixture_mono J L Pt Su q e (Ev q Wq) (Ev e We)) as M1.
  assert (M2 : 0 <= mixture J L (q ++ e)).
  { unfold mixture. apply Qsum_map_nonneg. intros l I. destruct (tree_leaf J L Pt Su l I) as [Pl Sl].
    assert (Le : forall a b, a == b -> 0 <= b -> 0 <= a) by (intros a b -> H; exact H).
    apply Qmult_le_0_compat; [apply Pl|]. apply (Le _ _ (leaf_prob_app L l q e)). apply Qmult_le_0_compat; apply (leaf_prob_nonneg L (n_vars J) l Pl); [apply (proj2 (Ev q Wq))|apply (proj2 (Ev e We))]. }
  assert (M3 : 0 < mixture J L e) by (destruct (Qlt_le_dec 0 (mixture J L e)); [assumption|exfalso; apply N; lra]).
  assert (Fin : forall x y, 0 <= x -> x <= y -> 0 < y -> 0 <= x / y <= 1) by (intros x y X Y Z; split; [apply Qle_shift_div_l; [exact Z|lra]|apply Qle_shift_div_r; [exact Z|lra]]).
  exact (Fin _ _ M2 M1 M3).
Qed.

(** ** C23: fitted distributions whose least sample is repeated

    The difference of the cdf, unless the interval ends at the least sample. *)
Theorem C23_repeated_minimum : forall epsilon rows x y c, In x rows -> In y rows -> x <> y -> Forall (fun v => (Z.abs v < ORD_53)%Z) rows ->
  bounded c -> cs_isempty c = false -> ~ least (upper c) rows ->
  exists p q ya yb, fit_cdf epsilon None None rows = Ok p /\ p_interval p c = Ok q /\ cdf_at p (lower c) ya /\ cdf_at p (upper c) yb /\ q == yb - ya.
Proof.
  intros epsilon rows x y c Ix Iy Nxy M B E Nl. pose proof ord_facts as O.
  assert (F : Forall finite rows) by (apply Forall_forall; intros v I; rewrite Forall_forall in M; specialize (M v I); unfold finite; lia).
  assert (N : rows <> []) by (intros ->; destruct Ix).
  destruct (fit_nonempty epsilon None None rows rows (fit_plain rows) N F) as [(z & A & _)|(p & ks & Ef & Ft)].
  { exfalso. apply Nxy. rewrite (A x Ix), (A y Iy). reflexivity. }
  assert (L : line_cdf p) by (apply (fitted_line rows p ks Ft F); rewrite Forall_forall in M; apply M; apply (ft_largest _ _ _ Ft)).
  destruct (bounded_cdf p c L B) as (ya & yb & Ha & Hb & _).
  assert (J : jump_off p (fun z => z = upper c)). { apply (fitted_jump_off rows p ks); [exact Ft|exact F|]. right. intro H. apply Nl. rewrite <- H. apply (ft_least _ _ _ Ft). }
  destruct (p_interval_off p c ya yb L J B E Ha Hb) as (q & Eq & Hq). exists p, q, ya, yb. auto.
Qed.
Print Assumptions C23_repeated_minimum.
Example C23_repeated_example : bounded (CS (1022 * 2 ^ 52) ORD_INF INC EXC) /\ ~ least ORD_INF [0; 0; 1023 * 2 ^ 52]%Z /\
  exists p q, fit_cdf (1 # 100) None None [0; 0; 1023 * 2 ^ 52]%Z = Ok p /\ p_interval p (CS (1022 * 2 ^ 52) ORD_INF INC EXC) = Ok q /\ q == 1 # 4.
Proof.
  split; [vm_compute; repeat split; discriminate|]. split; [intros [[H|[H|[H|[]]]] _]; discriminate H|]. eexists _, _. split; [vm_compute; reflexivity|]. split; vm_compute; reflexivity.
Qed.

(** ** C39: infer with numeric variables

    [pr] is the probability of [mass]: unique up to equality of rationals. *)
Theorem C39_infer_mixed_partial : forall kinds G (J : mtree), wf_mixed kinds G J ->
  exists pr : mdist -> mset -> Q,
    (forall v d s, fits (G v) (nth v kinds None) d -> suits (G v) (nth v kinds None) s -> mass d s (pr d s)) /\
    forall q e fail, wf_mquery kinds G q -> wf_mquery kinds G e -> (forall v, In v (map fst q) -> ~ In v (map fst e)) ->
      (weight pr J e == 0 -> infer J q e fail = if fail then Err ValueError else Ok None) /\
      (~ weight pr J e == 0 -> exists r, infer J q e fail = Ok (Some r) /\ r == weight pr J (q ++ e) / weight pr J e /\ 0 <= r <= 1).
Proof.
  intros kinds G J W. destruct (mixed_infer kinds G J W) as (pr & A & B). exists pr. split; [exact A|]. intros q e fail Wq We _. exact (B q e fail Wq We).
Qed.
Print Assumptions C39_infer_mixed_partial.

(** Trees whose numeric distributions are fitted to the samples of their leaf, in any
    order: [rows l] are the samples of leaf [l].  No hypothesis on the shape of the cdfs is left; the
    least sample of a leaf may be repeated only if no split or query bound equals it. *)
Record fitted_tree (epsilon : Q) (kinds : list kind) (G : var -> grid) (rows : leaf (mixed numeric discrete) -> var -> list Z) (J : mtree) : Prop := FittedTree {
  fx_vars : n_vars J = length kinds;
  fx_full : full J = whole kinds;
  fx_tree : tree_ok J;
  fx_grid : forall v, gridded (G v);
  fx_len : forall l, In l (leaves J) -> length (l_dists l) = length kinds;
  fx_prior : forall l, In l (leaves J) -> 0 <= l_prior l;
  fx_path : forall l v s, In l (leaves J) -> In (v, s) (l_path l) -> (v < length kinds)%nat /\ suits (G v) (nth v kinds None) s;
  fx_numeric : forall l v d, In l (leaves J) -> nth_error (l_dists l) v = Some d -> nth v kinds None = None ->
    rows l v <> [] /\ Forall (fun x => (Z.abs x < ORD_53)%Z) (rows l v) /\
    (forall lo, least lo (rows l v) -> count_occ Z.eq_dec (rows l v) lo = 1%nat \/ ~ G v lo) /\
    (exists samples p, Permutation samples (rows l v) /\ fit_cdf epsilon None None samples = Ok p /\ d = inl p) /\
    forall c, In (v, inl (NC c)) (l_path l) -> forall x, In x (rows l v) -> cs_mem x c;
  fx_discrete : forall l v d D, In l (leaves J) -> nth_error (l_dists l) v = Some d -> nth v kinds None = Some D ->
    fits (G v) (Some D) d /\ forall s, In (v, s) (l_path l) -> mass d s 1
}.

Lemma mass_wd : forall d s q q', q == q' -> mass d s q -> mass d s q'.
Proof.
  intros d s q q' E M. destruct M; [apply mass_empty|eapply mass_interval; try eassumption|apply mass_inside|apply mass_outside|apply mass_values]; try assumption; rewrite <- E; assumption.
Qed.
Lemma fitted_samples : forall epsilon rows samples G, Permutation samples rows -> rows <> [] -> Forall (fun v => (Z.abs v < ORD_53)%Z) rows ->
  (forall lo, least lo rows -> count_occ Z.eq_dec rows lo = 1%nat \/ ~ G lo) ->
  exists p, fit_cdf epsilon None None samples = Ok p /\ ok_numeric G p /\
    forall c, on_grid G c -> (forall v, In v rows -> cs_mem v c) -> (np p c == 1)%Q.
Proof.
  intros epsilon rows samples G Pm N M Le. destruct (fitted_contract epsilon samples G) as (p & E & Ok & One).
  - intros ->. apply Permutation_nil in Pm. contradiction.
  - apply Forall_forall. intros x I. rewrite Forall_forall in M. apply M, (Permutation_in x Pm I).
  - intros lo [I L]. rewrite (proj1 (Permutation_count_occ Z.eq_dec samples rows) Pm lo). apply Le. split; [exact (Permutation_in lo Pm I)|]. intros y Iy. apply L, (Permutation_in y (Permutation_sym Pm) Iy).
  - exists p. split; [exact E|]. split; [exact Ok|]. intros c Gc H. apply One; [exact Gc|]. intros v I. apply H, (Permutation_in v Pm I).
Qed.
Lemma fitted_mixed : forall epsilon kinds G rows J, fitted_tree epsilon kinds G rows J -> wf_mixed kinds G J.
Proof.
  intros epsilon kinds G rows J [Hv Hf Ht Hg Hl Hp Hpa Hn Hd]. constructor; try assumption.
  - intros l v d I E. destruct (nth v kinds None) as [D|] eqn:K; [apply (Hd l v d D I E K)|].
    destruct (Hn l v d I E K) as (N & M & Le & (samples & p & Pm & Ep & ->) & _). destruct (fitted_samples epsilon (rows l v) samples (G v) Pm N M Le) as (p' & Ep' & Ok & _).
    rewrite Ep in Ep'. injection Ep' as <-. exact Ok.
  - intros l v s d I Is E. destruct (Hpa l v s I Is) as [_ Ss]. destruct (nth v kinds None) as [D|] eqn:K; [apply (Hd l v d D I E K), Is|].
    destruct (Hn l v d I E K) as (N & M & Le & (samples & p & Pm & Ep & ->) & H). destruct (fitted_samples epsilon (rows l v) samples (G v) Pm N M Le) as (p' & Ep' & Ok & One).
    rewrite Ep in Ep'. injection Ep' as <-. unfold suits in Ss. destruct s as [[c|l0]|s]; try contradiction.
    assert (O1 : np p c == 1) by (apply One; [exact Ss|exact (H c Is)]).
    assert (Pms : mass (inl p) (inl (NC c)) (np p c)).
    { pose proof (P_mass kinds G Hg v (inl p) (inl (NC c))) as X. rewrite K in X. exact (X Ok Ss). }
    exact (mass_wd _ _ _ _ O1 Pms).
Qed.

Theorem C39_infer_fitted_partial : forall epsilon kinds G rows (J : mtree), fitted_tree epsilon kinds G rows J ->
  exists pr : mdist -> mset -> Q,
    (forall l v d s, In l (leaves J) -> nth_error (l_dists l) v = Some d -> suits (G v) (nth v kinds None) s -> mass d s (pr d s)) /\
    forall q e fail, wf_mquery kinds G q -> wf_mquery kinds G e -> (forall v, In v (map fst q) -> ~ In v (map fst e)) ->
      (weight pr J e == 0 -> infer J q e fail = if fail then Err ValueError else Ok None) /\
      (~ weight pr J e == 0 -> exists r, infer J q e fail = Ok (Some r) /\ r == weight pr J (q ++ e) / weight pr J e /\ 0 <= r <= 1).
Proof.
  intros epsilon kinds G rows J H. pose proof (fitted_mixed _ _ _ _ _ H) as W. destruct (mixed_infer kinds G J W) as (pr & A & B). exists pr. split.
  - intros l v d s I E S. apply (A v d s); [exact (mx_dists _ _ _ W l v d I E)|exact S].
  - intros q e fail Wq We _. exact (B q e fail Wq We).
Qed.
Print Assumptions C39_infer_fitted_partial.

(** ** Example: a tree over a numeric and a symbolic variable

    Samples 0, 0, 1 below 1.5 and 2 above; asked about x >= 0.5 given the first label. *)
Definition MID : Z := (1023 * 2 ^ 52 + 2 ^ 51)%Z.
Definition mx_kinds : list kind := [None; Some (SymDom [Some 10%Z; Some 20%Z])].
Definition mx_G (v : var) : grid := fun x => (x = - ORD_INF \/ x = 1022 * 2 ^ 52 \/ x = MID \/ x = ORD_INF)%Z.
Definition below : cs := CS (- ORD_INF) MID EXC EXC.
Definition above : cs := CS MID ORD_INF INC EXC.
Definition half_up : cs := CS (1022 * 2 ^ 52) ORD_INF INC EXC.
Definition fit1 (l : list Z) : plf := match fit_cdf (1 # 100) None None l with Ok p => p | Err _ => [] end.
Definition mx_rows (l : leaf (mixed numeric discrete)) (v : var) : list Z :=
  if Nat.eqb (l_idx l) 1 then [0; 0; 1023 * 2 ^ 52]%Z else [1024 * 2 ^ 52]%Z.
Definition mx_l1 : leaf (mixed numeric discrete) :=
  Leaf (F := mixed numeric discrete) 1 (Some 0%nat) (3 # 4) 3 [inl (fit1 [0; 0; 1023 * 2 ^ 52]%Z); inr (DDist (SymDom [Some 10%Z; Some 20%Z]) [1 # 3; 2 # 3])] [(0%nat, inl (NC below))].
Definition mx_l2 : leaf (mixed numeric discrete) :=
  Leaf (F := mixed numeric discrete) 2 (Some 0%nat) (1 # 4) 1 [inl (fit1 [1024 * 2 ^ 52]%Z); inr (DDist (SymDom [Some 10%Z; Some 20%Z]) [1; 0])] [(0%nat, inl (NC above))].
Definition mx_root : inner (mixed numeric discrete) :=
  Inner (F := mixed numeric discrete) 0 None 0%nat [inl (NC below); inl (NC above)] [Some 1%nat; Some 2%nat] 4 [].
Definition mx : mtree := JPT (F := mixed numeric discrete) 2 (whole mx_kinds) [mx_root] [mx_l1; mx_l2] (Some 0%nat) [].

Lemma mx_tree_ok : tree_ok mx.
Proof.
  constructor.
  - cbn. repeat constructor; cbn; intuition discriminate.
  - exists 0%nat, (NInner mx_root). repeat split.
  - intros n [<-|[]]. reflexivity.
  - intros n [<-|[]]. cbn. repeat constructor; cbn; intuition discriminate.
  - intros n k c s [<-|[]] Ec Es. destruct k as [|[|k]]; cbn in Ec, Es; [| |destruct k; discriminate]; inversion Ec; inversion Es; subst; eexists _, _; repeat split.
  - intros i m H. destruct i as [|[|[|i]]]; cbn in H; try discriminate; inversion H; subst m; cbn; try reflexivity; exists mx_root; split; try reflexivity; cbn; tauto.
Qed.
Lemma mx_gridded : forall v, gridded (mx_G v).
Proof. intro v. unfold mx_G. constructor; [tauto|]. intros x y Hx Hy. change MID with 4609434218613702656%Z in *. change (1022 * 2 ^ 52)%Z with 4602678819172646912%Z in *. unfold ORD_INF in *. lia. Qed.
Lemma mx_on : forall c v, In c [below; above; half_up] -> on_grid (mx_G v) c.
Proof.
  intros c v I. unfold on_grid, wf, moderate, mx_G, MID. cbn in I. destruct I as [<-|[<-|[<-|[]]]]; cbn [lower upper left right below above half_up]; unfold MID, ORD_INF, ORD_53; (split; [repeat split; try lia; intros; try discriminate; lia|right; lia]).
Qed.
Example C39_mixed_example : fitted_tree (1 # 100) mx_kinds mx_G mx_rows mx /\
  exists r, infer mx [(0%nat, inl (NC half_up))] [(1%nat, inr [0%nat])] true = Ok (Some r) /\ r == 5 # 8.
Proof.
  split.
  - constructor; try reflexivity.
    + apply mx_tree_ok.
    + apply mx_gridded.
    + intros l [<-|[<-|[]]]; reflexivity.
    + intros l [<-|[<-|[]]]; cbn; lra.
    + intros l v s [<-|[<-|[]]] [E|[]]; injection E as <- <-; (split; [cbn; lia|apply (mx_on _ 0%nat); cbn; tauto]).
    + intros l v d Il E K. destruct v as [|v]; [|destruct v as [|v]; [discriminate K|destruct Il as [<-|[<-|[]]]; destruct v; discriminate E]].
      destruct Il as [<-|[<-|[]]]; cbn [nth_error l_dists mx_l1 mx_l2] in E; injection E as <-; cbn [mx_rows l_idx Nat.eqb mx_l1 mx_l2].
      * split; [discriminate|]. split; [repeat constructor; reflexivity|]. split; [intros lo [Il L]; right|].
        { unfold mx_G. change MID with 4609434218613702656%Z. change (1022 * 2 ^ 52)%Z with 4602678819172646912%Z. change (1023 * 2 ^ 52)%Z with 4607182418800017408%Z in Il.
          destruct Il as [<-|[<-|[<-|[]]]]; unfold ORD_INF; lia. }
        split; [exists [0; 0; 1023 * 2 ^ 52]%Z, (fit1 [0; 0; 1023 * 2 ^ 52]%Z); split; [reflexivity|]; split; [vm_compute; reflexivity|reflexivity]|].
        intros c [E|[]] x [<-|[<-|[<-|[]]]]; injection E as <-; vm_compute; repeat split; discriminate.
      * split; [discriminate|]. split; [repeat constructor; reflexivity|]. split; [intros lo [Il L]; left|].
        { destruct Il as [<-|[]]. reflexivity. }
        split; [exists [1024 * 2 ^ 52]%Z, (fit1 [1024 * 2 ^ 52]%Z); split; [reflexivity|]; split; [vm_compute; reflexivity|reflexivity]|].
        intros c [E|[]] x [<-|[]]; injection E as <-; vm_compute; repeat split; discriminate.
    + intros l v d D Il E K. destruct v as [|v]; [discriminate K|]. destruct v as [|v]; [|destruct v; discriminate K]. injection K as <-.
      destruct Il as [<-|[<-|[]]]; cbn [nth_error l_dists mx_l1 mx_l2] in E; injection E as <-.
      * split; [|intros s [E|[]]; discriminate E]. repeat split; try reflexivity. repeat constructor; vm_compute; discriminate.
      * split; [|intros s [E|[]]; discriminate E]. repeat split; try reflexivity. repeat constructor; vm_compute; discriminate.
  - eexists. split; [vm_compute; reflexivity|]. vm_compute. reflexivity.
Qed.
