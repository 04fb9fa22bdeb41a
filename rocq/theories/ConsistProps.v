(** C88: a node is consistent with evidence iff some world reaches it and meets the evidence. *)
Require Import ZArith QArith Lqa Bool List Arith Lia.
Require Import Verif.Base Verif.FloatLine Verif.NumBase Verif.IntervalModel Verif.IntervalSpec Verif.IntervalProofs Verif.IntervalExact Verif.RealSetProofs Verif.DiscreteModel Verif.NumericModel Verif.NumericSpec Verif.NumericProps
  Verif.TreeModel Verif.TreeSpec Verif.TreeInfer Verif.TreeDiscrete Verif.NumericTree Verif.MixedTree Verif.MixedProps Verif.MixedPosteriorProps Verif.MixedCondProps Verif.UnionInfer Verif.ConsistModel.
Import ListNotations.
Open Scope Q_scope.

(** ** Specification *)

(** A world gives every variable a value; it reaches a node if it is in all sets on its path. *)
Definition world : Type := var -> Z + nat.
Definition reaches (p : list (var * mset)) (w : world) : Prop := forall v s, In (v, s) p -> sits (w v) s.
Definition meets (i : item) (x : Z + nat) : Prop := match i with IPoint y => x = y | ISet s => sits x s end.
Definition agrees (e : list (var * item)) (w : world) : Prop := forall v i, In (v, i) e -> meets i (w v).
(** Numbers which are no bounds of splits, non-empty intervals, values and non-empty sets of values. *)
Definition askable (G : grid) (k : kind) (i : item) : Prop :=
  match k, i with
  | None, IPoint (inl x) => finite x /\ ~ G x
  | Some D, IPoint (inr x) => (x < n_values D)%nat
  | _, ISet s => suits G k s /\ exists x, sits x s
  | _, _ => False
  end.

(** ** Proof *)
Section Consistent.
  Variable kinds : list kind.
  Variable G : var -> grid.
  Hypothesis GG : forall v, gridded (G v).
  Let fl := whole kinds.
  Notation K v := (nth v kinds None).

  Lemma suits_whole : forall v, suits (G v) (K v) (fl v).
  Proof.
    intro v. unfold fl, whole, is_numeric. destruct (nth v kinds None) as [D|] eqn:E; cbn [suits].
    - rewrite (domain_of kinds v D E). intros x I. apply in_seq in I. lia.
    - split; [apply wf_RR|]. right. apply (g_inf _ (GG v)).
  Qed.
  Lemma sits_whole : forall v s x, suits (G v) (K v) s -> sits x s -> sits x (fl v).
  Proof.
    intros v s x S H. unfold fl, whole, is_numeric. unfold suits in S. destruct (nth v kinds None) as [D|] eqn:E; destruct s as [[c|l]|s]; try contradiction; destruct x as [z|k]; try contradiction; cbn [sits] in *.
    - rewrite (domain_of kinds v D E). apply in_seq. specialize (S k H). lia.
    - destruct H as [F _]. unfold cs_mem, RR, finite in *. cbn [lower upper left right]. lia.
  Qed.
  Lemma inter_suits : forall v a b, suits (G v) (K v) a -> suits (G v) (K v) b -> suits (G v) (K v) (inter (mixed numeric discrete) a b).
  Proof.
    intros v a b A B. unfold suits in *. destruct (nth v kinds None) as [D|]; destruct a as [[x|l]|x]; try contradiction; destruct b as [[y|l]|y]; try contradiction; cbn [inter mixed numeric].
    - intros z I. cbn [inter discrete] in I. apply filter_In in I. apply A, I.
    - rewrite n_inter_cut. apply cut_grid; assumption.
  Qed.

  Variable p : list (var * mset).
  Hypothesis Wp : forall v s, In (v, s) p -> suits (G v) (K v) s.

  Lemma path_spec : forall v r, path_get (F := mixed numeric discrete) fl p v = Some r -> suits (G v) (K v) r /\ forall x, sits x r <-> forall s, In (v, s) p -> sits x s.
  Proof.
    intros v r E. rewrite path_get_fold in E.
    assert (Gen : forall q acc, (forall s, In (v, s) q -> suits (G v) (K v) s) -> (forall a, acc = Some a -> suits (G v) (K v) a) -> fold_left (path_step (F := mixed numeric discrete) fl v) q acc = Some r ->
      suits (G v) (K v) r /\ forall x, sits x r <-> sits x (match acc with Some a => a | None => fl v end) /\ forall s, In (v, s) q -> sits x s).
    { clear E Wp. induction q as [|[v' s] q IH]; intros acc Wq Wa E; cbn [fold_left] in E.
      - subst acc. split; [apply Wa; reflexivity|]. intro x. split; [intro H; split; [exact H|intros s []]|tauto].
      - unfold path_step at 2 in E. cbn [fst snd] in E. destruct (Nat.eqb_spec v' v) as [->|N].
        + assert (Sa : suits (G v) (K v) (match acc with Some a => a | None => fl v end)) by (destruct acc as [a|]; [apply Wa; reflexivity|apply suits_whole]).
          assert (Ss : suits (G v) (K v) s) by (apply Wq; left; reflexivity).
          assert (IH' := fun X Y => IH _ X Y E). destruct (IH' (fun t It => Wq t (or_intror It)) ltac:(intros a Q; injection Q as <-; apply inter_suits; assumption)) as [A B]. split; [exact A|]. intro x. rewrite B, (sits_inter (G v) (K v) _ _ x Sa Ss). split.
          * intros [[H1 H2] H3]. split; [exact H1|]. intros t [Q|It]; [injection Q as <-; exact H2|exact (H3 t It)].
          * intros [H1 H2]. split; [split; [exact H1|apply H2; left; reflexivity]|]. intros t It. apply H2. right. exact It.
        + destruct (IH acc (fun t It => Wq t (or_intror It)) Wa E) as [A B]. split; [exact A|]. intro x. rewrite B. split; intros [H1 H2]; (split; [exact H1|]); intros t It; [destruct It as [Q|It]; [exfalso; apply N; congruence|exact (H2 t It)]|apply H2; right; exact It]. }
    destruct (Gen p None (fun s I => Wp v s I) ltac:(discriminate) E) as [A B]. split; [exact A|]. intro x. rewrite B. split; [tauto|]. intro H. split; [|exact H].
    assert (exists s, In (v, s) p) as [s I].
    { destruct (in_dec Nat.eq_dec v (map fst p)) as [I|N]; [apply in_map_iff in I; destruct I as ([v' s] & Q & I); cbn in Q; subst v'; exists s; exact I|].
      apply (path_get_none (F := mixed numeric discrete) fl p v) in N. rewrite path_get_fold in N. congruence. }
    exact (sits_whole v s x (Wp v s I) (H s I)).
  Qed.

  Lemma compat_spec : forall v r i, suits (G v) (K v) r -> askable (G v) (K v) i -> exists b, compatible r i = Ok b /\ (b = true <-> exists x, sits x r /\ meets i x).
  Proof.
    intros v r i Sr Ai. unfold askable in Ai. unfold suits in Sr. destruct (nth v kinds None) as [D|]; destruct r as [[c|l]|r]; try contradiction; destruct i as [[x|x]|s]; try contradiction.
    - exists (negb (disj discrete [x] r)). split; [reflexivity|]. cbn [disj discrete forallb]. rewrite andb_true_r, negb_involutive. unfold nmem. rewrite existsb_exists. split.
      + intros (y & I & E). apply Nat.eqb_eq in E. subst y. exists (inr x). split; [exact I|reflexivity].
      + intros (y & H & ->). exists x. split; [exact H|apply Nat.eqb_refl].
    - destruct Ai as [Ss _]. destruct s as [[c|l]|s]; try contradiction. exists (negb (disj discrete s r)). split; [reflexivity|]. cbn [disj discrete]. rewrite negb_true_iff. split.
      + intro H. assert (exists x, In x s /\ nmem x r = true) as (x & I & M).
        { clear - H. induction s as [|y s IH]; cbn [forallb] in H; [discriminate|]. destruct (nmem y r) eqn:M; [exists y; split; [left; reflexivity|exact M]|]. cbn [negb andb] in H. destruct (IH H) as (x & I & Mx). exists x. split; [right; exact I|exact Mx]. }
        unfold nmem in M. apply existsb_exists in M. destruct M as (y & Iy & E). apply Nat.eqb_eq in E. subst y. exists (inr x). split; [exact Iy|exact I].
      + intros (y & H & M). destruct y as [z|x]; [contradiction|]. cbn [sits meets] in H, M. destruct (forallb (fun v0 => negb (nmem v0 r)) s) eqn:E; [|reflexivity]. rewrite forallb_forall in E. specialize (E x M).
        assert (nmem x r = true) as N by (unfold nmem; apply existsb_exists; exists x; split; [exact H|apply Nat.eqb_refl]). rewrite N in E. discriminate.
    - destruct Ai as [Fx Ng]. exists ((lower c <? x)%Z && (x <=? upper c)%Z). split; [reflexivity|]. rewrite andb_true_iff, Z.ltb_lt, Z.leb_le.
      assert (M : cs_mem x c <-> (lower c < x <= upper c)%Z).
      { destruct Sr as [W [->|[Gl Gu]]]; [unfold cs_mem, EMPTY; cbn [lower upper left right]; clear; lia|]. assert (x <> lower c) by (intros ->; contradiction). assert (x <> upper c) by (intros ->; contradiction). unfold cs_mem. destruct (left c), (right c); (split; [intros (_ & H1 & H2); lia|intro H1; split; [exact Fx|lia]]). }
      rewrite <- M. split; [intro H; exists (inl x); split; [exact H|reflexivity]|intros (y & H & ->); exact H].
    - destruct Ai as [Ss Ne]. destruct s as [[d|l]|s]; try contradiction. exists (negb (n_disj (NC d) (NC c))). split; [reflexivity|]. cbn [n_disj]. rewrite negb_involutive. unfold cs_intersects_ns. cbn [ns_isempty].
      destruct (cs_isempty c) eqn:E.
      + split; [discriminate|]. intros (y & H & _). destruct y as [z|k]; [|contradiction]. exfalso. exact (isempty_sound c E z H).
      + assert (Nd : exists x, cs_mem x d) by (destruct Ne as ([z|k] & H); [exists z; exact H|contradiction]). destruct Nd as (z & Hz). assert (Ed : cs_isempty d = false) by (destruct (cs_isempty d) eqn:Q; [exfalso; exact (isempty_sound d Q z Hz)|reflexivity]).
        destruct (grid_bounds (G v) c Sr E) as (Wc & Lc & Uc). destruct (grid_bounds (G v) d Ss Ed) as (Wd & Ld & Ud).
        rewrite (intersects_iff d c Wd Wc (ex_intro _ z Hz)).
        * split; [intros (x & A & B); exists (inl x); split; [exact B|exact A]|]. intros ([x|k] & A & B); [exists x; split; [exact B|exact A]|contradiction].
        * apply (grid_spaced (G v)); [apply GG|]. repeat constructor; assumption.
  Qed.

  Variable w0 : world.
  Hypothesis R0 : reaches p w0.

  Lemma consistent_main : forall e, NoDup (map fst e) -> (forall v i, In (v, i) e -> askable (G v) (K v) i) ->
    exists b, path_consistent fl p e = Ok b /\ (b = true <-> exists w, reaches p w /\ agrees e w).
  Proof.
    induction e as [|[v i] e IH]; intros N A; cbn [path_consistent].
    - exists true. split; [reflexivity|]. split; [intros _; exists w0; split; [exact R0|intros v i []]|reflexivity].
    - inversion N as [|? ? Nv Ne]; subst. destruct (IH Ne (fun v' i' I => A v' i' (or_intror I))) as (b & Eb & Hb).
      assert (Ai : askable (G v) (K v) i) by (apply A; left; reflexivity).
      assert (Add : forall x w, (forall s, In (v, s) p -> sits x s) -> meets i x -> reaches p w -> agrees e w -> exists w', reaches p w' /\ agrees ((v, i) :: e) w').
      { intros x w Hx Mx Rw Ae. exists (fun u => if Nat.eqb u v then x else w u). split.
        - intros u s I. destruct (Nat.eqb_spec u v) as [->|Nu]; [apply Hx, I|apply Rw, I].
        - intros u j [Q|I]; [injection Q as <- <-; rewrite Nat.eqb_refl; exact Mx|]. destruct (Nat.eqb_spec u v) as [->|Nu]; [exfalso; apply Nv; apply in_map_iff; exists (v, j); auto|apply Ae, I]. }
      destruct (path_get (F := mixed numeric discrete) fl p v) as [r|] eqn:E.
      + destruct (path_spec v r E) as [Sr Hr]. destruct (compat_spec v r i Sr Ai) as (c & Ec & Hc). rewrite Ec. cbn [bind]. destruct c.
        * exists b. split; [exact Eb|]. rewrite Hb. destruct (proj1 Hc eq_refl) as (x & Sx & Mx). split.
          -- intros (w & Rw & Ae). apply (Add x w); try assumption. apply Hr, Sx.
          -- intros (w & Rw & Ae). exists w. split; [exact Rw|]. intros u j I. apply Ae. right. exact I.
        * exists false. split; [reflexivity|]. split; [discriminate|]. intros (w & Rw & Ae). apply Hc. exists (w v). split; [apply Hr; intros s I; apply Rw, I|apply Ae; left; reflexivity].
      + exists b. split; [exact Eb|]. rewrite Hb. split.
        * intros (w & Rw & Ae). assert (exists x, meets i x) as (x & Mx).
          { unfold askable in Ai. destruct i as [x|s]; [exists x; reflexivity|]. destruct (nth v kinds None); destruct Ai as [_ H]; exact H. }
          apply (Add x w); try assumption. intros s I. exfalso. apply (path_get_none (F := mixed numeric discrete) fl p v) in E. apply E. apply in_map_iff. exists (v, s). auto.
        * intros (w & Rw & Ae). exists w. split; [exact Rw|]. intros u j I. apply Ae. right. exact I.
  Qed.
End Consistent.

(** ** C88

    Missing: numbers that are bounds of splits (refuted below), unions of intervals (they raise),
    bounds that are neighbouring doubles. *)
Theorem C88_consistent_partial : forall kinds G p e, (forall v, gridded (G v)) -> (forall v s, In (v, s) p -> suits (G v) (nth v kinds None) s) -> (exists w, reaches p w) ->
  NoDup (map fst e) -> (forall v i, In (v, i) e -> askable (G v) (nth v kinds None) i) ->
  exists b, path_consistent (whole kinds) p e = Ok b /\ (b = true <-> exists w, reaches p w /\ agrees e w).
Proof. intros kinds G p e GG Wp (w0 & R0) N A. exact (consistent_main kinds G GG p Wp w0 R0 e N A). Qed.
Print Assumptions C88_consistent_partial.

(** A node reached by the values [x >= 1.5] is called inconsistent with the value 1.5, and the
    one reached by [x < 1.5] consistent: the comparison does not look at the ends of the interval. *)
Theorem C88_bound_refuted : exists kinds G p q e w, (forall v, gridded (G v)) /\ (forall v s, In (v, s) (p ++ q) -> suits (G v) (nth v kinds None) s) /\ (exists w', reaches q w') /\
  reaches p w /\ agrees e w /\ path_consistent (whole kinds) p e = Ok false /\
  path_consistent (whole kinds) q e = Ok true /\ ~ exists w', reaches q w' /\ agrees e w'.
Proof.
  exists mx_kinds, mx_G, [(0%nat, inl (NC above))], [(0%nat, inl (NC below))], [(0%nat, IPoint (inl MID))], (fun _ => inl MID). split; [exact mx_gridded|].
  assert (M0 : cs_mem MID above) by (vm_compute; repeat split; discriminate). split; [|split; [|split; [|split; [|split; [|split]]]]].
  - intros v s [Q|[Q|[]]]; injection Q as <- <-; apply (mx_on _ 0%nat); cbn; tauto.
  - exists (fun _ => inl 0%Z). intros v s [Q|[]]. injection Q as <- <-. vm_compute. repeat split; discriminate.
  - intros v s [Q|[]]. injection Q as <- <-. exact M0.
  - intros v i [Q|[]]. injection Q as <- <-. reflexivity.
  - vm_compute. reflexivity.
  - vm_compute. reflexivity.
  - intros (w' & R & A). specialize (R 0%nat _ (or_introl eq_refl)). specialize (A 0%nat _ (or_introl eq_refl)). cbn [meets] in A. rewrite A in R. cbn [sits] in R. unfold cs_mem, below in R. cbn [lower upper left right] in R. lia.
Qed.
Print Assumptions C88_bound_refuted.

(** A union of intervals as evidence raises, whatever it contains. *)
Theorem C88_union_refuted : forall kinds G p e v c l, (forall v, gridded (G v)) -> (forall v s, In (v, s) p -> suits (G v) (nth v kinds None) s) -> nth v kinds None = None -> In (v, inl (NC c)) p ->
  path_consistent (whole kinds) p ((v, ISet (inl (NR l))) :: e) = Err TypeError.
Proof.
  intros kinds G p e v c l GG Wp K I. cbn [path_consistent]. destruct (path_get (F := mixed numeric discrete) (whole kinds) p v) as [r|] eqn:E.
  - destruct (path_spec kinds G GG p Wp v r E) as [S _]. assert (S' : suits (G v) None r) by (rewrite <- K; exact S). clear S. destruct r as [[d|m]|s]; try contradiction. reflexivity.
  - exfalso. apply (path_get_none (F := mixed numeric discrete) (whole kinds) p v) in E. apply E. apply in_map_iff. exists (v, inl (NC c)). auto.
Qed.
Print Assumptions C88_union_refuted.

(** The answer of a leaf looks at its distributions: true iff the evidence is possible there, and
    then the path is consistent with it as well.  Intervals with a single number are left out:
    their probability is taken from the density. *)
Theorem C88_leaf_partial : forall kinds G (J : mtree), wf_mixed kinds G J ->
  exists pr : mdist -> mset -> Q,
    (forall v d s, fits (G v) (nth v kinds None) d -> suits (G v) (nth v kinds None) s -> mass d s (pr d s)) /\
    forall l e, In l (leaves J) -> wf_mquery kinds G e -> (forall v c, In (v, inl (NC c)) e -> ~ exists x, forall y, cs_mem y c <-> y = x) ->
      exists b, leaf_consistent l e = Ok b /\ (b = true <-> 0 < chance pr l e) /\
        (b = true -> path_consistent (full J) (l_path l) (map (fun vs => (fst vs, ISet (snd vs))) e) = Ok true).
Proof.
  intros kinds G J W. destruct (ready kinds G J W) as (pr & L & Rd & Ms). exists pr. split; [exact Ms|]. intros l e Il We Single.
  destruct (tree_leaf J L (rd_proper _ _ _ _ _ Rd) (rd_support _ _ _ _ _ Rd) l Il) as [Pl Sl]. pose proof (rd_event _ _ _ _ _ Rd e We) as [_ Ee].
  assert (Lp : forall q acc, incl q e -> exists r, leaf_probability (F := mixed numeric discrete) l q acc = Ok r /\ r == acc * leaf_prob L (l_dists l) q).
  { induction q as [|[v s] q IH]; intros acc Iq; cbn [leaf_probability leaf_prob]; [exists acc; split; [reflexivity|ring]|].
    assert (I : In (v, s) e) by (apply Iq; left; reflexivity). rewrite Forall_forall in Ee. destruct (Ee _ I) as [V _]. cbn [fst] in V. destruct (pl_dist L (n_vars J) l Pl v V) as (d & Hd & Od).
    unfold leaf_dist. rewrite Hd. cbn [bind]. destruct (prob_mixed kinds G J W pr L Rd e We Single l v s d Il I Hd) as (y & -> & Y). cbn [bind].
    destruct (IH (acc * y) (fun x Ix => Iq x (or_intror Ix))) as (r & -> & R). exists r. split; [reflexivity|]. rewrite R, Y. ring. }
  destruct (Lp e 1 (incl_refl e)) as (r & Er & Hr). rewrite Qmult_1_l in Hr. unfold leaf_consistent. rewrite Er. cbn [bind]. exists (Qltb 0 r). split; [reflexivity|].
  assert (B : Qltb 0 r = true <-> 0 < leaf_prob L (l_dists l) e) by (unfold Qltb; destruct (Qltb_spec 0 r); split; intro H; try discriminate; try reflexivity; lra).
  split; [rewrite B, (rd_chance _ _ _ _ _ Rd); reflexivity|]. intro H. apply B in H. clear B Er Hr r Lp.
  rewrite (mx_full _ _ _ W).
  assert (Gen : forall q, incl q e -> path_consistent (whole kinds) (l_path l) (map (fun vs => (fst vs, ISet (snd vs))) q) = Ok true).
  { induction q as [|[v s] q IH]; intro Iq; cbn [map path_consistent fst snd]; [reflexivity|]. rewrite IH by (intros x Ix; apply Iq; right; exact Ix).
    assert (I : In (v, s) e) by (apply Iq; left; reflexivity). destruct (path_get (F := mixed numeric discrete) (whole kinds) (l_path l) v) as [p|] eqn:Hp; [|reflexivity].
    destruct (path_spec kinds G (mx_grid _ _ _ W) (l_path l) (fun v' s' I' => proj2 (mx_path _ _ _ W l v' s' Il I')) v p Hp) as [Sp _]. destruct (proj2 We v s I) as [V Ss].
    rewrite Forall_forall in Ee. destruct (Ee _ I) as [Vn Os]. cbn [fst snd] in Vn, Os. destruct (pl_dist L (n_vars J) l Pl v Vn) as (d & Hd & Od).
    assert (D : disj (mixed numeric discrete) s p = false).
    { destruct (disj (mixed numeric discrete) s p) eqn:D; [|reflexivity]. exfalso. rewrite <- (mx_full _ _ _ W) in Hp. destruct (path_sure L (n_vars J) l Pl Sl v d p Hd Hp) as [Op Pp].
      rewrite (leaf_prob_zero L l e v s d I Hd) in H; [lra|]. rewrite <- (P_sure _ L v d s p Od Os Op Pp). apply (P_disj _ L v d s p Od Os Op D). }
    unfold suits in Sp, Ss. destruct (nth v kinds None) as [K|]; destruct p as [[c|m]|p]; try contradiction; destruct s as [[b|m]|s]; try contradiction; cbn [compatible]; cbn [disj mixed numeric] in D; rewrite D; reflexivity. }
  apply Gen, incl_refl.
Qed.
Print Assumptions C88_leaf_partial.

Example C88_example : askable (mx_G 0%nat) None (IPoint (inl 0%Z)) /\ askable (mx_G 0%nat) None (ISet (inl (NC half_up))) /\
  path_consistent (whole mx_kinds) (l_path mx_l1) [(0%nat, ISet (inl (NC half_up))); (1%nat, IPoint (inr 1%nat))] = Ok true /\
  path_consistent (whole mx_kinds) (l_path mx_l2) [(0%nat, IPoint (inl 0%Z)); (1%nat, IPoint (inr 1%nat))] = Ok false.
Proof.
  split; [|split; [|split; vm_compute; reflexivity]].
  - split; [vm_compute; split; reflexivity|]. unfold mx_G. change MID with 4609434218613702656%Z. change (1022 * 2 ^ 52)%Z with 4602678819172646912%Z. unfold ORD_INF. lia.
  - split; [apply (mx_on half_up 0%nat); cbn; tauto|]. exists (inl MID). vm_compute. repeat split; discriminate.
Qed.
Example C88_leaf_example : wf_mixed mx_kinds mx_G mx /\ In mx_l1 (leaves mx) /\ (exists w, reaches (l_path mx_l1) w) /\
  leaf_consistent mx_l1 [(0%nat, inl (NC half_up)); (1%nat, inr [1%nat])] = Ok true /\ leaf_consistent mx_l1 [(0%nat, inl (NC above))] = Ok false /\
  path_consistent (whole mx_kinds) (l_path mx_l1) [(0%nat, ISet (inl (NC above)))] = Ok false.
Proof.
  split; [apply (fitted_mixed (1 # 100) mx_kinds mx_G mx_rows mx), C39_mixed_example|]. split; [left; reflexivity|]. split; [|split; [|split]; vm_compute; reflexivity].
  exists (fun _ => inl 0%Z). intros v s [Q|[]]. injection Q as <- <-. vm_compute. repeat split; discriminate.
Qed.
