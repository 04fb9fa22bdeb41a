(** Conditional trees over numeric, symbolic and integer variables. *)
Require Import ZArith QArith Qabs Lqa Bool List Arith Lia Permutation.
Require Import Verif.Base Verif.FloatLine Verif.FloatVal Verif.NumBase Verif.UtilModel Verif.IntervalModel Verif.IntervalSpec Verif.IntervalProofs Verif.IntervalExact Verif.IntervalDec Verif.DiscreteModel Verif.DiscreteProofs
  Verif.FunctionModel Verif.FunctionSpec Verif.NumericModel Verif.NumericSpec Verif.NumericReg Verif.NumericFit Verif.NumericProb Verif.NumericCut Verif.NumericCropSpec Verif.NumericProps3 Verif.NumericExample Verif.NumericPoint
  Verif.TreeModel Verif.TreeSpec Verif.TreeApply Verif.TreeInfer Verif.TreePosterior Verif.TreeDiscrete Verif.TreeCond Verif.TreeCond2 Verif.TreeCond3 Verif.TreeCond4 Verif.NumericTree Verif.MixedTree Verif.MixedProps Verif.EffectProps Verif.MixedPosterior Verif.MixedPosteriorProps Verif.MixedCond.
Import ListNotations.
Open Scope Q_scope.

(** ** Specification *)

(** A number or a value belongs to a set. *)
Definition sits (x : Z + nat) (s : mset) : Prop :=
  match x, s with inl z, inl (NC c) => cs_mem z c | inr k, inr l => In k l | _, _ => False end.
(** [r] asks for what [q] and the evidence [e] together leave of every variable. *)
Definition narrowed (q e r : list (var * mset)) : Prop :=
  (forall v, In v (map fst r) <-> In v (map fst q) \/ In v (map fst e)) /\
  forall v u x, In (v, u) r -> (sits x u <-> forall s, In (v, s) (q ++ e) -> sits x s).
(** The density of the numeric variable [v] in a leaf under the evidence. *)
Definition kept_slope (pr : mdist -> mset -> Q) (e : list (var * mset)) (v : var) (x : Z) (l : leaf (mixed numeric discrete)) : Q :=
  match nth_error (l_dists l) v with
  | Some (inl p) => match @lookup mset e v with
                    | Some (inl (NC c)) => if (lowermost c <=? x)%Z && (x <? uppermost c)%Z then density p x / pr (inl p) (inl (NC c)) else 0
                    | _ => density p x
                    end
  | _ => 0
  end.

(** ** Proof *)

Lemma sits_inter : forall G k s t x, suits G k s -> suits G k t -> (sits x (inter (mixed numeric discrete) s t) <-> sits x s /\ sits x t).
Proof.
  intros G k s t x A B. unfold suits in A, B. destruct k as [D|]; destruct s as [[c|r]|s]; try contradiction; destruct t as [[b|r]|t]; try contradiction; cbn [inter mixed].
  - destruct x as [z|j]; cbn [sits]; [tauto|]. cbn [inter discrete]. rewrite filter_In. unfold nmem. rewrite existsb_exists. split; [intros [I (y & J & E)]; apply Nat.eqb_eq in E; subst y; auto|intros [I J]; split; [exact I|exists j; split; [exact J|apply Nat.eqb_refl]]].
  - cbn [inter numeric]. rewrite n_inter_cut. destruct x as [z|j]; cbn [sits]; [|tauto]. apply cut_mem; [apply A|apply B].
Qed.

Section Meet.
  Context {F : family}.
  Lemma on_keys : forall q e : assignment F, keys (TreeCond4.on q e) = keys q.
  Proof. intros q e. unfold TreeCond4.on, keys. rewrite map_map. apply map_ext. intros [w s]. cbn [fst snd]. destruct (lookup e w); reflexivity. Qed.
  Lemma meet_keys : forall (q e : assignment F) v, In v (keys (meet q e)) <-> In v (keys q) \/ In v (keys e).
  Proof.
    intros q e v. rewrite meet_parts. unfold keys at 1. rewrite map_app, in_app_iff. fold (keys (TreeCond4.on q e)). fold (keys (off q e)). rewrite on_keys.
    split; [intros [A|A]; [left; exact A|right]|intros [A|A]; [left; exact A|]].
    - apply in_map_iff in A. destruct A as (x & Ex & I). apply filter_In in I. apply in_map_iff. exists x. split; [exact Ex|apply I].
    - destruct (in_dec Nat.eq_dec v (keys q)) as [I|I]; [left; exact I|right]. apply in_map_iff in A. destruct A as (x & Ex & Ix). apply in_map_iff. exists x. split; [exact Ex|]. apply filter_In. split; [exact Ix|].
      apply negb_true_iff, not_true_iff_false. intro B. apply existsb_exists in B. destruct B as (w & Iw & Ew). apply Nat.eqb_eq in Ew. subst w. apply I. rewrite <- Ex. exact Iw.
  Qed.
  Lemma meet_nodup : forall q e : assignment F, NoDup (keys q) -> NoDup (keys e) -> NoDup (keys (meet q e)).
  Proof.
    intros q e Nq Ne. rewrite meet_parts. unfold keys. rewrite map_app. fold (keys (TreeCond4.on q e)). fold (keys (off q e)). rewrite on_keys.
    apply NoDup_app_intro; [exact Nq|apply keys_filter_nodup; exact Ne|]. intros v A B. apply in_map_iff in B. destruct B as (x & Ex & I). apply filter_In in I. destruct I as [_ I].
    apply negb_true_iff, not_true_iff_false in I. apply I. apply existsb_exists. exists v. split; [exact A|]. apply Nat.eqb_eq. exact Ex.
  Qed.
  Lemma meet_in : forall (q e : assignment F) v u, In (v, u) (meet q e) ->
    (exists s ev, In (v, s) q /\ In (v, ev) e /\ u = inter F s ev) \/ (In (v, u) q /\ ~ In v (keys e)) \/ (In (v, u) e /\ ~ In v (keys q)).
  Proof.
    intros q e v u I. rewrite meet_parts in I. apply in_app_iff in I. destruct I as [I|I].
    - apply in_map_iff in I. destruct I as ([w s] & E & I). cbn [fst snd] in E. destruct (lookup e w) as [ev|] eqn:El; injection E as <- <-.
      + left. exists s, ev. split; [exact I|]. split; [exact (lookup_in _ _ _ _ El)|reflexivity].
      + right. left. split; [exact I|]. apply lookup_none. exact El.
    - apply filter_In in I. destruct I as [I Nv]. cbn [fst] in Nv. right. right. split; [exact I|]. intro Iv. apply negb_true_iff, not_true_iff_false in Nv. apply Nv. apply existsb_exists. exists v. split; [exact Iv|apply Nat.eqb_refl].
  Qed.
End Meet.

Lemma nodup_map_inj : forall A (f : A -> nat) l a b, NoDup (map f l) -> In a l -> In b l -> f a = f b -> a = b.
Proof.
  intros A f l a b. induction l as [|x l IH]; intros N Ia Ib E; [destruct Ia|]. cbn in N. inversion N as [|? ? Nx N']; subst.
  destruct Ia as [<-|Ia]; destruct Ib as [<-|Ib]; [reflexivity|exfalso; apply Nx; rewrite E; apply in_map, Ib|exfalso; apply Nx; rewrite <- E; apply in_map, Ia|exact (IH N' Ia Ib E)].
Qed.

Section Cond.
  Variable kinds : list kind.
  Variable G : var -> grid.
  Variable J : mtree.
  Hypothesis W : wf_mixed kinds G J.
  Variable pr : mdist -> mset -> Q.
  Variable L : @measured (mixed numeric discrete) (full J).
  Hypothesis Rd : readied kinds G J pr L.
  Hypothesis Ms : forall v d s, fits (G v) (nth v kinds None) d -> suits (G v) (nth v kinds None) s -> mass d s (pr d s).

  Lemma P_sits : forall v d s t, okd L v d -> oks L v s -> oks L v t -> (forall x, sits x s <-> sits x t) -> P L d s == P L d t.
  Proof.
    intros v d s t Od Os Ot H. apply (rd_okd _ _ _ _ _ Rd) in Od. apply (rd_suits _ _ _ _ _ Rd) in Os. apply (rd_suits _ _ _ _ _ Rd) in Ot. rewrite <- (rd_pr _ _ _ _ _ Rd).
    unfold fits in Od. unfold suits in Os, Ot. destruct (nth v kinds None) as [D|]; destruct d as [p|d]; try contradiction; destruct s as [[c|r]|s]; try contradiction; destruct t as [[b|r]|t]; try contradiction.
    - rewrite !(rd_values _ _ _ _ _ Rd). apply pm_ext. intros x _. specialize (H (inr x)). cbn [sits] in H. unfold nmem.
      apply eq_true_iff_eq. rewrite !existsb_exists. split; intros (y & I & E); apply Nat.eqb_eq in E; subst y; exists x; (split; [apply H; exact I|apply Nat.eqb_refl]).
    - rewrite !(rd_np _ _ _ _ _ Rd). apply (np_ext (G v) (mx_grid _ _ _ W v)); [exact Od|exact Os|exact Ot|]. intro x. exact (H (inl x)).
  Qed.

  Lemma leaf_prob_ext : forall l, proper_leaf L (n_vars J) l -> forall a b : assignment (mixed numeric discrete), event L (n_vars J) a -> event L (n_vars J) b ->
    (forall v, In v (keys a) <-> In v (keys b)) -> (forall v s t x, In (v, s) a -> In (v, t) b -> (sits x s <-> sits x t)) ->
    leaf_prob L (l_dists l) a == leaf_prob L (l_dists l) b.
  Proof.
    intros l Pl a. induction a as [|[v s] a IH]; intros b Ea Eb K H.
    - destruct b as [|[w t] b]; [reflexivity|]. exfalso. destruct (proj2 (K w)). left. reflexivity.
    - destruct (event_tail L (n_vars J) v s a Ea) as (Ea' & Nv & V & Os). assert (Iv : In v (keys b)) by (apply K; left; reflexivity).
      destruct (lookup b v) as [t|] eqn:El; [|exfalso; apply lookup_none in El; contradiction]. pose proof (lookup_in _ _ _ _ El) as It.
      assert (Ot : oks L v t) by (destruct Eb as [_ Fb]; rewrite Forall_forall in Fb; exact (proj2 (Fb _ It))).
      rewrite (split_key L (l_dists l) v t b (proj1 Eb) El). rewrite (leaf_prob_val L). apply Qmult_comp.
      + unfold val. destruct (pl_dist L (n_vars J) l Pl v V) as (d & Hd & Od). rewrite Hd. apply (P_sits v); [exact Od|exact Os|exact Ot|]. intro x. apply (H v); [left; reflexivity|exact It].
      + apply IH; [exact Ea'| | |].
        * destruct Eb as [Nb Fb]. split; [apply keys_filter_nodup; exact Nb|]. rewrite Forall_forall in *. intros x I. apply filter_In in I. apply Fb, I.
        * intro w. split; intro I.
          -- assert (Nw : w <> v) by (intros ->; contradiction). assert (Ib : In w (keys b)) by (apply K; right; exact I). apply in_map_iff in Ib. destruct Ib as ([w' u] & E & Ib). cbn in E. subst w'.
             apply in_map_iff. exists (w, u). split; [reflexivity|]. apply filter_In. split; [exact Ib|]. cbn. apply negb_true_iff, Nat.eqb_neq. exact Nw.
          -- apply in_map_iff in I. destruct I as ([w' u] & E & I). cbn in E. subst w'. apply filter_In in I. destruct I as [I Nw]. cbn in Nw. apply negb_true_iff, Nat.eqb_neq in Nw.
             assert (Ia : In w (keys ((v, s) :: a))) by (apply K; change w with (fst (w, u)); apply in_map, I). destruct Ia as [Ev|Ia]; [cbn in Ev; congruence|exact Ia].
        * intros w s' t' x Is It'. apply filter_In in It'. apply (H w s' t' x); [right; exact Is|apply It'].
  Qed.

  Variable e : list (var * mset).
  Hypothesis We : wf_mquery kinds G e.

  Lemma unique_key : forall (a : list (var * mset)) v s t, NoDup (map fst a) -> In (v, s) a -> In (v, t) a -> s = t.
  Proof.
    induction a as [|[w u] a IH]; intros v s t N Is It; [destruct Is|]. cbn in N. inversion N as [|? ? Nw N']; subst.
    assert (K : forall u', In (w, u') a -> False) by (intros u' I; apply Nw; change w with (fst (w, u')); apply in_map; exact I).
    destruct Is as [E|Is]; destruct It as [E'|It].
    - congruence.
    - injection E as <- <-. destruct (K t It).
    - injection E' as <- <-. destruct (K s Is).
    - exact (IH v s t N' Is It).
  Qed.

  Lemma narrowed_meet : forall q, wf_mquery kinds G q -> narrowed q e (meet (F := mixed numeric discrete) q e).
  Proof.
    intros q [Nq Hq]. destruct We as [Ne He]. split; [exact (meet_keys (F := mixed numeric discrete) q e)|].
    intros v u x I. destruct (meet_in (F := mixed numeric discrete) q e v u I) as [(s & ev & Is & Ie & ->)|[[Iu N]|[Iu N]]].
    - rewrite (sits_inter (G v) (nth v kinds None) s ev x (proj2 (Hq v s Is)) (proj2 (He v ev Ie))). split.
      + intros [A B] t It. apply in_app_iff in It. destruct It as [It|It]; [rewrite <- (unique_key q v s t Nq Is It); exact A|rewrite <- (unique_key e v ev t Ne Ie It); exact B].
      + intro H. split; apply H; apply in_app_iff; auto.
    - split.
      + intros A t It. apply in_app_iff in It. destruct It as [It|It]; [rewrite <- (unique_key q v u t Nq Iu It); exact A|exfalso; apply N; change v with (fst (v, t)); apply in_map, It].
      + intro H. apply H. apply in_app_iff. auto.
    - split.
      + intros A t It. apply in_app_iff in It. destruct It as [It|It]; [exfalso; apply N; change v with (fst (v, t)); apply in_map, It|rewrite <- (unique_key e v u t Ne Iu It); exact A].
      + intro H. apply H. apply in_app_iff. auto.
  Qed.
  Lemma meet_query : forall q, wf_mquery kinds G q -> wf_mquery kinds G (meet (F := mixed numeric discrete) q e).
  Proof.
    intros q [Nq Hq]. destruct We as [Ne He]. split; [exact (meet_nodup (F := mixed numeric discrete) q e Nq Ne)|].
    intros v u I. destruct (meet_in (F := mixed numeric discrete) q e v u I) as [(s & ev & Is & Ie & ->)|[[Iu N]|[Iu N]]]; [|apply Hq, Iu|apply He, Iu].
    destruct (Hq v s Is) as [V Ss]. split; [exact V|]. apply (rd_suits _ _ _ _ _ Rd). apply oks_inter; apply (rd_oks _ _ _ _ _ Rd); try assumption. apply (He v ev Ie).
  Qed.
  Lemma meet_narrowed : forall l q r, proper_leaf L (n_vars J) l -> wf_mquery kinds G q -> wf_mquery kinds G r -> narrowed q e r ->
    leaf_prob L (l_dists l) (meet (F := mixed numeric discrete) q e) == leaf_prob L (l_dists l) r.
  Proof.
    intros l q r Pl Wq Wr [Kr Hr]. destruct (narrowed_meet q Wq) as [Km Hm]. apply (leaf_prob_ext l Pl); [apply (rd_event _ _ _ _ _ Rd), meet_query, Wq|apply (rd_event _ _ _ _ _ Rd), Wr| |].
    - intro v. unfold keys. rewrite (Kr v). apply Km.
    - intros v s t x Is It. rewrite (Hr v t x It). exact (Hm v s x Is).
  Qed.

  (** Restricting the distributions of a leaf. *)
  Hypothesis Single : forall v c, In (v, inl (NC c)) e -> ~ exists x, forall y, cs_mem y c <-> y = x.
  Hypothesis Keep : forall l v p, In l (leaves J) -> 0 < chance pr l e -> nth_error (l_dists l) v = Some (inl p) ->
    (forall c, In (v, inl (NC c)) e -> restrictable p c) /\ (~ In v (map fst e) -> seamless p).

  Lemma not_one : forall v c, In (v, inl (NC c)) e -> cs_size c <> Some 1%Z.
  Proof.
    intros v c I Z. apply (Single v c I). destruct (proj2 We v _ I) as [_ Ss]. unfold suits in Ss. destruct (nth v kinds None); [contradiction|]. exact (EffectProps.size_one c (proj1 Ss) Z).
  Qed.

  Lemma prob_mixed : forall l v s d, In l (leaves J) -> In (v, s) e -> nth_error (l_dists l) v = Some d ->
    exists q, d_prob (mixed numeric discrete) d s = Ok q /\ q == P L d s.
  Proof.
    intros l v s d Il I Hd. pose proof (mx_dists _ _ _ W l v d Il Hd) as Fd. destruct (proj2 We v s I) as [V Ss].
    destruct (p_ok _ L v d s (proj2 (rd_okd _ _ _ _ _ Rd v d) Fd) (rd_oks _ _ _ _ _ Rd v s V Ss)) as (q & Eq & Hq).
    unfold fits in Fd. unfold suits in Ss. destruct (nth v kinds None) as [D|] eqn:K; destruct d as [p|d]; try contradiction; destruct s as [[c|r]|s]; try contradiction.
    - exists q. split; [exact Eq|exact Hq].
    - cbn [d_prob mixed numeric n_prob]. unfold n_prob1. destruct (cs_size c) as [[|[k|k|]|k]|] eqn:Z; try (exists q; split; [exact Eq|exact Hq]).
      + exists 0. split; [reflexivity|]. rewrite <- (rd_pr _ _ _ _ _ Rd), (rd_np _ _ _ _ _ Rd). symmetry. apply (np_empty (G v)); [exact Fd|apply Ss|].
        destruct (cs_isempty c) eqn:E; [reflexivity|]. exfalso. unfold cs_size in Z. rewrite E in Z. match type of Z with context [if ?b then _ else _] => destruct b end; discriminate.
      + exfalso. exact (not_one v c I Z).
  Qed.

  Lemma crop_mixed : forall l v s d, In l (leaves J) -> 0 < leaf_prob L (l_dists l) e -> In (v, s) e -> nth_error (l_dists l) v = Some d ->
    exists d', d_crop (mixed numeric discrete) d s = Ok d' /\ okd L v d' /\ forall t, oks L v t -> P L d' t == P L d (inter (mixed numeric discrete) t s) / P L d s.
  Proof.
    intros l v s d Il Po I Hd. pose proof (mx_dists _ _ _ W l v d Il Hd) as Fd. destruct (proj2 We v s I) as [V Ss].
    destruct (tree_leaf J L (rd_proper _ _ _ _ _ Rd) (rd_support _ _ _ _ _ Rd) l Il) as [Pl _].
    destruct (leaf_factor _ (full J) L (n_vars J) l e v s Pl (rd_event _ _ _ _ _ Rd e We) I Po) as (d0 & Hd0 & Od & Os & Pe). rewrite Hd in Hd0. injection Hd0 as <-.
    assert (Ch : 0 < chance pr l e) by (rewrite (rd_chance _ _ _ _ _ Rd); exact Po).
    rewrite <- (rd_pr _ _ _ _ _ Rd) in Pe |- *.
    unfold fits in Fd. unfold suits in Ss. destruct (nth v kinds None) as [D|] eqn:K; destruct d as [p|d]; try contradiction; destruct s as [[c|r]|s]; try contradiction.
    - rewrite (rd_values _ _ _ _ _ Rd) in Pe. pose proof (domain_of kinds v D K) as Ed.
      destruct (crop_ok _ (discrete_lawful (domains kinds)) v d s) as (d' & Ec & Od' & Pd'); [cbn; rewrite Ed; exact Fd|cbn; rewrite Ed; apply Forall_forall; exact Ss|exact Pe|].
      exists (inr d'). split; [cbn [d_crop mixed]; rewrite Ec; reflexivity|]. split; [apply (rd_okd _ _ _ _ _ Rd); rewrite K; cbn in Od'; rewrite Ed in Od'; exact Od'|].
      intros t Ot. apply (rd_suits _ _ _ _ _ Rd) in Ot. rewrite K in Ot. destruct t as [t|t]; [contradiction|]. cbn [inter mixed]. rewrite !(rd_values _ _ _ _ _ Rd).
      apply Pd'. cbn. rewrite Ed. apply Forall_forall. exact Ot.
    - rewrite (rd_np _ _ _ _ _ Rd) in Pe. destruct (Keep l v p Il Ch Hd) as [Hr _].
      destruct (numeric_crop (G v) (mx_grid _ _ _ W v) p c Fd Ss (not_one v c I) Pe (Hr c I)) as (q & Eq & Oq & Sq & Pq & _).
      exists (inl q). split; [cbn [d_crop mixed numeric crop_set]; rewrite Eq; reflexivity|]. split; [apply (rd_okd _ _ _ _ _ Rd); rewrite K; exact Oq|].
      intros t Ot. apply (rd_suits _ _ _ _ _ Rd) in Ot. rewrite K in Ot. destruct t as [[t|r]|t]; try contradiction. cbn [inter mixed numeric]. rewrite n_inter_cut, !(rd_np _ _ _ _ _ Rd). apply Pq. exact Ot.
  Qed.

  (** A tree with restricted leaves. *)
  Section Result.
    Variable ns : list (inner (mixed numeric discrete)).
    Variable ls : list (leaf (mixed numeric discrete)).
    Variable rt : option nat.
    Variable ps : list mdist.
    Let J2 : mtree := JPT (F := mixed numeric discrete) (n_vars J) (full J) ns ls rt ps.
    Hypothesis T2 : tree_ok J2.
    Hypothesis P2 : proper_tree J2 L.
    Hypothesis S2 : supported_tree J2 L.
    Hypothesis C2 : Forall2 (conditioned J L e) (filter (possible L e) (leaves J)) ls.

    Lemma result_readied : readied kinds G J2 pr L.
    Proof.
      destruct Rd as [R1 R2 R3 R4 R5 R6 R7 R8 R9 R10 R11 R12 R13]. constructor; try assumption.
      intro q. unfold weight, TreeSpec.mixture. apply Qsum_map_ext. intros l _. exact (R13 l q).
    Qed.
    Lemma result_leaf : forall l', In l' ls -> exists l, In l (leaves J) /\ 0 < leaf_prob L (l_dists l) e /\ conditioned J L e l l'.
    Proof.
      intros l' I'. assert (Inc : forall l, In l (filter (possible L e) (leaves J)) -> In l (leaves J) /\ 0 < leaf_prob L (l_dists l) e).
      { intros l I. apply filter_In in I. destruct I as [I B]. split; [exact I|]. unfold possible in B. unfold Qltb in *; destruct (Qltb_spec 0 (leaf_prob L (l_dists l) e)); [assumption|discriminate]. }
      pose proof C2 as CC. revert Inc I'. clear - CC. induction CC as [|a b xs ys C R IH]; intros Inc I'; [destruct I'|]. destruct I' as [<-|I'].
      - destruct (Inc a (or_introl eq_refl)) as [A B]. exists a. auto.
      - apply IH; [intros; apply Inc; right; assumption|exact I'].
    Qed.
    Lemma result_wf : wf_mixed kinds G J2.
    Proof.
      assert (Pl : forall l, In l ls -> proper_leaf L (n_vars J) l /\ supported_leaf L l) by (intros l I; exact (tree_leaf J2 L P2 S2 l I)).
      constructor.
      - exact (mx_vars _ _ _ W).
      - exact (mx_full _ _ _ W).
      - exact T2.
      - exact (mx_grid _ _ _ W).
      - intros l I. rewrite <- (mx_vars _ _ _ W). destruct (Pl l I) as [(A & _) _]. exact A.
      - intros l v d I Hd. destruct (Pl l I) as [(_ & A & _) _]. apply (rd_okd _ _ _ _ _ Rd). exact (A v d Hd).
      - intros l I. destruct (Pl l I) as [(_ & _ & A & _) _]. exact A.
      - intros l v s I Is. destruct (Pl l I) as [(_ & _ & _ & A) _]. rewrite <- (mx_vars _ _ _ W). destruct (A v s Is) as [A1 A2]. split; [exact A1|]. apply (rd_suits _ _ _ _ _ Rd). exact A2.
      - intros l v s d I Is Hd. destruct (Pl l I) as [(_ & A & _ & A') B]. apply (mass_wd d s (pr d s)); [rewrite (rd_pr _ _ _ _ _ Rd); exact (B v d s Hd Is)|].
        apply (Ms v); [apply (rd_okd _ _ _ _ _ Rd); exact (A v d Hd)|apply (rd_suits _ _ _ _ _ Rd), (A' v s Is)].
    Qed.

    (** Numeric distributions of the result. *)
    Lemma result_numeric : forall l l' v p', In l (leaves J) -> 0 < leaf_prob L (l_dists l) e -> conditioned J L e l l' -> nth_error (l_dists l') v = Some (inl p') ->
      exists p, nth_error (l_dists l) v = Some (inl p) /\ seamless p' /\
        (forall x, finite x -> density p' x == kept_slope pr e v x l) /\
        forall x y, finite x -> (forall c, In (v, inl (NC c)) e -> kept_cdf p c x y) -> (~ In v (map fst e) -> plf_is p x y) -> plf_is p' x y.
    Proof.
      intros l l' v p' Il Po (_ & _ & _ & _ & _ & Len & _ & Nth) Hd'.
      destruct (nth_error (l_dists l) v) as [d|] eqn:Hd.
      2:{ exfalso. apply nth_error_None in Hd. rewrite <- Len in Hd. apply nth_error_None in Hd. congruence. }
      destruct (Nth v d Hd) as (d' & Hd'' & Ex). rewrite Hd' in Hd''. injection Hd'' as <-. pose proof (mx_dists _ _ _ W l v d Il Hd) as Fd.
      assert (Ch : 0 < chance pr l e) by (rewrite (rd_chance _ _ _ _ _ Rd); exact Po).
      destruct (@lookup (vset (mixed numeric discrete)) e v) as [s|] eqn:El.
      - pose proof (lookup_in _ _ _ _ El) as I. destruct (proj2 We v s I) as [V Ss].
        destruct (tree_leaf J L (rd_proper _ _ _ _ _ Rd) (rd_support _ _ _ _ _ Rd) l Il) as [Pl _].
        destruct (leaf_factor _ (full J) L (n_vars J) l e v s Pl (rd_event _ _ _ _ _ Rd e We) I Po) as (d0 & Hd0 & Od & Os & Pe). rewrite Hd in Hd0. injection Hd0 as <-.
        rewrite <- (rd_pr _ _ _ _ _ Rd) in Pe.
        unfold fits in Fd. unfold suits in Ss. destruct (nth v kinds None) as [D|] eqn:K; destruct d as [p|d]; try contradiction; destruct s as [[c|r]|s]; try contradiction.
        { cbn [d_crop mixed] in Ex. destruct (d_crop discrete d s); discriminate. }
        rewrite (rd_np _ _ _ _ _ Rd) in Pe. destruct (Keep l v p Il Ch Hd) as [Hr _].
        destruct (numeric_crop (G v) (mx_grid _ _ _ W v) p c Fd Ss (not_one v c I) Pe (Hr c I)) as (q & Eq & Oq & Sq & Pq & Kq & Dq).
        cbn [d_crop mixed numeric crop_set] in Ex. rewrite Eq in Ex. cbn [bind] in Ex. injection Ex as <-. exists p. split; [reflexivity|]. split; [exact Sq|]. split.
        + intros x Fx. rewrite (Dq x Fx). unfold kept_slope. rewrite Hd. replace (@lookup mset e v) with (Some (inl (NC c) : mset)) by (symmetry; exact El). rewrite (rd_np _ _ _ _ _ Rd). reflexivity.
        + intros x y Fx Hc _. apply Kq; [exact Fx|]. apply Hc, I.
      - subst d. exists p'. split; [reflexivity|]. apply lookup_none in El as N. split; [apply (Keep l v p' Il Ch Hd), N|]. split; [|intros x y _ _ H; exact (H N)].
        intros x _. unfold kept_slope. rewrite Hd. replace (@lookup mset e v) with (@None mset) by (symmetry; exact El). reflexivity.
    Qed.

    Hypothesis M0 : TreeSpec.mixture J2 L [] == 1.

    Lemma result_average : 0 < TreeSpec.mixture J L e -> forall f g : leaf (mixed numeric discrete) -> Q, (forall l l', In l (leaves J) -> 0 < leaf_prob L (l_dists l) e -> conditioned J L e l l' -> In l' ls -> g l' == f l) ->
      average pr J2 [] g == average pr J e f.
    Proof.
      intros Pm f g H. unfold average. pose proof result_readied as Rd2. rewrite (rd_weight _ _ _ _ _ Rd2 []), M0, (rd_weight _ _ _ _ _ Rd e).
      transitivity (Qsum (map (fun l' => l_prior l' * g l') ls)).
      { unfold Qdiv. change (/ 1) with 1. rewrite Qmult_1_r. apply Qsum_map_ext. intros l' _. unfold share, chance. cbn [fold_right]. ring. }
      transitivity (Qsum (map (fun l => share pr l e * f l) (filter (possible L e) (leaves J))) / TreeSpec.mixture J L e).
      - assert (Inc : forall l, In l (filter (possible L e) (leaves J)) -> In l (leaves J) /\ 0 < leaf_prob L (l_dists l) e).
        { intros l I. apply filter_In in I. destruct I as [I B]. split; [exact I|]. unfold possible in B. unfold Qltb in *; destruct (Qltb_spec 0 (leaf_prob L (l_dists l) e)); [assumption|discriminate]. }
        pose proof C2 as CC. clear - CC Inc H Rd Pm. revert H Inc. induction CC as [|a b xs ys C R IH]; intros H Inc; [cbn; field; lra|]. cbn [map Qsum].
        rewrite IH; [|intros l l' A1 A2 A3 A4; apply H; try assumption; right; exact A4|intros; apply Inc; right; assumption]. destruct (Inc a (or_introl eq_refl)) as [Ia Pa]. rewrite (H a b Ia Pa C (or_introl eq_refl)).
        destruct C as (_ & _ & _ & _ & Pp & _). rewrite Pp, (rd_share _ _ _ _ _ Rd). field. lra.
      - apply Qmult_comp; [|reflexivity]. rewrite Qsum_filter. apply Qsum_map_ext. intros l I. unfold possible, Qltb. destruct (Qltb_spec 0 (leaf_prob L (l_dists l) e)) as [B|B]; [reflexivity|].
        destruct (tree_leaf J L (rd_proper _ _ _ _ _ Rd) (rd_support _ _ _ _ _ Rd) l I) as [Pl _]. pose proof (leaf_prob_nonneg L (n_vars J) l Pl e (proj2 (rd_event _ _ _ _ _ Rd e We))) as Nn.
        assert (Z : leaf_prob L (l_dists l) e == 0) by lra. rewrite (rd_share _ _ _ _ _ Rd), Z. ring.
    Qed.
  End Result.
End Cond.

(** ** The tree which [conditional_jpt] returns *)
Section Core.
  Variable kinds : list kind.
  Variable G : var -> grid.
  Variable J : mtree.
  Hypothesis W : wf_mixed kinds G J.
  Hypothesis Bin : forall n, In n (innernodes J) -> length (i_children n) = 2%nat.
  Variable pr : mdist -> mset -> Q.
  Variable L : @measured (mixed numeric discrete) (full J).
  Hypothesis Rd : readied kinds G J pr L.
  Hypothesis Ms : forall v d s, fits (G v) (nth v kinds None) d -> suits (G v) (nth v kinds None) s -> mass d s (pr d s).
  Variable e : list (var * mset).
  Hypothesis We : wf_mquery kinds G e.
  Hypothesis Ne : e <> [].
  Hypothesis Single : forall v c, In (v, inl (NC c)) e -> ~ exists x, forall y, cs_mem y c <-> y = x.
  Hypothesis Keep : forall l v p, In l (leaves J) -> 0 < chance pr l e -> nth_error (l_dists l) v = Some (inl p) ->
    (forall c, In (v, inl (NC c)) e -> restrictable p c) /\ (~ In v (map fst e) -> seamless p).
  Hypothesis Grain : forall v x, (v < length kinds)%nat -> nth v kinds None = None -> finite x ->
    average pr J e (kept_slope pr e v x) == 0 \/ 1 # 100000000 < average pr J e (kept_slope pr e v x).

  Definition good_prior (ls : list (leaf (mixed numeric discrete))) (v : var) (d : mdist) : Prop :=
    match nth v kinds None with
       | None => exists q lo hi, d = inl q /\ proper_cdf q lo hi /\
           forall x f, finite x -> (forall l p, In l ls -> nth_error (l_dists l) v = Some (inl p) -> plf_is p x (f l)) -> plf_is q x (average pr (JPT (F := mixed numeric discrete) (n_vars J) (full J) [] ls None []) [] f)
       | Some D => exists d', d = inr d' /\ ok_dist D d' /\
           forall s, (forall x, In x s -> (x < n_values D)%nat) -> mass d (inr s) (weight pr (JPT (F := mixed numeric discrete) (n_vars J) (full J) [] ls None []) [(v, inr s)])
       end.
  Lemma conditional_core : forall fail,
    (TreeSpec.mixture J L e == 0 -> conditional_jpt J e fail = if fail then Err Unsatisfiability else Ok None) /\
    (0 < TreeSpec.mixture J L e -> exists ns ls rt ps, let J' := JPT (F := mixed numeric discrete) (n_vars J) (full J) ns ls rt ps in
       conditional_jpt J e fail = Ok (Some J') /\ tree_ok J' /\ (forall n, In n (innernodes J') -> i_children n <> []) /\ proper_tree J' L /\ supported_tree J' L /\
       Forall2 (conditioned J L e) (filter (possible L e) (leaves J)) ls /\ Qsum (map l_prior ls) == 1 /\
       (forall q, event L (n_vars J) q -> TreeSpec.mixture J' L q == TreeSpec.mixture J L (meet (F := mixed numeric discrete) q e) / TreeSpec.mixture J L e) /\
       Forall2 (good_prior ls) (seq 0 (n_vars J)) ps).
  Proof.
    intro fail. pose proof (rd_event _ _ _ _ _ Rd e We) as Ee.
    apply (conditional_parts J L (rd_tree _ _ _ _ _ Rd) (rd_proper _ _ _ _ _ Rd) (rd_support _ _ _ _ _ Rd) Bin e Ee Ne (prob_mixed kinds G J W pr L Rd e We Single) (crop_mixed kinds G J W pr L Rd e We Single Keep) good_prior).
    intros ns ls rt J2 Pm T2 Pr2 Su2 Rc M0. cbv zeta in *. unfold good_prior.
    pose proof (result_wf kinds G J W pr L Rd Ms ns ls rt (priors J) T2 Pr2 Su2) as W2. pose proof (result_readied kinds G J pr L Rd ns ls rt (priors J) T2 Pr2 Su2) as Rd2. fold J2 in W2, Rd2.
    assert (Ww : weight pr J2 [] == 1) by (rewrite (rd_weight _ _ _ _ _ Rd2 []); exact M0).
    destruct (posterior_unasked kinds G J2 W2 pr L Rd2 (seq 0 (n_vars J)) [] true) as [_ Po].
    + split; [constructor|intros v s []].
    + intros v I. apply in_seq in I. rewrite (mx_vars _ _ _ W) in I. split; [lia|intros []].
    + intros l v c _ [].
    + intros v l' p' _ Il' Hd. destruct (result_leaf J L e ls Rc l' Il') as (l & Il & Pl & C). destruct (result_numeric kinds G J W pr L Rd e We Single Keep l l' v p' Il Pl C Hd) as (p & _ & Sp & _). exact Sp.
    + intros v x Iv K Fx. apply in_seq in Iv. rewrite (mx_vars _ _ _ W) in Iv.
      assert (E : average pr J2 [] (fun l => slope_of l v x) == average pr J e (kept_slope pr e v x)).
      { apply (result_average kinds G J pr L Rd e We ns ls rt (priors J) T2 Pr2 Su2 Rc M0 Pm). intros l l' Il Pl C Il'. unfold slope_of.
        destruct (nth_error (l_dists l') v) as [[p'|d']|] eqn:Hd.
        - destruct (result_numeric kinds G J W pr L Rd e We Single Keep l l' v p' Il Pl C Hd) as (p & _ & _ & Dp & _). exact (Dp x Fx).
        - pose proof (mx_dists _ _ _ W2 l' v _ Il' Hd) as Fd. rewrite K in Fd. destruct Fd.
        - exfalso. apply nth_error_None in Hd. rewrite (mx_len _ _ _ W2 l' Il') in Hd. lia. }
      rewrite E. apply Grain; [lia|exact K|exact Fx].
    + destruct Po as (ds & Ep & Fp); [rewrite Ww; discriminate|]. exists ds. split; [exact Ep|]. eapply Forall2_impl; [|exact Fp]. intros v d _ H. cbv beta in H |- *. destruct (nth v kinds None) as [D|] eqn:K.
      * destruct H as (d' & -> & Od & Hs). exists d'. split; [reflexivity|]. split; [exact Od|]. intros s Bs. apply (mass_wd _ _ _ _) with (2 := Hs s Bs). rewrite Ww. unfold Qdiv. change (/ 1) with 1. rewrite Qmult_1_r. reflexivity.
      * destruct H as (q & lo & hi & -> & Pq & Vq). exists q, lo, hi. split; [reflexivity|]. split; [exact Pq|]. intros x f Fx H. exact (Vq x f Fx H).
  Qed.
End Core.

(** ** C41: conditional_jpt with numeric variables

    [pr] is the probability of [mass].  The evidence on a numeric variable is an interval
    with more than one number; every leaf where it is possible must be restricted exactly. *)
Theorem C41_conditional_mixed_partial : forall kinds G (J : mtree), wf_mixed kinds G J -> (forall n, In n (innernodes J) -> length (i_children n) = 2%nat) ->
  exists pr : mdist -> mset -> Q,
    (forall v d s, fits (G v) (nth v kinds None) d -> suits (G v) (nth v kinds None) s -> mass d s (pr d s)) /\
    forall e fail, wf_mquery kinds G e -> e <> [] ->
      (forall v c, In (v, inl (NC c)) e -> ~ exists x, forall y, cs_mem y c <-> y = x) ->
      (forall l v p, In l (leaves J) -> 0 < chance pr l e -> nth_error (l_dists l) v = Some (inl p) ->
         (forall c, In (v, inl (NC c)) e -> restrictable p c) /\ (~ In v (map fst e) -> seamless p)) ->
      (* the density of the result's variables is 0 or above 1e-8 *)
      (forall v x, (v < length kinds)%nat -> nth v kinds None = None -> finite x ->
         average pr J e (kept_slope pr e v x) == 0 \/ 1 # 100000000 < average pr J e (kept_slope pr e v x)) ->
      (weight pr J e == 0 -> conditional_jpt J e fail = if fail then Err Unsatisfiability else Ok None) /\
      (~ weight pr J e == 0 -> exists J', conditional_jpt J e fail = Ok (Some J') /\ wf_mixed kinds G J' /\
         (forall n, In n (innernodes J') -> i_children n <> []) /\
         Qsum (map l_prior (leaves J')) == 1 /\
         (* the leaves: those where the evidence is possible, restricted to it *)
         Forall2 (fun l l' : leaf (mixed numeric discrete) => l_idx l' = l_idx l /\ l_parent l' = l_parent l /\ l_path l' = l_path l /\ l_samples l' = l_samples l /\
                    l_prior l' == share pr l e / weight pr J e /\
                    forall q r, wf_mquery kinds G q -> wf_mquery kinds G r -> narrowed q e r -> chance pr l' q == chance pr l r / chance pr l e)
           (filter (fun l => Qltb 0 (chance pr l e)) (leaves J)) (leaves J') /\
         (* the conditional measure *)
         (forall q r, wf_mquery kinds G q -> wf_mquery kinds G r -> narrowed q e r ->
            weight pr J' q == weight pr J r / weight pr J e /\
            exists a, infer J' q [] true = Ok (Some a) /\ a == weight pr J r / weight pr J e) /\
         (* the distributions of the variables *)
         Forall2 (fun v d => match nth v kinds None with
           | None => exists q lo hi, d = inl q /\ proper_cdf q lo hi /\
               forall x f, finite x -> (forall l p, In l (leaves J) -> 0 < chance pr l e -> nth_error (l_dists l) v = Some (inl p) ->
                   (forall c, In (v, inl (NC c)) e -> kept_cdf p c x (f l)) /\ (~ In v (map fst e) -> plf_is p x (f l))) ->
                 plf_is q x (average pr J e f)
           | Some D => exists d', d = inr d' /\ ok_dist D d' /\
               forall s, (forall x, In x s -> (x < n_values D)%nat) -> mass d (inr s) (weight pr J' [(v, inr s)])
           end) (seq 0 (length kinds)) (priors J')).
Proof.
  intros kinds G J W Bin. destruct (ready kinds G J W) as (pr & L & Rd & Ms). exists pr. split; [exact Ms|]. intros e fail We Ne Single Keep Grain.
  pose proof (rd_event _ _ _ _ _ Rd e We) as Ee. pose proof (rd_weight _ _ _ _ _ Rd e) as Wm. pose proof (mixture_nonneg J L (rd_proper _ _ _ _ _ Rd) (rd_support _ _ _ _ _ Rd) e Ee) as Mn.
  destruct (conditional_core kinds G J W Bin pr L Rd Ms e We Ne Single Keep Grain fail) as [A B].
  split; [intro Z; apply A; rewrite <- Wm; exact Z|]. intro N. assert (Pm : 0 < TreeSpec.mixture J L e) by (destruct (Qlt_le_dec 0 (TreeSpec.mixture J L e)); [assumption|exfalso; apply N; rewrite Wm; lra]).
    destruct (B Pm) as (ns & ls & rt & ps & H). cbv zeta in H. destruct H as (Ec & T2 & Cf & Pr2 & Su2 & Rc & S1 & Mx & Fp). clear A B.
    pose proof (result_wf kinds G J W pr L Rd Ms ns ls rt ps T2 Pr2 Su2) as W2. pose proof (result_readied kinds G J pr L Rd ns ls rt ps T2 Pr2 Su2) as Rd2.
    set (J' := JPT (F := mixed numeric discrete) (n_vars J) (full J) ns ls rt ps) in *. exists J'. split; [exact Ec|]. split; [exact W2|]. split; [exact Cf|]. split; [exact S1|].
    assert (Pos : forall l, Qltb 0 (chance pr l e) = possible L e l) by (intro l; unfold possible; apply Qltb_comp; apply (rd_chance _ _ _ _ _ Rd)).
    assert (Inc : forall l, In l (filter (possible L e) (leaves J)) -> In l (leaves J) /\ 0 < leaf_prob L (l_dists l) e).
    { intros l I. apply filter_In in I. destruct I as [I P0]. split; [exact I|]. unfold possible in P0. unfold Qltb in *; destruct (Qltb_spec 0 (leaf_prob L (l_dists l) e)); [assumption|discriminate]. }
    assert (M0 : TreeSpec.mixture J' L [] == 1) by (rewrite (mixture_total J' L); exact S1).
    assert (Wt : forall q r, wf_mquery kinds G q -> wf_mquery kinds G r -> narrowed q e r -> weight pr J' q == weight pr J r / weight pr J e).
    { intros q r Wq Wr Nr. rewrite (rd_weight _ _ _ _ _ Rd2 q), (Mx q (rd_event _ _ _ _ _ Rd q Wq)), Wm, (rd_weight _ _ _ _ _ Rd r). apply Qdiv_comp; [|reflexivity].
      unfold TreeSpec.mixture. apply Qsum_map_ext. intros l I. destruct (tree_leaf J L (rd_proper _ _ _ _ _ Rd) (rd_support _ _ _ _ _ Rd) l I) as [Pl _].
      apply Qmult_comp; [reflexivity|]. apply (meet_narrowed kinds G J W pr L Rd e We l q r Pl Wq Wr Nr). }
    split; [|split; [|]].
    + rewrite (filter_ext _ (possible L e)) by (intro l; apply Pos). change (leaves J') with ls. revert Inc. generalize (filter (possible L e) (leaves J)) Rc. clear - Rd W We Wm. intros xs Rc. induction Rc as [|l l' xs ls C R IH]; intro Inc; constructor; [|apply IH; intros; apply Inc; right; assumption].
      destruct (Inc l (or_introl eq_refl)) as [Il Pl]. destruct C as (C1 & C2 & C3 & C4 & C5 & C6 & C7 & _). do 4 (split; [assumption|]). split; [rewrite C5, Wm, (rd_share _ _ _ _ _ Rd); reflexivity|].
      intros q r Wq Wr Nr. destruct (tree_leaf J L (rd_proper _ _ _ _ _ Rd) (rd_support _ _ _ _ _ Rd) l Il) as [Pp _].
      pose proof (meet_cropped L (n_vars J) l Pp e (l_dists l') (rd_event _ _ _ _ _ Rd e We) Pl C7 q (rd_event _ _ _ _ _ Rd q Wq)) as Hm.
      rewrite (meet_narrowed kinds G J W pr L Rd e We l q r Pp Wq Wr Nr) in Hm. rewrite !(rd_chance _ _ _ _ _ Rd), <- Hm. field. lra.
    + intros q r Wq Wr Nr. split; [exact (Wt q r Wq Wr Nr)|].
      destruct (infer_spec J' L T2 Pr2 Su2 q [] true (rd_event _ _ _ _ _ Rd q Wq) (conj (NoDup_nil _) (Forall_nil _))) as [_ Inf]. destruct Inf as (a & Ea & Ha); [rewrite M0; discriminate|].
      exists a. split; [exact Ea|]. rewrite app_nil_r in Ha. rewrite Ha, M0, <- (Wt q r Wq Wr Nr), (rd_weight _ _ _ _ _ Rd2 q). unfold Qdiv. change (/ 1) with 1. ring.
    + rewrite <- (mx_vars _ _ _ W). change (priors J') with ps. eapply Forall2_impl; [|exact Fp]. intros v d _ H. cbv beta in H.  unfold good_prior in H. destruct (nth v kinds None) as [D|] eqn:K; [exact H|].
      destruct H as (q & lo & hi & -> & Pq & Vq). exists q, lo, hi. split; [reflexivity|]. split; [exact Pq|]. intros x f Fx H.
      assert (Cg : forall l', In l' ls -> exists l, In l (leaves J) /\ 0 < leaf_prob L (l_dists l) e /\ conditioned J L e l l') by (intros l' I; exact (result_leaf J L e ls Rc l' I)).
      assert (Ex : exists g : leaf (mixed numeric discrete) -> Q, forall l', In l' ls -> exists l, In l (leaves J) /\ 0 < leaf_prob L (l_dists l) e /\ conditioned J L e l l' /\ g l' == f l).
      { assert (Nd : NoDup (map l_idx ls)). { pose proof (ids J' T2) as Id. apply NoDup_app_parts in Id. apply Id. }
        clear - Cg Nd. induction ls as [|l0 ls IH]; [exists (fun _ => 0); intros l' []|]. cbn in Nd. inversion Nd as [|? ? N0 Nd']; subst.
        destruct IH as (g & Hg); [intros; apply Cg; right; assumption|exact Nd'|]. destruct (Cg l0 (or_introl eq_refl)) as (l & A1 & A2 & A3).
        exists (fun l' => if Nat.eqb (l_idx l') (l_idx l0) then f l else g l'). intros l' [<-|I].
        - exists l. rewrite Nat.eqb_refl. repeat split; assumption || reflexivity || apply A3.
        - destruct (Hg l' I) as (l1 & B1 & B2 & B3 & B4). exists l1. destruct (Nat.eqb_spec (l_idx l') (l_idx l0)) as [E|_]; [exfalso; apply N0; rewrite <- E; apply in_map, I|]. split; [exact B1|]. split; [exact B2|]. split; [exact B3|exact B4]. }
      destruct Ex as (g & Hg). apply (plf_is_wd q x (average pr J' [] g)).
      * apply (result_average kinds G J pr L Rd e We ns ls rt ps T2 Pr2 Su2 Rc M0 Pm). intros l l' Il Pl C Il'. destruct (Hg l' Il') as (l1 & I1 & P1 & C1 & E1). rewrite E1.
        assert (l1 = l) as ->; [|reflexivity]. destruct C as (C & _). destruct C1 as (C1 & _).
        pose proof (ids J (rd_tree _ _ _ _ _ Rd)) as Id. apply NoDup_app_parts in Id. destruct Id as (_ & Id & _). apply (nodup_map_inj (leaf (mixed numeric discrete)) l_idx (leaves J)); [exact Id|exact I1|exact Il|congruence].
      * apply (Vq x g Fx). intros l' p' Il' Hd'. destruct (Hg l' Il') as (l & Il & Pl & C & E). destruct (result_numeric kinds G J W pr L Rd e We Single Keep l l' v p' Il Pl C Hd') as (p & Hp & _ & _ & Kp).
        apply (plf_is_wd p' x (f l)); [symmetry; exact E|]. destruct (H l p Il) as [H1 H2]; [rewrite (rd_chance _ _ _ _ _ Rd); exact Pl|exact Hp|]. apply Kp; assumption.
Qed.
Print Assumptions C41_conditional_mixed_partial.

(** For every query there is one to compare with. *)
Theorem C41_narrowed_exists : forall kinds G (J : mtree) q e, wf_mixed kinds G J -> wf_mquery kinds G q -> wf_mquery kinds G e -> exists r, wf_mquery kinds G r /\ narrowed q e r.
Proof.
  intros kinds G J q e W Wq We. destruct (ready kinds G J W) as (pr & L & Rd & _). exists (meet (F := mixed numeric discrete) q e).
  split; [exact (meet_query kinds G J pr L Rd e We q Wq)|exact (narrowed_meet kinds G e We q Wq)].
Qed.
Print Assumptions C41_narrowed_exists.

Example C41_conditional_mixed_example : let e := [(0%nat, inl (NC half_up))] in
  wf_mixed mx_kinds cx_G cx /\ (forall n, In n (innernodes cx) -> length (i_children n) = 2%nat) /\ wf_mquery mx_kinds cx_G e /\
  (forall v c, In (v, inl (NC c)) e -> ~ exists x, forall y, cs_mem y c <-> y = x) /\
  (forall l v p, In l (leaves cx) -> nth_error (l_dists l) v = Some (inl p) -> (forall c, In (v, inl (NC c)) e -> restrictable p c) /\ (~ In v (map fst e) -> seamless p)) /\
  (forall pr : mdist -> mset -> Q, (forall v d s, fits (cx_G v) (nth v mx_kinds None) d -> suits (cx_G v) (nth v mx_kinds None) s -> mass d s (pr d s)) ->
     weight pr cx e == 5 # 8 /\
     forall v x, (v < length mx_kinds)%nat -> nth v mx_kinds None = None -> finite x ->
       average pr cx e (kept_slope pr e v x) == 0 \/ 1 # 100000000 < average pr cx e (kept_slope pr e v x)) /\
  match conditional_jpt cx e true with
  | Ok (Some J') => has_values (posterior J' [0%nat] [] true) [(HALF, 0); ((1022 * 2 ^ 52 + 2 ^ 51)%Z, 3 # 10); (ONE, 3 # 5); (TWO, 1)]
      && match infer J' [(0%nat, inl (NC below))] [] true with Ok (Some r) => Qeq_bool r (3 # 5) | _ => false end
      && match infer J' [(1%nat, inr [0%nat])] [] true with Ok (Some r) => Qeq_bool r (3 # 5) | _ => false end
  | _ => false
  end = true.
Proof.
  pose proof cx_order as (O1 & O2 & O3 & O4 & O5 & O6). pose proof ord_facts as O. cbv zeta.
  assert (Eh : half_up = CS HALF ORD_INF INC EXC) by reflexivity.
  assert (Sq : suits (cx_G 0%nat) None (inl (NC half_up))).
  { rewrite Eh. unfold suits, on_grid, wf, moderate, cx_G; cbn [lower upper left right]. split; [repeat split; try lia; intros; try discriminate; lia|right; lia]. }
  assert (Hh : cdf_at ramp HALF (1 # 2)).
  { right; right. assert (F : finite HALF) by (unfold finite; lia). split; [exact F|]. pose proof (ramp_at HALF F) as V. unfold ramp_value in V. destruct (Z.leb_spec 0 HALF); [|lia]. destruct (Z.ltb_spec HALF ONE); [|lia].
    apply (plf_is_wd _ _ _ _) with (2 := V). vm_compute. reflexivity. }
  assert (Hi : cdf_at ramp ORD_INF 1) by (right; left; split; reflexivity).
  split; [exact cx_wf|]. split; [intros n [<-|[]]; reflexivity|]. split; [|split; [|split; [|split]]].
  - split; [repeat constructor; intros []|]. intros v s [E|[]]. injection E as <- <-. split; [cbn; lia|exact Sq].
  - intros v c [E|[]] (x & X). injection E as _ <-. assert (A : (HALF = x)%Z) by (apply X; rewrite Eh; unfold cs_mem, finite; cbn [lower upper left right]; lia). assert (B : (ONE = x)%Z) by (apply X; rewrite Eh; unfold cs_mem, finite; cbn [lower upper left right]; lia). lia.
  - intros l v p Il Hd. destruct v as [|v]; [|exfalso; destruct Il as [<-|[<-|[]]]; (destruct v as [|v]; [discriminate Hd|destruct v; discriminate Hd])].
    destruct Il as [<-|[<-|[]]]; cbn [nth_error l_dists cx_l1 cx_l2] in Hd; injection Hd as <-.
    + split; [|intros _; exact ramp_seamless]. intros c [E|[]]. injection E as <-. left. split; [exact unit_spread|]. split; [exact unit_tiling|]. split; [apply C24_example|].
      assert (El : lowermost half_up = HALF) by reflexivity. assert (Eu : uppermost half_up = ORD_INF) by (vm_compute; reflexivity).
      split; [|split; [|split]].
      * unfold roomy. rewrite El, Eu, Eh. split; [|intros i f _ E; discriminate E]. intros i m k [E|[E|[E|[]]]] _; try discriminate E. injection E as <- _ _. cbn [lower upper]. vm_compute. reflexivity.
      * intros y Y. rewrite El. exact Y.
      * intros y Y. rewrite Eu. exact Y.
      * exists ((1022 * 2 ^ 52 + 2 ^ 51)%Z), (3 # 4), (1 # 2), 1. rewrite Eh. cbn [lower upper]. split; [vm_compute; split; reflexivity|]. split; [|split; [exact Hh|split; [exact Hi|split; reflexivity]]].
        assert (F : finite (1022 * 2 ^ 52 + 2 ^ 51)) by (vm_compute; split; reflexivity). apply (plf_is_wd _ _ _ _) with (2 := ramp_at _ F). vm_compute. reflexivity.
    + split; [|intros _; left; exists TWO; split; [unfold finite; lia|reflexivity]]. intros c [E|[]]. injection E as <-. right. exists TWO. split; [reflexivity|]. rewrite Eh. unfold lowermost. cbn [left lower]. lia.
  - intros pr H.
    assert (P1 : pr (inl ramp) (inl (NC half_up)) == 1 # 2).
    { assert (M : mass (inl ramp) (inl (NC half_up)) (pr (inl ramp) (inl (NC half_up)))) by (apply (H 0%nat); [left; apply ramp_smooth|exact Sq]).
      inversion M as [? ? ? N E|? ? z ya yb ? L I A B E|z ? ? I E|z ? ? I E|]; subst.
      - exfalso. apply (N HALF). rewrite Eh. unfold cs_mem, finite; cbn [lower upper left right]; lia.
      - rewrite E. rewrite (cdf_at_fun _ _ _ _ A Hh), (cdf_at_fun _ _ _ _ B Hi). reflexivity. }
    assert (P2 : pr (inl (dirac TWO)) (inl (NC half_up)) == 1).
    { assert (M : mass (inl (dirac TWO)) (inl (NC half_up)) (pr (inl (dirac TWO)) (inl (NC half_up)))) by (apply (H 0%nat); [right; exists TWO; split; [reflexivity|lia]|exact Sq]).
      assert (I0 : cs_mem TWO half_up) by (rewrite Eh; unfold cs_mem, finite; cbn [lower upper left right]; lia).
      inversion M as [? ? ? N E|? ? z ya yb ? L I A B E|z ? ? I E|z ? ? I E|]; subst; try exact E; exfalso.
      - exact (N _ I0).
      - exact (line_not_point _ L).
      - exact (I I0). }
    assert (Ew : weight pr cx [(0%nat, inl (NC half_up))] == 5 # 8).
    { unfold weight, cx. cbn [leaves map Qsum fold_right fst snd l_dists cx_l1 cx_l2 nth_error l_prior]. rewrite P1, P2. reflexivity. }
    split; [exact Ew|]. intros v x V K Fx. destruct v as [|v]; [|destruct v as [|v]; [discriminate K|cbn in V; lia]].
    unfold average. rewrite Ew. unfold cx. cbn [leaves map Qsum]. unfold share, chance. cbn [fold_right fst snd l_dists cx_l1 cx_l2 nth_error l_prior]. rewrite P1, P2.
    unfold kept_slope. cbn [nth_error l_dists cx_l1 cx_l2 lookup Nat.eqb].
    assert (E2 : (if (lowermost half_up <=? x)%Z && (x <? uppermost half_up)%Z then density (dirac TWO) x / pr (inl (dirac TWO)) (inl (NC half_up)) else 0) == 0).
    { match goal with |- (if ?b then _ else _) == _ => destruct b end; [|reflexivity]. rewrite (NumericExample.dirac_density TWO x) by (unfold finite; lia || exact Fx). unfold Qdiv. ring. }
    assert (E1 : let a := (if (lowermost half_up <=? x)%Z && (x <? uppermost half_up)%Z then density ramp x / pr (inl ramp) (inl (NC half_up)) else 0) in a == 0 \/ a == 2).
    { cbv zeta. match goal with |- (if ?b then _ else _) == _ \/ _ => destruct b end; [|left; reflexivity]. unfold ramp at 1 3. rewrite (NumericExample.unit_density x Fx). rewrite P1. destruct (0 <=? x)%Z; [destruct (x <? ONE)%Z|]; [right|left|left]; reflexivity. }
    cbv zeta in E1. rewrite E2. destruct E1 as [E1|E1]; rewrite E1; [left|right]; reflexivity.
  - vm_compute. reflexivity.
Qed.

(** ** C24: restricting a point *)

Theorem C24_point : forall x c, (Z.abs x < ORD_53)%Z -> wf c -> cs_mem x c -> (lowermost c < x)%Z -> crop_interval (dirac x) c = Ok (dirac x).
Proof.
  intros x c M Wc I Lx. unfold crop_interval. destruct (cs_size c) as [[|[k|k|]|k]|] eqn:Z; try (apply point_crop; assumption).
  exfalso. destruct (EffectProps.size_one c Wc Z) as (z & Hz). pose proof (proj1 (Hz x) I) as ->.
  assert (Ne : cs_isempty c = false) by (destruct (cs_isempty c) eqn:E; [exfalso; exact (isempty_sound c E z I)|reflexivity]).
  destruct (ends_of c Wc Ne) as (AB & HA & HB & HU). pose proof ord_facts as O. destruct (wf_bounded c Wc) as (B1 & B2 & B3 & _).
  assert (Il : cs_mem (lo1 c) c). { apply mem_ends; [exact Wc|]. apply (mem_ends c z Wc) in I. lia. }
  apply Hz in Il. assert (E : (lo1 c = lowermost c \/ lowermost c = - ORD_INF)%Z).
  { unfold lo1. destruct HA as [(El & L0 & ->)|[(El & L0 & ->)|(El & L0 & ->)]]; rewrite El; auto. }
  destruct E as [E|E]; [lia|]. assert (Iz : cs_mem (z - 1) c); [|apply Hz in Iz; lia]. apply mem_ends; [exact Wc|]. apply (mem_ends c z Wc) in I.
  split; [|lia]. unfold lo1 in *. destruct HA as [(El & L0 & EA)|[(El & L0 & EA)|(El & L0 & EA)]]; rewrite El in *; lia.
Qed.
Print Assumptions C24_point.

(** A point at the closed lower bound moves to the upper bound; restricting it to a ray
    which begins there fails, although its probability is 1. *)
Theorem C24_point_moved_refuted : forall x c, (Z.abs x < ORD_53)%Z -> wf c -> left c = INC -> lower c = x -> cs_mem x c -> (x < uppermost c)%Z -> cs_size c <> Some 1%Z ->
  ((upper c < ORD_INF)%Z -> crop_interval (dirac x) c = Ok (dirac (uppermost c))) /\
  (upper c = ORD_INF -> crop_interval (dirac x) c = Err AssertionError) /\
  exists q, p_interval (dirac x) c = Ok q /\ q == 1.
Proof.
  intros x c M Wc El Lx I Ux Sz.
  assert (R : crop_interval (dirac x) c = crop_cdf (dirac x) c). { unfold crop_interval. destruct (cs_size c) as [[|[k|k|]|k]|]; try reflexivity. contradiction. }
  rewrite R. split; [intro Fu; apply point_moved; assumption|]. split; [intro Fu; apply point_refused; assumption|].
  destruct (np_dirac x c M Wc) as (E & H & _). exists (np (dirac x) c). split; [exact E|exact (H I)].
Qed.
Print Assumptions C24_point_moved_refuted.
Example C24_point_example : crop_interval (dirac TWO) (CS ONE (1024 * 2 ^ 52 + 2 ^ 51) INC INC) = Ok (dirac TWO) /\
  crop_interval (dirac TWO) (CS TWO (1024 * 2 ^ 52 + 2 ^ 51) INC INC) = Ok (dirac (1024 * 2 ^ 52 + 2 ^ 51)) /\
  crop_interval (dirac TWO) (CS TWO ORD_INF INC EXC) = Err AssertionError.
Proof. repeat split. Qed.
