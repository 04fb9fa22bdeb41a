(** mpe, world by world. *)
Require Import QArith Lqa ZArith Bool List Arith Lia Permutation.
Require Import Verif.Base Verif.NumBase Verif.DiscreteModel Verif.DiscreteProofs Verif.DiscreteProofs2 Verif.TreeModel Verif.TreeSpec Verif.TreeApply Verif.TreeInfer Verif.TreePosterior Verif.TreeDiscrete Verif.TreeWorlds Verif.TreeWorldProofs Verif.TreeWorldMore.
Import ListNotations.
Open Scope Q_scope.

Lemma maxQ_spec : forall l x, In (maxQ x l) (x :: l) /\ forall y, In y (x :: l) -> y <= maxQ x l.
Proof.
  induction l as [|z l IH]; intro x; cbn [maxQ].
  - split; [left; reflexivity|]. intros y [->|[]]. lra.
  - destruct (IH (if Qltb x z then z else x)) as [A B]. split.
    + destruct A as [A|A]; [rewrite <- A; destruct (Qltb x z); [right; left; reflexivity|left; reflexivity]|right; right; exact A].
    + intros y [->|[->|I]].
      * apply Qle_trans with (if Qltb y z then z else y); [|apply B; left; reflexivity]. unfold Qltb. destruct (Qltb_spec y z); lra.
      * apply Qle_trans with (if Qltb x y then y else x); [|apply B; left; reflexivity]. unfold Qltb. destruct (Qltb_spec x y); lra.
      * apply B. right; exact I.
Qed.

Lemma mpe_dists_ok : forall doms (ds : list ddist) acc, Forall2 ok_dist doms ds -> 0 <= acc -> exists sets x, @mpe_dists discrete ds acc = Ok (sets, x) /\
  (forall w, In w (worlds doms) -> acc * density ds w <= x) /\
  Forall2 (fun D s => s <> [] /\ forall a, In a s -> (a < n_values D)%nat) doms sets /\
  (forall w, Forall2 (fun a s => In a s) w sets -> In w (worlds doms) /\ acc * density ds w == x) /\
  (0 < acc -> 0 < x).
Proof.
  intros doms ds acc F. revert acc. induction F as [|D d doms ds O F IH]; intros acc A0.
  - exists [], acc. split; [reflexivity|]. split; [intros w I; cbn; lra|]. split; [constructor|]. split; [|auto]. intros w H. inversion H; subst. split; [left; reflexivity|cbn; ring].
  - pose proof O as (_ & Len & Pp). destruct (mpe_spec (d_params d) Pp) as (S & p & Em & P0 & Hs & Hp & Ne).
    destruct (IH (acc * p)) as (sets & x & Ex & Ub & Fs & At & Ps); [apply Qmult_le_0_compat; lra|].
    exists (S :: sets), x. cbn [mpe_dists]. cbn [d_mpe discrete]. rewrite Em. cbn [bind snd fst]. rewrite Ex. cbn [bind fst snd]. split; [reflexivity|].
    assert (Max : forall a, (a < n_values D)%nat -> nth a (d_params d) 0 <= p).
    { intros a La. destruct S as [|b S]; [contradiction|]. destruct (proj1 (Hs b) (or_introl eq_refl)) as (q & Eb & Mx). rewrite <- (Hp b q (or_introl eq_refl) Eb). apply (Mx a). apply nth_param. lia. }
    assert (Dn : forall w, 0 <= density ds w).
    { intro w. apply density_nonneg. clear - F. induction F as [|D d doms ds O F IH]; constructor; [apply O|exact IH]. }
    split; [|split; [|split]].
    + intros w I. apply worlds_spec in I. inversion I as [|D' a doms' w' La I']; subst. cbn [density]. apply Qle_trans with (acc * p * density ds w'); [|apply Ub, worlds_spec, I'].
      rewrite Qmult_assoc. apply Qmult_le_compat_r; [|apply Dn]. rewrite (Qmult_comm acc), (Qmult_comm acc). apply Qmult_le_compat_r; [apply Max, La|exact A0].
    + constructor; [|exact Fs]. split; [exact Ne|]. intros a I. apply Hs in I. destruct I as (q & Eq & _). rewrite <- Len. apply nth_error_Some. congruence.
    + intros w H. inversion H as [|a s w' sets' Ia H']; subst. destruct (At w' H') as [Iw Eq]. assert (La : (a < n_values D)%nat). { apply Hs in Ia. destruct Ia as (q & E1 & _). rewrite <- Len. apply nth_error_Some. congruence. }
      split; [apply worlds_spec; constructor; [exact La|apply worlds_spec, Iw]|]. cbn [density]. rewrite <- Eq. rewrite (Hp a (nth a (d_params d) 0) Ia) by (apply nth_param; lia). ring.
    + intro Pa. apply Ps. apply Qmult_lt_0_compat; assumption.
Qed.

Lemma mapM_F2 : forall A B (f : A -> res B) (R : A -> B -> Prop) l, (forall a, In a l -> exists b, f a = Ok b /\ R a b) -> exists bs, mapM f l = Ok bs /\ Forall2 R l bs.
Proof. exact mapM_all. Qed.

Section Mpe.
  Variable doms : list dom.

  Definition best (ls : list (leaf discrete)) (rs : list (list (list nat))) (p : Q) : Prop :=
    0 < p /\ rs <> [] /\
    (forall l w, In l ls -> In w (worlds doms) -> l_prior l * density (l_dists l) w <= p) /\
    (forall sets, In sets rs -> Forall2 (fun D s => s <> [] /\ forall a, In a s -> (a < n_values D)%nat) doms sets /\
       exists l, In l ls /\ forall w, Forall2 (fun a s => In a s) w sets -> In w (worlds doms) /\ l_prior l * density (l_dists l) w == p).

  Lemma best_leaves : forall ls, Forall (wf_leaf doms) ls -> 0 < Qsum (map l_prior ls) ->
    exists m ms, mapM leaf_mpe ls = Ok (m :: ms) /\
      let p := maxQ (snd m) (map snd ms) in best ls (map fst (filter (fun m => Qeq_bool (snd m) p) (m :: ms))) p.
  Proof.
    intros ls Fl Pos.
    destruct (mapM_all _ _ (@leaf_mpe discrete) (fun l (m : list (list nat) * Q) =>
      (forall w, In w (worlds doms) -> l_prior l * density (l_dists l) w <= snd m) /\
      Forall2 (fun D s => s <> [] /\ forall a, In a s -> (a < n_values D)%nat) doms (fst m) /\
      (forall w, Forall2 (fun a s => In a s) w (fst m) -> In w (worlds doms) /\ l_prior l * density (l_dists l) w == snd m) /\
      (0 < l_prior l -> 0 < snd m)) ls) as (bs & Eb & F2).
    { intros l I. rewrite Forall_forall in Fl. destruct (Fl l I) as [Fd P0 _ _]. destruct (mpe_dists_ok doms (l_dists l) (l_prior l) Fd P0) as (sets & x & Ex & A & B & C & D). exists (sets, x). split; [exact Ex|]. cbn. auto. }
    destruct bs as [|m ms].
    { inversion F2; subst. cbn in Pos. lra. }
    exists m, ms. split; [exact Eb|]. intro p. destruct (maxQ_spec (map snd ms) (snd m)) as [In0 Ge]. change (maxQ (snd m) (map snd ms)) with p in In0, Ge. change (snd m :: map snd ms) with (map snd (m :: ms)) in In0, Ge.
    clear Eb. set (bs := m :: ms) in *. clearbody bs. clearbody p. clear m ms.
    assert (Corr : forall b, In b bs -> exists l, In l ls /\ (Forall2 (fun D s => s <> [] /\ forall a, In a s -> (a < n_values D)%nat) doms (fst b) /\
      forall w, Forall2 (fun a s => In a s) w (fst b) -> In w (worlds doms) /\ l_prior l * density (l_dists l) w == snd b)).
    { clear - F2. induction F2 as [|l b ls bs H F2 IH]; intros b' []; [subst b'; exists l; split; [left; reflexivity|]; destruct H as (_ & A & B & _); auto|].
      destruct (IH b' H0) as (l' & I & X). exists l'. split; [right; exact I|exact X]. }
    assert (Corr2 : forall l, In l ls -> exists b, In b bs /\ (forall w, In w (worlds doms) -> l_prior l * density (l_dists l) w <= snd b) /\ (0 < l_prior l -> 0 < snd b)).
    { clear - F2. induction F2 as [|l b ls bs H F2 IH]; intros l' []; [subst l'; exists b; split; [left; reflexivity|]; destruct H as (A & _ & _ & B); auto|].
      destruct (IH l' H0) as (b' & I & X). exists b'. split; [right; exact I|exact X]. }
    split; [|split; [|split]].
    - assert (exists l, In l ls /\ 0 < l_prior l) as (l & I & Pl).
      { destruct (Qsum_pos_ex (map l_prior ls)) as (x & Ix & Px); [exact Pos|]. apply in_map_iff in Ix. destruct Ix as (l & <- & I). exists l. auto. }
      destruct (Corr2 l I) as (b & Ib & _ & Pb). apply Qlt_le_trans with (snd b); [apply Pb, Pl|]. apply Ge. apply (in_map snd), Ib.
    - apply in_map_iff in In0. destruct In0 as (b & Eb & Ib). intro H. assert (In (fst b) (map fst (filter (fun m => Qeq_bool (snd m) p) bs))); [|rewrite H in *; contradiction].
      apply in_map. apply filter_In. split; [exact Ib|]. rewrite Eb. apply Qeq_bool_iff. reflexivity.
    - intros l w I Iw. destruct (Corr2 l I) as (b & Ib & Ub & _). apply Qle_trans with (snd b); [apply Ub, Iw|]. apply Ge. apply (in_map snd), Ib.
    - intros sets Is. apply in_map_iff in Is. destruct Is as (b & <- & Ib). apply filter_In in Ib. destruct Ib as [Ib Eq]. apply Qeq_bool_iff in Eq. destruct (Corr b Ib) as (l & Il & A & B).
      split; [exact A|]. exists l. split; [exact Il|]. intros w Fw. destruct (B w Fw) as [X Y]. split; [exact X|]. rewrite Y. exact Eq.
  Qed.

  Variable J : jpt discrete.
  Hypothesis W : wf_tree doms J.

  (** The conditional density of a world in a leaf. *)
  Definition leaf_density (e : query) (l : leaf discrete) (w : list nat) : Q :=
    if sat e w then l_prior l * density (l_dists l) w / Pr doms J e else 0.

  Definition is_mpe (e : query) (rs : list (list (list nat))) (p : Q) : Prop :=
    0 < p /\ rs <> [] /\
    (forall l w, In l (leaves J) -> In w (worlds doms) -> leaf_density e l w <= p) /\
    (forall sets, In sets rs -> Forall2 (fun D s => s <> [] /\ forall a, In a s -> (a < n_values D)%nat) doms sets /\
       exists l, In l (leaves J) /\ forall w, Forall2 (fun a s => In a s) w sets -> In w (worlds doms) /\ sat e w = true /\ leaf_density e l w == p).

  Theorem world_mpe : forall (e : query) fail, wf_query doms e ->
    (e = [] -> Qsum (map l_prior (leaves J)) == 1) ->
    (e <> [] -> forall n, In n (innernodes J) -> length (i_children n) = 2%nat) ->
    (Pr doms J e == 0 -> mpe J e fail = if fail then Err Unsatisfiability else Ok None) /\
    (~ Pr doms J e == 0 -> exists rs p, mpe J e fail = Ok (Some (rs, p)) /\ is_mpe e rs p).
  Proof.
    intros e fail We S1 Bin. unfold mpe. rewrite (wf_known doms J W e We). cbn [negb].
    destruct e as [|x0 e0] eqn:Ee.
    - assert (P1 : Pr doms J [] == 1).
      { rewrite (Pr_mixture doms J W [] We), <- (S1 eq_refl). apply Qsum_map_ext. intros l _. cbn [leaf_prob]. ring. }
      split; [intro Z; rewrite P1 in Z; discriminate Z|]. intros _. cbn [conditional_jpt bind].
      destruct (best_leaves (leaves J) (wt_leaves _ _ W)) as (m & ms & Em & B0 & B1 & B2 & B3); [rewrite (S1 eq_refl); reflexivity|]. rewrite Em. cbn [bind].
      eexists _, _. split; [reflexivity|]. split; [exact B0|]. split; [exact B1|]. unfold leaf_density. cbn [sat forallb]. split.
      + intros l w I Iw. rewrite P1. unfold Qdiv. rewrite Qmult_1_r. apply B2; assumption.
      + intros sets Is. destruct (B3 sets Is) as (X & l & Il & Y). split; [exact X|]. exists l. split; [exact Il|]. intros w Fw. destruct (Y w Fw) as [Iw Eq]. split; [exact Iw|]. split; [reflexivity|]. rewrite P1. unfold Qdiv. rewrite Qmult_1_r. exact Eq.
    - rewrite <- Ee in *. assert (Ne : e <> []) by (rewrite Ee; discriminate). clear Ee x0 e0.
      destruct (world_conditional doms J W e fail We Ne (Bin Ne)) as [A B]. split.
      + intro Z. rewrite (A Z). destruct fail; reflexivity.
      + intro NZ. destruct (B NZ) as (J' & Ec & W' & _ & S' & F2 & _). rewrite Ec. cbn [bind].
        destruct (best_leaves (leaves J') (wt_leaves _ _ W')) as (m & ms & Em & B0 & B1 & B2 & B3); [rewrite S'; reflexivity|]. rewrite Em. cbn [bind].
        eexists _, _. split; [reflexivity|]. split; [exact B0|]. split; [exact B1|].
        assert (Dens : forall (l l' : leaf discrete) w, In w (worlds doms) -> 0 < Pr_leaf doms (l_dists l) e -> l_prior l' == l_prior l * Pr_leaf doms (l_dists l) e / Pr doms J e ->
          density (l_dists l') w == (if sat e w then density (l_dists l) w / Pr_leaf doms (l_dists l) e else 0) -> l_prior l' * density (l_dists l') w == leaf_density e l w).
        { intros l l' w Iw Pl E1 E2. rewrite E1, E2. unfold leaf_density. destruct (sat e w); [field; split; [exact NZ|lra]|ring]. }
        assert (Fil : forall l, In l (filter (fun l : leaf discrete => Qltb 0 (Pr_leaf doms (l_dists l) e)) (leaves J)) <-> In l (leaves J) /\ 0 < Pr_leaf doms (l_dists l) e).
        { intro l. rewrite filter_In. unfold Qltb. destruct (Qltb_spec 0 (Pr_leaf doms (l_dists l) e)); split; intros [I H]; split; try assumption; try reflexivity; try discriminate. contradiction. }
        assert (Dnn : forall l, In l (leaves J) -> 0 <= Pr_leaf doms (l_dists l) e).
        { intros l I. apply Qsum_map_nonneg. intros w _. destruct (sat e w); [apply (wf_density_nonneg doms J W l w I)|lra]. }
        split.
        * intros l w I Iw. destruct (Qlt_le_dec 0 (Pr_leaf doms (l_dists l) e)) as [Pl|Pl].
          -- assert (exists l' : leaf discrete, In l' (leaves J') /\ l_prior l' * density (l_dists l') w == leaf_density e l w) as (l' & Il' & Eq).
             { assert (Il : In l (filter (fun l : leaf discrete => Qltb 0 (Pr_leaf doms (l_dists l) e)) (leaves J))) by (apply Fil; auto).
               revert Il F2. generalize (filter (fun l : leaf discrete => Qltb 0 (Pr_leaf doms (l_dists l) e)) (leaves J)) as xs. generalize (leaves J') as ys. intros ys xs Il F2. induction F2 as [|a b xs ys H F2 IH]; [contradiction|].
               destruct Il as [->|Il]; [exists b; split; [left; reflexivity|]; destruct H as (_ & _ & _ & _ & H1 & H2); apply Dens; auto|]. destruct (IH Il) as (l' & I' & E'). exists l'. split; [right; exact I'|exact E']. }
             rewrite <- Eq. apply B2; assumption.
          -- assert (Z : Pr_leaf doms (l_dists l) e == 0) by (pose proof (Dnn l I); lra).
             assert (Z' : leaf_density e l w == 0).
             { unfold leaf_density. destruct (sat e w) eqn:Sw; [|reflexivity]. assert (density (l_dists l) w == 0) as ->; [|unfold Qdiv; ring].
               unfold Pr_leaf in Z. apply (Qsum_zero_all (map (fun w => if sat e w then density (l_dists l) w else 0) (worlds doms))); [|exact Z|apply in_map_iff; exists w; rewrite Sw; auto].
               apply Forall_forall. intros y Iy. apply in_map_iff in Iy. destruct Iy as (w' & <- & _). destruct (sat e w'); [apply (wf_density_nonneg doms J W l w' I)|lra]. }
             rewrite Z'. lra.
        * intros sets Is. destruct (B3 sets Is) as (X & l' & Il' & Y). split; [exact X|].
          assert (exists l : leaf discrete, In l (leaves J) /\ forall w, In w (worlds doms) -> l_prior l' * density (l_dists l') w == leaf_density e l w) as (l & Il & Eq).
          { assert (Pf : forall l, In l (filter (fun l : leaf discrete => Qltb 0 (Pr_leaf doms (l_dists l) e)) (leaves J)) -> In l (leaves J) /\ 0 < Pr_leaf doms (l_dists l) e) by (intros l Il; apply Fil, Il).
            revert Pf F2 Il'. generalize (filter (fun l : leaf discrete => Qltb 0 (Pr_leaf doms (l_dists l) e)) (leaves J)) as xs. generalize (leaves J') as ys. intros ys xs Pf F2 Il'. induction F2 as [|a b xs ys H F2 IH]; [contradiction|].
            destruct (Pf a (or_introl eq_refl)) as [Ia Pa]. destruct Il' as [->|Il']; [exists a; split; [exact Ia|]; destruct H as (_ & _ & _ & _ & H1 & H2); intros; apply Dens; auto|]. apply IH; [intros; apply Pf; right; assumption|exact Il']. }
          exists l. split; [exact Il|]. intros w Fw. destruct (Y w Fw) as [Iw Ew]. split; [exact Iw|]. rewrite (Eq w Iw) in Ew. split; [|exact Ew].
          unfold leaf_density in Ew. destruct (sat e w); [reflexivity|]. exfalso. rewrite <- Ew in B0. apply (Qlt_irrefl 0 B0).
  Qed.
End Mpe.
