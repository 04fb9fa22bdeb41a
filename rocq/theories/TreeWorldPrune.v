(** encode, prune, normalize and multiply_by_leaf_prior for trees with symbolic
    and integer variables. *)
Require Import QArith Lqa ZArith Bool List Arith Lia Permutation.
Require Import Verif.Base Verif.NumBase Verif.DiscreteModel Verif.DiscreteProofs Verif.TreeModel Verif.TreeSpec Verif.TreeApply Verif.TreeInfer Verif.TreePosterior Verif.TreeCond4 Verif.TreeDiscrete Verif.TreeWorlds Verif.TreeWorldProofs Verif.TreePartition Verif.TreePrune Verif.TreePrune2.
Import ListNotations.
Open Scope Q_scope.

Section WP.
  Variable doms : list dom.
  Variable J : jpt discrete.
  Hypothesis W : wf_tree doms J.

  (** The splits of a decision node partition the values of its variable. *)
  Definition partitioning : Prop := forall n, In n (innernodes J) -> (i_var n < length doms)%nat /\
    forall x, (x < n_values (domain doms (i_var n)))%nat -> exists k s, nth_error (i_splits n) k = Some s /\ In x s /\
      forall k' s', nth_error (i_splits n) k' = Some s' -> In x s' -> k' = k.

  Lemma nmem_In : forall x s, nmem x s = true <-> In x s.
  Proof.
    intros x s. unfold nmem. rewrite existsb_exists. split; [intros (y & I & E); apply Nat.eqb_eq in E; subst y; exact I|]. intro I. exists x. split; [exact I|apply Nat.eqb_refl].
  Qed.

  Lemma world_nth : forall w v, In w (worlds doms) -> (v < length doms)%nat -> exists x, nth_error w v = Some x /\ nth v w 0%nat = x /\ (x < n_values (domain doms v))%nat.
  Proof.
    clear W. intros w v I V. pose proof (worlds_length _ _ I) as Len. assert (Vw : (v < length w)%nat) by lia.
    exists (nth v w 0%nat). split; [apply nth_error_nth'; exact Vw|]. split; [reflexivity|]. apply worlds_spec in I. unfold domain. clear Len Vw. revert v V. induction I as [|D x doms0 w B I IH]; intros [|v] V; cbn in *; try lia. apply IH. lia.
  Qed.

  Theorem world_encode : forall w, In w (worlds doms) -> partitioning ->
    exists l, In l (leaves J) /\ encode J w = Ok (l_idx l) /\ sat (l_path l) w = true /\ forall l', In l' (leaves J) -> sat (l_path l') w = true -> l' = l.
  Proof.
    intros w I Pn.
    assert (Hold : forall v s, (v < length doms)%nat -> (holds (F := discrete) w (v, s) <-> In (nth v w 0%nat) s)).
    { intros v s V. destruct (world_nth w v I V) as (x & Ex & Nx & _). unfold holds. cbn [fst snd v_in discrete]. split.
      - intros (y & Ey & B). change (@nth_error (value discrete) w v) with (@nth_error nat w v) in Ey. rewrite Ex in Ey. inversion Ey; subst y. rewrite Nx. apply nmem_In, B.
      - intro H. exists x. split; [exact Ex|]. apply nmem_In. rewrite <- Nx. exact H. }
    assert (Path : forall l : leaf discrete, In l (leaves J) -> forall v s, In (v, s) (l_path l) -> (v < length doms)%nat).
    { intros l Il v s Ip. pose proof (wt_leaves doms J W) as Fl. rewrite Forall_forall in Fl. apply (wl_path doms l (Fl l Il) v s Ip). }
    assert (On : forall l : leaf discrete, In l (leaves J) -> (on (F := discrete) w (l_path l) <-> sat (l_path l) w = true)).
    { intros l Il. unfold on, sat. rewrite Forall_forall, forallb_forall. split.
      - intros H [v s] Ip. apply nmem_In. apply (proj1 (Hold v s (Path l Il v s Ip))), (H (v, s) Ip).
      - intros H [v s] Ip. apply (proj2 (Hold v s (Path l Il v s Ip))). apply nmem_In, (H (v, s) Ip). }
    destruct (encode_spec J w (wt_tree doms J W)) as (l & Il & E & O & U).
    - intros n In_. destruct (Pn n In_) as [V H]. destruct (world_nth w (i_var n) I V) as (x & _ & Nx & Bx). destruct (H x Bx) as (k & s & Es & Ix & Uk). exists k, s. split; [exact Es|]. split; [apply Hold; [exact V|rewrite Nx; exact Ix]|].
      intros k' s' Es' Hs. apply (Uk k' s' Es'). rewrite <- Nx. apply (Hold (i_var n) s' V), Hs.
    - intros a b x. cbn. apply nmem_inter.
    - intros v x Ex. rewrite (wt_full doms J W). unfold dfull. cbn. apply nmem_In, in_seq. assert (V : (v < length doms)%nat). { rewrite <- (worlds_length _ _ I). apply nth_error_Some. change (@nth_error nat w v) with (@nth_error (value discrete) w v). congruence. }
      destruct (world_nth w v I V) as (y & Ey & _ & By). change (@nth_error (value discrete) w v) with (@nth_error nat w v) in Ex. rewrite Ey in Ex. inversion Ex; subst y. lia.
    - intros l v s Il Ip. change (length (A := value discrete) w) with (length (A := nat) w). rewrite (worlds_length _ _ I). exact (Path l Il v s Ip).
    - exists l. split; [exact Il|]. split; [exact E|]. split; [apply On; assumption|]. intros l' I' S'. apply U; [exact I'|]. apply On; assumption.
  Qed.

  (** ** prune *)

  Definition two_children : Prop := forall n, In n (innernodes J) -> exists a b, i_children n = [Some a; Some b].
End WP.

Section Pr.
  Variable doms : list dom.

  Lemma marginal_Pr : forall (J : jpt discrete) v s, Forall (wf_leaf doms) (leaves J) -> (v < length doms)%nat -> (forall x, In x s -> (x < n_values (domain doms v))%nat) ->
    marginal (discrete_lawful doms) J v s == Pr doms J [(v, s)].
  Proof.
    intros J v s Fw V Bs. rewrite Pr_leaves. unfold marginal. apply Qsum_map_ext. intros l Il. rewrite Forall_forall in Fw. apply Qmult_comp; [reflexivity|].
    rewrite <- (leaf_prob_worlds doms (l_dists l) [(v, s)]).
    - cbn [leaf_prob]. unfold val. ring.
    - apply (Forall2_impl _ _ _ _ _ _ (fun D d _ O => O)). pose proof (wl_dists doms l (Fw l Il)) as Fd. eapply Forall2_impl; [|exact Fd]. intros D d _ (A & B & C & E). split; [exact A|]. split; [exact B|]. split; [exact C|exact E].
    - split; [repeat constructor; intros []|]. intros v' s' [E|[]]. inversion E; subst. split; assumption.
  Qed.

  Theorem world_prune : forall (J : jpt discrete) t, wf_tree doms J -> two_children J -> Forall (fun l : leaf discrete => 0 < l_prior l) (leaves J) ->
    exists J', prune J t = Ok J' /\ wf_tree doms J' /\ two_children J' /\
      (length (innernodes J') <= length (innernodes J))%nat /\
      Qsum (map l_prior (leaves J')) == Qsum (map l_prior (leaves J)) /\
      list_sum (map l_samples (leaves J')) = list_sum (map l_samples (leaves J)) /\
      (forall v s, (v < length doms)%nat -> (forall x, In x s -> (x < n_values (domain doms v))%nat) -> Pr doms J' [(v, s)] == Pr doms J [(v, s)]) /\
      (forall n a b l r x, In n (innernodes J') -> i_children n = [Some a; Some b] -> get_node J' a = Some (NLeaf l) -> get_node J' b = Some (NLeaf r) ->
         similarity J' n l r = Some x -> x < t).
  Proof.
    intros J t W B Pp. pose proof (wt_leaves doms J W) as Fl. rewrite Forall_forall in Fl.
    assert (S : sound (discrete_lawful doms) J).
    { constructor; [apply W|apply (wt_full doms J W)|exact B| | |exact Pp]; apply Forall_forall; intros l I; [rewrite (wt_vars doms J W)|]; apply wf_leaf_iff, Fl, I. }
    destruct (prune_spec (discrete_lawful doms) J t S) as (J' & E & S' & (M1 & M2 & M3 & M4 & M5) & D & Ln).
    assert (W' : wf_tree doms J').
    { constructor; [rewrite M1; apply W|apply (so_full _ _ S')|apply (so_tree _ _ S')|]. apply Forall_forall. intros l I. apply wf_leaf_iff. pose proof (so_proper _ _ S') as X. pose proof (so_support _ _ S') as Y. rewrite Forall_forall in X, Y.
      rewrite <- (wt_vars doms J W), <- M1. split; [apply X, I|apply Y, I]. }
    exists J'. split; [exact E|]. split; [exact W'|]. split; [exact (so_binary _ _ S')|]. split; [exact Ln|]. split; [exact M3|]. split; [exact M4|]. split.
    - intros v s V Bs. rewrite <- !marginal_Pr; try assumption; [|apply W|apply W']. apply M5; [rewrite (wt_vars doms J W); exact V|]. apply ok_event_iff. exact Bs.
    - intros n a b l r x In_ Ch Ga Gb Sx. destruct (Qlt_le_dec x t) as [Lt|Ge]; [exact Lt|]. exfalso. apply (D n In_). exists a, b, l, r, x. repeat split; assumption.
  Qed.

  (** ** normalize and multiply_by_leaf_prior *)

  (** Equal up to the leaf priors. *)
  Definition reweighted (J J' : jpt discrete) : Prop :=
    innernodes J' = innernodes J /\ root J' = root J /\ priors J' = priors J /\ n_vars J' = n_vars J /\ full J' = full J /\
    Forall2 (fun l l' : leaf discrete => l_idx l' = l_idx l /\ l_parent l' = l_parent l /\ l_path l' = l_path l /\ l_samples l' = l_samples l /\ l_dists l' = l_dists l) (leaves J) (leaves J').

  Lemma reweighted_wf : forall J J', wf_tree doms J -> reweighted J J' -> Forall (fun l : leaf discrete => 0 <= l_prior l) (leaves J') -> wf_tree doms J'.
  Proof.
    intros J J' W (A1 & A2 & A3 & A4 & A5 & F2) Np.
    assert (Ids : map l_idx (leaves J') = map l_idx (leaves J)). { clear -F2. induction F2 as [|l l' ls ls' (E & _) F2 IH]; cbn; [reflexivity|]. congruence. }
    assert (Gi : forall i, get_inner J' i = get_inner J i) by (intro i; unfold get_inner; rewrite A1; reflexivity).
    assert (Gl : forall i, match get_leaf J i, get_leaf J' i with Some l, Some l' => l_idx l' = l_idx l /\ l_parent l' = l_parent l /\ l_path l' = l_path l | None, None => True | _, _ => False end).
    { intro i. unfold get_leaf. clear -F2. induction F2 as [|l l' ls ls' (E1 & E2 & E3 & _) F2 IH]; cbn; [exact I|]. rewrite E1. destruct (Nat.eqb (l_idx l) i); [auto|exact IH]. }
    assert (Gn : forall i, match get_node J i, get_node J' i with Some m, Some m' => n_parent m' = n_parent m /\ n_path m' = n_path m | None, None => True | _, _ => False end).
    { intro i. unfold get_node. rewrite Gi. destruct (get_inner J i); [split; reflexivity|]. specialize (Gl i). destruct (get_leaf J i), (get_leaf J' i); try exact Gl. cbn. tauto. }
    pose proof (wt_tree doms J W) as T. constructor.
    - rewrite A4. apply W.
    - rewrite A5. apply W.
    - constructor.
      + rewrite A1, Ids. apply (ids J T).
      + destruct (root_ok J T) as (r & m & Er & G & P1 & P2). specialize (Gn r). rewrite G in Gn. destruct (get_node J' r) as [m'|] eqn:G'; [|contradiction]. destruct Gn as [N1 N2]. exists r, m'. repeat split; congruence.
      + rewrite A1. apply (lengths J T).
      + rewrite A1. apply (child_once J T).
      + rewrite A1. intros n k c s I Ec Es. destruct (child_ok J T n k c s I Ec Es) as (i & m & E & G & P1 & P2). specialize (Gn i). rewrite G in Gn. destruct (get_node J' i) as [m'|] eqn:G'; [|contradiction]. destruct Gn as [N1 N2]. exists i, m'. repeat split; congruence.
      + intros i m' G'. specialize (Gn i). rewrite G' in Gn. destruct (get_node J i) as [m|] eqn:G; [|contradiction]. destruct Gn as [N1 _]. rewrite N1. pose proof (parent_ok J T i m G) as Pa. destruct (n_parent m) as [p|]; [|congruence].
        destruct Pa as (n & Gp & Ic). exists n. rewrite Gi. auto.
    - pose proof (wt_leaves doms J W) as Fl. clear -F2 Fl Np. revert Fl Np. induction F2 as [|l l' ls ls' (E1 & E2 & E3 & E4 & E5) F2 IH]; intros Fl Np; constructor.
      + apply Forall_inv in Fl. apply Forall_inv in Np. destruct Fl as [H1 H2 H3 H4]. constructor; rewrite ?E3, ?E5; assumption.
      + apply IH; [apply Forall_inv_tail in Fl; exact Fl|apply Forall_inv_tail in Np; exact Np].
  Qed.

  Theorem world_normalize : forall J : jpt discrete, wf_tree doms J ->
    (Qsum (map l_prior (leaves J)) == 0 -> normalize J = Err Unsatisfiability) /\
    (~ Qsum (map l_prior (leaves J)) == 0 -> exists J', normalize J = Ok J' /\ wf_tree doms J' /\ reweighted J J' /\ Qsum (map l_prior (leaves J')) == 1 /\
       (forall w, In w (worlds doms) -> joint J' w == joint J w / Qsum (map l_prior (leaves J)))).
  Proof.
    intros J W. unfold normalize. set (mass := Qsum (map l_prior (leaves J))). destruct (Qeqb_spec mass 0) as [Z|Z]; [split; [reflexivity|intro; contradiction]|]. split; [intro; contradiction|intros _].
    eexists. split; [reflexivity|]. pose proof (wt_leaves doms J W) as Fl. rewrite Forall_forall in Fl.
    assert (Mp : 0 < mass). { assert (0 <= mass); [|lra]. apply Qsum_map_nonneg. intros l I. apply (wl_prior doms l (Fl l I)). }
    match goal with |- wf_tree doms ?X /\ _ => set (J' := X) end.
    assert (R : reweighted J J').
    { unfold reweighted, J', with_nodes. cbn [innernodes root priors n_vars full leaves]. repeat (split; [reflexivity|]). clearbody mass. clear. induction (leaves J) as [|l ls IH]; cbn; [constructor|constructor; [repeat split|exact IH]]. }
    split; [|split; [exact R|]].
    - apply (reweighted_wf J J' W R). apply Forall_forall. intros l' I. unfold J' in I. cbn in I. apply in_map_iff in I. destruct I as (l & <- & I). cbn. apply Qle_shift_div_l; [exact Mp|]. pose proof (wl_prior doms l (Fl l I)). lra.
    - split.
      + unfold J', with_nodes. cbn [leaves]. rewrite map_map. cbn [with_prior l_prior]. rewrite Qsum_map_div. fold mass. apply Qdiv_same, Z.
      + intros w _. unfold joint, J', with_nodes. cbn [leaves]. rewrite map_map. cbn [with_prior l_prior l_dists]. rewrite <- Qsum_map_div. apply Qsum_map_ext. intros l _. field. exact Z.
  Qed.

  (** [prior i]: the factor for leaf number [i]. *)
  Theorem world_multiply : forall (J : jpt discrete) prior, wf_tree doms J ->
    (forall l, In l (leaves J) -> exists x, lookup prior (l_idx l) = Some x /\ 0 <= x) ->
    let f := fun l : leaf discrete => match lookup prior (l_idx l) with Some x => x | None => 0 end in
    let mass := Qsum (map (fun l : leaf discrete => l_prior l * f l) (leaves J)) in
    (mass == 0 -> multiply_by_leaf_prior J prior = Err Unsatisfiability) /\
    (~ mass == 0 -> exists J', multiply_by_leaf_prior J prior = Ok J' /\ wf_tree doms J' /\ reweighted J J' /\ Qsum (map l_prior (leaves J')) == 1 /\
       forall w, In w (worlds doms) -> joint J' w == Qsum (map (fun l : leaf discrete => l_prior l * f l * density (l_dists l) w) (leaves J)) / mass).
  Proof.
    intros J prior W H f mass. unfold multiply_by_leaf_prior.
    assert (E : mapM (fun l : leaf discrete => match lookup prior (l_idx l) with None => Err KeyError | Some x => Ok (with_prior l (l_prior l * x)) end) (leaves J) = Ok (map (fun l : leaf discrete => with_prior l (l_prior l * f l)) (leaves J))).
    { clear W mass. revert H. subst f. induction (leaves J) as [|l ls IH]; intro H; [reflexivity|]. rewrite mapM_cons. destruct (H l (or_introl eq_refl)) as (x & Ex & _). rewrite Ex. cbn [bind]. rewrite IH by (intros l' I; apply H; right; exact I). cbn [bind map]. rewrite Ex. reflexivity. }
    change (mapM (fun l : leaf discrete => match lookup prior (l_idx l) with Some x => Ok (with_prior l (l_prior l * x)) | None => Err KeyError end) (leaves J)) with (mapM (fun l : leaf discrete => match lookup prior (l_idx l) with None => Err KeyError | Some x => Ok (with_prior l (l_prior l * x)) end) (leaves J)).
    rewrite E. cbn [bind]. set (J1 := with_nodes J (innernodes J) (map (fun l : leaf discrete => with_prior l (l_prior l * f l)) (leaves J))).
    assert (R : reweighted J J1).
    { unfold reweighted, J1, with_nodes. cbn [innernodes root priors n_vars full leaves]. repeat (split; [reflexivity|]). clearbody mass. clear. induction (leaves J) as [|l ls IH]; cbn; [constructor|constructor; [repeat split|exact IH]]. }
    pose proof (wt_leaves doms J W) as Fl. rewrite Forall_forall in Fl.
    assert (W1 : wf_tree doms J1).
    { apply (reweighted_wf J J1 W R). apply Forall_forall. intros l' I. unfold J1 in I. cbn in I. apply in_map_iff in I. destruct I as (l & <- & I). cbn. unfold f. destruct (H l I) as (x & Ex & Px). rewrite Ex. apply Qmult_le_0_compat; [apply (wl_prior doms l (Fl l I))|exact Px]. }
    assert (M : Qsum (map l_prior (leaves J1)) == mass) by (unfold J1, with_nodes; cbn [leaves]; rewrite map_map; cbn [with_prior l_prior]; reflexivity).
    destruct (world_normalize J1 W1) as [Z Nz]. rewrite M in Z. split; [exact Z|]. intro N. destruct Nz as (J' & EJ & WJ & RJ & SJ & DJ); [rewrite M; exact N|]. exists J'. split; [exact EJ|]. split; [exact WJ|]. split; [|split; [exact SJ|]].
    - destruct R as (A1 & A2 & A3 & A4 & A5 & F2), RJ as (B1 & B2 & B3 & B4 & B5 & G2). repeat (split; [congruence|]). clear -F2 G2. revert G2. generalize (leaves J'). induction F2 as [|l l1 ls ls1 (E1 & E2 & E3 & E4 & E5) F2 IH]; intros ls' G2; inversion G2 as [|? l2 ? ls2 (D1 & D2 & D3 & D4 & D5) G3]; subst; constructor; [repeat split; congruence|apply IH, G3].
    - intros w I. rewrite (DJ w I), M. apply Qdiv_comp; [|reflexivity]. unfold joint, J1, with_nodes. cbn [leaves]. rewrite map_map. cbn [with_prior l_prior l_dists]. reflexivity.
  Qed.
End Pr.
