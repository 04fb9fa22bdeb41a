(** [prune]: one merge, and the loop. *)
Require Import QArith Qabs Lqa Bool List Arith Lia Permutation.
Require Import Verif.Base Verif.NumBase Verif.UtilModel Verif.TreeModel Verif.TreeSpec Verif.TreeApply Verif.TreeInfer Verif.TreePosterior Verif.TreeCond Verif.TreeCond2 Verif.TreeCond4 Verif.TreePrune.
Import ListNotations.
Open Scope Q_scope.

Section Prune.
  Context {F : family} {fl : var -> vset F}.
  Variable L : lawful fl.

  (** A leaf whose distributions are the mixtures of those of two other leaves. *)
  Definition mixed (n : nat) (l r lf : leaf F) : Prop :=
    l_prior lf = l_prior l + l_prior r /\ l_samples lf = (l_samples l + l_samples r)%nat /\
    forall v s, (v < n)%nat -> oks L v s -> l_prior lf * val L (l_dists lf) v s == l_prior l * val L (l_dists l) v s + l_prior r * val L (l_dists r) v s.

  Lemma nth_repl : forall (cs : list (option nat)) i new k, NoDup cs -> nth_error cs k = Some (Some i) ->
    list_upd cs k (Some new) = map (fun c => match c with Some j => if Nat.eqb j i then Some new else Some j | None => None end) cs.
  Proof.
    induction cs as [|c cs IH]; intros i new [|k] N E; cbn in E; try discriminate; inversion N as [|? ? Nc Ncs]; subst; cbn.
    - inversion E; subst c. rewrite Nat.eqb_refl. f_equal. clear IH N Ncs E. induction cs as [|d cs IH]; [reflexivity|]. cbn. rewrite <- IH by (intro I; apply Nc; right; exact I).
      f_equal. destruct d as [d|]; [|reflexivity]. destruct (Nat.eqb_spec d i) as [->|]; [exfalso; apply Nc; left; reflexivity|reflexivity].
    - rewrite (IH i new k Ncs E). f_equal. destruct c as [c|]; [|reflexivity]. destruct (Nat.eqb_spec c i) as [->|]; [exfalso; apply Nc; apply nth_error_In in E; exact E|reflexivity].
  Qed.

  Lemma merge_step : forall (J : jpt F) i a b n l r, tree_ok J -> full J = fl -> Forall (proper_leaf L (n_vars J)) (leaves J) -> Forall (supported_leaf L) (leaves J) ->
    get_inner J i = Some n -> i_children n = [Some a; Some b] -> get_node J a = Some (NLeaf l) -> get_node J b = Some (NLeaf r) -> 0 < l_prior l + l_prior r ->
    exists lf, merge_leaves J n l r = Ok (merged J i a b lf, i_parent n) /\ l_idx lf = S (max_idx J) /\ l_parent lf = i_parent n /\ l_path lf = i_path n /\
      proper_leaf L (n_vars J) lf /\ supported_leaf L lf /\ mixed (n_vars J) l r lf.
  Proof.
    intros J i a b n l r T Fl Pr Su Gi Ch Ga Gb Pos. destruct (node_leaf_in J a l Ga) as [Il El]. destruct (node_leaf_in J b r Gb) as [Ir Er].
    rewrite Forall_forall in Pr, Su. pose proof (Pr l Il) as Pl. pose proof (Pr r Ir) as Prr. pose proof Pl as (Ll & Dl & Nl & Ptl). pose proof Prr as (Lr & Dr & Nr & Ptr).
    unfold merge_leaves. destruct (normalized_pos [l_prior l; l_prior r]) as (ws & Ews & Sws & Nws & Fws).
    { repeat constructor; assumption. } { cbn. lra. }
    rewrite Ews. cbn [bind]. pose proof (Forall2_len _ _ _ _ _ Fws) as Lws. destruct ws as [|w1 [|w2 [|w3 ws]]]; try discriminate Lws. clear Lws.
    assert (W1 : w1 == l_prior l / Qsum [l_prior l; l_prior r]) by (inversion Fws; assumption). assert (W2 : w2 == l_prior r / Qsum [l_prior l; l_prior r]) by (inversion Fws as [|? ? ? ? ? Fws1]; inversion Fws1; assumption). cbn [Qsum] in W1, W2.
    assert (W1' : w1 == l_prior l / (l_prior l + l_prior r)) by (rewrite W1; apply Qdiv_comp; [reflexivity|ring]).
    assert (W2' : w2 == l_prior r / (l_prior l + l_prior r)) by (rewrite W2; apply Qdiv_comp; [reflexivity|ring]). clear W1 W2.
    set (good := fun (v : var) (d : dist F) => okd L v d /\ forall s, oks L v s -> P L d s == w1 * val L (l_dists l) v s + w2 * val L (l_dists r) v s).
    destruct (mapM_all _ _ (fun v => match nth_error (l_dists l) v, nth_error (l_dists r) v with Some a, Some b => d_merge F [a; b] [w1; w2] | _, _ => Err KeyError end) good (seq 0 (n_vars J))) as (ds & Eds & Fds).
    { intros v Iv. apply in_seq in Iv. destruct (pl_dist L (n_vars J) l Pl v) as (d1 & E1 & O1); [lia|]. destruct (pl_dist L (n_vars J) r Prr v) as (d2 & E2 & O2); [lia|]. rewrite E1, E2.
      destruct (merge_ok fl L v [d1; d2] [w1; w2]) as (d' & Ed & Od & Pd); [discriminate|reflexivity|repeat constructor; assumption|assumption|exact Sws|].
      exists d'. split; [exact Ed|]. split; [exact Od|]. intros s Os. rewrite (Pd s Os). cbn. unfold val. rewrite E1, E2. ring. }
    unfold merge_dists. rewrite Eds. cbn [bind].
    destruct (get_inner_some J i n Gi) as [In_ Ei]. rewrite El, Er, Ei.
    set (lf := Leaf (S (max_idx J)) (i_parent n) (l_prior l + l_prior r) (l_samples l + l_samples r) ds (i_path n)).
    assert (Len : length ds = n_vars J) by (rewrite <- (Forall2_len _ _ _ _ _ Fds), seq_length; reflexivity).
    assert (Gd : forall v d, nth_error ds v = Some d -> good v d).
    { intros v d E. assert (V : (v < n_vars J)%nat) by (rewrite <- Len; apply nth_error_Some; congruence).
      assert (Ev : nth_error (seq 0 (n_vars J)) v = Some v). { rewrite (nth_error_nth' _ 0%nat) by (rewrite seq_length; exact V). rewrite seq_nth by exact V. reflexivity. }
      destruct (Forall2_nth _ _ _ _ _ _ _ Fds Ev) as (d' & E' & G). rewrite E in E'. inversion E'; subst. exact G. }
    exists lf. assert (Cond : l_idx lf = S (max_idx J) /\ l_parent lf = i_parent n /\ l_path lf = i_path n /\ proper_leaf L (n_vars J) lf /\ supported_leaf L lf /\ mixed (n_vars J) l r lf).
    { split; [reflexivity|]. split; [reflexivity|]. split; [reflexivity|].
      destruct (kid J T i a b n Gi Ch a (or_introl eq_refl)) as (ma & sa & Ga' & _ & Pa). rewrite Ga in Ga'. inversion Ga'; subst ma. cbn [n_path] in Pa.
      destruct (kid J T i a b n Gi Ch b (or_intror eq_refl)) as (mb & sb & Gb' & _ & Pb). rewrite Gb in Gb'. inversion Gb'; subst mb. cbn [n_path] in Pb.
      split; [|split].
      - split; [exact Len|]. split; [intros v d E; apply (Gd v d E)|]. split; [cbn; lra|]. intros v s I. cbn [l_path lf] in I. apply Ptl. rewrite Pa. apply in_or_app. left; exact I.
      - intros v d s E I. cbn [l_dists l_path lf] in E, I. destruct (Gd v d E) as [Od Pd].
        assert (Ila : In (v, s) (l_path l)) by (rewrite Pa; apply in_or_app; left; exact I). assert (Irb : In (v, s) (l_path r)) by (rewrite Pb; apply in_or_app; left; exact I).
        destruct (Ptl v s Ila) as [V Os]. rewrite (Pd s Os). unfold val.
        destruct (pl_dist L (n_vars J) l Pl v V) as (d1 & E1 & O1). destruct (pl_dist L (n_vars J) r Prr v V) as (d2 & E2 & O2). rewrite E1, E2.
        rewrite (Su l Il v d1 s E1 Ila), (Su r Ir v d2 s E2 Irb). transitivity (Qsum [w1; w2]); [cbn; ring|exact Sws].
      - split; [reflexivity|]. split; [reflexivity|]. intros v s V Os. cbn [l_prior l_dists lf]. unfold val at 1.
        destruct (nth_error ds v) as [d|] eqn:E; [|apply nth_error_None in E; lia]. destruct (Gd v d E) as [Od Pd]. rewrite (Pd s Os), W1', W2'. field. lra. }
    split; [|exact Cond].
    pose proof (parent_ok J T i _ (proj2 (get_node_inner J i n) Gi)) as Pa. cbn [n_parent] in Pa.
    assert (Only : forall m, In m (innernodes J) -> In (Some i) (i_children m) -> i_parent n = Some (i_idx m)).
    { intros m I Ic. apply In_nth_error in Ic. destruct Ic as [k Ek]. destruct (child_node J T m k i I Ek) as (s & x & _ & G & Px & _). rewrite (proj2 (get_node_inner J i n) Gi) in G. inversion G; subst x. exact Px. }
    assert (Idle : forall m, In m (innernodes J) -> i_parent n <> Some (i_idx m) -> relink J i m = m).
    { intros m I N. destruct m as [mi mp mv ms mc msm mpt]. unfold relink. cbn in *. f_equal. rewrite <- map_id. apply map_ext_in. intros [c|] Ic; [|reflexivity]. cbn. destruct (Nat.eqb_spec c i) as [->|]; [|reflexivity].
      exfalso. apply N. exact (Only _ I Ic). }
    destruct (i_parent n) as [p|] eqn:Ep.
    - destruct Pa as (np & Gp & Ic). destruct (get_inner_some J p np Gp) as [Inp Enp].
      assert (Npi : p <> i). { intros ->. rewrite Gi in Gp. inversion Gp; subst np. rewrite Ch in Ic. destruct (i_ne J i a b n l r Gi Ga Gb) as [X Y]. destruct Ic as [Ic|[Ic|[]]]; inversion Ic; congruence. }
      unfold del_inner at 1. rewrite find_del. rewrite (proj2 (Nat.eqb_neq p i) Npi). change (find (fun m => Nat.eqb (i_idx m) p) (innernodes J)) with (get_inner J p). rewrite Gp.
      destruct (child_index_in _ _ Ic) as [k Ek]. rewrite Ek. pose proof (child_index_some _ _ _ Ek) as Ck.
      destruct (child_node J T np k i Inp Ck) as (s & x & Es & G & _ & Px). rewrite (proj2 (get_node_inner J i n) Gi) in G. inversion G; subst x. cbn [n_path] in Px.
      unfold set_child_leaf. cbn [l_idx l_parent l_prior l_samples l_dists]. rewrite Es. cbn [bind fst snd]. f_equal. f_equal. unfold merged, with_nodes. f_equal.
      + unfold set_inner. apply map_ext_in. intros m Im. unfold del_inner in Im. apply filter_In in Im. destruct Im as [Im _]. cbn [i_idx]. destruct (Nat.eqb_spec (i_idx m) (i_idx np)) as [E|E].
        * assert (m = np) as ->. { pose proof (in_get_inner J (ids J T) m Im) as A. rewrite E, Enp, Gp in A. congruence. }
          unfold relink. f_equal. apply (nth_repl (i_children np) i (S (max_idx J)) k (child_once J T np Inp) Ck).
        * symmetry. apply Idle; [exact Im|]. rewrite <- Enp. congruence.
      + f_equal. f_equal. unfold lf. rewrite Px. f_equal; congruence.
      + destruct (root_ok J T) as (r0 & m0 & Er0 & Gr0 & P0 & _). rewrite Er0. cbn. destruct (Nat.eqb_spec r0 i) as [->|]; [|reflexivity]. exfalso.
        rewrite (proj2 (get_node_inner J i n) Gi) in Gr0. inversion Gr0; subst m0. cbn in P0. congruence.
    - f_equal. f_equal. unfold merged, with_root, with_nodes. cbn [n_vars full innernodes leaves root priors]. f_equal.
      + rewrite <- map_id at 1. apply map_ext_in. intros m Im. unfold del_inner in Im. apply filter_In in Im. symmetry. apply Idle; [apply Im|discriminate].
      + f_equal. f_equal. unfold lf. f_equal. destruct (root_ok J T) as (r0 & m0 & Er0 & Gr0 & P0 & Pt0). rewrite Pa in Er0. inversion Er0; subst r0.
        rewrite (proj2 (get_node_inner J i n) Gi) in Gr0. inversion Gr0; subst m0. symmetry. exact Pt0.
      + rewrite Pa. cbn. rewrite Nat.eqb_refl. reflexivity.
  Qed.

  (** ** The loop *)

  Definition binary (J : jpt F) : Prop := forall n, In n (innernodes J) -> exists a b, i_children n = [Some a; Some b].
  (** Two sibling leaves which are similar enough to be merged. *)
  Definition mergeable (t : Q) (J : jpt F) (n : inner F) : Prop := exists a b l r x,
    i_children n = [Some a; Some b] /\ get_node J a = Some (NLeaf l) /\ get_node J b = Some (NLeaf r) /\ similarity J n l r = Some x /\ t <= x.
  Definition samples (J : jpt F) : nat := list_sum (map l_samples (leaves J)).
  Definition marginal (J : jpt F) (v : var) (s : vset F) : Q := Qsum (map (fun l => l_prior l * val L (l_dists l) v s) (leaves J)).

  Record sound (J : jpt F) : Prop := Sound {
    so_tree : tree_ok J;
    so_full : full J = fl;
    so_binary : binary J;
    so_proper : Forall (proper_leaf L (n_vars J)) (leaves J);
    so_support : Forall (supported_leaf L) (leaves J);
    so_prior : Forall (fun l => 0 < l_prior l) (leaves J)
  }.
  Definition same_mass (J J' : jpt F) : Prop :=
    n_vars J' = n_vars J /\ priors J' = priors J /\ Qsum (map l_prior (leaves J')) == Qsum (map l_prior (leaves J)) /\ samples J' = samples J /\
    forall v s, (v < n_vars J)%nat -> oks L v s -> marginal J' v s == marginal J v s.

  Lemma list_sum_perm : forall u v, Permutation u v -> list_sum u = list_sum v.
  Proof. intros u v H. unfold list_sum. induction H; cbn [fold_right]; lia. Qed.

  Lemma merged_sound : forall (J : jpt F) i a b n l r lf, sound J -> get_inner J i = Some n -> i_children n = [Some a; Some b] -> get_node J a = Some (NLeaf l) -> get_node J b = Some (NLeaf r) ->
    l_idx lf = S (max_idx J) -> l_parent lf = i_parent n -> l_path lf = i_path n -> proper_leaf L (n_vars J) lf -> supported_leaf L lf -> mixed (n_vars J) l r lf ->
    sound (merged J i a b lf) /\ same_mass J (merged J i a b lf).
  Proof.
    intros J i a b n l r lf S Gi Ch Ga Gb E1 E2 E3 Pl Su (Mp & Ms & Mv). pose proof (so_tree J S) as T.
    assert (Sub : forall x, In x (del_leaf b (del_leaf a (leaves J))) -> In x (leaves J)) by (intros x I; unfold del_leaf in I; apply filter_In in I; destruct I as [I _]; apply filter_In in I; apply I).
    pose proof (merged_leaves J T i a b n l r Gi Ch Ga Gb) as Pm. destruct (node_leaf_in J a l Ga) as [Il _]. destruct (node_leaf_in J b r Gb) as [Ir _].
    pose proof (so_prior J S) as Pp. rewrite Forall_forall in Pp. split.
    - constructor; cbn [merged full n_vars leaves innernodes].
      + apply (merged_ok J T i a b n l r Gi Ch Ga Gb lf E1 E2 E3).
      + apply (so_full J S).
      + intros m' I. apply in_merged in I. destruct I as (m & I & _ & ->). destruct (so_binary J S m I) as (c & d & Ecd). cbn [relink i_children]. rewrite Ecd. cbn. destruct (Nat.eqb c i), (Nat.eqb d i); eauto.
      + apply Forall_app. split; [|constructor; [exact Pl|constructor]]. pose proof (so_proper J S) as X. rewrite Forall_forall in X |- *. intros x I. apply X, Sub, I.
      + apply Forall_app. split; [|constructor; [exact Su|constructor]]. pose proof (so_support J S) as X. rewrite Forall_forall in X |- *. intros x I. apply X, Sub, I.
      + apply Forall_app. split; [|constructor; [|constructor]]. { rewrite Forall_forall. intros x I. apply Pp, Sub, I. } rewrite Mp. pose proof (Pp l Il). pose proof (Pp r Ir). lra.
    - split; [reflexivity|]. split; [reflexivity|]. unfold samples, marginal. cbn [merged leaves]. rewrite !map_app. cbn [map]. split; [|split].
      + rewrite (Qsum_map_perm _ l_prior _ _ Pm). cbn [map Qsum]. rewrite Qsum_app. cbn [Qsum]. rewrite Mp. ring.
      + rewrite (list_sum_perm _ _ (Permutation_map l_samples Pm)). cbn [map]. rewrite list_sum_app. unfold list_sum. cbn [fold_right]. rewrite Ms. lia.
      + intros v s V Os. rewrite map_app. cbn [map]. rewrite (Qsum_map_perm _ _ _ _ Pm). cbn [map Qsum]. rewrite Qsum_app. cbn [Qsum]. rewrite (Mv v s V Os). ring.
  Qed.

  Lemma merged_mergeable : forall t (J : jpt F) i a b n l r lf m', tree_ok J -> get_inner J i = Some n -> i_children n = [Some a; Some b] -> get_node J a = Some (NLeaf l) -> get_node J b = Some (NLeaf r) ->
    l_idx lf = S (max_idx J) -> In m' (innernodes (merged J i a b lf)) -> mergeable t (merged J i a b lf) m' -> i_parent n = Some (i_idx m') \/ exists m, In m (innernodes J) /\ i_idx m = i_idx m' /\ i_idx m <> i /\ mergeable t J m.
  Proof.
    intros t J i a b n l r lf m' T Gi Ch Ga Gb E1 I (c & d & l' & r' & x & Ec & Gc & Gd & Sx & Tx). apply in_merged in I. destruct I as (m & I & Ni & ->). cbn [relink i_children i_idx] in *.
    destruct (in_dec (fun x y : option nat => ltac:(decide equality; apply Nat.eq_dec)) (Some i) (i_children m)) as [Ic|Nc].
    - left. apply In_nth_error in Ic. destruct Ic as [k Ek]. destruct (child_node J T m k i I Ek) as (s & y & _ & G & Px & _). rewrite (proj2 (get_node_inner J i n) Gi) in G. inversion G; subst y. exact Px.
    - right. exists m. split; [exact I|]. split; [reflexivity|]. split; [exact Ni|].
      assert (Em : map (repl J i) (i_children m) = i_children m). { rewrite <- map_id. apply map_ext_in. intros [z|] Iz; [|reflexivity]. cbn. destruct (Nat.eqb_spec z i) as [->|]; [contradiction|reflexivity]. }
      rewrite Em in Ec.
      assert (Old : forall z y, In (Some z) (i_children m) -> get_node (merged J i a b lf) z = Some (NLeaf y) -> get_node J z = Some (NLeaf y)).
      { intros z y Iz Gz. apply In_nth_error in Iz. destruct Iz as [k Ek]. destruct (child_node J T m k z I Ek) as (s & q & _ & G & _). rewrite (merged_node J T i a b n l r Gi Ga Gb lf E1 z (fresh J lf E1 z q G)) in Gz.
        destruct (Nat.eqb z i || Nat.eqb z a || Nat.eqb z b); [discriminate|]. rewrite G in Gz. cbn in Gz. destruct q; [discriminate|]. cbn in Gz. congruence. }
      exists c, d, l', r', x. split; [exact Ec|]. split; [apply Old; [rewrite Ec; left; reflexivity|exact Gc]|]. split; [apply Old; [rewrite Ec; right; left; reflexivity|exact Gd]|]. split; [exact Sx|exact Tx].
  Qed.

  Lemma del_inner_length : forall (J : jpt F) i n, get_inner J i = Some n -> (S (length (del_inner i (innernodes J))) <= length (innernodes J))%nat.
  Proof.
    intros J i n G. apply get_inner_some in G. destruct G as [I E]. unfold del_inner. clear -I E. induction (innernodes J) as [|x l IHl]; [destruct I|]. cbn. destruct I as [->|I].
    - rewrite E, Nat.eqb_refl. cbn. assert (length (filter (fun y : inner F => negb (Nat.eqb (i_idx y) i)) l) <= length l)%nat; [|lia].
      clear. induction l as [|y l IH]; cbn; [lia|]. destruct (negb _); cbn; lia.
    - specialize (IHl I). destruct (negb _); cbn; lia.
  Qed.

  Lemma prune_loop_spec : forall t fuel (J : jpt F) queue, sound J -> (forall n, In n (innernodes J) -> mergeable t J n -> In (i_idx n) queue) -> (length queue + length (innernodes J) <= fuel)%nat ->
    exists J', prune_loop fuel t J queue = Ok J' /\ sound J' /\ same_mass J J' /\ (forall n, In n (innernodes J') -> ~ mergeable t J' n) /\ (length (innernodes J') <= length (innernodes J))%nat.
  Proof.
    intro t. induction fuel as [|fuel IH]; intros J queue S Q Bd.
    - destruct queue; [|cbn in Bd; lia]. exists J. split; [reflexivity|]. split; [exact S|]. split; [repeat split; reflexivity|]. split; [|lia]. intros n I M. exact (Q n I M).
    - destruct queue as [|i rest].
      { exists J. split; [reflexivity|]. split; [exact S|]. split; [repeat split; reflexivity|]. split; [|lia]. intros n I M. exact (Q n I M). }
      cbn [length] in Bd. cbn [prune_loop]. pose proof (so_tree J S) as T.
      assert (Skip : (forall n, get_inner J i = Some n -> ~ mergeable t J n) -> exists J', prune_loop fuel t J rest = Ok J' /\ sound J' /\ same_mass J J' /\ (forall n, In n (innernodes J') -> ~ mergeable t J' n) /\ (length (innernodes J') <= length (innernodes J))%nat).
      { intro N. apply IH; [exact S| |lia]. intros n I M. destruct (Q n I M) as [E|E]; [|exact E]. exfalso. apply (N n); [rewrite E; apply (in_get_inner J (ids J T) n I)|exact M]. }
      destruct (get_inner J i) as [n|] eqn:Gi; [|apply Skip; intros n X; discriminate].
      destruct (get_inner_some J i n Gi) as [In_ Ei]. destruct (so_binary J S n In_) as (a & b & Ch). rewrite Ch.
      assert (Nl : (forall l r, get_node J a = Some (NLeaf l) -> get_node J b = Some (NLeaf r) -> forall x, similarity J n l r = Some x -> ~ t <= x) -> forall m, Some n = Some m -> ~ mergeable t J m).
      { intros H m Em (a' & b' & l' & r' & x & Ec & G1 & G2 & Sx & Tx). inversion Em; subst m. rewrite Ch in Ec. inversion Ec; subst a' b'. exact (H l' r' G1 G2 x Sx Tx). }
      destruct (get_inner J a) as [na|] eqn:Ia.
      { apply Skip, Nl. intros l r G. apply get_node_inner in Ia. congruence. }
      destruct (get_inner J b) as [nb|] eqn:Ib.
      { apply Skip, Nl. intros l r _ G. apply get_node_inner in Ib. congruence. }
      destruct (get_leaf J a) as [l|] eqn:La; [|apply Skip, Nl; intros l r G; unfold get_node in G; rewrite Ia, La in G; discriminate].
      destruct (get_leaf J b) as [r|] eqn:Lb; [|apply Skip, Nl; intros l' r _ G; unfold get_node in G; rewrite Ib, Lb in G; discriminate].
      assert (Ga : get_node J a = Some (NLeaf l)) by (unfold get_node; rewrite Ia, La; reflexivity). assert (Gb : get_node J b = Some (NLeaf r)) by (unfold get_node; rewrite Ib, Lb; reflexivity).
      destruct (similarity J n l r) as [x|] eqn:Sx.
      2:{ apply Skip, Nl. intros l' r' G1 G2 y Sy. rewrite Ga in G1. rewrite Gb in G2. inversion G1; inversion G2; subst l' r'. congruence. }
      unfold Qltb. destruct (Qltb_spec x t) as [Lt|Ge].
      { apply Skip, Nl. intros l' r' G1 G2 y Sy. rewrite Ga in G1. rewrite Gb in G2. inversion G1; inversion G2; subst l' r'. rewrite Sx in Sy. inversion Sy; subst y. lra. }
      destruct (node_leaf_in J a l Ga) as [Il _]. destruct (node_leaf_in J b r Gb) as [Ir _]. pose proof (so_prior J S) as Pp. rewrite Forall_forall in Pp.
      destruct (merge_step J i a b n l r T (so_full J S) (so_proper J S) (so_support J S) Gi Ch Ga Gb) as (lf & Em & E1 & E2 & E3 & Pl & Su & Mx). { pose proof (Pp l Il). pose proof (Pp r Ir). lra. }
      rewrite Em. cbn [bind fst snd]. destruct (merged_sound J i a b n l r lf S Gi Ch Ga Gb E1 E2 E3 Pl Su Mx) as [S' M'].
      assert (Len : (Datatypes.S (length (innernodes (merged J i a b lf))) <= length (innernodes J))%nat). { cbn [merged innernodes]. rewrite map_length. apply (del_inner_length J i n Gi). }
      assert (Q' : forall m, In m (innernodes (merged J i a b lf)) -> mergeable t (merged J i a b lf) m -> In (i_idx m) rest \/ i_parent n = Some (i_idx m)).
      { intros m I Mm. destruct (merged_mergeable t J i a b n l r lf m T Gi Ch Ga Gb E1 I Mm) as [E|(m0 & I0 & E0 & N0 & M0)]; [right; exact E|left]. destruct (Q m0 I0 M0) as [E|E]; [congruence|]. rewrite <- E0. exact E. }
      assert (Fin : forall queue', (forall m : inner F, In (i_idx m) rest \/ i_parent n = Some (i_idx m) -> In (i_idx m) queue') -> (length queue' <= Datatypes.S (length rest))%nat ->
        exists J', prune_loop fuel t (merged J i a b lf) queue' = Ok J' /\ sound J' /\ same_mass J J' /\ (forall n, In n (innernodes J') -> ~ mergeable t J' n) /\ (length (innernodes J') <= length (innernodes J))%nat).
      { intros queue' Hq Lq. destruct (IH (merged J i a b lf) queue' S') as (J' & R & SJ & MJ & Done & LJ); [intros m I Mm; apply Hq, (Q' m I Mm)|lia|].
        exists J'. split; [exact R|]. split; [exact SJ|]. split; [|split; [exact Done|lia]]. destruct M' as (A1 & A2 & A3 & A4 & A5), MJ as (B1 & B2 & B3 & B4 & B5).
        split; [congruence|]. split; [congruence|]. split; [rewrite B3; exact A3|]. split; [congruence|]. intros v s V Os. rewrite (B5 v s); [apply A5; assumption|rewrite A1; exact V|exact Os]. }
      destruct (i_parent n) as [p|] eqn:Ep.
      + apply Fin; [|rewrite app_length; cbn; lia]. intros m [I|E]; apply in_or_app; [left; exact I|right; left; congruence].
      + apply Fin; [|lia]. intros m [I|E]; [exact I|discriminate].
  Qed.

  Theorem prune_spec : forall (J : jpt F) t, sound J ->
    exists J', prune J t = Ok J' /\ sound J' /\ same_mass J J' /\ (forall n, In n (innernodes J') -> ~ mergeable t J' n) /\ (length (innernodes J') <= length (innernodes J))%nat.
  Proof.
    intros J t S. unfold prune. apply prune_loop_spec; [exact S| |rewrite map_length; lia]. intros n I _. apply in_map, I.
  Qed.
End Prune.
