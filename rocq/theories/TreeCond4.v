(** [conditional_jpt] represents the conditional measure. *)
Require Import QArith Qabs Lqa Bool List Arith Lia Permutation.
Require Import Verif.Base Verif.NumBase Verif.UtilModel Verif.TreeModel Verif.TreeSpec Verif.TreeApply Verif.TreeInfer Verif.TreePosterior Verif.TreeCond Verif.TreeCond2 Verif.TreeCond3.
Import ListNotations.
Open Scope Q_scope.

Lemma Qltb_comp : forall a b c, b == c -> Qltb a b = Qltb a c.
Proof. intros a b c E. unfold Qltb. destruct (Qltb_spec a b) as [A|A]; destruct (Qltb_spec a c) as [B|B]; try reflexivity; exfalso; rewrite E in A; lra. Qed.

Lemma list_upd_length : forall A (l : list A) i x, length (list_upd l i x) = length l.
Proof. intros A l. induction l as [|y l IH]; intros [|i] x; cbn; auto. Qed.
Lemma list_upd_same : forall A (l : list A) i x y, nth_error l i = Some y -> nth_error (list_upd l i x) i = Some x.
Proof. intros A l. induction l as [|z l IH]; intros [|i] x y H; cbn in *; try discriminate; [reflexivity|]. apply (IH i x y H). Qed.
Lemma list_upd_other : forall A (l : list A) i j x, i <> j -> nth_error (list_upd l i x) j = nth_error l j.
Proof. intros A l. induction l as [|z l IH]; intros [|i] [|j] x H; cbn; try reflexivity; [lia|]. apply IH. lia. Qed.

(** A possible leaf gives every piece of evidence a positive probability. *)
Lemma leaf_factor : forall (F : family) (fl : var -> vset F) (L : measured fl) n l e v ev,
  proper_leaf L n l -> event L n e -> In (v, ev) e -> 0 < leaf_prob L (l_dists l) e ->
  exists d, nth_error (l_dists l) v = Some d /\ okd L v d /\ oks L v ev /\ 0 < P L d ev.
Proof.
  intros F fl L n l e v ev Pl [_ Fe] I Pos. pose proof (proj1 (Forall_forall _ _) Fe (v, ev) I) as [V Os]. cbn in V, Os.
  destruct (pl_dist L n l Pl v V) as (d & Hd & Od). exists d. repeat split; try assumption.
  pose proof (P_nonneg _ L v d ev Od Os) as N. apply Qle_lteq in N. destruct N as [N|N]; [exact N|]. exfalso.
  pose proof (leaf_prob_zero L l e v ev d I Hd). rewrite H in Pos; [lra|symmetry; exact N].
Qed.

(** A leaf which the evidence leaves possible. *)
Definition possible {F : family} {fl : var -> vset F} (L : measured fl) (e : assignment F) (l : leaf F) : bool := Qltb 0 (leaf_prob L (l_dists l) e).

Section Measure.
  Context {F : family} {fl : var -> vset F} (L : measured fl).
  Variable n : nat.

  (** ** Cropping the distributions of a leaf *)

  Definition cropped (e : assignment F) (v : var) (d d' : dist F) : Prop :=
    okd L v d' /\ forall s, oks L v s ->
      P L d' s == match lookup e v with Some ev => P L d (inter F s ev) / P L d ev | None => P L d s end.

  Lemma crop_dists_ok : forall e (ds : list (dist F)), NoDup (keys e) -> (forall v d, nth_error ds v = Some d -> okd L v d) ->
    (forall v ev, In (v, ev) e -> exists d d', nth_error ds v = Some d /\ d_crop F d ev = Ok d' /\ okd L v d' /\
       forall t, oks L v t -> P L d' t == P L d (inter F t ev) / P L d ev) ->
    exists ds', crop_dists ds e = Ok ds' /\ length ds' = length ds /\
      forall v d, nth_error ds v = Some d -> exists d', nth_error ds' v = Some d' /\ cropped e v d d' /\
        match lookup e v with Some ev => d_crop F d ev = Ok d' | None => d' = d end.
  Proof.
    induction e as [|[v s] e IH]; intros ds N O H.
    - exists ds. split; [reflexivity|]. split; [reflexivity|]. intros v d Hd. exists d. split; [exact Hd|]. split; [|reflexivity]. split; [apply O, Hd|]. intros. reflexivity.
    - cbn in N. inversion N as [|? ? Nv N']; subst. destruct (H v s (or_introl eq_refl)) as (d & d' & Hd & Ed & Od' & Pd'). cbn [crop_dists]. rewrite Hd, Ed. cbn [bind].
      destruct (IH (list_upd ds v d') N') as (ds' & Ec & Len & Nth).
      + intros w x Hx. destruct (Nat.eq_dec v w) as [<-|Nw].
        * rewrite (list_upd_same _ _ _ _ _ Hd) in Hx. inversion Hx; subst. exact Od'.
        * rewrite (list_upd_other _ _ _ _ _ Nw) in Hx. apply O, Hx.
      + intros w ev I. destruct (H w ev (or_intror I)) as (x & x' & Hx & Px). exists x, x'. split; [|exact Px].
        rewrite list_upd_other; [exact Hx|]. intros ->. apply Nv. change w with (fst (w, ev)). apply in_map, I.
      + exists ds'. split; [exact Ec|]. split; [rewrite Len; apply list_upd_length|]. intros w x Hx. cbn [lookup]. destruct (Nat.eq_dec v w) as [<-|Nw].
        * rewrite Hd in Hx. inversion Hx; subst x. destruct (Nth v d' (list_upd_same _ _ _ _ _ Hd)) as (d'' & Hd'' & (Od'' & Pd'') & Ex). exists d''. split; [exact Hd''|]. rewrite Nat.eqb_refl.
          rewrite (proj2 (lookup_none _ e v) Nv) in Ex. split; [|rewrite Ex; exact Ed]. split; [exact Od''|]. intros t Ot. cbn [lookup]. rewrite Nat.eqb_refl, (Pd'' t Ot). rewrite (proj2 (lookup_none _ e v) Nv). apply Pd', Ot.
        * destruct (Nth w x) as (x' & Hx' & (Ox' & Px') & Ex); [rewrite (list_upd_other _ _ _ _ _ Nw); exact Hx|]. exists x'. split; [exact Hx'|]. destruct (Nat.eqb_spec v w) as [|Nvw]; [contradiction|]. split; [|exact Ex].
          split; [exact Ox'|]. intros t Ot. cbn [lookup]. destruct (Nat.eqb_spec v w); [contradiction|]. apply Px', Ot.
  Qed.

  (** ** Products and conjunctions *)

  Definition val (ds : list (dist F)) (v : var) (s : vset F) : Q := match nth_error ds v with Some d => P L d s | None => 0 end.
  Lemma leaf_prob_val : forall ds v s q, leaf_prob L ds ((v, s) :: q) = val ds v s * leaf_prob L ds q.
  Proof. reflexivity. Qed.
  Lemma leaf_prob_app' : forall ds q e, leaf_prob L ds (q ++ e) == leaf_prob L ds q * leaf_prob L ds e.
  Proof. intros ds q e. induction q as [|[v s] q IH]; cbn [app]; [cbn; ring|]. rewrite !leaf_prob_val, IH. ring. Qed.

  Definition off (q e : assignment F) : assignment F := filter (fun vs => negb (existsb (Nat.eqb (fst vs)) (keys q))) e.
  Definition on (q e : assignment F) : assignment F :=
    map (fun vs => match lookup e (fst vs) with Some ev => (fst vs, inter F (snd vs) ev) | None => vs end) q.
  Lemma meet_parts : forall q e, meet q e = on q e ++ off q e.
  Proof. reflexivity. Qed.

  Lemma off_cons_none : forall v s q e, lookup e v = None -> off ((v, s) :: q) e = off q e.
  Proof.
    intros v s q e H. apply lookup_none in H. unfold off. apply filter_ext_in. intros [w x] I. cbn [fst keys map existsb]. destruct (Nat.eqb_spec w v) as [->|]; [|reflexivity].
    exfalso. apply H. change v with (fst (v, x)). apply in_map, I.
  Qed.

  Lemma split_key : forall ds v ev e, NoDup (keys e) -> lookup e v = Some ev ->
    leaf_prob L ds e == val ds v ev * leaf_prob L ds (filter (fun vs => negb (Nat.eqb (fst vs) v)) e).
  Proof.
    intros ds v ev e. induction e as [|[w s] e IH]; intros N H; [discriminate|]. cbn in N. inversion N as [|? ? Nw N']; subst. cbn [lookup] in H. cbn [filter fst].
    destruct (Nat.eqb_spec w v) as [->|Nv]; cbn [negb].
    - inversion H; subst. rewrite leaf_prob_val. rewrite filter_none; [reflexivity|]. intros [w x] I. cbn. destruct (Nat.eqb_spec w v) as [->|]; [|reflexivity].
      exfalso. apply Nw. change v with (fst (v, x)). apply in_map, I.
    - rewrite !leaf_prob_val, (IH N' H). ring.
  Qed.

  Lemma lookup_filter : forall (e : assignment F) v g, (forall s, g (v, s) = true) -> lookup (filter g e) v = lookup e v.
  Proof.
    intros e v g G. induction e as [|[w s] e IH]; [reflexivity|]. cbn [filter lookup]. destruct (Nat.eqb_spec w v) as [->|Nv].
    - rewrite G. cbn. rewrite Nat.eqb_refl. reflexivity.
    - destruct (g (w, s)); cbn [lookup]; [destruct (Nat.eqb_spec w v); [contradiction|]|]; exact IH.
  Qed.
  Lemma keys_filter_nodup : forall (e : assignment F) g, NoDup (keys e) -> NoDup (keys (filter g e)).
  Proof.
    intros e g. induction e as [|x e IH]; cbn; intro N; [constructor|]. inversion N as [|? ? Nx N']; subst. destruct (g x); cbn; [|auto].
    constructor; [|auto]. intro I. apply Nx. unfold keys in *. apply in_map_iff in I. destruct I as (y & E & I). apply filter_In in I. apply in_map_iff. exists y. tauto.
  Qed.

  Lemma filter_filter : forall A (f g : A -> bool) l, filter f (filter g l) = filter (fun x => f x && g x) l.
  Proof. intros. induction l as [|x l IH]; [reflexivity|]. cbn. destruct (g x); cbn; [|rewrite andb_false_r; exact IH]. rewrite andb_true_r. destruct (f x); rewrite IH; reflexivity. Qed.

  Lemma off_cons_some : forall ds v s (q e : assignment F) ev, NoDup (keys e) -> ~ In v (keys q) -> lookup e v = Some ev ->
    leaf_prob L ds (off q e) == val ds v ev * leaf_prob L ds (off ((v, s) :: q) e).
  Proof.
    intros ds v s q e ev N Nv H.
    assert (G : forall t : vset F, negb (existsb (Nat.eqb (fst (v, t))) (keys q)) = true).
    { intro t. cbn [fst]. apply negb_true_iff, not_true_iff_false. intro B. apply existsb_exists in B. destruct B as (w & I & E). apply Nat.eqb_eq in E. subst. contradiction. }
    unfold off at 1. rewrite (split_key ds v ev _ (keys_filter_nodup _ _ N)) by (rewrite (lookup_filter _ _ _ G); exact H).
    rewrite filter_filter. apply Qmult_comp; [reflexivity|]. unfold off. erewrite filter_ext; [reflexivity|]. intros [w x]. cbn [fst keys map existsb]. rewrite negb_orb. reflexivity.
  Qed.

  Variable l : leaf F.
  Hypothesis Pl : proper_leaf L n l.

  Lemma val_ok : forall v s, (v < n)%nat -> oks L v s -> exists d, nth_error (l_dists l) v = Some d /\ okd L v d /\ val (l_dists l) v s = P L d s.
  Proof. intros v s V O. destruct (pl_dist L n l Pl v V) as (d & Hd & Od). exists d. unfold val. rewrite Hd. auto. Qed.

  Lemma event_tail : forall v s q, event L n ((v, s) :: q) -> event L n q /\ ~ In v (keys q) /\ (v < n)%nat /\ oks L v s.
  Proof.
    intros v s q [N Fq]. cbn in N. inversion N as [|? ? Nv N']; subst. destruct (Forall_inv Fq) as [A B]. apply Forall_inv_tail in Fq. cbn in A, B. repeat split; assumption.
  Qed.

  Lemma event_lookup : forall e v ev, event L n e -> lookup e v = Some ev -> (v < n)%nat /\ oks L v ev.
  Proof. intros e v ev [_ Fe] H. apply lookup_in in H. exact (proj1 (Forall_forall _ _) Fe (v, ev) H). Qed.

  Lemma meet_le : forall q e, event L n q -> event L n e -> 0 <= leaf_prob L (l_dists l) (meet q e) <= leaf_prob L (l_dists l) e.
  Proof.
    intros q e Eq Ee. rewrite meet_parts, leaf_prob_app'.
    assert (H : 0 <= leaf_prob L (l_dists l) (on q e) /\ 0 <= leaf_prob L (l_dists l) (off q e) /\
                leaf_prob L (l_dists l) (on q e) * leaf_prob L (l_dists l) (off q e) <= leaf_prob L (l_dists l) e).
    { assert (Off : forall q, 0 <= leaf_prob L (l_dists l) (off q e)).
      { intro q0. apply (leaf_prob_nonneg L n l Pl). destruct Ee as [_ Fe]. rewrite Forall_forall in *. intros x I. apply filter_In in I. apply Fe, I. }
      revert Eq. induction q as [|[v s] q IH]; intro Eq.
      - cbn [on map]. split; [cbn; lra|]. split; [apply Off|]. unfold off. rewrite filter_none by reflexivity. cbn [leaf_prob]. lra.
      - destruct (event_tail v s q Eq) as (Eq' & Nv & V & Os). destruct (IH Eq') as (H1 & H2 & H3). clear IH.
        destruct (val_ok v s V Os) as (d & Hd & Od & _).
        change (on ((v, s) :: q) e) with ((match lookup e v with Some ev => (v, inter F s ev) | None => (v, s) end) :: on q e).
        destruct (lookup e v) as [ev|] eqn:El; rewrite leaf_prob_val; unfold val; rewrite Hd.
        + destruct (event_lookup e v ev Ee El) as [_ Oe]. pose proof (P_nonneg _ L v d _ Od (oks_inter _ L v s ev Os Oe)) as N1.
          pose proof (P_le _ L v d ev s Od Oe Os) as N2. rewrite (P_comm _ L v d ev s Od Oe Os) in N2.
          split; [apply Qmult_le_0_compat; assumption|]. split; [apply Off|].
          rewrite (off_cons_some (l_dists l) v s q e ev (proj1 Ee) Nv El) in H3. unfold val in H3. rewrite Hd in H3.
          apply Qle_trans with (2 := H3). pose proof (Off ((v, s) :: q)) as O'. set (a := leaf_prob L (l_dists l) (on q e)) in *. set (b := leaf_prob L (l_dists l) (off ((v, s) :: q) e)) in *.
          setoid_replace (P L d (inter F s ev) * a * b) with (P L d (inter F s ev) * (a * b)) by ring. setoid_replace (a * (P L d ev * b)) with (P L d ev * (a * b)) by ring.
          apply Qmult_le_compat_r; [exact N2|apply Qmult_le_0_compat; assumption].
        + rewrite (off_cons_none v s q e El). pose proof (P_nonneg _ L v d s Od Os) as N1. pose proof (P_le1 L v d s Od Os) as N2.
          split; [apply Qmult_le_0_compat; assumption|]. split; [exact H2|]. apply Qle_trans with (2 := H3).
          set (a := leaf_prob L (l_dists l) (on q e)) in *. set (b := leaf_prob L (l_dists l) (off q e)) in *.
          setoid_replace (P L d s * a * b) with (P L d s * (a * b)) by ring. setoid_replace (a * b) with (1 * (a * b)) at 2 by ring.
          apply Qmult_le_compat_r; [exact N2|apply Qmult_le_0_compat; assumption]. }
    destruct H as (H1 & H2 & H3). split; [apply Qmult_le_0_compat; assumption|exact H3].
  Qed.

  Lemma meet_cropped : forall e (ds' : list (dist F)), event L n e -> 0 < leaf_prob L (l_dists l) e ->
    (forall v d, nth_error (l_dists l) v = Some d -> exists d', nth_error ds' v = Some d' /\ cropped e v d d') ->
    forall q, event L n q -> leaf_prob L ds' q * leaf_prob L (l_dists l) e == leaf_prob L (l_dists l) (meet q e).
  Proof.
    intros e ds' Ee Pos Nth q Eq. rewrite meet_parts, leaf_prob_app'. revert Eq. induction q as [|[v s] q IH]; intro Eq.
    - cbn [on map leaf_prob]. unfold off. rewrite filter_none by reflexivity. ring.
    - destruct (event_tail v s q Eq) as (Eq' & Nv & V & Os). specialize (IH Eq').
      destruct (val_ok v s V Os) as (d & Hd & Od & _). destruct (Nth v d Hd) as (d' & Hd' & Od' & Pd').
      change (on ((v, s) :: q) e) with ((match lookup e v with Some ev => (v, inter F s ev) | None => (v, s) end) :: on q e).
      rewrite (leaf_prob_val ds'). unfold val at 1. rewrite Hd', (Pd' s Os), <- Qmult_assoc, IH.
      destruct (lookup e v) as [ev|] eqn:El; rewrite leaf_prob_val; unfold val; rewrite Hd.
      + rewrite (off_cons_some (l_dists l) v s q e ev (proj1 Ee) Nv El). unfold val. rewrite Hd.
        destruct (leaf_factor F fl L n l e v ev) as (d0 & Hd0 & _ & _ & Pe); [exact Pl|exact Ee|apply lookup_in, El|exact Pos|]. rewrite Hd in Hd0. inversion Hd0; subst d0.
        field. lra.
      + rewrite (off_cons_none v s q e El). ring.
  Qed.
End Measure.

Section Conditional.
  Context {F : family}.
  Variable J : jpt F.
  Variable L : measured (full J).
  Hypothesis T : tree_ok J.
  Hypothesis Pr : proper_tree J L.
  Hypothesis Su : supported_tree J L.
  (** Every decision node has two children, as in every learned tree. *)
  Hypothesis Bin : forall n, In n (innernodes J) -> length (i_children n) = 2%nat.
  Variable e : assignment F.
  Hypothesis Ee : event L (n_vars J) e.
  Hypothesis Ne : e <> [].
  (** The probability of the evidence and the restriction to it, in the leaves. *)
  Hypothesis Prob : forall l v s d, In l (leaves J) -> In (v, s) e -> nth_error (l_dists l) v = Some d -> exists q, d_prob F d s = Ok q /\ q == P L d s.
  Hypothesis Crop : forall l v s d, In l (leaves J) -> 0 < leaf_prob L (l_dists l) e -> In (v, s) e -> nth_error (l_dists l) v = Some d ->
    exists d', d_crop F d s = Ok d' /\ okd L v d' /\ forall t, oks L v t -> P L d' t == P L d (inter F t s) / P L d s.

  Lemma lp_ok : forall l, In l (leaves J) -> leaf_probability l e 1 = Ok (lp e l) /\ lp e l == leaf_prob L (l_dists l) e.
  Proof.
    intros l I. destruct (tree_leaf J L Pr Su l I) as [Pl _].
    assert (G : forall q x, (forall c, In c q -> In c e) -> exists r, leaf_probability l q x = Ok r /\ r == x * leaf_prob L (l_dists l) q).
    { induction q as [|[v s] q IH]; intros x H; cbn [leaf_probability leaf_prob]; [exists x; split; [reflexivity|ring]|].
      pose proof (H _ (or_introl eq_refl)) as Ic. destruct Ee as [_ Fe]. rewrite Forall_forall in Fe. destruct (Fe _ Ic) as [V Os]. cbn [fst snd] in V, Os.
      destruct (pl_dist L (n_vars J) l Pl v V) as (d & Hd & Od).
      unfold leaf_dist. rewrite Hd. cbn [bind]. destruct (Prob l v s d I Ic Hd) as (y & -> & Y). cbn [bind].
      destruct (IH (x * y)) as (r & -> & R); [intros c Hc; apply H; right; exact Hc|]. exists r. split; [reflexivity|]. rewrite R, Y. ring. }
    destruct (G e 1 (fun c H => H)) as (x & Ex & X). unfold lp. rewrite Ex. split; [reflexivity|]. rewrite X. ring.
  Qed.

  Definition survivors : list (leaf F) := flat_map (survive e) (leaves J).

  (** Sums over the survivors. *)
  Lemma survivors_sum : forall (f : leaf F -> Q), (forall l x, f (with_prior l x) == f l) ->
    (forall l, In l (leaves J) -> leaf_prob L (l_dists l) e == 0 -> l_prior l * leaf_prob L (l_dists l) e * f l == 0) ->
    Qsum (map (fun l => l_prior l * f l) survivors) == Qsum (map (fun l => l_prior l * leaf_prob L (l_dists l) e * f l) (leaves J)).
  Proof.
    intros f Hf Hz. unfold survivors.
    assert (G : forall ls, incl ls (leaves J) -> Qsum (map (fun l => l_prior l * f l) (flat_map (survive e) ls)) ==
                Qsum (map (fun l => l_prior l * leaf_prob L (l_dists l) e * f l) ls)); [|apply G, incl_refl].
    induction ls as [|l ls IH]; intro Inc; [reflexivity|]. assert (I : In l (leaves J)) by (apply Inc; left; reflexivity).
    cbn [flat_map map Qsum]. rewrite map_app, Qsum_app, IH by (intros x Ix; apply Inc; right; exact Ix). apply Qplus_comp; [|reflexivity].
    destruct (lp_ok l I) as [_ X]. unfold survive. rewrite (Qltb_comp _ _ _ X). unfold Qltb in *; destruct (Qltb_spec 0 (leaf_prob L (l_dists l) e)) as [B|B].
    - cbn [map Qsum]. rewrite Hf. cbn [l_prior with_prior]. rewrite X. ring.
    - cbn [map Qsum]. destruct (tree_leaf J L Pr Su l I) as [Pl _]. pose proof (leaf_prob_nonneg L (n_vars J) l Pl e (proj2 Ee)).
      rewrite (Hz l I); [reflexivity|lra].
  Qed.

  Lemma survivors_mass : Qsum (map l_prior survivors) == mixture J L e.
  Proof.
    rewrite (Qsum_map_ext _ l_prior (fun l => l_prior l * 1)) by (intros; ring). rewrite (survivors_sum (fun _ => 1)).
    - unfold mixture. apply Qsum_map_ext. intros. ring.
    - reflexivity.
    - intros l _ Z. rewrite Z. ring.
  Qed.

  (** The relation between a leaf and what [conditional_jpt] makes of it. *)
  Definition conditioned (l l' : leaf F) : Prop :=
    l_idx l' = l_idx l /\ l_parent l' = l_parent l /\ l_path l' = l_path l /\ l_samples l' = l_samples l /\
    l_prior l' == l_prior l * leaf_prob L (l_dists l) e / mixture J L e /\
    length (l_dists l') = length (l_dists l) /\
    (forall v d, nth_error (l_dists l) v = Some d -> exists d', nth_error (l_dists l') v = Some d' /\ cropped L e v d d') /\
    forall v d, nth_error (l_dists l) v = Some d -> exists d', nth_error (l_dists l') v = Some d' /\ match lookup e v with Some ev => d_crop F d ev = Ok d' | None => d' = d end.

  Lemma survivors_filter : survivors = map (fun l => with_prior l (l_prior l * lp e l)) (filter (possible L e) (leaves J)).
  Proof.
    unfold survivors. assert (G : forall ls, incl ls (leaves J) -> flat_map (survive e) ls = map (fun l => with_prior l (l_prior l * lp e l)) (filter (possible L e) ls)); [|apply G, incl_refl].
    induction ls as [|l ls IH]; intro Inc; [reflexivity|]. assert (I : In l (leaves J)) by (apply Inc; left; reflexivity).
    cbn [flat_map filter]. rewrite IH by (intros x Ix; apply Inc; right; exact Ix). unfold survive, possible. destruct (lp_ok l I) as [_ X]. rewrite (Qltb_comp _ _ _ X).
    destruct (Qltb 0 (leaf_prob L (l_dists l) e)); reflexivity.
  Qed.

  Lemma conditional_leaf_ok : forall mass l, mass == mixture J L e -> In l (leaves J) -> possible L e l = true ->
    exists l', conditional_leaf (with_prior (with_prior l (l_prior l * lp e l)) (l_prior l * lp e l / mass)) e = Ok l' /\ conditioned l l'.
  Proof.
    intros mass l Hm I Po. destruct (tree_leaf J L Pr Su l I) as [Pl _]. unfold possible in Po. unfold Qltb in *; destruct (Qltb_spec 0 (leaf_prob L (l_dists l) e)) as [B|]; [|discriminate].
    unfold conditional_leaf. cbn [l_dists with_prior].
    destruct (crop_dists_ok L e (l_dists l)) as (ds' & Ec & Len & Nth).
    - apply Ee.
    - apply Pl.
    - intros v ev Iv. destruct (leaf_factor F (full J) L (n_vars J) l e v ev Pl Ee Iv B) as (d & Hd & _ & Oe & Pe). destruct (Crop l v ev d I B Iv Hd) as (d' & C). exists d, d'. split; [exact Hd|exact C].
    - rewrite Ec. cbn [bind]. eexists. split; [reflexivity|]. unfold conditioned. cbn [l_idx l_parent l_path l_samples l_prior l_dists with_prior]. do 4 (split; [reflexivity|]).
      split; [destruct (lp_ok l I) as [_ X]; apply Qdiv_comp; [|exact Hm]; apply Qmult_comp; [reflexivity|exact X]|]. split; [exact Len|]. split; intros v d Hd; destruct (Nth v d Hd) as (d' & H1 & H2 & H3); exists d'; auto.
  Qed.

  Lemma conditioned_proper : 0 < mixture J L e -> forall l l', In l (leaves J) -> conditioned l l' -> proper_leaf L (n_vars J) l'.
  Proof.
    intros Pm l l' I (_ & _ & Pt & _ & Pp & Len & Nth & _). destruct (tree_leaf J L Pr Su l I) as [Pl _]. pose proof (leaf_prob_nonneg L (n_vars J) l Pl e (proj2 Ee)) as Ln.
    destruct Pl as (P1 & P2 & P3 & P4). split; [congruence|]. split; [|split].
    - intros v d' Hd'. destruct (nth_error (l_dists l) v) as [d|] eqn:Hd.
      + destruct (Nth v d Hd) as (d'' & Hd'' & Od & _). rewrite Hd' in Hd''. inversion Hd''; subst. exact Od.
      + exfalso. apply nth_error_None in Hd. rewrite <- Len in Hd. apply nth_error_None in Hd. congruence.
    - rewrite Pp. apply Qle_shift_div_l; [exact Pm|]. rewrite Qmult_0_l. apply Qmult_le_0_compat; assumption.
    - rewrite Pt. exact P4.
  Qed.

  Lemma conditioned_supported : forall l l', In l (leaves J) -> 0 < leaf_prob L (l_dists l) e -> conditioned l l' -> supported_leaf L l'.
  Proof.
    intros l l' I Po (_ & _ & Pt & _ & _ & Len & Nth & _) v d' s Hd' Is. rewrite Pt in Is. destruct (tree_leaf J L Pr Su l I) as [Pl Sl].
    destruct (nth_error (l_dists l) v) as [d|] eqn:Hd.
    2:{ exfalso. apply nth_error_None in Hd. rewrite <- Len in Hd. apply nth_error_None in Hd. congruence. }
    destruct (Nth v d Hd) as (d'' & Hd'' & Od & Pd). rewrite Hd' in Hd''. inversion Hd''; subst d''. pose proof (Sl v d s Hd Is) as Su1.
    destruct Pl as (P1 & P2 & P3 & P4) eqn:EPl. destruct (P4 v s Is) as [V Os]. rewrite (Pd s Os). destruct (lookup e v) as [ev|] eqn:El; [|exact Su1].
    destruct (leaf_factor F (full J) L (n_vars J) l e v ev Pl Ee (lookup_in _ _ _ _ El) Po) as (d0 & Hd0 & Od0 & Oe & Pe). rewrite Hd in Hd0. inversion Hd0; subst d0.
    rewrite (P_comm _ L v d s ev Od0 Os Oe), (P_sure _ L v d ev s Od0 Oe Os Su1). field. lra.
  Qed.

  Lemma conditioned_mixture : forall ls, 0 < mixture J L e -> Forall2 conditioned (filter (possible L e) (leaves J)) ls -> forall q, event L (n_vars J) q ->
    Qsum (map (fun l => l_prior l * leaf_prob L (l_dists l) q) ls) == mixture J L (meet q e) / mixture J L e.
  Proof.
    intros ls Pm R q Eq. unfold mixture at 1.
    assert (A : Qsum (map (fun l => l_prior l * leaf_prob L (l_dists l) (meet q e)) (leaves J)) ==
                Qsum (map (fun l => l_prior l * leaf_prob L (l_dists l) (meet q e)) (filter (possible L e) (leaves J)))).
    { rewrite Qsum_filter. apply Qsum_map_ext. intros l I. unfold possible. unfold Qltb in *; destruct (Qltb_spec 0 (leaf_prob L (l_dists l) e)) as [B|B]; [reflexivity|].
      destruct (tree_leaf J L Pr Su l I) as [Pl _]. pose proof (meet_le L (n_vars J) l Pl q e Eq Ee) as [M1 M2].
      assert (leaf_prob L (l_dists l) (meet q e) == 0) as -> by lra. ring. }
    rewrite A. clear A.
    assert (Inc : forall l, In l (filter (possible L e) (leaves J)) -> In l (leaves J) /\ 0 < leaf_prob L (l_dists l) e).
    { intros l I. apply filter_In in I. destruct I as [I B]. split; [exact I|]. unfold possible in B. unfold Qltb in *; destruct (Qltb_spec 0 (leaf_prob L (l_dists l) e)); [assumption|discriminate]. }
    revert Inc R. generalize (filter (possible L e) (leaves J)) as xs. intros xs Inc R. induction R as [|l l' xs ls C R IH]; [cbn; field; lra|].
    cbn [map Qsum]. rewrite IH by (intros; apply Inc; right; assumption). destruct (Inc l (or_introl eq_refl)) as [I Po]. destruct (tree_leaf J L Pr Su l I) as [Pl _].
    destruct C as (_ & _ & _ & _ & Pp & _ & Nth & _). rewrite Pp. rewrite <- (meet_cropped L (n_vars J) l Pl e (l_dists l') Ee Po Nth q Eq). field. lra.
  Qed.

  (** The distributions of the result's variables, computed by [posterior]. *)
  Variable Good : list (leaf F) -> var -> dist F -> Prop.
  Hypothesis Post : forall ns ls rt, let J2 := JPT (n_vars J) (full J) ns ls rt (priors J) in
    0 < mixture J L e -> tree_ok J2 -> proper_tree J2 L -> supported_tree J2 L -> Forall2 conditioned (filter (possible L e) (leaves J)) ls -> mixture J2 L [] == 1 ->
    exists ds, posterior J2 (seq 0 (n_vars J)) [] true = Ok (Some (combine (seq 0 (n_vars J)) ds)) /\ Forall2 (Good ls) (seq 0 (n_vars J)) ds.

  Theorem conditional_parts : forall fail,
    (mixture J L e == 0 -> conditional_jpt J e fail = if fail then Err Unsatisfiability else Ok None) /\
    (0 < mixture J L e -> exists ns ls r ps, let J' := JPT (n_vars J) (full J) ns ls r ps in
       conditional_jpt J e fail = Ok (Some J') /\ tree_ok J' /\ childful J' /\ proper_tree J' L /\ supported_tree J' L /\
       Forall2 conditioned (filter (possible L e) (leaves J)) ls /\
       Qsum (map l_prior ls) == 1 /\
       (forall q, event L (n_vars J) q -> mixture J' L q == mixture J L (meet q e) / mixture J L e) /\
       Forall2 (Good ls) (seq 0 (n_vars J)) ps).
  Proof.
    intro fail. destruct (root_ok J T) as (r & m & Er & _).
    destruct (cond_loop_ok J T Bin e) with (r := r) as (ns & rt & R & K); [intros l I; exists (lp e l); apply lp_ok, I|exact Er|]. fold survivors in R, K.
    set (J1 := JPT (n_vars J) (full J) ns survivors rt (priors J)) in *.
    assert (Mass : match root J1 with None => 0 | Some _ => Qsum (map l_prior (leaves J1)) end == mixture J L e).
    { destruct K as [(_ & El & Ert)|[T1 _]].
      - rewrite Ert. rewrite <- survivors_mass. change survivors with (leaves J1). rewrite El. reflexivity.
      - destruct (root_ok J1 T1) as (r1 & _ & Er1 & _). rewrite Er1. apply survivors_mass. }
    unfold conditional_jpt. destruct e as [|x e'] eqn:Ee'; [contradiction|]. rewrite <- Ee' in *. rewrite Er, R. cbn [bind].
    set (mass := match root J1 with None => 0 | Some _ => Qsum (map l_prior (leaves J1)) end) in *. clearbody mass.
    cbv zeta. split.
    - intro Z. destruct (Qeqb_spec mass 0) as [_|N]; [reflexivity|]. exfalso. apply N. rewrite Mass. exact Z.
    - intro Pm. destruct (Qeqb_spec mass 0) as [Z|_]; [exfalso; lra|].
      destruct K as [(_ & El & _)|[T1 Cf]].
      { exfalso. rewrite <- survivors_mass in Pm. change survivors with (leaves J1) in Pm. rewrite El in Pm. cbn in Pm. lra. }
      assert (exists ls, mapM (fun l => conditional_leaf (with_prior l (l_prior l / mass)) e) (leaves J1) = Ok ls /\
                Forall2 conditioned (filter (possible L e) (leaves J)) ls) as (ls & Els & Rc).
      { change (leaves J1) with survivors. rewrite survivors_filter.
        assert (Inc : forall l, In l (filter (possible L e) (leaves J)) -> In l (leaves J) /\ possible L e l = true) by (intros l I; apply filter_In in I; exact I).
        clear Post. revert Inc. induction (filter (possible L e) (leaves J)) as [|l xs IH]; intro Inc; [exists []; split; [reflexivity|constructor]|].
        destruct IH as (ls & E & Rc); [intros; apply Inc; right; assumption|]. destruct (Inc l (or_introl eq_refl)) as [I Po].
        destruct (conditional_leaf_ok mass l Mass I Po) as (l' & El & C). exists (l' :: ls). cbn [map]. rewrite mapM_cons.
        change (l_prior (with_prior l (l_prior l * lp e l)) / mass) with (l_prior l * lp e l / mass). rewrite El. cbn [bind]. rewrite E. cbn [bind]. split; [reflexivity|]. constructor; assumption. }
      rewrite Els. cbn [bind].
      set (J2 := with_nodes J1 (innernodes J1) ls).
      assert (T2 : tree_ok J2).
      { unfold J2. assert (G : forall xs ys, Forall2 (fun a b : leaf F => l_idx b = l_idx a /\ l_parent b = l_parent a /\ l_path b = l_path a) xs ys ->
            forall J1, tree_ok J1 -> leaves J1 = xs -> tree_ok (with_nodes J1 (innernodes J1) ys)).
        { clear. intros xs ys R J1 T1 E. subst xs.
          assert (Gt : forall i, match get_node J1 i, get_node (with_nodes J1 (innernodes J1) ys) i with
             | Some (NInner a), Some (NInner b) => a = b
             | Some (NLeaf a), Some (NLeaf b) => l_idx b = l_idx a /\ l_parent b = l_parent a /\ l_path b = l_path a
             | None, None => True | _, _ => False end).
          { intro i. unfold get_node. change (get_inner (with_nodes J1 (innernodes J1) ys) i) with (get_inner J1 i). destruct (get_inner J1 i); [reflexivity|].
            unfold get_leaf. cbn [leaves with_nodes]. clear T1. induction R as [|a b xs ys (A & B & C) R IH]; [exact I|]. cbn [find]. rewrite A. destruct (Nat.eqb (l_idx a) i); [auto|exact IH]. }
          assert (Gx : forall i m, get_node J1 i = Some m -> exists m', get_node (with_nodes J1 (innernodes J1) ys) i = Some m' /\ n_parent m' = n_parent m /\ n_path m' = n_path m).
          { intros i m G. specialize (Gt i). rewrite G in Gt. destruct m as [a|a]; destruct (get_node (with_nodes J1 (innernodes J1) ys) i) as [[b|b]|]; try contradiction.
            - subst. eexists. split; [reflexivity|]. split; reflexivity.
            - eexists. split; [reflexivity|]. cbn. tauto. }
          constructor.
          - cbn. replace (map l_idx ys) with (map l_idx (leaves J1)); [apply (ids J1 T1)|]. clear -R. induction R as [|a b xs ys (A & _) R IH]; [reflexivity|]. cbn. congruence.
          - destruct (root_ok J1 T1) as (r & m & E & Gr & Pa & Pt). destruct (Gx r m Gr) as (m' & Gm & A & B). exists r, m'. rewrite A, B. auto.
          - exact (lengths J1 T1).
          - exact (child_once J1 T1).
          - intros n k c s I Hc Hs. destruct (child_ok J1 T1 n k c s I Hc Hs) as (i & m & E & Gm & Pa & Pt). destruct (Gx i m Gm) as (m' & Gm' & A & B).
            exists i, m'. rewrite A, B. auto.
          - intros i m' Gm'. specialize (Gt i). rewrite Gm' in Gt. destruct (get_node J1 i) as [m|] eqn:E; [|destruct m'; contradiction].
            destruct (Gx i m E) as (m'' & Gm'' & A & B). rewrite Gm' in Gm''. inversion Gm''; subst m''. rewrite A. exact (parent_ok J1 T1 i m E). }
        apply (G survivors ls); [|exact T1|reflexivity]. rewrite survivors_filter. clear -Rc. induction Rc as [|a b xs ys C R IH]; constructor; [|exact IH].
        destruct C as (A & B & C & _). cbn. auto. }
      assert (Pr2 : proper_tree J2 L).
      { unfold proper_tree, J2. cbn [leaves n_vars with_nodes J1]. apply Forall_forall. intros l' I'.
        assert (G : exists l, In l (leaves J) /\ conditioned l l').
        { assert (Inc : forall l, In l (filter (possible L e) (leaves J)) -> In l (leaves J)) by (intros l I; apply filter_In in I; apply I).
          revert Inc I'. clear -Rc. induction Rc as [|a b xs ys C R IH]; intros Inc I'; [destruct I'|]. destruct I' as [<-|I']; [exists a; split; [apply Inc; left; reflexivity|exact C]|].
          apply IH; [intros; apply Inc; right; assumption|exact I']. }
        destruct G as (l & I & C). exact (conditioned_proper Pm l l' I C). }
      assert (Su2 : supported_tree J2 L).
      { unfold supported_tree, J2. cbn [leaves with_nodes J1]. apply Forall_forall. intros l' I'.
        assert (G : exists l, In l (leaves J) /\ 0 < leaf_prob L (l_dists l) e /\ conditioned l l').
        { assert (Inc : forall l, In l (filter (possible L e) (leaves J)) -> In l (leaves J) /\ 0 < leaf_prob L (l_dists l) e).
          { intros l I. apply filter_In in I. destruct I as [I B]. split; [exact I|]. unfold possible in B. unfold Qltb in *; destruct (Qltb_spec 0 (leaf_prob L (l_dists l) e)); [assumption|discriminate]. }
          revert Inc I'. clear -Rc. induction Rc as [|a b xs ys C R IH]; intros Inc I'; [destruct I'|]. destruct I' as [<-|I'].
          - destruct (Inc a (or_introl eq_refl)) as [A B]. exists a. auto.
          - apply IH; [intros; apply Inc; right; assumption|exact I']. }
        destruct G as (l & I & Po & C). exact (conditioned_supported l l' I Po C). }
      assert (Mx : forall q, event L (n_vars J) q -> mixture J2 L q == mixture J L (meet q e) / mixture J L e) by (apply conditioned_mixture; assumption).
      assert (E0 : event L (n_vars J) []) by (split; constructor).
      assert (M0 : mixture J2 L [] == 1).
      { rewrite (Mx [] E0). unfold meet. cbn [map app]. rewrite filter_none by reflexivity. field. lra. }
      destruct (Post ns ls rt Pm T2 Pr2 Su2 Rc M0) as (ds & Epo & Fp). change (n_vars J2) with (n_vars J).
      replace (posterior J2 (seq 0 (n_vars J)) [] true) with (Ok (Some (combine (seq 0 (n_vars J)) ds))) by (symmetry; exact Epo). cbn [bind].
      exists ns, ls, rt, ds. cbv zeta.
      assert (map snd (combine (seq 0 (n_vars J)) ds) = ds) as Esnd.
      { pose proof (Forall2_len _ _ _ _ _ Fp) as Len. clear -Len. revert ds Len. induction (seq 0 (n_vars J)) as [|a xs IH]; intros [|d ds] Len; cbn in *; try discriminate; [reflexivity|].
        f_equal. apply IH. lia. }
      split; [unfold with_priors; do 2 f_equal; unfold J2, J1; cbn [n_vars full innernodes leaves root with_nodes]; f_equal; exact Esnd|]. split; [|split; [|split; [exact Pr2|split; [exact Su2|split; [exact Rc|split; [|split]]]]]].
      + destruct T2 as [A1 A2 A3 A4 A5 A6]. constructor; assumption.
      + exact Cf.
      + rewrite (mixture_total J2 L) in M0. exact M0.
      + exact Mx.
      + exact Fp.
  Qed.
End Conditional.

(** ... with a contract that covers restricting and merging. *)
Theorem conditional_spec : forall {F : family} (J : jpt F) (L : lawful (full J)), tree_ok J -> proper_tree J L -> supported_tree J L ->
  (forall n, In n (innernodes J) -> length (i_children n) = 2%nat) -> forall e, event L (n_vars J) e -> e <> [] -> forall fail,
    (mixture J L e == 0 -> conditional_jpt J e fail = if fail then Err Unsatisfiability else Ok None) /\
    (0 < mixture J L e -> exists ns ls r ps, let J' := JPT (n_vars J) (full J) ns ls r ps in
       conditional_jpt J e fail = Ok (Some J') /\ tree_ok J' /\ childful J' /\ proper_tree J' L /\ supported_tree J' L /\
       Forall2 (conditioned J L e) (filter (positive J L e) (leaves J)) ls /\
       Qsum (map l_prior ls) == 1 /\
       (forall q, event L (n_vars J) q -> mixture J' L q == mixture J L (meet q e) / mixture J L e) /\
       Forall2 (fun v d => okd L v d /\ forall s, oks L v s -> P L d s == mixture J' L [(v, s)]) (seq 0 (n_vars J)) ps).
Proof.
  intros F J L T Pr Su Bin e Ee Ne fail.
  destruct (conditional_parts J L T Pr Su Bin e Ee Ne) with (Good := fun ls v d => okd L v d /\ forall s, oks L v s ->
    P L d s == mixture (JPT (n_vars J) (full J) [] ls None []) L [(v, s)]) (fail := fail) as [A B].
  - intros l v s d Il Ie Hd. destruct (tree_leaf J L Pr Su l Il) as [Pl _]. destruct Ee as [_ Fe]. rewrite Forall_forall in Fe. destruct (Fe _ Ie) as [V Os].
    apply (prob_ok _ L v d s); [|exact Os]. destruct (pl_dist L (n_vars J) l Pl v V) as (d0 & Hd0 & Od). rewrite Hd in Hd0. injection Hd0 as <-. exact Od.
  - intros l v s d Il Po Ie Hd. destruct (tree_leaf J L Pr Su l Il) as [Pl _].
    destruct (leaf_factor F (full J) L (n_vars J) l e v s Pl Ee Ie Po) as (d0 & Hd0 & Od & Os & Pe). rewrite Hd in Hd0. injection Hd0 as <-. apply (crop_ok _ L v d s); assumption.
  - intros ns ls rt J2 _ T2 Pr2 Su2 Rc M0. assert (E0 : event L (n_vars J) []) by (split; constructor).
    destruct (posterior_spec J2 L T2 Pr2 Su2 (seq 0 (n_vars J2)) [] true E0) as [_ Po].
    { intros v I. apply in_seq in I. lia. }
    destruct Po as (ds & Epo & Fp); [rewrite M0; lra|]. exists ds. split; [exact Epo|].
    apply (Forall2_impl _ _ _ _ _ _) with (2 := Fp). intros v d Iv [Od Pd]. split; [exact Od|]. intros s Os. eapply Qeq_trans; [exact (Pd s Os)|]. rewrite M0.
    unfold mixture. cbn [leaves]. unfold J2. cbn [leaves]. unfold Qdiv. change (/ 1) with 1. rewrite Qmult_1_r.
    apply Qsum_map_ext. intros l _. unfold leaf_post. cbn [lookup leaf_prob full]. destruct (nth_error (l_dists l) v); ring.
  - split; [exact A|]. intro Pm. destruct (B Pm) as (ns & ls & r & ps & H). exists ns, ls, r, ps. exact H.
Qed.
