(** The exploration loop of [conditional_jpt]. *)
Require Import QArith Qabs Lqa Bool List Arith Lia Permutation.
Require Import Verif.Base Verif.NumBase Verif.UtilModel Verif.TreeModel Verif.TreeSpec Verif.TreeApply Verif.TreeInfer Verif.TreePosterior.
Import ListNotations.
Open Scope Q_scope.

(** ** Lists *)

Lemma del_nth_length : forall A k (l : list A), (k < length l)%nat -> S (length (del_nth k l)) = length l.
Proof. intros A k l. revert k. induction l as [|x l IH]; intros k H; cbn in H; [lia|]. destruct k as [|k]; cbn; [reflexivity|]. rewrite IH by lia. reflexivity. Qed.

Lemma del_nth_in : forall A k (l : list A) x, In x (del_nth k l) -> In x l.
Proof. intros A k l x. revert k. induction l as [|y l IH]; intros k H; [destruct k; destruct H|]. destruct k as [|k]; cbn in *; [auto|]. destruct H as [H|H]; [auto|right; apply (IH k), H]. Qed.

Lemma del_nth_in_other : forall A k (l : list A) x y, nth_error l k = Some y -> x <> y -> In x l -> In x (del_nth k l).
Proof.
  intros A k l x y. revert k. induction l as [|z l IH]; intros k E N I; [destruct I|]. destruct k as [|k]; cbn in *.
  - inversion E; subst. destruct I as [I|I]; [congruence|exact I].
  - destruct I as [I|I]; [left; exact I|right; apply (IH k E N I)].
Qed.

Lemma del_nth_nodup : forall A k (l : list A), NoDup l -> NoDup (del_nth k l).
Proof.
  intros A k l. revert k. induction l as [|x l IH]; intros k N; [destruct k; constructor|]. inversion N as [|? ? Nx N']; subst. destruct k as [|k]; cbn; [exact N'|].
  constructor; [intro I; apply Nx, (del_nth_in _ k), I|apply IH, N'].
Qed.

Lemma del_nth_not_in : forall A k (l : list A) y, NoDup l -> nth_error l k = Some y -> ~ In y (del_nth k l).
Proof.
  intros A k l y. revert k. induction l as [|x l IH]; intros k N E; [destruct k; discriminate|]. inversion N as [|? ? Nx N']; subst. destruct k as [|k]; cbn in *.
  - inversion E; subst. exact Nx.
  - intros [<-|I]; [apply Nx, (nth_error_In _ _ E)|exact (IH k N' E I)].
Qed.

Definition skip_idx (k j : nat) : nat := if Nat.ltb j k then j else S j.
Lemma del_nth_nth : forall A k (l : list A) j, nth_error (del_nth k l) j = nth_error l (skip_idx k j) \/ (length l <= k)%nat.
Proof.
  intros A k l. revert k. induction l as [|x l IH]; intros k j; [right; cbn; lia|]. destruct k as [|k]; cbn [del_nth].
  - left. unfold skip_idx. cbn. reflexivity.
  - destruct j as [|j]; [left; reflexivity|]. cbn [nth_error]. destruct (IH k j) as [E|E]; [left|right; cbn; lia].
    rewrite E. unfold skip_idx. change (S j <? S k)%nat with (j <? k)%nat. destruct (j <? k)%nat; reflexivity.
Qed.

Lemma child_index_some : forall cs i k, child_index cs i = Some k -> nth_error cs k = Some (Some i).
Proof.
  induction cs as [|[c|] cs IH]; intros i k H; cbn in H; [discriminate| |].
  - destruct (Nat.eqb_spec c i) as [->|]; [inversion H; reflexivity|]. destruct (child_index cs i) eqn:E; [|discriminate]. inversion H; subst. cbn. apply IH, E.
  - destruct (child_index cs i) eqn:E; [|discriminate]. inversion H; subst. cbn. apply IH, E.
Qed.
Lemma child_index_in : forall cs i, In (Some i) cs -> exists k, child_index cs i = Some k.
Proof.
  induction cs as [|[c|] cs IH]; intros i I; [destruct I| |]; cbn.
  - destruct (Nat.eqb_spec c i) as [->|]; [eauto|]. destruct I as [I|I]; [congruence|]. destruct (IH i I) as [k ->]. cbn. eauto.
  - destruct I as [I|I]; [congruence|]. destruct (IH i I) as [k ->]. cbn. eauto.
Qed.

Section Trees.
  Context {F : family}.

  (** ** Updating leaves in place *)

  Lemma find_map_key : forall (f : leaf F -> leaf F) (ls : list (leaf F)) i, (forall l, l_idx (f l) = l_idx l) ->
    find (fun l => Nat.eqb (l_idx l) i) (map f ls) = option_map f (find (fun l => Nat.eqb (l_idx l) i) ls).
  Proof. intros f ls i H. induction ls as [|l ls IH]; [reflexivity|]. cbn. rewrite H. destruct (Nat.eqb (l_idx l) i); [reflexivity|exact IH]. Qed.

  Definition node_map (f : leaf F -> leaf F) (m : node F) : node F := match m with NInner n => NInner n | NLeaf l => NLeaf (f l) end.

  Lemma leaf_map_ok : forall (J : jpt F) (f : leaf F -> leaf F), (forall l, l_idx (f l) = l_idx l /\ l_parent (f l) = l_parent l /\ l_path (f l) = l_path l) ->
    tree_ok J -> tree_ok (with_nodes J (innernodes J) (map f (leaves J))).
  Proof.
    intros J f H T. set (J' := with_nodes J (innernodes J) (map f (leaves J))).
    assert (G : forall i, get_node J' i = option_map (node_map f) (get_node J i)).
    { intro i. unfold get_node. change (get_inner J' i) with (get_inner J i). destruct (get_inner J i); [reflexivity|].
      unfold get_leaf, J'. cbn [leaves with_nodes]. rewrite (find_map_key f (leaves J) i) by (intro; apply H). destruct (find _ (leaves J)); reflexivity. }
    assert (Np : forall m, n_parent (node_map f m) = n_parent m /\ n_path (node_map f m) = n_path m).
    { intros [m|m]; cbn; [auto|]. destruct (H m) as (_ & A & B). auto. }
    constructor.
    - cbn. rewrite map_map. rewrite (map_ext _ l_idx) by (intro; apply H). apply (ids J T).
    - destruct (root_ok J T) as (r & m & E & Gr & Pa & Pt). exists r, (node_map f m). split; [exact E|]. rewrite G, Gr. split; [reflexivity|].
      destruct (Np m) as [A B]. rewrite A, B. auto.
    - exact (lengths J T).
    - exact (child_once J T).
    - intros n k c s I Hc Hs. destruct (child_ok J T n k c s I Hc Hs) as (i & m & E & Gm & Pa & Pt). exists i, (node_map f m). rewrite G, Gm.
      destruct (Np m) as [A B]. rewrite A, B. auto.
    - intros i m Gm. rewrite G in Gm. destruct (get_node J i) as [m0|] eqn:E; [|discriminate]. inversion Gm; subst. destruct (Np m0) as [A _]. rewrite A.
      exact (parent_ok J T i m0 E).
  Qed.

  (** ** Removing a childless node *)

  Section Remove.
    Variable J : jpt F.
    Hypothesis T : tree_ok J.
    Variables (i p k : nat) (m : node F) (np : inner F).
    Hypothesis Gi : get_node J i = Some m.
    Hypothesis Childless : match m with NInner n => i_children n = [] | NLeaf _ => True end.
    Hypothesis Pi : n_parent m = Some p.
    Hypothesis Gp : get_inner J p = Some np.
    Hypothesis Ck : nth_error (i_children np) k = Some (Some i).

    Definition cut (n : inner F) : inner F :=
      Inner (i_idx n) (i_parent n) (i_var n) (del_nth k (i_splits n)) (del_nth k (i_children n)) (i_samples n) (i_path n).
    Definition cut_if (n : inner F) : inner F := if Nat.eqb (i_idx n) p then cut np else n.
    Definition removed : jpt F :=
      with_nodes J (map cut_if (del_inner i (innernodes J))) (del_leaf i (leaves J)).

    Lemma np_in : In np (innernodes J) /\ i_idx np = p.
    Proof. apply get_inner_some, Gp. Qed.
    Lemma p_ne_i : p <> i.
    Proof.
      intro E. pose proof Gp as Gp'. rewrite E in Gp'. destruct m as [n|l].
      - destruct (node_inner_in J i n Gi) as [In_ Ei].
        pose proof (in_get_inner J (ids J T) n In_) as A. rewrite Ei, Gp' in A. inversion A as [A']. pose proof Ck as Ck'. rewrite A', Childless in Ck'. destruct k; discriminate.
      - unfold get_node in Gi. rewrite Gp' in Gi. discriminate.
    Qed.
    Lemma cut_if_same : forall n, In n (innernodes J) -> i_idx n = p -> n = np.
    Proof. intros n I E. pose proof (in_get_inner J (ids J T) n I) as A. rewrite E, Gp in A. congruence. Qed.
    Lemma cut_if_idx : forall n, i_idx (cut_if n) = i_idx n.
    Proof. intro n. unfold cut_if. destruct (Nat.eqb_spec (i_idx n) p) as [E|E]; [|reflexivity]. cbn. rewrite E. apply np_in. Qed.

    Lemma find_del : forall A (f : A -> nat) (l : list A) j, find (fun y => Nat.eqb (f y) j) (filter (fun y => negb (Nat.eqb (f y) i)) l) =
      if Nat.eqb j i then None else find (fun y => Nat.eqb (f y) j) l.
    Proof.
      intros A f l j. induction l as [|y l IH]; cbn; [destruct (Nat.eqb j i); reflexivity|].
      destruct (Nat.eqb_spec (f y) i) as [E|E]; cbn.
      - rewrite IH. destruct (Nat.eqb_spec j i) as [E'|E']; [reflexivity|]. destruct (Nat.eqb_spec (f y) j); [congruence|reflexivity].
      - destruct (Nat.eqb_spec (f y) j) as [E2|E2]; [|exact IH]. destruct (Nat.eqb_spec j i); [congruence|reflexivity].
    Qed.

    Lemma find_map_inner : forall (g : inner F -> inner F) ns j, (forall n, i_idx (g n) = i_idx n) ->
      find (fun y => Nat.eqb (i_idx y) j) (map g ns) = option_map g (find (fun y => Nat.eqb (i_idx y) j) ns).
    Proof. intros g ns j H. induction ns as [|n ns IH]; [reflexivity|]. cbn. rewrite H. destruct (Nat.eqb (i_idx n) j); [reflexivity|exact IH]. Qed.

    Definition node_cut (x : node F) : node F := match x with NInner n => NInner (cut_if n) | NLeaf l => NLeaf l end.
    Lemma removed_inner : forall j, get_inner removed j = if Nat.eqb j i then None else option_map cut_if (get_inner J j).
    Proof.
      intro j. unfold get_inner, removed. cbn [innernodes with_nodes]. rewrite (find_map_inner cut_if _ j cut_if_idx). unfold del_inner. rewrite find_del.
      destruct (Nat.eqb j i); reflexivity.
    Qed.
    Lemma removed_node : forall j, get_node removed j = if Nat.eqb j i then None else option_map node_cut (get_node J j).
    Proof.
      intro j. unfold get_node. rewrite removed_inner. destruct (Nat.eqb j i) eqn:E.
      - unfold get_leaf, removed. cbn [leaves with_nodes]. unfold del_leaf. rewrite find_del, E. reflexivity.
      - destruct (get_inner J j); [reflexivity|]. cbn. unfold get_leaf, removed. cbn [leaves with_nodes]. unfold del_leaf. rewrite find_del, E.
        destruct (find _ (leaves J)); reflexivity.
    Qed.
    Lemma node_cut_same : forall j x, get_node J j = Some x -> n_parent (node_cut x) = n_parent x /\ n_path (node_cut x) = n_path x.
    Proof.
      intros j [n|l] G; cbn; [|auto]. apply node_inner_in in G. destruct G as [I _]. unfold cut_if. destruct (Nat.eqb_spec (i_idx n) p) as [E|E]; [|auto].
      rewrite (cut_if_same n I E). auto.
    Qed.

    Lemma removed_in : forall n', In n' (innernodes removed) -> exists n, In n (innernodes J) /\ i_idx n <> i /\ n' = cut_if n.
    Proof.
      intros n' I. unfold removed in I. cbn [innernodes with_nodes] in I. apply in_map_iff in I. destruct I as (n & <- & I). unfold del_inner in I. apply filter_In in I.
      destruct I as [I B]. exists n. split; [exact I|]. split; [|reflexivity]. destruct (Nat.eqb_spec (i_idx n) i); [discriminate|assumption].
    Qed.

    Lemma removed_ok : tree_ok removed.
    Proof.
      pose proof np_in as [Inp Enp]. pose proof (child_once J T np Inp) as Nc. pose proof (lengths J T np Inp) as Ln.
      assert (Kl : (k < length (i_children np))%nat) by (apply nth_error_Some; congruence).
      constructor.
      - unfold removed. cbn [innernodes leaves with_nodes]. rewrite map_map. rewrite (map_ext _ i_idx cut_if_idx).
        pose proof (ids J T) as N. destruct (NoDup_app_parts _ _ _ N) as (N1 & N2 & D).
        assert (A : forall B (f : B -> nat) (l : list B), NoDup (map f l) -> NoDup (map f (filter (fun y => negb (Nat.eqb (f y) i)) l))).
        { intros B f l. induction l as [|x l IH]; cbn; intro H; [constructor|]. inversion H as [|? ? Hx H']; subst. destruct (negb (Nat.eqb (f x) i)); cbn; [|auto].
          constructor; [|auto]. intro I. apply Hx. apply in_map_iff in I. destruct I as (y & E & I). apply filter_In in I. apply in_map_iff. exists y. tauto. }
        apply NoDup_app_intro; [apply A, N1|apply A, N2|]. intros x I1 I2. apply (D x).
        + apply in_map_iff in I1. destruct I1 as (y & E & I). apply filter_In in I. apply in_map_iff. exists y. tauto.
        + apply in_map_iff in I2. destruct I2 as (y & E & I). apply filter_In in I. apply in_map_iff. exists y. tauto.
      - destruct (root_ok J T) as (r & x & E & Gr & Pa & Pt). exists r, (node_cut x). split; [exact E|]. rewrite removed_node, Gr.
        destruct (Nat.eqb_spec r i) as [->|]; [rewrite Gi in Gr; inversion Gr; subst; congruence|]. split; [reflexivity|].
        destruct (node_cut_same r x Gr) as [A B]. rewrite A, B. auto.
      - intros n' I. apply removed_in in I. destruct I as (n & I & _ & ->). unfold cut_if. destruct (Nat.eqb (i_idx n) p); [|apply (lengths J T n I)].
        cbn. assert (S (length (del_nth k (i_children np))) = S (length (del_nth k (i_splits np)))); [|lia]. rewrite !del_nth_length by lia. exact Ln.
      - intros n' I. apply removed_in in I. destruct I as (n & I & _ & ->). unfold cut_if. destruct (Nat.eqb (i_idx n) p); [|apply (child_once J T n I)].
        cbn. apply del_nth_nodup, Nc.
      - intros n' j c s I Hc Hs. apply removed_in in I. destruct I as (n & I & Ni & ->).
        assert (exists j', nth_error (i_children n) j' = Some c /\ nth_error (i_splits n) j' = Some s /\ c <> Some i) as (j' & Hc' & Hs' & Nci).
        { unfold cut_if in Hc, Hs. destruct (Nat.eqb_spec (i_idx n) p) as [E|E].
          - rewrite (cut_if_same n I E). cbn in Hc, Hs. exists (skip_idx k j).
            destruct (del_nth_nth _ k (i_children np) j) as [E1|E1]; [|lia]. destruct (del_nth_nth _ k (i_splits np) j) as [E2|E2]; [|lia].
            rewrite <- E1, <- E2. split; [exact Hc|]. split; [exact Hs|]. intros ->. apply nth_error_In in Hc. revert Hc. apply del_nth_not_in; assumption.
          - exists j. split; [exact Hc|]. split; [exact Hs|]. intros ->. destruct (child_ok J T n j (Some i) s I Hc Hs) as (i' & m' & Ei & G & Pa & _).
            inversion Ei; subst i'. rewrite Gi in G. inversion G; subst m'. rewrite Pi in Pa. inversion Pa. congruence. }
        destruct (child_ok J T n j' c s I Hc' Hs') as (c' & x & -> & G & Pa & Pt). exists c', (node_cut x). split; [reflexivity|]. rewrite removed_node, G.
        destruct (Nat.eqb_spec c' i) as [->|]; [congruence|]. split; [reflexivity|]. destruct (node_cut_same c' x G) as [A B]. rewrite A, B, Pa, Pt, cut_if_idx.
        split; [reflexivity|]. unfold cut_if. destruct (Nat.eqb_spec (i_idx n) p) as [E|E]; [|reflexivity]. rewrite (cut_if_same n I E). reflexivity.
      - intros j x G. rewrite removed_node in G. destruct (Nat.eqb_spec j i) as [E|E]; [discriminate|]. destruct (get_node J j) as [x0|] eqn:G0; [|discriminate].
        inversion G; subst x. destruct (node_cut_same j x0 G0) as [A _]. rewrite A. pose proof (parent_ok J T j x0 G0) as Pa. destruct (n_parent x0) as [p'|]; [|exact Pa].
        destruct Pa as (n & Gn & Ic). exists (cut_if n). rewrite removed_inner, Gn.
        assert (p' <> i) as Np'.
        { intros ->. destruct m as [m0|l0]; [|unfold get_node in Gi; rewrite Gn in Gi; discriminate]. destruct (node_inner_in J i m0 Gi) as [Im Em].
          pose proof (in_get_inner J (ids J T) m0 Im) as B. rewrite Em, Gn in B. inversion B; subst m0. rewrite Childless in Ic. destruct Ic. }
        destruct (Nat.eqb_spec p' i); [contradiction|]. split; [reflexivity|]. unfold cut_if. destruct (Nat.eqb_spec (i_idx n) p) as [E'|E']; [|exact Ic].
        destruct (get_inner_some J p' n Gn) as [In_ _]. rewrite (cut_if_same n In_ E') in Ic. cbn. apply (del_nth_in_other _ k _ (Some j) (Some i)); [exact Ck|congruence|exact Ic].
    Qed.
  End Remove.

  (** A tree whose root has no children consists of the root. *)
  Lemma root_only : forall (J : jpt F) r m, tree_ok J -> root J = Some r -> get_node J r = Some m ->
    match m with NInner n => i_children n = [] | NLeaf _ => True end -> forall j x, get_node J j = Some x -> j = r.
  Proof.
    intros J r m T Er Gr Ch. assert (A : forall len j x, length (n_path x) = len -> get_node J j = Some x -> j = r); [|eauto].
    induction len as [len IH] using (well_founded_induction lt_wf). intros j x Len G. pose proof (parent_ok J T j x G) as Pa.
    destruct (n_parent x) as [p|]; [|congruence]. destruct Pa as (n & Gp & Ic). destruct (get_inner_some J p n Gp) as [In_ Ei].
    pose proof (in_node_inner J (ids J T) n In_) as Gn. rewrite Ei in Gn.
    apply In_nth_error in Ic. destruct Ic as [k Hc].
    assert (exists s, nth_error (i_splits n) k = Some s) as [s Hs].
    { destruct (nth_error (i_splits n) k) eqn:E; [eauto|]. apply nth_error_None in E. rewrite <- (lengths J T n In_) in E. apply nth_error_None in E. congruence. }
    destruct (child_ok J T n k _ s In_ Hc Hs) as (j' & x' & E' & G' & _ & Pt). inversion E'; subst j'. rewrite G in G'. inversion G'; subst x'.
    assert (Epr : p = r). { apply (IH (length (n_path (NInner n)))) with (x := NInner n); [cbn; rewrite <- Len, Pt, app_length; cbn; lia|reflexivity|exact Gn]. }
    rewrite Epr, Gr in Gn. inversion Gn; subst m. rewrite Ch in Hc. destruct k; discriminate.
  Qed.
End Trees.
