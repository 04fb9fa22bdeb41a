(** [prune]: merging sibling leaves keeps the dictionaries a tree. *)
Require Import QArith Qabs Lqa Bool List Arith Lia Permutation.
Require Import Verif.Base Verif.NumBase Verif.UtilModel Verif.TreeModel Verif.TreeSpec Verif.TreeApply Verif.TreeInfer Verif.TreePosterior Verif.TreeCond Verif.TreeCond2 Verif.TreeCond4.
Import ListNotations.

Lemma fold_max_ge : forall l x, In x l -> (x <= fold_right Nat.max 0 l)%nat.
Proof. induction l as [|y l IH]; intros x I; [destruct I|]. destruct I as [->|I]; cbn; [lia|]. specialize (IH x I). lia. Qed.

Lemma NoDup_map_filter : forall A (f : A -> nat) p l, NoDup (map f l) -> NoDup (map f (filter p l)).
Proof.
  intros A f p l. induction l as [|x l IH]; cbn; intro N; [constructor|]. inversion N as [|? ? Nx Nl]; subst. destruct (p x); [|auto]. cbn. constructor; [|auto].
  intro I. apply Nx. apply in_map_iff in I. destruct I as (y & E & I). apply filter_In in I. rewrite <- E. apply in_map, I.
Qed.

Section Merge.
  Context {F : family}.
  Variable J : jpt F.
  Hypothesis T : tree_ok J.
  Variables (i a b : nat) (n : inner F) (l r : leaf F).
  Hypothesis Gi : get_inner J i = Some n.
  Hypothesis Ch : i_children n = [Some a; Some b].
  Hypothesis Ga : get_node J a = Some (NLeaf l).
  Hypothesis Gb : get_node J b = Some (NLeaf r).
  Notation new := (S (max_idx J)).
  Variable lf : leaf F.
  Hypothesis Eidx : l_idx lf = new.
  Hypothesis Epar : l_parent lf = i_parent n.
  Hypothesis Epath : l_path lf = i_path n.

  Definition repl (c : option nat) : option nat := match c with Some j => if Nat.eqb j i then Some new else Some j | None => None end.
  Definition relink (m : inner F) : inner F :=
    Inner (i_idx m) (i_parent m) (i_var m) (i_splits m) (map repl (i_children m)) (i_samples m) (i_path m).
  Definition merged : jpt F :=
    JPT (n_vars J) (full J) (map relink (del_inner i (innernodes J))) (del_leaf b (del_leaf a (leaves J)) ++ [lf])
        (repl (root J)) (priors J).

  Lemma n_in : In n (innernodes J) /\ i_idx n = i.
  Proof. apply get_inner_some, Gi. Qed.
  Lemma node_i : get_node J i = Some (NInner n).
  Proof. apply get_node_inner, Gi. Qed.
  Lemma fresh : forall j m, get_node J j = Some m -> j <> new.
  Proof. intros j m G E. apply node_in_ids in G. pose proof (fold_max_ge _ j G) as H. unfold max_idx in E. lia. Qed.
  Lemma kid : forall j, j = a \/ j = b -> exists m s, get_node J j = Some m /\ n_parent m = Some i /\ n_path m = i_path n ++ [(i_var n, s)].
  Proof.
    intros j H. destruct n_in as [I E]. assert (exists k, nth_error (i_children n) k = Some (Some j)) as [k Ek] by (rewrite Ch; destruct H as [->| ->]; [exists 0%nat|exists 1%nat]; reflexivity).
    assert (exists s, nth_error (i_splits n) k = Some s) as [s Es].
    { destruct (nth_error (i_splits n) k) eqn:X; [eauto|]. exfalso. apply nth_error_None in X. rewrite <- (lengths J T n I) in X. apply nth_error_None in X. congruence. }
    destruct (child_ok J T n k _ s I Ek Es) as (j' & m & Ej & G & P1 & P2). inversion Ej; subst j'. rewrite E in P1. exists m, s. auto.
  Qed.
  Lemma a_ne_b : a <> b.
  Proof. destruct n_in as [I _]. pose proof (child_once J T n I) as N. rewrite Ch in N. inversion N as [|? ? X _]; subst. intros ->. apply X. left; reflexivity. Qed.
  Lemma i_ne : i <> a /\ i <> b.
  Proof. split; intro E; [rewrite <- E in Ga; rewrite node_i in Ga|rewrite <- E in Gb; rewrite node_i in Gb]; discriminate. Qed.

  Lemma in_nodes_leaf : forall x, In x (leaves J) -> l_idx x <> new.
  Proof. intros x I. apply (fresh _ _ (in_node_leaf J (ids J T) x I)). Qed.
  Lemma in_nodes_inner : forall x, In x (innernodes J) -> i_idx x <> new.
  Proof. intros x I. apply (fresh _ _ (in_node_inner J (ids J T) x I)). Qed.

  Lemma merged_inner : forall j, get_inner merged j = if Nat.eqb j i then None else option_map relink (get_inner J j).
  Proof.
    intro j. unfold get_inner, merged, del_inner. cbn [innernodes]. rewrite find_map_inner by reflexivity. rewrite find_del. destruct (Nat.eqb j i); reflexivity.
  Qed.
  Lemma merged_leaf : forall j, get_leaf merged j =
    if Nat.eqb j a then (if Nat.eqb j new then Some lf else None) else if Nat.eqb j b then (if Nat.eqb j new then Some lf else None) else match get_leaf J j with Some x => Some x | None => if Nat.eqb j new then Some lf else None end.
  Proof.
    intro j. unfold get_leaf, merged, del_leaf. cbn [leaves].
    assert (A : forall u v, find (fun y : leaf F => Nat.eqb (l_idx y) j) (u ++ v) = match find (fun y => Nat.eqb (l_idx y) j) u with Some x => Some x | None => find (fun y => Nat.eqb (l_idx y) j) v end).
    { induction u as [|x u IH]; intro v; cbn; [reflexivity|]. destruct (Nat.eqb (l_idx x) j); [reflexivity|apply IH]. }
    rewrite A. rewrite !find_del. cbn [find]. rewrite Eidx, (Nat.eqb_sym _ j). destruct (Nat.eqb j b), (Nat.eqb j a); reflexivity.
  Qed.
  Definition node_relink (x : node F) : node F := match x with NInner m => NInner (relink m) | NLeaf x => NLeaf x end.
  Lemma merged_new : get_node merged new = Some (NLeaf lf).
  Proof.
    unfold get_node. rewrite merged_inner, merged_leaf. destruct (Nat.eqb_spec new i) as [E|_]; [exfalso; apply (fresh _ _ node_i); auto|].
    destruct (get_inner J new) as [m|] eqn:E; [exfalso; apply get_node_inner in E; apply (fresh _ _ E); reflexivity|]. cbn [option_map].
    rewrite Nat.eqb_refl. destruct (Nat.eqb new a), (Nat.eqb new b); try reflexivity. destruct (get_leaf J new) as [x|] eqn:E2; [|reflexivity].
    exfalso. destruct (get_leaf_some J _ _ E2) as [I X]. exact (in_nodes_leaf x I X).
  Qed.
  Lemma merged_node : forall j, j <> new -> get_node merged j = if Nat.eqb j i || Nat.eqb j a || Nat.eqb j b then None else option_map node_relink (get_node J j).
  Proof.
    intros j N. unfold get_node at 1. rewrite merged_inner, merged_leaf. destruct (Nat.eqb_spec j new) as [|_]; [contradiction|].
    destruct i_ne as [Na Nb]. destruct (Nat.eqb_spec j i) as [->|Ni]; cbn [orb].
    - destruct (Nat.eqb_spec i a) as [|_]; [contradiction|]. destruct (Nat.eqb_spec i b) as [|_]; [contradiction|].
      destruct (get_leaf J i) as [x|] eqn:E; [|reflexivity]. exfalso. destruct (get_leaf_some J _ _ E) as [I X]. pose proof (in_node_leaf J (ids J T) x I) as G. rewrite X, node_i in G. discriminate.
    - destruct (Nat.eqb_spec j a) as [->|Nja]; cbn [orb].
      { unfold get_node in Ga. destruct (get_inner J a); [discriminate|reflexivity]. }
      destruct (Nat.eqb_spec j b) as [->|Njb]; cbn [orb].
      { unfold get_node in Gb. destruct (get_inner J b); [discriminate|reflexivity]. }
      unfold get_node. destruct (get_inner J j); [reflexivity|]. cbn. destruct (get_leaf J j); reflexivity.
  Qed.
  Lemma relink_node : forall j x, get_node J j = Some x -> j <> i -> j <> a -> j <> b -> get_node merged j = Some (node_relink x).
  Proof.
    intros j x G A B C. rewrite merged_node by (apply (fresh _ _ G)). rewrite (proj2 (Nat.eqb_neq j i) A), (proj2 (Nat.eqb_neq j a) B), (proj2 (Nat.eqb_neq j b) C). cbn. rewrite G. reflexivity.
  Qed.
  Lemma relink_same : forall x, n_parent (node_relink x) = n_parent x /\ n_path (node_relink x) = n_path x.
  Proof. intros [m|x]; split; reflexivity. Qed.
  Lemma in_merged : forall m', In m' (innernodes merged) -> exists m, In m (innernodes J) /\ i_idx m <> i /\ m' = relink m.
  Proof.
    intros m' I. cbn in I. apply in_map_iff in I. destruct I as (m & <- & I). unfold del_inner in I. apply filter_In in I. destruct I as [I B]. exists m. split; [exact I|]. split; [|reflexivity].
    intro E. rewrite E, Nat.eqb_refl in B. discriminate.
  Qed.
  Lemma child_node : forall m k j, In m (innernodes J) -> nth_error (i_children m) k = Some (Some j) -> exists s x, nth_error (i_splits m) k = Some s /\ get_node J j = Some x /\ n_parent x = Some (i_idx m) /\ n_path x = i_path m ++ [(i_var m, s)].
  Proof.
    intros m k j I Ek. assert (exists s, nth_error (i_splits m) k = Some s) as [s Es].
    { destruct (nth_error (i_splits m) k) eqn:X; [eauto|]. exfalso. apply nth_error_None in X. rewrite <- (lengths J T m I) in X. apply nth_error_None in X. congruence. }
    destruct (child_ok J T m k _ s I Ek Es) as (j' & x & Ej & G & P1 & P2). inversion Ej; subst j'. exists s, x. auto.
  Qed.

  Theorem merged_ok : tree_ok merged.
  Proof.
    destruct n_in as [In_ Ei]. constructor.
    - assert (Mi : map i_idx (innernodes merged) = map i_idx (del_inner i (innernodes J))) by (cbn; rewrite map_map; apply map_ext; reflexivity). rewrite Mi. clear Mi.
      cbn [merged leaves]. rewrite map_app. cbn [map]. rewrite Eidx. destruct (NoDup_app_parts _ _ _ (ids J T)) as (N1 & N2 & D).
      apply NoDup_app_intro.
      + apply NoDup_map_filter, N1.
      + apply NoDup_app_intro; [apply NoDup_map_filter, NoDup_map_filter, N2|repeat constructor; intros []|]. intros x I [<-|[]]. apply in_map_iff in I. destruct I as (y & E & I).
        unfold del_leaf in I. apply filter_In in I. destruct I as [I _]. apply filter_In in I. exact (in_nodes_leaf y (proj1 I) E).
      + intros x I I2. apply in_map_iff in I. destruct I as (y & E & I). unfold del_inner in I. apply filter_In in I. destruct I as [I _]. apply in_app_or in I2. destruct I2 as [I2|[I2|[]]].
        * apply in_map_iff in I2. destruct I2 as (z & E2 & I2). unfold del_leaf in I2. apply filter_In in I2. destruct I2 as [I2 _]. apply filter_In in I2. apply (D x); [rewrite <- E; apply in_map, I|rewrite <- E2; apply in_map, I2].
        * apply (in_nodes_inner y I). congruence.
    - destruct (root_ok J T) as (r0 & m & Er & G & P1 & P2). cbn [merged root]. rewrite Er. cbn [repl]. destruct (Nat.eqb_spec r0 i) as [->|Ne].
      + exists new, (NLeaf lf). split; [reflexivity|]. split; [exact merged_new|]. rewrite node_i in G. inversion G; subst m. cbn in P1, P2 |- *. split; congruence.
      + exists r0, (node_relink m). split; [reflexivity|]. split; [|destruct (relink_same m) as [-> ->]; auto].
        apply relink_node; [exact G|exact Ne| |]; intros ->.
        * destruct (kid a (or_introl eq_refl)) as (m0 & s & G0 & Q & _). congruence.
        * destruct (kid b (or_intror eq_refl)) as (m0 & s & G0 & Q & _). congruence.
    - intros m' I. apply in_merged in I. destruct I as (m & I & _ & ->). cbn. rewrite map_length. apply (lengths J T m I).
    - intros m' I. apply in_merged in I. destruct I as (m & I & _ & ->). cbn [relink i_children]. pose proof (child_once J T m I) as N.
      assert (Fr : forall c, In c (i_children m) -> c <> Some new). { intros c Ic ->. apply In_nth_error in Ic. destruct Ic as [k Ek]. destruct (child_node m k new I Ek) as (s & x & _ & G & _). exact (fresh _ _ G eq_refl). }
      clear I. induction (i_children m) as [|c cs IH]; [constructor|]. cbn. inversion N as [|? ? Nc Ncs]; subst. constructor; [|apply IH; [exact Ncs|intros; apply Fr; right; assumption]].
      intro I. apply in_map_iff in I. destruct I as (c' & E & I). apply Nc. replace c with c'; [exact I|].
      pose proof (Fr c (or_introl eq_refl)) as F1. pose proof (Fr c' (or_intror I)) as F2. destruct c as [c|], c' as [c'|]; cbn in E; try discriminate; try reflexivity.
      * destruct (Nat.eqb_spec c i), (Nat.eqb_spec c' i); congruence.
      * destruct (Nat.eqb c i); discriminate.
      * destruct (Nat.eqb c' i); discriminate.
    - intros m' k c s I Ec Es. apply in_merged in I. destruct I as (m & I & Ni & ->). cbn [relink i_children i_splits i_idx i_path i_var] in *.
      rewrite nth_error_map in Ec. destruct (nth_error (i_children m) k) as [c0|] eqn:Ec0; [|discriminate]. cbn in Ec. inversion Ec; subst c. clear Ec.
      destruct (child_ok J T m k c0 s I Ec0 Es) as (j & x & Ej & G & P1 & P2). subst c0. cbn [repl]. destruct (Nat.eqb_spec j i) as [->|Ne].
      + exists new, (NLeaf lf). split; [reflexivity|]. split; [exact merged_new|]. rewrite node_i in G. inversion G; subst x. cbn in P1, P2 |- *. split; congruence.
      + exists j, (node_relink x). split; [reflexivity|]. split; [|destruct (relink_same x) as [-> ->]; auto]. apply relink_node; [exact G|exact Ne| |]; intros ->.
        * destruct (kid a (or_introl eq_refl)) as (m0 & s0 & G0 & Q & _). congruence.
        * destruct (kid b (or_intror eq_refl)) as (m0 & s0 & G0 & Q & _). congruence.
    - intros j m' G. destruct (Nat.eq_dec j new) as [->|Nj].
      + rewrite merged_new in G. inversion G; subst m'. cbn [n_parent]. rewrite Epar. pose proof (parent_ok J T i _ node_i) as Pa. cbn [n_parent] in Pa. destruct (i_parent n) as [p|].
        * destruct Pa as (np & Gp & Ic). exists (relink np). rewrite merged_inner.
          destruct (Nat.eqb_spec p i) as [->|_].
          { exfalso. rewrite Gi in Gp. inversion Gp; subst np. rewrite Ch in Ic. destruct i_ne as [X Y]. destruct Ic as [Ic|[Ic|[]]]; inversion Ic; congruence. }
          rewrite Gp. split; [reflexivity|]. cbn. apply in_map_iff. exists (Some i). split; [cbn; rewrite Nat.eqb_refl; reflexivity|exact Ic].
        * cbn [merged root]. rewrite Pa. cbn. rewrite Nat.eqb_refl. reflexivity.
      + rewrite merged_node in G by exact Nj. destruct (Nat.eqb_spec j i) as [|Ni]; [discriminate|]. destruct (Nat.eqb_spec j a) as [|Na]; [discriminate|]. destruct (Nat.eqb_spec j b) as [|Nb]; [discriminate|]. cbn in G.
        destruct (get_node J j) as [x|] eqn:Gx; [|discriminate]. cbn in G. inversion G; subst m'. destruct (relink_same x) as [-> _]. pose proof (parent_ok J T j x Gx) as Pa. destruct (n_parent x) as [p|].
        * destruct Pa as (np & Gp & Ic). exists (relink np). rewrite merged_inner. destruct (Nat.eqb_spec p i) as [->|Np].
          { exfalso. rewrite Gi in Gp. inversion Gp; subst np. rewrite Ch in Ic. destruct Ic as [Ic|[Ic|[]]]; inversion Ic; congruence. }
          rewrite Gp. split; [reflexivity|]. cbn. apply in_map_iff. exists (Some j). split; [cbn; rewrite (proj2 (Nat.eqb_neq j i) Ni); reflexivity|exact Ic].
        * cbn [merged root]. rewrite Pa. cbn. rewrite (proj2 (Nat.eqb_neq j i) Ni). reflexivity.
  Qed.

  (** The leaves of the merged tree. *)
  Lemma merged_leaves : Permutation (leaves J) (l :: r :: del_leaf b (del_leaf a (leaves J))).
  Proof.
    destruct (node_leaf_in J a l Ga) as [Il El]. destruct (node_leaf_in J b r Gb) as [Ir Er]. pose proof a_ne_b as Nab.
    assert (D : forall (ls : list (leaf F)) x j, NoDup (map l_idx ls) -> In x ls -> l_idx x = j -> Permutation ls (x :: del_leaf j ls)).
    { clear. induction ls as [|y ls IH]; intros x j N I E; [destruct I|]. cbn in N. inversion N as [|? ? Ny Nl]; subst. cbn [del_leaf filter]. destruct I as [->|I].
      - rewrite Nat.eqb_refl. cbn. constructor. fold (del_leaf (F := F) (l_idx x) ls). unfold del_leaf. rewrite filter_none; [reflexivity|]. intros z Iz. destruct (Nat.eqb_spec (l_idx z) (l_idx x)) as [X|]; [|reflexivity].
        exfalso. apply Ny. rewrite <- X. apply in_map, Iz.
      - destruct (Nat.eqb_spec (l_idx y) (l_idx x)) as [X|]; [exfalso; apply Ny; rewrite X; apply in_map, I|]. cbn. eapply Permutation_trans; [apply perm_skip, (IH x _ Nl I eq_refl)|]. apply perm_swap. }
    pose proof (ids_leaf J (ids J T)) as N. eapply Permutation_trans; [apply (D _ l a N Il El)|]. constructor. apply D; [apply NoDup_map_filter, N| |exact Er].
    unfold del_leaf. apply filter_In. split; [exact Ir|]. rewrite Er. destruct (Nat.eqb_spec b a); [congruence|reflexivity].
  Qed.
End Merge.
