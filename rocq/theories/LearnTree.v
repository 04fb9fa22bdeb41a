(** The tree under construction: every call in the queue stands for one missing child. *)
Require Import QArith Bool List Arith Lia Permutation.
Require Import Verif.Base Verif.NumBase Verif.TreeModel Verif.TreeSpec Verif.TreeApply Verif.TreeCond Verif.TreeCond2 Verif.TreeCond4 Verif.LearnModel.
Import ListNotations.
Open Scope nat_scope.

Section LearnTree.
  Context {F : family}.

  Definition node_ids (J : jpt F) : list nat := map i_idx (innernodes J) ++ map l_idx (leaves J).

  (** [hs]: the places (parent, child index) of the calls in the queue; [None] is the root. *)
  Record growing (J : jpt F) (hs : list (option (nat * nat))) : Prop := Growing {
    g_ids : NoDup (node_ids J);
    g_lt : forall x, In x (node_ids J) -> x < n_nodes J;
    g_len : forall n, In n (innernodes J) -> length (i_splits n) = 2 /\ length (i_children n) = 2;
    g_child : forall n k i s, In n (innernodes J) -> nth_error (i_children n) k = Some (Some i) -> nth_error (i_splits n) k = Some s ->
      exists m, get_node J i = Some m /\ n_parent m = Some (i_idx n) /\ n_path m = i_path n ++ [(i_var n, s)];
    g_once : forall n k k' i, In n (innernodes J) -> nth_error (i_children n) k = Some (Some i) -> nth_error (i_children n) k' = Some (Some i) -> k = k';
    g_hole : forall p k, In (Some (p, k)) hs -> exists n, get_inner J p = Some n /\ nth_error (i_children n) k = Some None;
    g_none : forall n k, In n (innernodes J) -> nth_error (i_children n) k = Some None -> In (Some (i_idx n, k)) hs;
    g_nodup : NoDup hs;
    g_root : (root J = None /\ innernodes J = [] /\ leaves J = [] /\ hs = [None]) \/
             (~ In None hs /\ exists r m, root J = Some r /\ get_node J r = Some m /\ n_parent m = None /\ n_path m = []);
    g_parent : forall i m, get_node J i = Some m ->
      match n_parent m with None => root J = Some i | Some p => exists n, get_inner J p = Some n /\ In (Some i) (i_children n) end
  }.

  Lemma growing_tree : forall J, growing J [] -> tree_ok J.
  Proof.
    intros J G. destruct (g_root J [] G) as [(_ & _ & _ & Bad)|(_ & Rt)]; [discriminate|]. constructor.
    - apply (g_ids _ _ G).
    - exact Rt.
    - intros n I. destruct (g_len _ _ G n I) as [A B]. congruence.
    - intros n I. apply (proj2 (NoDup_nth_error (i_children n))). intros i j Li E. destruct (nth_error (i_children n) i) as [[c|]|] eqn:Ei.
      + apply (g_once _ _ G n i j c I); congruence.
      + destruct (g_none _ _ G n i I Ei).
      + apply nth_error_None in Ei. lia.
    - intros n k c s I Ec Es. destruct c as [i|]; [|destruct (g_none _ _ G n k I Ec)]. destruct (g_child _ _ G n k i s I Ec Es) as (m & A & B & C). exists i, m. auto.
    - apply (g_parent _ _ G).
  Qed.

  Lemma growing_start : forall nv fl ps, growing (JPT nv fl [] [] None ps) [None].
  Proof.
    intros. constructor; cbn [innernodes leaves root]; try (intros; contradiction).
    - constructor.
    - intros p k [H|[]]. discriminate.
    - repeat constructor. intros [].
    - left. auto.
    - intros i m H. discriminate.
  Qed.

  (** The tree with a child added to the parent of a call. *)
  Definition linked (J : jpt F) (p k i : nat) (n : inner F) : jpt F :=
    with_nodes J (set_inner (Inner (i_idx n) (i_parent n) (i_var n) (i_splits n) (list_upd (i_children n) k (Some i)) (i_samples n) (i_path n)) (innernodes J)) (leaves J).

  (** A node with other children. *)
  Definition like (n n' : inner F) : Prop := i_idx n' = i_idx n /\ i_parent n' = i_parent n /\ i_var n' = i_var n /\ i_splits n' = i_splits n /\ i_samples n' = i_samples n /\ i_path n' = i_path n.
  Definition like_node (m m' : node F) : Prop :=
    match m, m' with NInner n, NInner n' => like n n' | NLeaf l, NLeaf l' => l = l' | _, _ => False end.

  Definition upd (p k i : nat) (m : inner F) : inner F :=
    if Nat.eqb (i_idx m) p then Inner (i_idx m) (i_parent m) (i_var m) (i_splits m) (list_upd (i_children m) k (Some i)) (i_samples m) (i_path m) else m.
  Lemma upd_idx : forall p k i m, i_idx (upd p k i m) = i_idx m.
  Proof. intros. unfold upd. destruct (Nat.eqb _ _); reflexivity. Qed.
  Lemma upd_like : forall p k i m, like m (upd p k i m).
  Proof. intros. unfold upd, like. destruct (Nat.eqb _ _); cbn; auto 10. Qed.

  Lemma linked_upd : forall J p k i n, NoDup (node_ids J) -> get_inner J p = Some n -> linked J p k i n = with_nodes J (map (upd p k i) (innernodes J)) (leaves J).
  Proof.
    intros J p k i n N E. unfold linked, set_inner. f_equal. destruct (get_inner_some J p n E) as [I Ei]. apply map_ext_in. intros m Im. cbn [i_idx]. rewrite Ei. unfold upd.
    destruct (Nat.eqb_spec (i_idx m) p) as [Em|]; [|reflexivity]. assert (m = n) as ->; [|rewrite Ei; reflexivity].
    pose proof (in_get_inner J N m Im) as A. rewrite Em, E in A. congruence.
  Qed.

  Definition grafted (J : jpt F) (m : node F) : jpt F :=
    match m with NInner n => with_nodes J (innernodes J ++ [n]) (leaves J) | NLeaf l => with_nodes J (innernodes J) (leaves J ++ [l]) end.

  (** Inner nodes of [J] with the child entry set; a new node [m] appended; and the root set. *)
  Definition extended (J : jpt F) (h : option (nat * nat)) (m : node F) : jpt F :=
    let f := match h with Some (p, k) => upd p k (n_idx m) | None => fun n => n end in
    set_root (grafted (with_nodes J (map f (innernodes J)) (leaves J)) m) (n_idx m).
  Definition upd_of (h : option (nat * nat)) (i : nat) : inner F -> inner F :=
    match h with Some (p, k) => upd p k i | None => fun n => n end.
  Lemma upd_of_idx : forall h i m, i_idx (upd_of h i m) = i_idx m.
  Proof. intros [[p k]|] i m; [apply upd_idx|reflexivity]. Qed.
  Lemma upd_of_like : forall h i m, like m (upd_of h i m).
  Proof. intros [[p k]|] i m; [apply upd_like|unfold like; auto 10]. Qed.

  Lemma find_app {A} : forall (f : A -> bool) l l', find f (l ++ l') = match find f l with Some x => Some x | None => find f l' end.
  Proof. intros f l l'. induction l as [|x l IH]; [reflexivity|]. cbn. destruct (f x); [reflexivity|exact IH]. Qed.
  Lemma find_map_idx : forall (g : inner F -> inner F) l j, (forall m, i_idx (g m) = i_idx m) ->
    find (fun n => Nat.eqb (i_idx n) j) (map g l) = option_map g (find (fun n => Nat.eqb (i_idx n) j) l).
  Proof. intros g l j H. induction l as [|x l IH]; [reflexivity|]. cbn. rewrite H. destruct (Nat.eqb (i_idx x) j); [reflexivity|exact IH]. Qed.

  Section Extend.
    Variable J : jpt F.
    Variable h : option (nat * nat).
    Variable m : node F.
    Hypothesis N : NoDup (node_ids J).
    Hypothesis Fresh : forall x, In x (node_ids J) -> x < n_idx m.
    Let g := upd_of h (n_idx m).

    Lemma extended_inner : forall j, get_inner (extended J h m) j =
      match get_inner J j with Some n => Some (g n) | None => match m with NInner n => if Nat.eqb (i_idx n) j then Some n else None | NLeaf _ => None end end.
    Proof.
      intro j. unfold get_inner, extended, set_root, g. destruct m as [n|l]; cbn [grafted innernodes with_nodes n_idx].
      - rewrite find_app. fold (upd_of h (i_idx n)). rewrite (find_map_idx _ _ j (upd_of_idx h (i_idx n))). destruct (find _ (innernodes J)); [reflexivity|]. cbn. destruct (Nat.eqb (i_idx n) j); reflexivity.
      - fold (upd_of h (l_idx l)). rewrite (find_map_idx _ _ j (upd_of_idx h (l_idx l))). destruct (find _ (innernodes J)); reflexivity.
    Qed.
    Lemma extended_leaf : forall j, get_leaf (extended J h m) j =
      match get_leaf J j with Some l => Some l | None => match m with NLeaf l => if Nat.eqb (l_idx l) j then Some l else None | NInner _ => None end end.
    Proof.
      intro j. unfold get_leaf, extended, set_root. destruct m as [n|l]; cbn [grafted leaves with_nodes n_idx].
      - destruct (find _ (leaves J)); reflexivity.
      - rewrite find_app. destruct (find _ (leaves J)); [reflexivity|]. cbn. destruct (Nat.eqb (l_idx l) j); reflexivity.
    Qed.
    Definition g_node (x : node F) : node F := match x with NInner n => NInner (g n) | NLeaf l => NLeaf l end.
    Lemma extended_new : get_node (extended J h m) (n_idx m) = Some m.
    Proof.
      unfold get_node. rewrite extended_inner, extended_leaf.
      destruct (get_inner J (n_idx m)) as [n|] eqn:E.
      { exfalso. destruct (get_inner_some J _ _ E) as [I Ei]. assert (K : n_idx m < n_idx m); [|lia]. apply Fresh. unfold node_ids. rewrite <- Ei at 1. apply in_or_app. left. apply in_map, I. }
      destruct (get_leaf J (n_idx m)) as [l|] eqn:E'.
      { exfalso. destruct (get_leaf_some J _ _ E') as [I Ei]. assert (K : n_idx m < n_idx m); [|lia]. apply Fresh. unfold node_ids. rewrite <- Ei at 1. apply in_or_app. right. apply in_map, I. }
      destruct m as [n|l]; cbn [n_idx]; rewrite Nat.eqb_refl; reflexivity.
    Qed.
    Lemma extended_old : forall j x, get_node J j = Some x -> get_node (extended J h m) j = Some (g_node x).
    Proof.
      intros j x E. pose proof (node_in_ids J j x E) as I. apply Fresh in I. unfold get_node in *. rewrite extended_inner, extended_leaf. destruct (get_inner J j) as [n|] eqn:Ei; [inversion E; reflexivity|].
      destruct (get_leaf J j) as [l|]; [|discriminate]. inversion E; subst x. cbn [g_node]. destruct m as [n|l']; cbn [n_idx] in I; [|reflexivity]. destruct (Nat.eqb_spec (i_idx n) j); [lia|reflexivity].
    Qed.
    Lemma extended_node : forall j y, get_node (extended J h m) j = Some y -> (j = n_idx m /\ y = m) \/ exists x, get_node J j = Some x /\ y = g_node x.
    Proof.
      intros j y E. destruct (get_node J j) as [x|] eqn:Ex.
      - right. exists x. split; [reflexivity|]. rewrite (extended_old j x Ex) in E. congruence.
      - left. unfold get_node in *. rewrite extended_inner, extended_leaf in E. destruct (get_inner J j); [discriminate|]. destruct (get_leaf J j); [discriminate|].
        destruct m as [n|l]; cbn [n_idx].
        + destruct (Nat.eqb_spec (i_idx n) j); [|discriminate]. inversion E. auto.
        + destruct (Nat.eqb_spec (l_idx l) j); [|discriminate]. inversion E. auto.
    Qed.
    Lemma extended_inners : forall n', In n' (innernodes (extended J h m)) <-> (exists n, In n (innernodes J) /\ n' = g n) \/ m = NInner n'.
    Proof.
      intro n'. unfold extended, set_root, g. destruct m as [n|l]; cbn [grafted innernodes with_nodes n_idx].
      - fold (upd_of h (i_idx n)). rewrite in_app_iff, in_map_iff. cbn [In]. split.
        + intros [(x & E & I)|[E|[]]]; [left; exists x; auto|right; congruence].
        + intros [(x & I & E)|E]; [left; exists x; auto|right; left; congruence].
      - fold (upd_of h (l_idx l)). rewrite in_map_iff. split.
        + intros (x & E & I). left. exists x. auto.
        + intros [(x & I & E)|E]; [exists x; auto|discriminate].
    Qed.
    Lemma extended_ids : Permutation (node_ids (extended J h m)) (n_idx m :: node_ids J).
    Proof.
      unfold node_ids, extended, set_root. destruct m as [n|l]; cbn [grafted innernodes leaves with_nodes n_idx].
      - fold (upd_of h (i_idx n)). rewrite map_app, map_map. cbn [map]. rewrite (map_ext _ i_idx (upd_of_idx h (i_idx n))). rewrite <- app_assoc. cbn [app]. symmetry. apply Permutation_middle.
      - fold (upd_of h (l_idx l)). rewrite map_app, map_map. cbn [map]. rewrite (map_ext _ i_idx (upd_of_idx h (l_idx l))). rewrite app_assoc. symmetry. apply Permutation_cons_append.
    Qed.
  End Extend.

  Definition new_holes (m : node F) : list (option (nat * nat)) :=
    match m with NInner n => [Some (i_idx n, 0); Some (i_idx n, 1)] | NLeaf _ => [] end.
  Definition fresh_shape (m : node F) : Prop :=
    match m with NInner n => length (i_splits n) = 2 /\ i_children n = [None; None] | NLeaf _ => True end.
  (** The path of a node created for the place [h]. *)
  Definition place_path (J : jpt F) (h : option (nat * nat)) (path : list (var * vset F)) : Prop :=
    match h with
    | None => path = []
    | Some (p, k) => exists n s, get_inner J p = Some n /\ nth_error (i_splits n) k = Some s /\ path = i_path n ++ [(i_var n, s)]
    end.

  Lemma like_path : forall J h m, NoDup (node_ids J) -> (forall x, In x (node_ids J) -> x < n_idx m) -> forall h' path, place_path J h' path -> place_path (extended J h m) h' path.
  Proof.
    intros J h m N Fr [[p k]|] path; cbn [place_path]; [|auto]. intros (n & s & G & Es & ->). exists (upd_of h (n_idx m) n), s. destruct (upd_of_like h (n_idx m) n) as (_ & _ & Ev & Esp & _ & Ep).
    rewrite extended_inner by assumption. rewrite G, Ev, Esp, Ep. auto.
  Qed.

  Lemma link_spec : forall J h hs i, growing J (h :: hs) -> exists J1 path, link J h i = Ok (J1, path) /\ place_path J h path /\
    J1 = with_nodes J (map (upd_of h i) (innernodes J)) (leaves J).
  Proof.
    intros J [[p k]|] hs i G.
    - destruct (g_hole _ _ G p k (or_introl eq_refl)) as (n & E & Ek). destruct (get_inner_some J p n E) as [I Ei]. destruct (g_len _ _ G n I) as [L1 L2].
      assert (Lk : k < 2) by (rewrite <- L2; apply nth_error_Some; congruence).
      destruct (nth_error (i_splits n) k) as [s|] eqn:Es; [|apply nth_error_None in Es; lia].
      exists (linked J p k i n), (i_path n ++ [(i_var n, s)]). unfold link. rewrite E, Es. split; [reflexivity|]. split; [exists n, s; auto|]. apply linked_upd; [apply (g_ids _ _ G)|exact E].
    - exists J, []. split; [reflexivity|]. split; [reflexivity|]. cbn [upd_of]. rewrite map_id. destruct J; reflexivity.
  Qed.

  Lemma place_path_fun : forall J h p p', place_path J h p -> place_path J h p' -> p = p'.
  Proof. intros J [[p k]|] a b; cbn; [intros (n & s & E & Es & ->) (n' & s' & E' & Es' & ->); congruence|congruence]. Qed.

  Theorem growing_extend : forall J h hs m path, growing J (h :: hs) -> n_idx m = n_nodes J -> n_parent m = option_map fst h -> place_path J h path -> n_path m = path -> fresh_shape m ->
    growing (extended J h m) (hs ++ new_holes m).
  Proof.
    intros J h hs m path G Im Pm Pp Ppm Sh.
    assert (Fresh : forall x, In x (node_ids J) -> x < n_idx m) by (intros x I; rewrite Im; apply (g_lt _ _ G), I).
    pose proof (g_ids _ _ G) as N.
    assert (Nn : n_nodes (extended J h m) = S (n_nodes J)).
    { unfold n_nodes. pose proof (Permutation_length (extended_ids J h m Fresh)) as L. unfold node_ids in L. cbn [length] in L. rewrite !app_length, !map_length in L. exact L. }
    set (g := upd_of h (n_idx m)).
    assert (Idh : ~ In h hs) by (pose proof (g_nodup _ _ G) as Nd; inversion Nd; assumption).
    (* children of updated nodes *)
    assert (Ch : forall n k0 c, In n (innernodes J) -> nth_error (i_children (g n)) k0 = Some c ->
      (nth_error (i_children n) k0 = Some c /\ h <> Some (i_idx n, k0)) \/ (h = Some (i_idx n, k0) /\ c = Some (n_idx m))).
    { intros n k0 c I E. unfold g, upd_of in E. destruct h as [[p k]|]; [|left; split; [exact E|discriminate]]. unfold upd in E. destruct (Nat.eqb_spec (i_idx n) p) as [Ep|Ep]; [|left; split; [exact E|congruence]]. cbn [i_children] in E.
      destruct (Nat.eq_dec k k0) as [<-|Nk].
      - right. split; [congruence|]. destruct (nth_error (i_children n) k) as [y|] eqn:Ey.
        + rewrite (list_upd_same _ _ _ _ _ Ey) in E. congruence.
        + exfalso. apply nth_error_None in Ey. assert (k < length (list_upd (i_children n) k (Some (n_idx m)))) by (apply nth_error_Some; congruence). rewrite list_upd_length in H. lia.
      - left. rewrite list_upd_other in E by exact Nk. split; [exact E|congruence]. }
    constructor.
    - apply (Permutation_NoDup (Permutation_sym (extended_ids J h m Fresh))). constructor; [|exact N]. intro I. apply Fresh in I. lia.
    - intros x I. rewrite Nn. apply (Permutation_in x (extended_ids J h m Fresh)) in I. destruct I as [<-|I]; [lia|]. apply (g_lt _ _ G) in I. lia.
    - intros n' I. apply (proj1 (extended_inners J h m Fresh _)) in I. destruct I as [(n & I & ->)|E].
      + destruct (upd_of_like h (n_idx m) n) as (_ & _ & _ & Es & _). fold g in Es |- *. rewrite Es. destruct (g_len _ _ G n I) as [A B]. split; [exact A|].
        unfold g, upd_of. destruct h as [[p k]|]; [|exact B]. unfold upd. destruct (Nat.eqb _ _); [cbn; rewrite list_upd_length|]; exact B.
      + subst m. cbn [fresh_shape] in Sh. destruct Sh as [A ->]. auto.
    - intros n' k0 i s I Ec Es. apply (proj1 (extended_inners J h m Fresh _)) in I. destruct I as [(n & I & ->)|E].
      + destruct (upd_of_like h (n_idx m) n) as (E1 & E2 & E3 & E4 & E5 & E6). fold g in E1, E2, E3, E4, E5, E6, Es, Ec |- *. rewrite E4 in Es. rewrite E1, E3, E6. destruct (Ch n k0 _ I Ec) as [[Eo Nh]|[Eh Ei]].
        * destruct (g_child _ _ G n k0 i s I Eo Es) as (x & A & B & C). exists (g_node h m x). split; [apply extended_old; assumption|].
          destruct x as [y|y]; cbn [g_node n_parent n_path] in *; [|auto]. destruct (upd_of_like h (n_idx m) y) as (F1 & F2 & F3 & F4 & F5 & F6). rewrite F2, F6. auto.
        * injection Ei as ->. exists m. split; [apply extended_new; assumption|]. subst h. cbn [option_map fst] in Pm. split; [exact Pm|]. rewrite Ppm. cbn [place_path] in Pp. destruct Pp as (n0 & s0 & En0 & Es0 & ->).
          rewrite (in_get_inner J N n I) in En0. inversion En0; subst n0. rewrite Es in Es0. inversion Es0. reflexivity.
      + subst m. cbn [fresh_shape] in Sh. destruct Sh as [_ Hc]. rewrite Hc in Ec. destruct k0 as [|[|k0]]; cbn in Ec; try discriminate. destruct k0; discriminate.
    - intros n' k0 k1 i I E0 E1. apply (proj1 (extended_inners J h m Fresh _)) in I. destruct I as [(n & I & ->)|E].
      + destruct (Ch n k0 _ I E0) as [[A0 B0]|[A0 B0]], (Ch n k1 _ I E1) as [[A1 B1]|[A1 B1]].
        * apply (g_once _ _ G n k0 k1 i I A0 A1).
        * exfalso. injection B1 as ->. destruct (g_len _ _ G n I) as [L1 L2]. assert (Lk : k0 < 2) by (rewrite <- L2; apply nth_error_Some; congruence). destruct (nth_error (i_splits n) k0) as [s|] eqn:Es; [|apply nth_error_None in Es; lia].
          destruct (g_child _ _ G n k0 _ s I A0 Es) as (x & X & _). apply node_in_ids in X. apply Fresh in X. lia.
        * exfalso. injection B0 as ->. destruct (g_len _ _ G n I) as [L1 L2]. assert (Lk : k1 < 2) by (rewrite <- L2; apply nth_error_Some; congruence). destruct (nth_error (i_splits n) k1) as [s|] eqn:Es; [|apply nth_error_None in Es; lia].
          destruct (g_child _ _ G n k1 _ s I A1 Es) as (x & X & _). apply node_in_ids in X. apply Fresh in X. lia.
        * congruence.
      + subst m. cbn [fresh_shape] in Sh. destruct Sh as [_ Hc]. rewrite Hc in E0. destruct k0 as [|[|k0]]; cbn in E0; try discriminate. destruct k0; discriminate.
    - intros p k I. apply in_app_or in I. destruct I as [I|I].
      + destruct (g_hole _ _ G p k (or_intror I)) as (n & E & Ek). exists (g n). rewrite extended_inner by assumption. rewrite E. split; [reflexivity|].
        unfold g, upd_of. destruct h as [[p0 k0]|] eqn:Eh; [|exact Ek]. unfold upd. destruct (Nat.eqb_spec (i_idx n) p0) as [Ep|Ep]; [|exact Ek]. cbn [i_children]. destruct (get_inner_some J p n E) as [_ Ei]. rewrite list_upd_other; [exact Ek|]. intro Ek0. apply Idh. subst k0 p0. rewrite Ei. exact I.
      + destruct m as [n|l]; [|contradiction]. cbn [fresh_shape] in Sh. destruct Sh as [_ Hc].
        assert (Pk : p = i_idx n /\ (k = 0 \/ k = 1)) by (destruct I as [I|[I|[]]]; inversion I; auto). destruct Pk as [-> Hk].
        exists n. split; [|rewrite Hc; destruct Hk as [-> | ->]; reflexivity]. apply get_node_inner. change (i_idx n) with (n_idx (NInner n)). apply (extended_new J h (NInner n)); assumption.
    - intros n' k I E. apply in_or_app. apply (proj1 (extended_inners J h m Fresh _)) in I. destruct I as [(n & I & ->)|En].
      + fold g in E |- *. unfold g at 1. rewrite upd_of_idx. destruct (Ch n k _ I E) as [[Eo Nh]|[_ Bad]]; [|discriminate]. destruct (g_none _ _ G n k I Eo) as [H|H]; [congruence|left; exact H].
      + right. subst m. cbn [fresh_shape new_holes] in *. destruct Sh as [_ Hc]. rewrite Hc in E. destruct k as [|[|k]]; cbn in E; [left; reflexivity|right; left; reflexivity|destruct k; discriminate].
    - pose proof (g_nodup _ _ G) as Nd. inversion Nd as [|x y Nx Ny]. apply NoDup_app_intro; [exact Ny| |].
      + destruct m as [n|l]; cbn [new_holes]; [|constructor]. constructor; [intros [E|[]]; inversion E|constructor; [intros []|constructor]].
      + intros x0 I0 I1. destruct m as [n|l]; cbn [new_holes] in I1; [|contradiction]. destruct x0 as [[p k]|]; [|destruct I1 as [E|[E|[]]]; discriminate].
        assert (p = i_idx n) as -> by (destruct I1 as [E|[E|[]]]; inversion E; reflexivity).
        destruct (g_hole _ _ G _ _ (or_intror I0)) as (n0 & E0 & _). destruct (get_inner_some J _ _ E0) as [In0 Ei0]. assert (K : i_idx n < i_idx n); [|lia]. change (i_idx n) with (n_idx (NInner n)) at 2. apply Fresh. unfold node_ids. rewrite <- Ei0. apply in_or_app. left. apply in_map, In0.
    - right. assert (Nn0 : ~ In None (new_holes m)) by (destruct m; cbn; [intros [E|[E|[]]]; discriminate|auto]).
      destruct (g_root _ _ G) as [(R & Ei & El & Eh)|(NI & r & x & R & Gx & Px & Pth)].
      + injection Eh as -> ->. cbn [app]. split; [exact Nn0|]. exists (n_idx m), m. split; [|split; [apply extended_new; assumption|]].
        * unfold extended, set_root. destruct m; cbn [grafted root with_nodes n_idx]; rewrite R; reflexivity.
        * cbn in Pm, Pp. rewrite Pm, Ppm. auto.
      + split; [intro I; apply in_app_or in I; destruct I as [I|I]; [apply NI; right; exact I|exact (Nn0 I)]|]. exists r, (g_node h m x). split; [unfold extended, set_root; destruct m; cbn [grafted root with_nodes n_idx]; rewrite R; reflexivity|].
        split; [apply extended_old; assumption|]. destruct x as [y|y]; cbn [g_node n_parent n_path] in *; [|auto]. destruct (upd_of_like h (n_idx m) y) as (F1 & F2 & F3 & F4 & F5 & F6). rewrite F2, F6. auto.
    - assert (Rt : forall i, root J = Some i -> root (extended J h m) = Some i) by (intros i R; unfold extended, set_root; destruct m; cbn [grafted root with_nodes n_idx]; rewrite R; reflexivity).
      intros i y E. destruct (extended_node J h m Fresh i y E) as [[-> ->]|(x & Ex & ->)].
      + rewrite Pm. destruct h as [[p k]|]; cbn [option_map fst].
        * destruct (g_hole _ _ G p k (or_introl eq_refl)) as (n & En & Ek). exists (g n). rewrite extended_inner by assumption. rewrite En. split; [reflexivity|]. unfold g, upd_of, upd. destruct (get_inner_some J p n En) as [_ Ei]. rewrite Ei, Nat.eqb_refl. cbn [i_children]. apply nth_error_In with k. eapply list_upd_same. exact Ek.
        * destruct (g_root _ _ G) as [(R & _)|(NI & _)]; [|exfalso; apply NI; left; reflexivity]. unfold extended, set_root. destruct m; cbn [grafted root with_nodes n_idx]; rewrite R; reflexivity.
      + pose proof (g_parent _ _ G i x Ex) as Hp. assert (n_parent (g_node h m x) = n_parent x) as -> by (destruct x as [y|y]; cbn; [apply (upd_of_like h (n_idx m) y)|reflexivity]).
        destruct (n_parent x) as [p|]; [|apply Rt; exact Hp]. destruct Hp as (n & En & Ic). exists (g n). rewrite extended_inner by assumption. rewrite En. split; [reflexivity|].
        unfold g, upd_of. destruct h as [[p0 k0]|] eqn:Eh; [|exact Ic]. unfold upd. destruct (Nat.eqb_spec (i_idx n) p0) as [Ep|Ep]; [|exact Ic]. cbn [i_children].
        apply In_nth_error in Ic. destruct Ic as [j Ej]. apply nth_error_In with j. rewrite list_upd_other; [exact Ej|]. intro Ek. subst j.
        destruct (g_hole _ _ G p0 k0 (or_introl eq_refl)) as (n1 & En1 & Ek1). destruct (get_inner_some J p n En) as [_ Ei]. assert (n1 = n) by congruence. subst n1. congruence.
  Qed.
End LearnTree.
