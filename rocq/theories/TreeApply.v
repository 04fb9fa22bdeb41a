(** Proofs about the node dictionaries and [apply]. *)
Require Import QArith Bool List Arith Lia Permutation.
Require Import Verif.Base Verif.NumBase Verif.TreeModel Verif.TreeSpec.
Import ListNotations.

Lemma NoDup_app_parts : forall A (a b : list A), NoDup (a ++ b) -> NoDup a /\ NoDup b /\ forall x, In x a -> ~ In x b.
Proof.
  intros A a b. induction a as [|x a IH]; cbn; intro H; [repeat split; [constructor|exact H|tauto]|].
  inversion H as [|? ? N H']; subst. destruct (IH H') as (Na & Nb & D). repeat split; [constructor; [intro I; apply N, in_or_app; auto|exact Na]|exact Nb|].
  intros y [->|I]; [intro I; apply N, in_or_app; auto|auto].
Qed.

Lemma NoDup_app_intro : forall A (a b : list A), NoDup a -> NoDup b -> (forall x, In x a -> ~ In x b) -> NoDup (a ++ b).
Proof.
  intros A a b Na Nb D. induction Na as [|x a N Na IH]; cbn; [exact Nb|]. constructor.
  - intro I. apply in_app_or in I. destruct I as [I|I]; [exact (N I)|]. exact (D x (or_introl eq_refl) I).
  - apply IH. intros y I. apply D. right; exact I.
Qed.

Lemma find_key : forall A (f : A -> nat) (l : list A) x, NoDup (map f l) -> In x l -> find (fun y => Nat.eqb (f y) (f x)) l = Some x.
Proof.
  intros A f l x. induction l as [|y l IH]; intros N I; [destruct I|]. cbn in *. inversion N as [|? ? Ny N']; subst.
  destruct I as [->|I]; [rewrite Nat.eqb_refl; reflexivity|].
  destruct (Nat.eqb_spec (f y) (f x)) as [E|E]; [|auto]. exfalso. apply Ny. rewrite E. apply in_map, I.
Qed.

Lemma find_key_none : forall A (f : A -> nat) (l : list A) i, ~ In i (map f l) -> find (fun y => Nat.eqb (f y) i) l = None.
Proof.
  intros A f l i. induction l as [|y l IH]; intro N; [reflexivity|]. cbn in *. destruct (Nat.eqb_spec (f y) i) as [E|E]; [exfalso; apply N; auto|].
  apply IH. intro. apply N; auto.
Qed.

Lemma find_key_some : forall A (f : A -> nat) (l : list A) i x, find (fun y => Nat.eqb (f y) i) l = Some x -> In x l /\ f x = i.
Proof. intros A f l i x H. apply find_some in H. destruct H as [I E]. apply Nat.eqb_eq in E. auto. Qed.

Section Apply.
  Context {F : family}.
  Variable J : jpt F.

  Lemma get_inner_some : forall i n, get_inner J i = Some n -> In n (innernodes J) /\ i_idx n = i.
  Proof. intros. apply find_key_some; assumption. Qed.
  Lemma get_leaf_some : forall i l, get_leaf J i = Some l -> In l (leaves J) /\ l_idx l = i.
  Proof. intros. apply find_key_some; assumption. Qed.

  Section Ids.
    Hypothesis N : NoDup (map i_idx (innernodes J) ++ map l_idx (leaves J)).
    Lemma ids_inner : NoDup (map i_idx (innernodes J)).
    Proof. apply (NoDup_app_parts _ _ _ N). Qed.
    Lemma ids_leaf : NoDup (map l_idx (leaves J)).
    Proof. apply (NoDup_app_parts _ _ _ N). Qed.
    Lemma in_get_inner : forall n, In n (innernodes J) -> get_inner J (i_idx n) = Some n.
    Proof. intros. apply find_key; [apply ids_inner|assumption]. Qed.
    Lemma in_get_leaf : forall l, In l (leaves J) -> get_leaf J (l_idx l) = Some l /\ get_inner J (l_idx l) = None.
    Proof.
      intros l I. split; [apply find_key; [apply ids_leaf|assumption]|]. apply find_key_none. intro H.
      apply (proj2 (proj2 (NoDup_app_parts _ _ _ N)) _ H). apply in_map, I.
    Qed.
    Lemma in_node_inner : forall n, In n (innernodes J) -> get_node J (i_idx n) = Some (NInner n).
    Proof. intros n I. unfold get_node. rewrite (in_get_inner n I). reflexivity. Qed.
    Lemma in_node_leaf : forall l, In l (leaves J) -> get_node J (l_idx l) = Some (NLeaf l).
    Proof. intros l I. unfold get_node. destruct (in_get_leaf l I) as [A B]. rewrite A, B. reflexivity. Qed.
  End Ids.

  Lemma node_inner_in : forall i n, get_node J i = Some (NInner n) -> In n (innernodes J) /\ i_idx n = i.
  Proof.
    intros i n. unfold get_node. destruct (get_inner J i) as [m|] eqn:E; [|destruct (get_leaf J i); discriminate].
    intro H. inversion H; subst. apply get_inner_some, E.
  Qed.
  Lemma node_leaf_in : forall i l, get_node J i = Some (NLeaf l) -> In l (leaves J) /\ l_idx l = i.
  Proof.
    intros i l. unfold get_node. destruct (get_inner J i) as [m|]; [discriminate|]. destruct (get_leaf J i) as [m|] eqn:E; [|discriminate].
    intro H. inversion H; subst. apply get_leaf_some, E.
  Qed.
  Lemma node_idx : forall i m, get_node J i = Some m -> n_idx m = i.
  Proof. intros i [n|l] H; [apply (node_inner_in _ _ H)|apply (node_leaf_in _ _ H)]. Qed.
  Lemma node_in_ids : forall i m, get_node J i = Some m -> In i (map i_idx (innernodes J) ++ map l_idx (leaves J)).
  Proof.
    intros i [n|l] H; apply in_or_app.
    - apply node_inner_in in H. destruct H as [I <-]. left. apply in_map, I.
    - apply node_leaf_in in H. destruct H as [I <-]. right. apply in_map, I.
  Qed.

  Variable q : assignment F.
  Definition compatb (p : list (var * vset F)) : bool := forallb (fun vs => follow q (fst vs) (snd vs)) p.
  Lemma compatb_spec : forall p, compatb p = true <-> compatible q p.
  Proof.
    intro p. unfold compatb, compatible. rewrite forallb_forall. split.
    - intros H v s e I E. specialize (H (v, s) I). cbn in H. unfold follow in H. rewrite E in H. destruct (disj F e s); [discriminate|reflexivity].
    - intros H [v s] I. cbn. unfold follow. destruct (lookup q v) as [e|] eqn:E; [|reflexivity]. rewrite (H v s e I E). reflexivity.
  Qed.
  Lemma compatb_app : forall p r, compatb (p ++ r) = compatb p && compatb r.
  Proof. intros. apply forallb_app. Qed.

  Hypothesis T : tree_ok J.

  Lemma selected_in : forall n c, In n (innernodes J) -> (In c (selected q n) <->
    exists k s, nth_error (i_children n) k = Some c /\ nth_error (i_splits n) k = Some s /\ follow q (i_var n) s = true).
  Proof.
    intros n c I. unfold selected. rewrite in_map_iff. pose proof (lengths J T n I) as Len.
    revert Len. generalize (i_children n) as cs. generalize (i_splits n) as ss. intros ss cs Len. split.
    - intros ([c' s] & E & H). cbn in E. subst c'. apply filter_In in H. destruct H as [H B]. apply In_nth_error in H. destruct H as [k H].
      exists k, s. revert ss Len k H. induction cs as [|c0 cs IH]; intros [|s0 ss] Len k H; try (destruct k; discriminate); try discriminate.
      destruct k as [|k]; cbn in H; [inversion H; subst; cbn; auto|]. cbn. apply IH; [cbn in Len; lia|exact H].
    - intros (k & s & Hc & Hs & B). exists (c, s). split; [reflexivity|]. apply filter_In. split; [|exact B].
      revert ss Len k Hc Hs. induction cs as [|c0 cs IH]; intros [|s0 ss] Len k Hc Hs; try (destruct k; discriminate); try discriminate.
      destruct k as [|k]; cbn in Hc, Hs; [inversion Hc; inversion Hs; subst; left; reflexivity|]. right. apply (IH ss) with (k := k); [cbn in Len; lia|assumption|assumption].
  Qed.

  Lemma selected_nodup : forall n, In n (innernodes J) -> NoDup (selected q n).
  Proof.
    intros n I. pose proof (child_once J T n I) as N. unfold selected. revert N. generalize (i_splits n) as ss. induction (i_children n) as [|c cs IH]; intros ss N; cbn.
    - constructor.
    - destruct ss as [|s ss]; [constructor|]. inversion N as [|? ? Nc N']; subst. cbn. destruct (follow q (i_var n) s); [|apply IH, N'].
      cbn. constructor; [|apply IH, N']. intro H. apply in_map_iff in H. destruct H as ([c' s'] & E & H). cbn in E. subst c'.
      apply filter_In in H. destruct H as [H _]. apply in_combine_l in H. exact (Nc H).
  Qed.

  Definition sel_ids (n : inner F) : list nat := flat_map (fun o => match o with Some i => [i] | None => [] end) (selected q n).

  Lemma sel_ids_map : forall n, In n (innernodes J) -> map Some (sel_ids n) = selected q n.
  Proof.
    intros n I. assert (A : forall c, In c (selected q n) -> exists i, c = Some i).
    { intros c H. apply (selected_in n c I) in H. destruct H as (k & s & Hc & Hs & _). destruct (child_ok J T n k c s I Hc Hs) as (i & m & E & _). eauto. }
    unfold sel_ids. induction (selected q n) as [|c cs IH]; [reflexivity|]. destruct (A c (or_introl eq_refl)) as [i ->]. cbn. rewrite IH; [reflexivity|].
    intros c' H. apply A. right; exact H.
  Qed.

  Lemma sel_ids_in : forall n i, In n (innernodes J) -> (In i (sel_ids n) <->
    exists k s, nth_error (i_children n) k = Some (Some i) /\ nth_error (i_splits n) k = Some s /\ follow q (i_var n) s = true).
  Proof.
    intros n i I. rewrite <- (selected_in n (Some i) I), <- (sel_ids_map n I). rewrite in_map_iff. split.
    - intro H. exists i. auto.
    - intros (j & E & H). inversion E; subst. exact H.
  Qed.

  Lemma sel_ids_nodup : forall n, In n (innernodes J) -> NoDup (sel_ids n).
  Proof. intros n I. pose proof (selected_nodup n I) as N. rewrite <- (sel_ids_map n I) in N. apply NoDup_map_inv in N. exact N. Qed.

  (** The visited nodes [V] and the fringe [Fr]. *)
  Record loop_inv (V Fr : list nat) : Prop := LoopInv {
    li_nodup : NoDup (V ++ Fr);
    li_node : forall i, In i (V ++ Fr) -> exists m, get_node J i = Some m /\ compatb (n_path m) = true;
    li_parent : forall i m, In i (V ++ Fr) -> get_node J i = Some m -> n_parent m = None \/ exists p, n_parent m = Some p /\ In p V;
    li_closed : forall n i, In (i_idx n) V -> In n (innernodes J) -> In i (sel_ids n) -> In i (V ++ Fr)
  }.

  Lemma loop_inv_bound : forall V Fr, loop_inv V Fr -> (length V + length Fr <= n_nodes J)%nat.
  Proof.
    intros V Fr H. rewrite <- app_length. unfold n_nodes.
    replace (length (innernodes J) + length (leaves J))%nat with (length (map i_idx (innernodes J) ++ map l_idx (leaves J))) by (rewrite app_length, !map_length; reflexivity).
    apply NoDup_incl_length; [apply (li_nodup _ _ H)|]. intros i I. destruct (li_node _ _ H i I) as (m & E & _). apply (node_in_ids i m E).
  Qed.

  Lemma loop_inv_leaf : forall V i Fr l, loop_inv V (i :: Fr) -> get_node J i = Some (NLeaf l) -> loop_inv (V ++ [i]) Fr.
  Proof.
    intros V i Fr l H E. assert (A : (V ++ [i]) ++ Fr = V ++ i :: Fr) by (rewrite <- app_assoc; reflexivity).
    constructor; rewrite ?A; try apply H.
    - intros j m I Ej. destruct (li_parent _ _ H j m I Ej) as [P|(p & P & Ip)]; [left; exact P|right; exists p; split; [exact P|apply in_or_app; auto]].
    - intros n j I In_ S. apply in_app_or in I. destruct I as [I|[I|[]]]; [apply (li_closed _ _ H n j I In_ S)|].
      exfalso. subst i. rewrite (in_node_inner (ids J T) n In_) in E. discriminate.
  Qed.

  Lemma loop_inv_inner : forall V i Fr n, loop_inv V (i :: Fr) -> get_node J i = Some (NInner n) -> loop_inv (V ++ [i]) (rev (sel_ids n) ++ Fr).
  Proof.
    intros V i Fr n H E. destruct (node_inner_in i n E) as [In_ Ei].
    assert (M : forall j, In j ((V ++ [i]) ++ rev (sel_ids n) ++ Fr) <-> In j (V ++ i :: Fr) \/ In j (sel_ids n)).
    { intro j. rewrite !in_app_iff, <- in_rev. cbn. tauto. }
    assert (C : forall j, In j (sel_ids n) -> exists m, get_node J j = Some m /\ n_parent m = Some i /\ exists s, n_path m = i_path n ++ [(i_var n, s)] /\ follow q (i_var n) s = true).
    { intros j S. apply (sel_ids_in n j In_) in S. destruct S as (k & s & Hc & Hs & B). destruct (child_ok J T n k (Some j) s In_ Hc Hs) as (j' & m & Ej & G & Pa & Pt).
      inversion Ej; subst j'. exists m. rewrite <- Ei. split; [exact G|]. split; [exact Pa|]. exists s. auto. }
    destruct (NoDup_app_parts _ _ _ (li_nodup _ _ H)) as (NV & NFr & D). inversion NFr as [|? ? Ni NFr']; subst x l.
    assert (New : forall j, In j (sel_ids n) -> ~ In j (V ++ i :: Fr)).
    { intros j S I. destruct (C j S) as (m & G & Pa & _). destruct (li_parent _ _ H j m I G) as [P|(p & P & Ip)]; [congruence|].
      rewrite Pa in P. inversion P; subst p. apply (D i Ip). left; reflexivity. }
    constructor.
    - rewrite <- app_assoc. cbn. apply (Permutation_NoDup (l := sel_ids n ++ V ++ i :: Fr)).
      + rewrite (Permutation_app_comm (sel_ids n)). rewrite <- app_assoc. apply Permutation_app_head. cbn. constructor.
        rewrite Permutation_app_comm. apply Permutation_app_tail, Permutation_rev.
      + apply NoDup_app_intro; [apply sel_ids_nodup, In_|apply (li_nodup _ _ H)|exact New].
    - intros j I. apply M in I. destruct I as [I|S]; [apply (li_node _ _ H j I)|]. destruct (C j S) as (m & G & Pa & s & Pt & B). exists m. split; [exact G|].
      rewrite Pt, compatb_app. destruct (li_node _ _ H i) as (m' & E' & Cm); [apply in_or_app; right; left; reflexivity|]. rewrite E in E'. inversion E'; subst m'. change (compatb (i_path n) = true) in Cm. rewrite Cm.
      cbn. rewrite B. reflexivity.
    - intros j m I G. apply M in I. destruct I as [I|S].
      + destruct (li_parent _ _ H j m I G) as [P|(p & P & Ip)]; [left; exact P|right; exists p; split; [exact P|apply in_or_app; auto]].
      + destruct (C j S) as (m' & G' & Pa & _). rewrite G in G'. inversion G'; subst m'. right. exists i. split; [exact Pa|apply in_or_app; right; left; reflexivity].
    - intros n' j I In' S. apply M. apply in_app_or in I. destruct I as [I|[I|[]]]; [left; apply (li_closed _ _ H n' j I In' S)|].
      right. rewrite <- Ei in I. assert (n' = n) as <-; [|exact S].
      pose proof (in_get_inner (ids J T) n In_) as A. pose proof (in_get_inner (ids J T) n' In') as B. rewrite <- I, A in B. congruence.
  Qed.

  Lemma apply_loop_spec : forall fuel V Fr, loop_inv V Fr -> (n_nodes J <= fuel + length V)%nat ->
    exists ls V', apply_loop fuel J q (map Some Fr) = Ok ls /\ loop_inv V' [] /\ incl (V ++ Fr) V' /\
      NoDup (map l_idx ls) /\ (forall l, In l ls <-> In l (leaves J) /\ In (l_idx l) V' /\ ~ In (l_idx l) V).
  Proof.
    induction fuel as [|fuel IH]; intros V Fr H B.
    - destruct Fr as [|i Fr]; [|exfalso; pose proof (loop_inv_bound _ _ H) as A; cbn in A; lia].
      exists [], V. cbn. split; [reflexivity|]. split; [exact H|]. split; [rewrite app_nil_r; apply incl_refl|]. split; [constructor|]. intuition.
    - destruct Fr as [|i Fr].
      + exists [], V. cbn. split; [reflexivity|]. split; [exact H|]. split; [rewrite app_nil_r; apply incl_refl|]. split; [constructor|]. intuition.
      + destruct (li_node _ _ H i) as (m & E & Cm); [apply in_or_app; right; left; reflexivity|].
        assert (Ni : ~ In i V). { intro I. apply (proj2 (proj2 (NoDup_app_parts _ _ _ (li_nodup _ _ H))) i I). left; reflexivity. }
        cbn [map apply_loop]. rewrite E. destruct m as [n|l].
        * destruct (node_inner_in i n E) as [In_ Ei]. pose proof (loop_inv_inner V i Fr n H E) as H'.
          rewrite <- (sel_ids_map n In_), <- map_rev, <- map_app.
          destruct (IH _ _ H') as (ls & V' & A & I' & Inc & Nd & Ch); [rewrite app_length; cbn; lia|].
          exists ls, V'. split; [exact A|]. split; [exact I'|]. split.
          { intros j Ij. apply Inc. rewrite !in_app_iff in *. cbn in *. tauto. }
          split; [exact Nd|]. intro l. rewrite Ch. split; intros (L1 & L2 & L3); (split; [exact L1|split; [exact L2|]]).
          -- intro I. apply L3, in_or_app; auto.
          -- intro I. apply in_app_or in I. destruct I as [I|[I|[]]]; [exact (L3 I)|]. rewrite I in E. rewrite (in_node_leaf (ids J T) l L1) in E. discriminate.
        * destruct (node_leaf_in i l E) as [Il Ei]. pose proof (loop_inv_leaf V i Fr l H E) as H'.
          destruct (IH _ _ H') as (ls & V' & A & I' & Inc & Nd & Ch); [rewrite app_length; cbn; lia|].
          rewrite A. cbn [bind]. exists (l :: ls), V'. split; [reflexivity|]. split; [exact I'|]. split.
          { intros j Ij. apply Inc. rewrite !in_app_iff in *. cbn in *. tauto. }
          split.
          { cbn. constructor; [|exact Nd]. intro I. apply in_map_iff in I. destruct I as (l' & El & I). apply Ch in I. destruct I as (_ & _ & I). apply I. rewrite El, Ei. apply in_or_app; right; left; reflexivity. }
          intro l'. cbn [In]. rewrite Ch. split.
          -- intros [<-|(L1 & L2 & L3)]; [|split; [exact L1|split; [exact L2|intro I; apply L3, in_or_app; auto]]].
             split; [exact Il|]. rewrite Ei. split; [apply Inc; rewrite !in_app_iff; cbn; tauto|exact Ni].
          -- intros (L1 & L2 & L3). destruct (Nat.eq_dec (l_idx l') i) as [D|D].
             ++ left. pose proof (in_node_leaf (ids J T) l' L1) as G. rewrite D, E in G. congruence.
             ++ right. split; [exact L1|split; [exact L2|]]. intro I. apply in_app_or in I. destruct I as [I|[I|[]]]; [exact (L3 I)|congruence].
  Qed.

  Lemma loop_complete : forall V, loop_inv V [] -> (exists r, root J = Some r /\ In r V) ->
    forall len i m, length (n_path m) = len -> get_node J i = Some m -> compatb (n_path m) = true -> In i V.
  Proof.
    intros V H (r & Er & Ir). induction len as [len IH] using (well_founded_induction lt_wf). intros i m Len G C.
    pose proof (parent_ok J T i m G) as Pa. destruct (n_parent m) as [p|] eqn:Ep.
    - destruct Pa as (n & Gp & Ic). destruct (get_inner_some p n Gp) as [In_ Ei]. apply In_nth_error in Ic. destruct Ic as [k Hc].
      assert (exists s, nth_error (i_splits n) k = Some s) as [s Hs].
      { destruct (nth_error (i_splits n) k) eqn:E; [eauto|]. apply nth_error_None in E. rewrite <- (lengths J T n In_) in E. apply nth_error_None in E. congruence. }
      destruct (child_ok J T n k (Some i) s In_ Hc Hs) as (i' & m' & E' & G' & Pm & Pt). inversion E'; subst i'. rewrite G in G'. inversion G'; subst m'.
      rewrite Pt, compatb_app in C. apply andb_true_iff in C. destruct C as [C1 C2]. cbn in C2. rewrite andb_true_r in C2.
      assert (In p V) as Ip.
      { apply (IH (length (i_path n))) with (m := NInner n); [rewrite <- Len, Pt, app_length; cbn; lia|reflexivity| |exact C1].
        rewrite <- Ei. apply in_node_inner; [apply (ids J T)|exact In_]. }
      pose proof (li_closed V [] H n i) as Cl. rewrite app_nil_r, Ei in Cl. apply Cl; [exact Ip|exact In_|].
      apply (sel_ids_in n i In_). exists k, s. auto.
    - rewrite Er in Pa. inversion Pa; subst. exact Ir.
  Qed.

  Theorem apply_spec : known J q = true -> exists ls, apply J q = Ok ls /\ NoDup (map l_idx ls) /\
    forall l, In l ls <-> In l (leaves J) /\ compatible q (l_path l).
  Proof.
    intro K. unfold apply. rewrite K. cbn [negb]. destruct (root_ok J T) as (r & m & Er & Gr & Pr & Pt). rewrite Er.
    assert (H : loop_inv [] [r]).
    { constructor; cbn.
      - repeat constructor. intros [].
      - intros i [<-|[]]. exists m. split; [exact Gr|]. rewrite Pt. reflexivity.
      - intros i m' [<-|[]] G. rewrite Gr in G. inversion G; subst. left; exact Pr.
      - intros n i []. }
    destruct (apply_loop_spec (n_nodes J) [] [r] H) as (ls & V & A & I & Inc & Nd & Ch); [cbn; lia|].
    cbn [map] in A. rewrite A. exists ls. split; [reflexivity|]. split; [exact Nd|]. intro l. rewrite Ch. split.
    - intros (L1 & L2 & _). split; [exact L1|]. apply compatb_spec. destruct (li_node _ _ I (l_idx l)) as (m' & G & C); [rewrite app_nil_r; exact L2|].
      rewrite (in_node_leaf (ids J T) l L1) in G. inversion G; subst. exact C.
    - intros (L1 & L2). split; [exact L1|]. split; [|intros []]. apply (loop_complete V I) with (len := length (l_path l)) (m := NLeaf l).
      + exists r. split; [exact Er|apply Inc; left; reflexivity].
      + reflexivity.
      + apply in_node_leaf; [apply (ids J T)|exact L1].
      + apply compatb_spec, L2.
  Qed.

  Lemma apply_perm : known J q = true -> exists ls, apply J q = Ok ls /\ Permutation ls (filter (fun l => compatb (l_path l)) (leaves J)).
  Proof.
    intro K. destruct (apply_spec K) as (ls & A & N & S). exists ls. split; [exact A|]. apply NoDup_Permutation.
    - apply NoDup_map_inv in N. exact N.
    - apply NoDup_filter. apply (NoDup_map_inv l_idx), ids_leaf, (ids J T).
    - intro l. rewrite S, filter_In, compatb_spec. reflexivity.
  Qed.
End Apply.

Lemma apply_unknown : forall (F : family) (J : jpt F) q, known J q = false -> apply J q = Err TypeError.
Proof. intros F J q K. unfold apply. rewrite K. reflexivity. Qed.
