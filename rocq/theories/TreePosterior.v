(** [posterior] against the mixture. *)
Require Import QArith Qabs Lqa Bool List Arith Lia Permutation.
Require Import Verif.Base Verif.NumBase Verif.UtilModel Verif.TreeModel Verif.TreeSpec Verif.TreeApply Verif.TreeInfer.
Import ListNotations.
Open Scope Q_scope.

Lemma mapM_cons : forall A B (f : A -> res B) a l, mapM f (a :: l) = do b <- f a; do bs <- mapM f l; Ok (b :: bs).
Proof. reflexivity. Qed.

Lemma mapM_all : forall A B (f : A -> res B) (R : A -> B -> Prop) l, (forall a, In a l -> exists b, f a = Ok b /\ R a b) ->
  exists bs, mapM f l = Ok bs /\ Forall2 R l bs.
Proof.
  intros A B f R l. induction l as [|a l IH]; intro H; [exists []; split; [reflexivity|constructor]|].
  destruct (H a (or_introl eq_refl)) as (b & E & Rb). destruct IH as (bs & E' & Rs); [intros; apply H; right; assumption|].
  exists (b :: bs). rewrite mapM_cons, E, E'. cbn. split; [reflexivity|constructor; assumption].
Qed.

Lemma Forall2_nth : forall A B (R : A -> B -> Prop) l m k a, Forall2 R l m -> nth_error l k = Some a -> exists b, nth_error m k = Some b /\ R a b.
Proof.
  intros A B R l m k a H. revert k. induction H as [|x y l m Rxy H IH]; intros k E; [destruct k; discriminate|].
  destruct k as [|k]; cbn in *; [inversion E; subst; eauto|auto].
Qed.
Lemma Forall2_len : forall A B (R : A -> B -> Prop) l m, Forall2 R l m -> length l = length m.
Proof. intros A B R l m H. induction H; cbn; congruence. Qed.
Lemma Forall2_impl : forall A B (R S : A -> B -> Prop) l m, (forall a b, In a l -> R a b -> S a b) -> Forall2 R l m -> Forall2 S l m.
Proof.
  intros A B R S l m I H. induction H as [|x y l m Rxy H IH]; constructor; [apply I; [left; reflexivity|exact Rxy]|].
  apply IH. intros; apply I; [right; assumption|assumption].
Qed.

Section Posterior.
  Context {F : family}.
  Variable J : jpt F.
  Variable L : lawful (full J).
  Hypothesis T : tree_ok J.
  Hypothesis Pr : proper_tree J L.
  Hypothesis Su : supported_tree J L.
  Notation n := (n_vars J).

  (** The probability which leaf [l] contributes for variable [v] under evidence
      [e]: conditioned on [v]'s own evidence only if [v] is on the leaf's path. *)
  Definition leaf_post (l : leaf F) (e : assignment F) (v : var) (s : vset F) : Q :=
    match nth_error (l_dists l) v with
    | None => 0
    | Some d =>
        match lookup e v with
        | None => P L d s
        | Some ev => if existsb (Nat.eqb v) (keys (l_path l)) then P L d (inter F s ev) / P L d ev else P L d s
        end
    end.

  Lemma on_path : forall (p : list (var * vset F)) v, existsb (Nat.eqb v) (keys p) = match path_get (full J) p v with Some _ => true | None => false end.
  Proof.
    intros p v. destruct (path_get (full J) p v) as [s|] eqn:E.
    - apply existsb_exists. exists v. split; [|apply Nat.eqb_refl]. destruct (in_dec Nat.eq_dec v (keys p)) as [I|I]; [exact I|].
      apply (path_get_none (full J)) in I. congruence.
    - apply path_get_none in E. apply not_true_iff_false. intro H. apply existsb_exists in H. destruct H as (w & I & Q). apply Nat.eqb_eq in Q. subst. contradiction.
  Qed.

  Lemma leaf_prob_factor : forall l e v ev, proper_leaf L n l -> event L n e -> In (v, ev) e -> 0 < leaf_prob L (l_dists l) e ->
    exists d, nth_error (l_dists l) v = Some d /\ okd L v d /\ oks L v ev /\ 0 < P L d ev.
  Proof.
    intros l e v ev Pl [_ Fe] I Pos. pose proof (proj1 (Forall_forall _ _) Fe (v, ev) I) as [V Os]. cbn in V, Os.
    destruct (pl_dist L n l Pl v V) as (d & Hd & Od). exists d. repeat split; try assumption.
    pose proof (P_nonneg _ L v d ev Od Os) as N. apply Qle_lteq in N. destruct N as [N|N]; [exact N|]. exfalso.
    pose proof (leaf_prob_zero L l e v ev d I Hd). rewrite H in Pos; [lra|symmetry; exact N].
  Qed.

  Lemma leaf_posterior_ok : forall l e v, In l (leaves J) -> event L n e -> (v < n)%nat -> 0 < leaf_prob L (l_dists l) e ->
    exists d', leaf_posterior J l e v = Ok d' /\ okd L v d' /\ forall s, oks L v s -> P L d' s == leaf_post l e v s.
  Proof.
    intros l e v I Ee V Pos. destruct (tree_leaf J L Pr Su l I) as [Pl Sl]. destruct (pl_dist L n l Pl v V) as (d & Hd & Od).
    unfold leaf_posterior, leaf_post, leaf_dist. rewrite Hd. cbn [bind]. destruct (lookup e v) as [ev|] eqn:El.
    2:{ exists d. split; [reflexivity|]. split; [exact Od|]. intros. reflexivity. }
    apply lookup_in in El. destruct (leaf_prob_factor l e v ev Pl Ee El Pos) as (d0 & Hd0 & _ & Oe & Pe).
    rewrite Hd in Hd0. inversion Hd0; subst d0. rewrite on_path. destruct (path_get (full J) (l_path l) v) as [p|] eqn:Hp.
    2:{ exists d. split; [reflexivity|]. split; [exact Od|]. intros. reflexivity. }
    destruct (path_sure L n l Pl Sl v d p Hd Hp) as [Op Pp].
    pose proof (P_sure _ L v d ev p Od Oe Op Pp) as E1.
    destruct (crop_ok _ L v d (inter F ev p) Od (oks_inter _ L v ev p Oe Op)) as (d' & Ec & Od' & H); [rewrite E1; exact Pe|].
    exists d'. split; [exact Ec|]. split; [exact Od'|]. intros s Os. rewrite (H s Os), E1.
    rewrite <- (P_assoc _ L v d s ev p Od Os Oe Op).
    rewrite (P_sure _ L v d (inter F s ev) p Od (oks_inter _ L v s ev Os Oe) Op Pp). reflexivity.
  Qed.

  Definition positive (e : assignment F) (l : leaf F) : bool := Qltb 0 (leaf_prob L (l_dists l) e).

  Lemma posterior_loop_ok : forall (vs : list var) e ls, event L n e -> (forall v, In v vs -> (v < n)%nat) -> (forall l, In l ls -> In l (leaves J)) ->
    exists rows, posterior_loop J vs e ls = Ok rows /\
      Forall2 (fun l r => fst r == leaf_prob L (l_dists l) e * l_prior l /\
                          Forall2 (fun v d => okd L v d /\ forall s, oks L v s -> P L d s == leaf_post l e v s) vs (snd r))
              (filter (positive e) ls) rows.
  Proof.
    intros vs e ls Ee V. induction ls as [|l ls IH]; intro I; cbn [posterior_loop filter]; [exists []; split; [reflexivity|constructor]|].
    destruct IH as (rows & Er & R); [intros; apply I; right; assumption|]. pose proof (I l (or_introl eq_refl)) as Il.
    destruct (tree_leaf J L Pr Su l Il) as [Pl Sl]. unfold positive at 1, Qltb.
    destruct (leaf_likelihood_ok L n l Pl Sl J eq_refl e 1 (proj2 Ee)) as [[Z ->]|[Pos (x & -> & X)]]; cbn [bind].
    - rewrite Er. exists rows. split; [reflexivity|]. destruct (Qltb_spec 0 (leaf_prob L (l_dists l) e)) as [B|B]; [lra|exact R].
    - destruct (Qltb_spec 0 (leaf_prob L (l_dists l) e)) as [B|B]; [|contradiction].
      destruct (mapM_all _ _ (leaf_posterior J l e) (fun v d => okd L v d /\ forall s, oks L v s -> P L d s == leaf_post l e v s) vs) as (ds & -> & Rd).
      { intros v Iv. destruct (leaf_posterior_ok l e v Il Ee (V v Iv) Pos) as (d & E & O & H). eauto. }
      cbn [bind]. rewrite Er. cbn [bind]. eexists. split; [reflexivity|]. constructor; [|exact R]. cbn [fst snd]. split; [rewrite X; ring|exact Rd].
  Qed.

  Lemma column_ok : forall (ls : list (leaf F)) (vs : list var) e rows k v,
    Forall2 (fun l r => fst r == leaf_prob L (l_dists l) e * l_prior l /\
                        Forall2 (fun v d => okd L v d /\ forall s, oks L v s -> P L d s == leaf_post l e v s) vs (snd r)) ls rows ->
    nth_error vs k = Some v ->
    Forall2 (fun l d => okd L v d /\ forall s, oks L v s -> P L d s == leaf_post l e v s) ls (column rows k).
  Proof.
    intros ls vs e rows k v R Hv. unfold column. induction R as [|l r ls rows [_ Rl] R IH]; [constructor|].
    cbn [flat_map]. destruct (Forall2_nth _ _ _ _ _ k v Rl Hv) as (d & E & H). rewrite E. cbn [app]. constructor; [exact H|exact IH].
  Qed.

  Lemma sum_rows : forall e ls, event L n e -> Permutation ls (filter (fun l => compatb e (l_path l)) (leaves J)) -> forall (f : leaf F -> Q),
    Qsum (map (fun l => leaf_prob L (l_dists l) e * l_prior l * f l) (filter (positive e) ls)) ==
    Qsum (map (fun l => l_prior l * leaf_prob L (l_dists l) e * f l) (leaves J)).
  Proof.
    intros e ls Ee Pm f. rewrite Qsum_filter.
    rewrite (Qsum_map_perm _ _ _ _ Pm), Qsum_filter. apply Qsum_map_ext. intros l I. destruct (tree_leaf J L Pr Su l I) as [Pl Sl].
    unfold positive, Qltb. pose proof (leaf_prob_nonneg L n l Pl e (proj2 Ee)) as N.
    destruct (compatb e (l_path l)) eqn:C.
    - destruct (Qltb_spec 0 (leaf_prob L (l_dists l) e)) as [B|B]; [ring|]. assert (leaf_prob L (l_dists l) e == 0) as -> by lra. ring.
    - rewrite (incompatible_zero L n l Pl Sl e Ee C). ring.
  Qed.

  Theorem posterior_spec : forall (vs : list var) e fail, event L n e -> (forall v, In v vs -> (v < n)%nat) ->
    (mixture J L e == 0 -> posterior J vs e fail = if fail then Err Unsatisfiability else Ok None) /\
    (0 < mixture J L e -> exists ds, posterior J vs e fail = Ok (Some (combine vs ds)) /\
       Forall2 (fun v d => okd L v d /\ forall s, oks L v s ->
         P L d s == Qsum (map (fun l => l_prior l * leaf_prob L (l_dists l) e * leaf_post l e v s) (leaves J)) / mixture J L e) vs ds).
  Proof.
    intros vs e fail Ee V. unfold posterior. rewrite (event_known J L e Ee). cbn [negb].
    destruct (apply_perm J e T (event_known J L e Ee)) as (ls & -> & Pm). cbn [bind].
    destruct (posterior_loop_ok vs e ls Ee V) as (rows & -> & R).
    { intros l I. apply (Permutation_in _ Pm) in I. apply filter_In in I. apply I. }
    cbn [bind].
    assert (Lp : forall l, In l (filter (positive e) ls) -> In l (leaves J)).
    { intros l I. apply filter_In in I. destruct I as [I _]. apply (Permutation_in _ Pm) in I. apply filter_In in I. apply I. }
    assert (Wn : Forall (fun x => 0 <= x) (map fst rows)).
    { clear Pm V. apply Forall_forall. intros x I. apply in_map_iff in I. destruct I as (r & <- & I).
      revert I. induction R as [|l r' lss rows [E _] R IH]; intros []; [subst r'; rewrite E|apply IH; [intros; apply Lp; right; assumption|assumption]].
      destruct (tree_leaf J L Pr Su l (Lp l (or_introl eq_refl))) as [Pl _]. apply Qmult_le_0_compat; [apply (leaf_prob_nonneg L n l Pl e (proj2 Ee))|apply Pl]. }
    assert (Sf : forall (f : leaf F -> Q) , Qsum (map (fun lr => fst (snd lr) * f (fst lr)) (combine (filter (positive e) ls) rows)) ==
                 Qsum (map (fun l => l_prior l * leaf_prob L (l_dists l) e * f l) (leaves J))).
    { intro f. rewrite <- (sum_rows e ls Ee Pm f). clear Wn Lp. induction R as [|l r lss rows [E _] R IH]; cbn [combine map Qsum]; [reflexivity|]. cbn [fst snd]. rewrite E, IH. reflexivity. }
    assert (Sw : Qsum (map fst rows) == mixture J L e).
    { transitivity (Qsum (map (fun lr => fst (snd lr) * 1) (combine (filter (positive e) ls) rows))).
      - clear Sf Wn Lp. induction R as [|l r lss rows [E _] R IH]; cbn [combine map Qsum]; [reflexivity|]. cbn [fst snd]. rewrite IH. ring.
      - rewrite (Sf (fun _ => 1)). apply Qsum_map_ext. intros. ring. }
    split; intro M.
    - rewrite (normalized_zero _ Wn); [destruct fail; reflexivity|]. rewrite Sw. exact M.
    - destruct (normalized_pos _ Wn) as (ws & -> & W1 & W2 & W3); [rewrite Sw; exact M|]. cbv beta iota.
      set (R' := fun (k : nat) (d : dist F) => forall v, nth_error vs k = Some v -> okd L v d /\ forall s, oks L v s ->
         P L d s == Qsum (map (fun l => l_prior l * leaf_prob L (l_dists l) e * leaf_post l e v s) (leaves J)) / mixture J L e).
      destruct (mapM_all _ _ (fun k => d_merge F (column rows k) ws) R' (seq 0 (length vs))) as (ds & Eds & Rd).
      { intros k Ik. apply in_seq in Ik. destruct (nth_error vs k) as [v|] eqn:Hv; [|apply nth_error_None in Hv; lia].
        pose proof (column_ok _ vs e rows k v R Hv) as C.
        assert (Lc : length (column rows k) = length ws).
        { rewrite <- (Forall2_len _ _ _ _ _ C), (Forall2_len _ _ _ _ _ R), <- (Forall2_len _ _ _ _ _ W3), map_length. reflexivity. }
        destruct (merge_ok _ L v (column rows k) ws) as (d & Em & Od & H); [| exact Lc | |exact W2|exact W1|].
        - intro N. rewrite N in Lc. destruct ws; [|discriminate]. cbn in W1. lra.
        - clear -C. induction C as [|l0 d0 ls0 ds0 [O _] C IH]; constructor; assumption.
        - exists d. split; [exact Em|]. unfold R'. rewrite Hv. intros v' E. inversion E; subst v'. split; [exact Od|]. intros s Os. rewrite (H s Os).
          rewrite <- (Sf (fun l => leaf_post l e v s)). rewrite <- Qsum_map_div.
          clear - C R W3 Sw Os Hv. set (s0 := Qsum (map fst rows)) in *. clearbody s0.
          revert rows ws R C W3. induction (filter (positive e) ls) as [|l lss IH]; intros rows ws R C W3; inversion R as [|? r ? rows' [E1 Rl] R']; subst; [reflexivity|].
          destruct (Forall2_nth _ _ _ _ _ k v Rl Hv) as (d' & En & _ & _).
          assert (c : column (r :: rows') k = d' :: column rows' k) by (unfold column; cbn [flat_map]; rewrite En; reflexivity).
          rewrite c in *. inversion C as [|? ? ? ? [O H] C']; subst. inversion W3 as [|? w ? ws' E3 W3']; subst.
          cbn [combine map Qsum fst snd]. rewrite (IH rows' ws' R' C' W3'), (H s Os), E3, Sw.
          apply Qplus_comp; [|reflexivity]. unfold Qdiv. ring. }
      rewrite Eds. cbn [bind]. exists ds. split; [reflexivity|]. apply Forall2_len in Rd as Ld. rewrite seq_length in Ld.
      clear - Rd Ld. assert (G : forall k v d, nth_error vs k = Some v -> nth_error ds k = Some d -> R' k d).
      { intros k v d Hv Hd. assert (nth_error (seq 0 (length vs)) k = Some k) as Hk.
        { assert (k < length vs)%nat by (apply nth_error_Some; congruence). rewrite nth_error_nth' with (d := O) by (rewrite seq_length; exact H). rewrite seq_nth by exact H. reflexivity. }
        destruct (Forall2_nth _ _ _ _ _ k k Rd Hk) as (d0 & E & H). assert (Ed : Some d0 = Some d) by (etransitivity; [symmetry; exact E|exact Hd]). inversion Ed; subst. exact H. }
      assert (G2 : forall k v d, nth_error vs k = Some v -> nth_error ds k = Some d -> okd L v d /\ forall s, oks L v s ->
         P L d s == Qsum (map (fun l => l_prior l * leaf_prob L (l_dists l) e * leaf_post l e v s) (leaves J)) / mixture J L e).
      { intros k v d Hv Hd. apply (G k v d Hv Hd v Hv). }
      clear - G2 Ld. revert ds Ld G2. induction vs as [|v vs IH]; intros [|d ds] Ld G2; cbn in Ld; try discriminate; constructor.
      + apply (G2 O); reflexivity.
      + apply IH; [lia|]. intros k v' d' Hv Hd. apply (G2 (S k)); assumption.
  Qed.

  (** ** Agreement with the mixture *)

  (** Replace the event of [v] in [e] by its intersection with [s]. *)
  Definition narrow (e : assignment F) (v : var) (s : vset F) : assignment F :=
    map (fun we => if Nat.eqb (fst we) v then (fst we, inter F s (snd we)) else we) e.

  Lemma narrow_other : forall e v s (ds : list (dist F)), ~ In v (keys e) -> leaf_prob L ds (narrow e v s) == leaf_prob L ds e.
  Proof.
    induction e as [|[w se] e IH]; intros v s ds N; [reflexivity|]. cbn in N. cbn [narrow map fst snd]. fold (narrow e v s).
    destruct (Nat.eqb_spec w v) as [->|]; [exfalso; apply N; auto|]. cbn [leaf_prob]. rewrite IH by tauto. reflexivity.
  Qed.

  Lemma narrow_prob : forall e v s ev l d, event L n e -> proper_leaf L n l -> In (v, ev) e -> oks L v s -> nth_error (l_dists l) v = Some d ->
    leaf_prob L (l_dists l) e * (P L d (inter F s ev) / P L d ev) == leaf_prob L (l_dists l) (narrow e v s).
  Proof.
    intros e v s ev l d [N Fe] Pl I Os Hd.
    pose proof (proj1 (Forall_forall _ _) Fe (v, ev) I) as [V Oe]. cbn in V, Oe. destruct Pl as (_ & Okd & _). pose proof (Okd v d Hd) as Od. clear Okd.
    induction e as [|[w se] e IH]; [destruct I|]. cbn in N. inversion N as [|? ? Nw N']; subst. cbn [narrow map fst snd]. fold (narrow e v s). destruct I as [E|I].
    - inversion E; subst. rewrite Nat.eqb_refl. cbn [leaf_prob]. rewrite Hd. rewrite (narrow_other e v s (l_dists l) Nw).
      pose proof (P_nonneg _ L v d ev Od Oe). destruct (Qeqb_spec (P L d ev) 0) as [Z|Z].
      + assert (P L d (inter F s ev) == 0) as ->.
        { rewrite (P_comm _ L v d s ev Od Os Oe). pose proof (P_le _ L v d ev s Od Oe Os). pose proof (P_nonneg _ L v d _ Od (oks_inter _ L v ev s Oe Os)). lra. }
        rewrite Z. ring.
      + field. exact Z.
    - assert (w <> v). { intros ->. apply Nw. change v with (fst (v, ev)). apply in_map, I. }
      destruct (Nat.eqb_spec w v); [contradiction|]. cbn [leaf_prob]. rewrite <- (IH N' (Forall_inv_tail Fe) I). ring.
  Qed.
End Posterior.
