(** [posterior] from the probabilities of the evidence alone: the weights of the leaves
    and the merged columns, for families which are only [measured].  Used for trees with
    numeric variables, where restricting and merging are exact only under conditions. *)
Require Import ZArith QArith Qabs Lqa Bool List Arith Lia Permutation.
Require Import Verif.Base Verif.NumBase Verif.UtilModel Verif.TreeModel Verif.TreeSpec Verif.TreeApply Verif.TreeInfer Verif.TreePosterior.
Import ListNotations.
Open Scope Q_scope.

Section Rows.
  Context {F : family}.
  Variable J : jpt F.
  Variable L : measured (full J).
  Hypothesis T : tree_ok J.
  Hypothesis Pr : proper_tree J L.
  Hypothesis Su : supported_tree J L.
  Notation n := (n_vars J).
  Variable vs : list var.
  Variable e : assignment F.
  Hypothesis Ee : event L n e.
  (* the likelihood of the evidence is its probability *)
  Hypothesis Like : forall l v s d, In l (leaves J) -> In (v, s) e -> nth_error (l_dists l) v = Some d ->
    exists y, d_like F d (restrict J l v s) = Ok y /\ y == P L d (restrict J l v s).
  (* what a leaf contributes to a variable *)
  Variable R : leaf F -> var -> dist F -> Prop.
  Hypothesis Post : forall l v, In l (leaves J) -> In v vs -> 0 < leaf_prob L (l_dists l) e -> exists d, leaf_posterior J l e v = Ok d /\ R l v d.

  Definition counts (l : leaf F) : bool := Qltb 0 (leaf_prob L (l_dists l) e).

  Lemma like_loop : forall l, In l (leaves J) -> forall q x, (forall c, In c q -> In c e) ->
    (leaf_prob L (l_dists l) q == 0 /\ leaf_likelihood J l q x = Ok None) \/
    (0 < leaf_prob L (l_dists l) q /\ exists r, leaf_likelihood J l q x = Ok (Some r) /\ r == x * leaf_prob L (l_dists l) q).
  Proof.
    intros l Il. destruct (tree_leaf J L Pr Su l Il) as [Pl Sl].
    induction q as [|[v s] q IH]; intros x H; cbn [leaf_likelihood leaf_prob]; [right; split; [lra|exists x; split; [reflexivity|ring]]|].
    pose proof (H _ (or_introl eq_refl)) as I. destruct Ee as [_ Fe]. rewrite Forall_forall in Fe. destruct (Fe _ I) as [V Os]. cbn [fst snd] in V, Os.
    destruct (pl_dist L n l Pl v V) as (d & Hd & Od).
    unfold leaf_dist. rewrite Hd. cbn [bind]. destruct (Like l v s d Il I Hd) as (y & -> & Y). cbn [bind].
    rewrite (restrict_prob L n l Pl Sl J eq_refl v d s Hd Os) in Y. destruct (Qeqb_spec y 0) as [Z|Z].
    - left. split; [|reflexivity]. rewrite <- Y, Z. ring.
    - assert (0 < P L d s) as Pos. { pose proof (P_nonneg _ L v d s Od Os). rewrite <- Y in *. lra. }
      destruct (IH (x * y)) as [[Z' ->]|[Pos' (r & -> & Rr)]]; [intros; apply H; right; assumption| |].
      + left. split; [rewrite Z'; ring|reflexivity].
      + right. split; [apply Qmult_lt_0_compat; assumption|]. exists r. split; [reflexivity|]. rewrite Rr, Y. ring.
  Qed.

  Lemma rows_ok : forall ls, (forall l, In l ls -> In l (leaves J)) ->
    exists rows, posterior_loop J vs e ls = Ok rows /\
      Forall2 (fun l r => fst r == leaf_prob L (l_dists l) e * l_prior l /\ Forall2 (R l) vs (snd r)) (filter counts ls) rows.
  Proof.
    induction ls as [|l ls IH]; intro I; cbn [posterior_loop filter]; [exists []; split; [reflexivity|constructor]|].
    destruct IH as (rows & Er & Rr); [intros; apply I; right; assumption|]. pose proof (I l (or_introl eq_refl)) as Il.
    unfold counts at 1, Qltb.
    destruct (like_loop l Il e 1 (fun c H => H)) as [[Z ->]|[Pos (x & -> & X)]]; cbn [bind].
    - rewrite Er. exists rows. split; [reflexivity|]. destruct (Qltb_spec 0 (leaf_prob L (l_dists l) e)) as [B|B]; [lra|exact Rr].
    - destruct (Qltb_spec 0 (leaf_prob L (l_dists l) e)) as [B|B]; [|contradiction].
      destruct (mapM_all _ _ (leaf_posterior J l e) (R l) vs) as (ds & -> & Rd).
      { intros v Iv. exact (Post l v Il Iv Pos). }
      cbn [bind]. rewrite Er. cbn [bind]. eexists. split; [reflexivity|]. constructor; [|exact Rr]. cbn [fst snd]. split; [rewrite X; ring|exact Rd].
  Qed.

  Lemma column_R : forall (ls : list (leaf F)) rows k v,
    Forall2 (fun l r => fst r == leaf_prob L (l_dists l) e * l_prior l /\ Forall2 (R l) vs (snd r)) ls rows ->
    nth_error vs k = Some v -> Forall2 (fun l d => R l v d) ls (column rows k).
  Proof.
    intros ls rows k v Rr Hv. unfold column. induction Rr as [|l r ls rows [_ Rl] Rr IH]; [constructor|].
    cbn [flat_map]. destruct (Forall2_nth _ _ _ _ _ k v Rl Hv) as (d & E & H). rewrite E. cbn [app]. constructor; [exact H|exact IH].
  Qed.

  Lemma sum_counts : forall ls, Permutation ls (filter (fun l => compatb e (l_path l)) (leaves J)) -> forall (f : leaf F -> Q),
    Qsum (map (fun l => leaf_prob L (l_dists l) e * l_prior l * f l) (filter counts ls)) ==
    Qsum (map (fun l => l_prior l * leaf_prob L (l_dists l) e * f l) (leaves J)).
  Proof.
    intros ls Pm f. rewrite Qsum_filter.
    rewrite (Qsum_map_perm _ _ _ _ Pm), Qsum_filter. apply Qsum_map_ext. intros l I. destruct (tree_leaf J L Pr Su l I) as [Pl Sl].
    unfold counts, Qltb. pose proof (leaf_prob_nonneg L n l Pl e (proj2 Ee)) as N.
    destruct (compatb e (l_path l)) eqn:C.
    - destruct (Qltb_spec 0 (leaf_prob L (l_dists l) e)) as [B|B]; [ring|]. assert (leaf_prob L (l_dists l) e == 0) as -> by lra. ring.
    - rewrite (incompatible_zero L n l Pl Sl e Ee C). ring.
  Qed.

  (* what merging yields *)
  Variable Good : var -> dist F -> Prop.
  Hypothesis Merge : forall v ls ds ws, In v vs -> ls <> [] -> (forall l, In l ls -> In l (leaves J) /\ 0 < leaf_prob L (l_dists l) e) ->
    Forall2 (fun l d => R l v d) ls ds -> length ls = length ws -> Forall (fun w => 0 <= w) ws -> Qsum ws == 1 ->
    (forall f : leaf F -> Q, Qsum (map (fun lw => snd lw * f (fst lw)) (combine ls ws)) ==
       Qsum (map (fun l => l_prior l * leaf_prob L (l_dists l) e * f l) (leaves J)) / mixture J L e) ->
    (forall l, In l (leaves J) -> 0 < leaf_prob L (l_dists l) e -> In l ls) ->
    Forall2 (fun l w => w == l_prior l * leaf_prob L (l_dists l) e / mixture J L e) ls ws ->
    exists d, d_merge F ds ws = Ok d /\ Good v d.

  Theorem posterior_rows : forall fail,
    (mixture J L e == 0 -> posterior J vs e fail = if fail then Err Unsatisfiability else Ok None) /\
    (0 < mixture J L e -> exists ds, posterior J vs e fail = Ok (Some (combine vs ds)) /\ Forall2 Good vs ds).
  Proof.
    intro fail. unfold posterior. rewrite (event_known J L e Ee). cbn [negb].
    destruct (apply_perm J e T (event_known J L e Ee)) as (ls & -> & Pm). cbn [bind].
    assert (Lp0 : forall l, In l ls -> In l (leaves J)).
    { intros l I. apply (Permutation_in _ Pm) in I. apply filter_In in I. apply I. }
    destruct (rows_ok ls Lp0) as (rows & -> & Rr).
    cbn [bind].
    assert (Lp : forall l, In l (filter counts ls) -> In l (leaves J) /\ 0 < leaf_prob L (l_dists l) e).
    { intros l I. apply filter_In in I. destruct I as [I C]. split; [apply Lp0, I|]. unfold counts, Qltb in C. destruct (Qltb_spec 0 (leaf_prob L (l_dists l) e)); [assumption|discriminate]. }
    assert (Wn : Forall (fun x => 0 <= x) (map fst rows)).
    { clear Pm. apply Forall_forall. intros x I. apply in_map_iff in I. destruct I as (r & <- & I).
      revert I. induction Rr as [|l r' lss rows [E _] Rr IH]; intros []; [subst r'; rewrite E|apply IH; [intros; apply Lp; right; assumption|assumption]].
      destruct (Lp l (or_introl eq_refl)) as [Il _]. destruct (tree_leaf J L Pr Su l Il) as [Pl _]. apply Qmult_le_0_compat; [apply (leaf_prob_nonneg L n l Pl e (proj2 Ee))|apply Pl]. }
    assert (Sf : forall (f : leaf F -> Q) , Qsum (map (fun lr => fst (snd lr) * f (fst lr)) (combine (filter counts ls) rows)) ==
                 Qsum (map (fun l => l_prior l * leaf_prob L (l_dists l) e * f l) (leaves J))).
    { intro f. rewrite <- (sum_counts ls Pm f). clear Wn Lp. induction Rr as [|l r lss rows [E _] Rr IH]; cbn [combine map Qsum]; [reflexivity|]. cbn [fst snd]. rewrite E, IH. reflexivity. }
    assert (Sw : Qsum (map fst rows) == mixture J L e).
    { transitivity (Qsum (map (fun lr => fst (snd lr) * 1) (combine (filter counts ls) rows))).
      - clear Sf Wn Lp. induction Rr as [|l r lss rows [E _] Rr IH]; cbn [combine map Qsum]; [reflexivity|]. cbn [fst snd]. rewrite IH. ring.
      - rewrite (Sf (fun _ => 1)). apply Qsum_map_ext. intros. ring. }
    split; intro M.
    - rewrite (normalized_zero _ Wn); [destruct fail; reflexivity|]. rewrite Sw. exact M.
    - destruct (normalized_pos _ Wn) as (ws & -> & W1 & W2 & W3); [rewrite Sw; exact M|]. cbv beta iota.
      assert (Lw : length (filter counts ls) = length ws).
      { rewrite (Forall2_len _ _ _ _ _ Rr), <- (Forall2_len _ _ _ _ _ W3), map_length. reflexivity. }
      destruct (mapM_all _ _ (fun k => d_merge F (column rows k) ws) (fun k d => forall v, nth_error vs k = Some v -> Good v d) (seq 0 (length vs))) as (ds & Eds & Rd).
      { intros k Ik. apply in_seq in Ik. destruct (nth_error vs k) as [v|] eqn:Hv; [|apply nth_error_None in Hv; lia].
        destruct (Merge v (filter counts ls) (column rows k) ws) as (d & Em & Gd); [eapply nth_error_In; exact Hv| |exact Lp|exact (column_R _ rows k v Rr Hv)|exact Lw|exact W2|exact W1| | | |].
        - intro N. rewrite N in Lw. destruct ws; [|discriminate]. cbn in W1. lra.
        - intro f. rewrite <- Sf, <- Qsum_map_div. clear - W3 Sw Rr Lw. set (s0 := Qsum (map fst rows)) in *. clearbody s0.
          revert ws W3 Lw. induction Rr as [|l r lss rows _ Rr IH]; intros ws W3 Lw; [reflexivity|]. inversion W3 as [|? w ? ws' E3 W3']; subst.
          cbn [combine map Qsum fst snd]. rewrite (IH ws' W3' ltac:(cbn in Lw; lia)), E3, Sw. apply Qplus_comp; [|reflexivity]. unfold Qdiv. ring.
        - intros l Il Pos. apply filter_In. split.
          + apply (Permutation_in _ (Permutation_sym Pm)). apply filter_In. split; [exact Il|]. destruct (compatb e (l_path l)) eqn:C; [reflexivity|]. exfalso.
            destruct (tree_leaf J L Pr Su l Il) as [Pl Sl]. rewrite (incompatible_zero L n l Pl Sl e Ee C) in Pos. lra.
          + unfold counts, Qltb. destruct (Qltb_spec 0 (leaf_prob L (l_dists l) e)); [reflexivity|contradiction].
        - clear - W3 Sw Rr Lw. set (s0 := Qsum (map fst rows)) in *. clearbody s0.
          revert ws W3 Lw. induction Rr as [|l r lss rows [Er _] Rr IH]; intros ws W3 Lw; inversion W3 as [|? w ? ws' E3 W3']; subst; constructor; [|apply (IH ws' W3' ltac:(cbn in Lw; lia))].
          rewrite E3, Er, Sw. unfold Qdiv. ring.
        - exists d. split; [exact Em|]. intros v' E. inversion E; subst. exact Gd. }
      rewrite Eds. cbn [bind]. exists ds. split; [reflexivity|]. apply Forall2_len in Rd as Ld. rewrite seq_length in Ld.
      assert (G2 : forall k v d, nth_error vs k = Some v -> nth_error ds k = Some d -> Good v d).
      { intros k v d Hv Hd. assert (nth_error (seq 0 (length vs)) k = Some k) as Hk.
        { assert (k < length vs)%nat by (apply nth_error_Some; congruence). rewrite nth_error_nth' with (d := O) by (rewrite seq_length; exact H). rewrite seq_nth by exact H. reflexivity. }
        destruct (Forall2_nth _ _ _ _ _ k k Rd Hk) as (d0 & E & H). assert (Ed : Some d0 = Some d) by (etransitivity; [symmetry; exact E|exact Hd]). inversion Ed; subst. exact (H v Hv). }
      clear - G2 Ld. revert ds Ld G2. generalize vs as us. induction us as [|v us IH]; intros [|d ds] Ld G2; cbn in Ld; try discriminate; constructor.
      + apply (G2 O); reflexivity.
      + apply IH; [lia|]. intros k v' d' Hv Hd. apply (G2 (S k)); assumption.
  Qed.
End Rows.
