(** [infer] computes conditional probabilities of the mixture. *)
Require Import QArith Qabs Lqa Bool List Arith Lia Permutation.
Require Import Verif.Base Verif.NumBase Verif.UtilModel Verif.UtilProofs Verif.UtilProps Verif.TreeModel Verif.TreeSpec Verif.TreeApply.
Import ListNotations.
Open Scope Q_scope.

Lemma normalized_zero : forall l, Forall (fun x => 0 <= x) l -> Qsum l == 0 -> normalized l false false 0 = Err ValueError.
Proof.
  intros l P Z. unfold normalized. assert (forallb (fun e => Qle_bool 0 e) l = true) as ->.
  { apply forallb_forall. intros x I. apply Qle_bool_iff. rewrite Forall_forall in P. auto. }
  cbn [negb andb]. assert (A : Qsum (map Qabs l) == 0).
  { rewrite <- Z, <- (map_id l) at 1. rewrite map_map. rewrite <- (map_id l) at 2. apply Qsum_map_ext. intros x I. rewrite Forall_forall in P. apply Qabs_pos, P, I. }
  cbn [normalize_loop]. destruct (Qeqb_spec (Qsum (map Qabs l)) 0); [reflexivity|contradiction].
Qed.

Lemma normalized_pos : forall l, Forall (fun x => 0 <= x) l -> 0 < Qsum l ->
  exists r, normalized l false false 0 = Ok r /\ Qsum r == 1 /\ Forall (fun x => 0 <= x) r /\ Forall2 (fun w y => y == w / Qsum l) l r.
Proof.
  intros l P S. destruct (normalized l false false 0) as [r|e] eqn:E.
  - destruct (C48_normalized_sum l false false r P S E) as [S1 F2]. exists r. split; [reflexivity|]. split; [exact S1|].
    assert (F3 : Forall2 (fun w y => y == w / Qsum l) l r).
    { set (s := Qsum l) in *. clearbody s. clear - F2 S. induction F2 as [|w y l r H F2 IH]; constructor; [|exact IH]. rewrite <- H. field. lra. }
    split; [|exact F3]. set (s := Qsum l) in *. clearbody s. clear - F3 S P. induction F3 as [|w y l r H F3 IH]; constructor.
    + rewrite H. apply Forall_inv in P. apply Qle_shift_div_l; [exact S|]. lra.
    + apply IH. apply Forall_inv_tail in P. exact P.
  - exfalso. destruct (proj1 (normalized_raises l false false)) as [[_ (x & I & N)]|[_ Z]]; [eauto| |].
    + rewrite Forall_forall in P. specialize (P x I). lra.
    + destruct (Qsum_pos_ex l S) as (x & I & X). specialize (Z x I). lra.
Qed.

Lemma Qsum_map_perm : forall A (f : A -> Q) a b, Permutation a b -> Qsum (map f a) == Qsum (map f b).
Proof. intros. apply Qsum_perm, Permutation_map; assumption. Qed.

Section PathGet.
  Context {F : family}.
  Variable fl : var -> vset F.

  Definition path_step (v : var) (acc : option (vset F)) (vs : var * vset F) : option (vset F) :=
    if Nat.eqb (fst vs) v then Some (inter F (match acc with Some a => a | None => fl v end) (snd vs)) else acc.
  Lemma path_get_fold : forall p v, path_get fl p v = fold_left (path_step v) p None.
  Proof. reflexivity. Qed.

  Lemma path_fold_inv : forall (Q : vset F -> Prop) v p acc,
    Q (fl v) -> (forall a s, Q a -> In (v, s) p -> Q (inter F a s)) ->
    match acc with Some a => Q a | None => True end ->
    match fold_left (path_step v) p acc with Some a => Q a | None => True end.
  Proof.
    intros Q v p. induction p as [|[v' s] p IH]; intros acc H0 H1 Ha; [exact Ha|]. cbn [fold_left]. apply IH; [exact H0|intros; apply H1; [assumption|right; assumption]|].
    unfold path_step. cbn [fst snd]. destruct (Nat.eqb_spec v' v) as [->|]; [|exact Ha]. apply H1; [destruct acc; assumption|left; reflexivity].
  Qed.

  Lemma path_get_none : forall p v, path_get fl p v = None <-> ~ In v (keys p).
  Proof.
    intros p v. rewrite path_get_fold.
    assert (G : forall p acc, fold_left (path_step v) p acc = None <-> acc = None /\ ~ In v (keys p)).
    { clear p. induction p as [|[v' s] p IH]; intro acc; cbn [fold_left keys map In]; [tauto|]. rewrite IH. unfold path_step. cbn [fst snd].
      destruct (Nat.eqb_spec v' v) as [E|E].
      - split; [intros [H _]; discriminate|]. intros [_ H]. exfalso. apply H. left; exact E.
      - fold (@keys (vset F)). unfold keys. tauto. }
    rewrite G. tauto.
  Qed.
End PathGet.

Section Lemmas.
  Context {F : family}.

  Lemma lookup_in : forall A (q : list (var * A)) v s, lookup q v = Some s -> In (v, s) q.
  Proof.
    intros A q v s. induction q as [|[v' s'] q IH]; cbn; [discriminate|]. destruct (Nat.eqb_spec v' v) as [->|]; [intro H; inversion H; left; reflexivity|right; auto].
  Qed.
  Lemma in_lookup : forall A (q : list (var * A)) v s, NoDup (keys q) -> In (v, s) q -> lookup q v = Some s.
  Proof.
    intros A q v s. induction q as [|[v' s'] q IH]; intros N I; [destruct I|]. cbn in *. inversion N as [|? ? Nv N']; subst. destruct I as [E|I].
    - inversion E; subst. rewrite Nat.eqb_refl. reflexivity.
    - destruct (Nat.eqb_spec v' v) as [->|]; [|auto]. exfalso. apply Nv. change v with (fst (v, s)). apply in_map, I.
  Qed.
  Lemma lookup_none : forall A (q : list (var * A)) v, lookup q v = None <-> ~ In v (keys q).
  Proof.
    intros A q v. induction q as [|[v' s'] q IH]; cbn; [tauto|]. destruct (Nat.eqb_spec v' v) as [->|]; [split; [discriminate|tauto]|]. rewrite IH. unfold keys. tauto.
  Qed.

  Context {fl : var -> vset F} (L : measured fl).
  Variable n : nat.
  Variable l : leaf F.
  Hypothesis Pl : proper_leaf L n l.
  Hypothesis Sl : supported_leaf L l.

  Lemma pl_dist : forall v, (v < n)%nat -> exists d, nth_error (l_dists l) v = Some d /\ okd L v d.
  Proof.
    intros v H. destruct Pl as (Len & Ok_ & _). destruct (nth_error (l_dists l) v) as [d|] eqn:E; [exists d; split; [reflexivity|apply Ok_; exact E]|].
    apply nth_error_None in E. lia.
  Qed.

  Lemma path_sure : forall v d p, nth_error (l_dists l) v = Some d -> path_get fl (l_path l) v = Some p -> oks L v p /\ P L d p == 1.
  Proof.
    intros v d p Hd Hp. destruct Pl as (Len & Okd & _ & Pth). pose proof (Okd v d Hd) as Od.
    pose proof (path_fold_inv fl (fun a => oks L v a /\ P L d a == 1) v (l_path l) None) as H.
    rewrite <- path_get_fold, Hp in H. apply H; [split; [apply oks_full|apply (P_full _ L v); exact Od]| |exact I].
    intros a s [Oa Pa] Is. destruct (Pth v s Is) as [_ Os]. split; [apply oks_inter; assumption|].
    rewrite (P_sure _ L v d a s Od Oa Os); [exact Pa|]. apply (Sl v d s Hd Is).
  Qed.

  Lemma restrict_event : forall J, full J = fl -> forall v s, oks L v s -> (v < n)%nat -> oks L v (restrict J l v s).
  Proof.
    intros J E v s Os V. unfold restrict. rewrite E. destruct (path_get fl (l_path l) v) as [p|] eqn:Hp; [|exact Os].
    apply oks_inter; [exact Os|]. destruct (pl_dist v V) as (d & Hd & _). apply (path_sure v d p Hd Hp).
  Qed.

  Lemma restrict_prob : forall J, full J = fl -> forall v d s, nth_error (l_dists l) v = Some d -> oks L v s -> P L d (restrict J l v s) == P L d s.
  Proof.
    intros J E v d s Hd Os. unfold restrict. rewrite E. destruct (path_get fl (l_path l) v) as [p|] eqn:Hp; [|reflexivity].
    destruct (path_sure v d p Hd Hp) as [Op Pp]. destruct Pl as (_ & Okd & _). apply (P_sure _ L v d s p (Okd v d Hd) Os Op Pp).
  Qed.

  Lemma leaf_prob_nonneg : forall q, Forall (fun vs => (fst vs < n)%nat /\ oks L (fst vs) (snd vs)) q -> 0 <= leaf_prob L (l_dists l) q.
  Proof.
    induction q as [|[v s] q IH]; intro H; cbn [leaf_prob]; [lra|]. destruct (Forall_inv H) as [V Os]. cbn [fst snd] in V, Os.
    destruct (pl_dist v V) as (d & Hd & Od). rewrite Hd. apply Qmult_le_0_compat; [apply (P_nonneg _ L v d s Od Os)|]. apply IH. apply Forall_inv_tail in H. exact H.
  Qed.

  Lemma P_le1 : forall v d s, okd L v d -> oks L v s -> P L d s <= 1.
  Proof.
    intros v d s Od Os. rewrite <- (P_full _ L v d Od). rewrite <- (P_sure _ L v d s (fl v) Od Os (oks_full _ L v) (P_full _ L v d Od)).
    rewrite (P_comm _ L v d s (fl v) Od Os (oks_full _ L v)). apply (P_le _ L v); [exact Od|apply oks_full|exact Os].
  Qed.

  Lemma leaf_prob_le1 : forall q, Forall (fun vs => (fst vs < n)%nat /\ oks L (fst vs) (snd vs)) q -> leaf_prob L (l_dists l) q <= 1.
  Proof.
    induction q as [|[v s] q IH]; intro H; cbn [leaf_prob]; [lra|]. destruct (Forall_inv H) as [V Os]. cbn [fst snd] in V, Os. apply Forall_inv_tail in H.
    destruct (pl_dist v V) as (d & Hd & Od). rewrite Hd. pose proof (P_nonneg _ L v d s Od Os). pose proof (P_le1 v d s Od Os). specialize (IH H). pose proof (leaf_prob_nonneg q H).
    apply Qle_trans with (1 * leaf_prob L (l_dists l) q); [apply Qmult_le_compat_r; lra|lra].
  Qed.

  Lemma leaf_prob_app : forall q e, leaf_prob L (l_dists l) (q ++ e) == leaf_prob L (l_dists l) q * leaf_prob L (l_dists l) e.
  Proof. induction q as [|[v s] q IH]; intro e; cbn [leaf_prob app]; [lra|]. rewrite IH. ring. Qed.

  Lemma leaf_prob_zero : forall q v s d, In (v, s) q -> nth_error (l_dists l) v = Some d -> P L d s == 0 -> leaf_prob L (l_dists l) q == 0.
  Proof.
    induction q as [|[v' s'] q IH]; intros v s d I Hd Z; [destruct I|]. cbn [leaf_prob]. destruct I as [E|I].
    - inversion E; subst. rewrite Hd, Z. ring.
    - rewrite (IH v s d I Hd Z). ring.
  Qed.

  (** A leaf whose path is incompatible with the event has no mass on it. *)
  Lemma incompatible_zero : forall q, event L n q -> compatb q (l_path l) = false -> leaf_prob L (l_dists l) q == 0.
  Proof.
    intros q [N Fq] C. unfold compatb in C. assert (exists vs, In vs (l_path l) /\ follow q (fst vs) (snd vs) = false) as ([v s] & I & B).
    { destruct (forallb _ (l_path l)) eqn:E in C; [discriminate|]. clear C. induction (l_path l) as [|vs p IH]; cbn in E; [discriminate|].
      destruct (follow q (fst vs) (snd vs)) eqn:B; [|exists vs; split; [left; reflexivity|exact B]]. destruct (IH E) as (vs' & I & B'). exists vs'. split; [right; exact I|exact B']. }
    cbn in B. unfold follow in B. destruct (lookup q v) as [e|] eqn:El; [|discriminate]. destruct (disj F e s) eqn:D; [|discriminate]. clear B.
    apply lookup_in in El. pose proof (proj1 (Forall_forall _ _) Fq (v, e) El) as [V Oe]. cbn in V, Oe.
    destruct (pl_dist v V) as (d & Hd & Od). apply (leaf_prob_zero q v e d El Hd).
    destruct Pl as (_ & _ & _ & Pth). destruct (Pth v s I) as [_ Os].
    rewrite <- (P_sure _ L v d e s Od Oe Os (Sl v d s Hd I)). apply (P_disj _ L v d e s Od Oe Os D).
  Qed.

  Lemma applies_false_zero : forall J, full J = fl -> forall q, event L n q -> applies J l q = false -> leaf_prob L (l_dists l) q == 0.
  Proof.
    intros J E q [N Fq] A. unfold applies in A.
    assert (exists vs, In vs q /\ match path_get (full J) (l_path l) (fst vs) with Some p => negb (disj F p (snd vs)) | None => true end = false) as ([v s] & I & B).
    { clear N Fq. induction q as [|vs q IH]; cbn in A; [discriminate|].
      destruct (match path_get (full J) (l_path l) (fst vs) with Some p => negb (disj F p (snd vs)) | None => true end) eqn:B; [|exists vs; split; [left; reflexivity|exact B]].
      destruct (IH A) as (vs' & I & B'). exists vs'. split; [right; exact I|exact B']. }
    cbn in B. rewrite E in B. destruct (path_get fl (l_path l) v) as [p|] eqn:Hp; [|discriminate]. destruct (disj F p s) eqn:D; [|discriminate]. clear B.
    pose proof (proj1 (Forall_forall _ _) Fq (v, s) I) as [V Os]. cbn in V, Os. destruct (pl_dist v V) as (d & Hd & Od).
    destruct (path_sure v d p Hd Hp) as [Op Pp]. apply (leaf_prob_zero q v s d I Hd).
    rewrite <- (P_sure _ L v d s p Od Os Op Pp), (P_comm _ L v d s p Od Os Op). apply (P_disj _ L v d p s Od Op Os D).
  Qed.

  Lemma mul_p_ok : forall J, full J = fl -> forall q x, Forall (fun vs => (fst vs < n)%nat /\ oks L (fst vs) (snd vs)) q ->
    exists r, mul_p J l q x = Ok r /\ r == x * leaf_prob L (l_dists l) q.
  Proof.
    intros J E. induction q as [|[v s] q IH]; intros x H; cbn [mul_p leaf_prob]; [exists x; split; [reflexivity|ring]|].
    destruct (Forall_inv H) as [V Os]. cbn [fst snd] in V, Os. apply Forall_inv_tail in H. destruct (pl_dist v V) as (d & Hd & Od).
    unfold leaf_dist. rewrite Hd. cbn [bind]. destruct (p_ok _ L v d (restrict J l v s) Od (restrict_event J E v s Os V)) as (y & -> & Y). cbn [bind].
    destruct (IH (x * y) H) as (r & -> & R). exists r. split; [reflexivity|]. rewrite R, Y, (restrict_prob J E v d s Hd Os). ring.
  Qed.
End Lemmas.

Section Lawful.
  Context {F : family} {fl : var -> vset F} (L : lawful fl).
  Variable n : nat.
  Variable l : leaf F.
  Hypothesis Pl : proper_leaf L n l.
  Hypothesis Sl : supported_leaf L l.

  Lemma leaf_probability_ok : forall q x, Forall (fun vs => (fst vs < n)%nat /\ oks L (fst vs) (snd vs)) q ->
    exists r, leaf_probability l q x = Ok r /\ r == x * leaf_prob L (l_dists l) q.
  Proof.
    induction q as [|[v s] q IH]; intros x H; cbn [leaf_probability leaf_prob]; [exists x; split; [reflexivity|ring]|].
    destruct (Forall_inv H) as [V Os]. cbn [fst snd] in V, Os. apply Forall_inv_tail in H. destruct (pl_dist L n l Pl v V) as (d & Hd & Od).
    unfold leaf_dist. rewrite Hd. cbn [bind]. destruct (prob_ok _ L v d s Od Os) as (y & -> & Y). cbn [bind].
    destruct (IH (x * y) H) as (r & -> & R). exists r. split; [reflexivity|]. rewrite R, Y. ring.
  Qed.

  Lemma leaf_likelihood_ok : forall J, full J = fl -> forall q x, Forall (fun vs => (fst vs < n)%nat /\ oks L (fst vs) (snd vs)) q ->
    (leaf_prob L (l_dists l) q == 0 /\ leaf_likelihood J l q x = Ok None) \/
    (0 < leaf_prob L (l_dists l) q /\ exists r, leaf_likelihood J l q x = Ok (Some r) /\ r == x * leaf_prob L (l_dists l) q).
  Proof.
    intros J E. induction q as [|[v s] q IH]; intros x H; cbn [leaf_likelihood leaf_prob]; [right; split; [lra|exists x; split; [reflexivity|ring]]|].
    destruct (Forall_inv H) as [V Os]. cbn [fst snd] in V, Os. apply Forall_inv_tail in H. destruct (pl_dist L n l Pl v V) as (d & Hd & Od).
    unfold leaf_dist. rewrite Hd. cbn [bind]. destruct (like_ok _ L v d (restrict J l v s) Od (restrict_event L n l Pl Sl J E v s Os V)) as (y & -> & Y). cbn [bind].
    rewrite (restrict_prob L n l Pl Sl J E v d s Hd Os) in Y. destruct (Qeqb_spec y 0) as [Z|Z].
    - left. split; [|reflexivity]. rewrite <- Y, Z. ring.
    - assert (0 < P L d s) as Pos. { pose proof (P_nonneg _ L v d s Od Os). rewrite <- Y in *. lra. }
      destruct (IH (x * y) H) as [[Z' ->]|[Pos' (r & -> & R)]].
      + left. split; [rewrite Z'; ring|reflexivity].
      + right. split; [apply Qmult_lt_0_compat; assumption|]. exists r. split; [reflexivity|]. rewrite R, Y. ring.
  Qed.
End Lawful.

Section Infer.
  Context {F : family}.
  Variable J : jpt F.
  Variable L : measured (full J).
  Hypothesis T : tree_ok J.
  Hypothesis Pr : proper_tree J L.
  Hypothesis Su : supported_tree J L.

  Lemma event_known : forall q, event L (n_vars J) q -> known J q = true.
  Proof. intros q [_ H]. apply forallb_forall. intros vs I. apply Nat.ltb_lt. apply (proj1 (Forall_forall _ _) H vs I). Qed.

  Lemma tree_leaf : forall l, In l (leaves J) -> proper_leaf L (n_vars J) l /\ supported_leaf L l.
  Proof. intros l I. split; [apply (proj1 (Forall_forall _ _) Pr l I)|apply (proj1 (Forall_forall _ _) Su l I)]. Qed.

  Lemma infer_loop_ok : forall q e ls pq pe, event L (n_vars J) q -> event L (n_vars J) e -> (forall l, In l ls -> In l (leaves J)) ->
    exists r, infer_loop J q e ls pq pe = Ok r /\
      fst r == pq + Qsum (map (fun l => l_prior l * leaf_prob L (l_dists l) (q ++ e)) ls) /\
      snd r == pe + Qsum (map (fun l => l_prior l * leaf_prob L (l_dists l) e) ls).
  Proof.
    intros q e ls. induction ls as [|l ls IH]; intros pq pe Eq Ee I; cbn [infer_loop map Qsum]; [exists (pq, pe); cbn; repeat split; ring|].
    destruct (tree_leaf l (I l (or_introl eq_refl))) as [Pl Sl].
    destruct (mul_p_ok L (n_vars J) l Pl Sl J eq_refl e 1 (proj2 Ee)) as (x & -> & X). cbn [bind]. cbv zeta.
    destruct (applies J l q) eqn:A.
    - destruct (mul_p_ok L (n_vars J) l Pl Sl J eq_refl q (x * l_prior l) (proj2 Eq)) as (y & -> & Y). cbn [bind].
      destruct (IH (pq + y) (pe + x * l_prior l) Eq Ee) as (r & -> & R1 & R2); [intros; apply I; right; assumption|].
      exists r. split; [reflexivity|]. rewrite R1, R2, Y, X, (leaf_prob_app L l q e). split; ring.
    - destruct (IH pq (pe + x * l_prior l) Eq Ee) as (r & -> & R1 & R2); [intros; apply I; right; assumption|].
      exists r. split; [reflexivity|]. rewrite R1, R2, X, (leaf_prob_app L l q e), (applies_false_zero L (n_vars J) l Pl Sl J eq_refl q Eq A). split; ring.
  Qed.

  (** Summing over the leaves found by [apply] is summing over all leaves. *)
  Lemma sum_applied : forall e q ls, event L (n_vars J) e -> Permutation ls (filter (fun l => compatb e (l_path l)) (leaves J)) ->
    Qsum (map (fun l => l_prior l * leaf_prob L (l_dists l) (q ++ e)) ls) == mixture J L (q ++ e).
  Proof.
    intros e q ls Ee Pm. rewrite (Qsum_map_perm _ _ _ _ Pm), Qsum_filter. apply Qsum_map_ext. intros l I. destruct (compatb e (l_path l)) eqn:C; [reflexivity|].
    destruct (tree_leaf l I) as [Pl Sl]. rewrite (leaf_prob_app L l), (incompatible_zero L (n_vars J) l Pl Sl e Ee C). ring.
  Qed.

  Theorem infer_spec : forall q e fail, event L (n_vars J) q -> event L (n_vars J) e ->
    (mixture J L e == 0 -> infer J q e fail = if fail then Err ValueError else Ok None) /\
    (~ mixture J L e == 0 -> exists r, infer J q e fail = Ok (Some r) /\ r == mixture J L (q ++ e) / mixture J L e).
  Proof.
    intros q e fail Eq Ee. unfold infer. rewrite (event_known q Eq), (event_known e Ee). cbn [negb].
    destruct (apply_perm J e T (event_known e Ee)) as (ls & -> & Pm). cbn [bind].
    destruct (infer_loop_ok q e ls 0 0 Eq Ee) as (r & -> & R1 & R2).
    { intros l I. apply (Permutation_in _ Pm) in I. apply filter_In in I. apply I. }
    cbn [bind]. rewrite (sum_applied e q ls Ee Pm) in R1. pose proof (sum_applied e [] ls Ee Pm) as S. cbn [app] in S. rewrite S in R2.
    destruct (Qeqb_spec (snd r) 0) as [Z|Z]; split; intro H.
    - destruct fail; reflexivity.
    - exfalso. apply H. rewrite <- Z, R2. ring.
    - exfalso. apply Z. rewrite R2, H. ring.
    - eexists. split; [reflexivity|]. rewrite R1, R2, !Qplus_0_l. reflexivity.
  Qed.

  Lemma mixture_nonneg : forall q, event L (n_vars J) q -> 0 <= mixture J L q.
  Proof.
    intros q Eq. apply Qsum_map_nonneg. intros l I. destruct (tree_leaf l I) as [Pl Sl].
    apply Qmult_le_0_compat; [apply Pl|apply (leaf_prob_nonneg L (n_vars J) l Pl q (proj2 Eq))].
  Qed.
  Lemma mixture_mono : forall q e, event L (n_vars J) q -> event L (n_vars J) e -> mixture J L (q ++ e) <= mixture J L e.
  Proof.
    intros q e Eq Ee. apply Qsum_map_le. intros l I. destruct (tree_leaf l I) as [Pl Sl]. rewrite (leaf_prob_app L l).
    pose proof (leaf_prob_le1 L (n_vars J) l Pl q (proj2 Eq)). pose proof (leaf_prob_nonneg L (n_vars J) l Pl q (proj2 Eq)).
    pose proof (leaf_prob_nonneg L (n_vars J) l Pl e (proj2 Ee)). destruct Pl as (_ & _ & Pp & _).
    rewrite (Qmult_comm (l_prior l)), (Qmult_comm (l_prior l)). apply Qmult_le_compat_r; [|exact Pp].
    apply Qle_trans with (1 * leaf_prob L (l_dists l) e); [apply Qmult_le_compat_r; assumption|lra].
  Qed.
  Lemma mixture_total : mixture J L [] == Qsum (map l_prior (leaves J)).
  Proof. unfold mixture. apply Qsum_map_ext. intros. cbn. ring. Qed.
End Infer.
