(** The joint distribution of a tree with symbolic and integer variables, world by
    world, and well-formedness in concrete terms. *)
Require Import QArith Lqa Bool List Arith Lia Permutation.
Require Import Verif.Base Verif.NumBase Verif.DiscreteModel Verif.DiscreteProofs Verif.TreeModel Verif.TreeSpec Verif.TreeApply Verif.TreeInfer Verif.TreePosterior Verif.TreeDiscrete.
Import ListNotations.
Open Scope Q_scope.

(** ** Specification *)

Notation query := (list (nat * list nat)).

(** All worlds: one value per variable. *)
Fixpoint worlds (doms : list dom) : list (list nat) :=
  match doms with
  | [] => [[]]
  | D :: doms' => flat_map (fun x => map (cons x) (worlds doms')) (seq 0 (n_values D))
  end.

(** A world satisfies a query if it satisfies each of its constraints. *)
Definition sat (q : query) (w : list nat) : bool :=
  forallb (fun vs => existsb (Nat.eqb (nth (fst vs) w O)) (snd vs)) q.

(** The independent product of a leaf's distributions. *)
Fixpoint density (ds : list ddist) (w : list nat) : Q :=
  match ds, w with
  | d :: ds', x :: w' => nth x (d_params d) 0 * density ds' w'
  | _, _ => 1
  end.
(** The probability of a query within a leaf, and in the whole tree. *)
Definition Pr_leaf (doms : list dom) (ds : list ddist) (q : query) : Q :=
  Qsum (map (fun w => if sat q w then density ds w else 0) (worlds doms)).
Definition joint (J : jpt discrete) (w : list nat) : Q :=
  Qsum (map (fun l : leaf discrete => l_prior l * density (l_dists l) w) (leaves J)).
Definition Pr (doms : list dom) (J : jpt discrete) (q : query) : Q :=
  Qsum (map (fun w => if sat q w then joint J w else 0) (worlds doms)).

(** Well-formed leaves, trees and queries. *)
Record wf_leaf (doms : list dom) (l : leaf discrete) : Prop := WfLeaf {
  wl_dists : Forall2 (fun D d => d_dom d = D /\ length (d_params d) = n_values D /\ Forall (fun p => 0 <= p) (d_params d) /\ Qsum (d_params d) == 1) doms (l_dists l);
  wl_prior : 0 <= l_prior l;
  wl_path : forall v s, In (v, s) (l_path l) -> (v < length doms)%nat /\ forall x, In x s -> (x < n_values (domain doms v))%nat;
  wl_support : forall v s d x, In (v, s) (l_path l) -> nth_error (l_dists l) v = Some d -> ~ In x s -> nth x (d_params d) 0 == 0
}.
Record wf_tree (doms : list dom) (J : jpt discrete) : Prop := WfTree {
  wt_vars : n_vars J = length doms;
  wt_full : full J = dfull doms;
  wt_tree : tree_ok J;
  wt_leaves : Forall (wf_leaf doms) (leaves J)
}.
Definition wf_query (doms : list dom) (q : query) : Prop :=
  NoDup (map fst q) /\ forall v s, In (v, s) q -> (v < length doms)%nat /\ forall x, In x s -> (x < n_values (domain doms v))%nat.

(** ** The product of sums is the sum over the worlds *)

Lemma Qsum_flat_map : forall A (f : A -> list Q) l, Qsum (flat_map f l) == Qsum (map (fun x => Qsum (f x)) l).
Proof. intros A f l. induction l as [|x l IH]; cbn; [reflexivity|]. rewrite Qsum_app, IH. reflexivity. Qed.

Lemma map_flat_map : forall A B C (g : B -> C) (f : A -> list B) l, map g (flat_map f l) = flat_map (fun x => map g (f x)) l.
Proof. intros. induction l as [|x l IH]; cbn; [reflexivity|]. rewrite map_app, IH. reflexivity. Qed.

Lemma lmass_index : forall ps c k, lmass (seq k (length ps)) ps c == Qsum (map (fun x => if c x then nth (x - k) ps 0 else 0) (seq k (length ps))).
Proof.
  unfold lmass. induction ps as [|p ps IH]; intros c k; cbn [length seq combine map Qsum fst snd]; [reflexivity|]. rewrite IH, Nat.sub_diag.
  apply Qplus_comp; [reflexivity|]. apply Qsum_map_ext. intros x I. apply in_seq in I. destruct (c x); [|reflexivity].
  replace (x - k)%nat with (S (x - S k)) by lia. reflexivity.
Qed.

Lemma lmass_values : forall ps c, lmass (seq 0 (length ps)) ps c == Qsum (map (fun x => if c x then nth x ps 0 else 0) (seq 0 (length ps))).
Proof. intros. rewrite lmass_index. apply Qsum_map_ext. intros x _. rewrite Nat.sub_0_r. reflexivity. Qed.

Fixpoint cprod (k : nat) (ds : list ddist) (c : nat -> nat -> bool) : Q :=
  match ds with
  | [] => 1
  | d :: ds' => lmass (seq 0 (length (d_params d))) (d_params d) (c k) * cprod (S k) ds' c
  end.
Fixpoint csat (k : nat) (w : list nat) (c : nat -> nat -> bool) : bool :=
  match w with [] => true | x :: w' => c k x && csat (S k) w' c end.

Lemma product_sum : forall doms ds k c, Forall2 (fun D d => length (d_params d) = n_values D) doms ds ->
  Qsum (map (fun w => if csat k w c then density ds w else 0) (worlds doms)) == cprod k ds c.
Proof.
  intros doms ds k c F. revert k. induction F as [|D d doms ds E F IH]; intro k; [cbn; ring|].
  cbn [worlds cprod]. rewrite map_flat_map, Qsum_flat_map, lmass_values, E. rewrite <- Qsum_map_scale_r. apply Qsum_map_ext. intros x _.
  rewrite map_map. cbn [csat density]. rewrite <- (IH (S k)). destruct (c k x); cbn [andb].
  - rewrite <- Qsum_map_scale. apply Qsum_map_ext. intros w _. destruct (csat (S k) w c); ring.
  - rewrite Qsum_map_zero by reflexivity. ring.
Qed.

Lemma cprod_ext : forall ds k c c', (forall i x, (k <= i)%nat -> c i x = c' i x) -> cprod k ds c == cprod k ds c'.
Proof.
  induction ds as [|d ds IH]; intros k c c' H; cbn [cprod]; [reflexivity|]. rewrite (IH (S k) c c') by (intros; apply H; lia).
  apply Qmult_comp; [|reflexivity]. apply mass_ext. intros; apply H; lia.
Qed.

Lemma cprod_true : forall ds k, Forall (fun d => Qsum (d_params d) == 1) ds -> cprod k ds (fun _ _ => true) == 1.
Proof. intros ds k F. revert k. induction F as [|d ds E F IH]; intro k; cbn [cprod]; [reflexivity|]. rewrite IH, mass_full by apply seq_length. rewrite E. ring. Qed.

Lemma cprod_update : forall ds k c v s d, Forall (fun d => Qsum (d_params d) == 1) ds -> (forall x, c (k + v)%nat x = true) -> nth_error ds v = Some d ->
  cprod k ds (fun i x => (negb (Nat.eqb (k + v) i) || nmem x s) && c i x) == pm (d_params d) s * cprod k ds c.
Proof.
  induction ds as [|d0 ds IH]; intros k c [|v] s d F C N; cbn in N; try discriminate; cbn [cprod].
  - inversion N; subst d0. rewrite (cprod_ext ds (S k) _ c).
    2:{ intros i x H. replace (Nat.eqb (k + 0) i) with false; [reflexivity|]. symmetry. apply Nat.eqb_neq. lia. }
    rewrite Nat.add_0_r in *. rewrite (mass_ext _ _ _ (fun x => (negb (Nat.eqb k k) || nmem x s) && c k x) (fun x => nmem x s)).
    2:{ intros x _. rewrite Nat.eqb_refl, C, andb_true_r. reflexivity. }
    rewrite (mass_ext _ _ _ (c k) (fun _ => true)) by (intros; apply C). rewrite mass_full by apply seq_length. rewrite (Forall_inv F). unfold pm. ring.
  - rewrite (mass_ext _ _ _ _ (c k)).
    2:{ intros x _. replace (Nat.eqb (k + S v) k) with false; [reflexivity|]. symmetry. apply Nat.eqb_neq. lia. }
    rewrite (cprod_ext ds (S k) (fun i x => (negb (Nat.eqb (k + S v) i) || nmem x s) && c i x) (fun i x => (negb (Nat.eqb (S k + v) i) || nmem x s) && c i x)).
    2:{ intros i x _. replace (k + S v)%nat with (S k + v)%nat by lia. reflexivity. }
    rewrite (IH (S k) c v s d (Forall_inv_tail F)); [ring| |exact N].
    intro x. replace (S k + v)%nat with (k + S v)%nat by lia. apply C.
Qed.

Definition constr (q : query) (i x : nat) : bool := forallb (fun vs => negb (Nat.eqb (fst vs) i) || nmem x (snd vs)) q.

Lemma constr_free : forall q i x, ~ In i (map fst q) -> constr q i x = true.
Proof.
  intros q i x N. apply forallb_forall. intros [v s] I. cbn. replace (Nat.eqb v i) with false; [reflexivity|]. symmetry. apply Nat.eqb_neq. intros ->. apply N. apply (in_map fst) in I. exact I.
Qed.

Lemma sat_csat : forall q w, (forall v s, In (v, s) q -> (v < length w)%nat) -> sat q w = csat 0 w (constr q).
Proof.
  assert (G : forall w k q, (forall v s, In (v, s) q -> (v < k + length w)%nat) ->
     csat k w (constr q) = forallb (fun vs => Nat.ltb (fst vs) k || nmem (nth (fst vs - k) w O) (snd vs)) q).
  { induction w as [|x w IH]; intros k q H; cbn [csat].
    - symmetry. apply forallb_forall. intros [v s] I. cbn [fst snd]. specialize (H v s I). cbn in H. replace (Nat.ltb v k) with true; [reflexivity|]. symmetry. apply Nat.ltb_lt. lia.
    - rewrite (IH (S k) q) by (intros v s I; specialize (H v s I); cbn in H; lia). clear IH H. unfold constr. induction q as [|[v s] q IHq]; [reflexivity|]. cbn [forallb fst snd]. rewrite <- IHq. clear IHq.
      generalize (forallb (fun vs => negb (Nat.eqb (fst vs) k) || nmem x (snd vs)) q) as A. generalize (forallb (fun vs => Nat.ltb (fst vs) (S k) || nmem (nth (fst vs - S k) w 0%nat) (snd vs)) q) as B. intros B A.
      destruct (Nat.eqb_spec v k) as [->|Ne].
      + rewrite Nat.sub_diag, Nat.ltb_irrefl. replace (Nat.ltb k (S k)) with true by (symmetry; apply Nat.ltb_lt; lia). cbn. destruct A, B, (nmem x s); reflexivity.
      + cbn [negb orb andb]. destruct (Nat.ltb_spec v k).
        * replace (Nat.ltb v (S k)) with true by (symmetry; apply Nat.ltb_lt; lia). destruct A, B; reflexivity.
        * replace (Nat.ltb v (S k)) with false by (symmetry; apply Nat.ltb_ge; lia). replace (v - k)%nat with (S (v - S k)) by lia. cbn [nth orb].
          destruct A, B, (nmem (nth (v - S k) w O) s); reflexivity. }
  intros q w H. rewrite G by exact H. unfold sat. induction q as [|[v s] q IH]; [reflexivity|]. cbn [forallb fst snd]. rewrite <- IH by (intros v' s' I; apply (H v' s'); right; exact I).
  rewrite Nat.sub_0_r. reflexivity.
Qed.

Lemma worlds_length : forall doms w, In w (worlds doms) -> length w = length doms.
Proof.
  induction doms as [|D doms IH]; intros w I; cbn in I; [destruct I as [<-|[]]; reflexivity|]. apply in_flat_map in I. destruct I as (x & _ & I). apply in_map_iff in I.
  destruct I as (w' & <- & I). cbn. f_equal. apply IH, I.
Qed.

Lemma worlds_spec : forall doms w, In w (worlds doms) <-> Forall2 (fun D x => (x < n_values D)%nat) doms w.
Proof.
  induction doms as [|D doms IH]; intros w; cbn [worlds].
  - split; [intros [<-|[]]; constructor|]. intro H. inversion H. left; reflexivity.
  - rewrite in_flat_map. split.
    + intros (x & Ix & I). apply in_map_iff in I. destruct I as (w' & <- & I). apply in_seq in Ix. constructor; [lia|]. apply IH, I.
    + intro H. inversion H as [|D' x doms' w' X Fw]; subst. exists x. split; [apply in_seq; lia|]. apply in_map, IH, Fw.
Qed.

Section Bridge.
  Variable doms : list dom.
  Notation L := (discrete_lawful doms).

  Lemma leaf_prob_worlds : forall ds q, Forall2 ok_dist doms ds -> wf_query doms q ->
    leaf_prob L ds q == Pr_leaf doms ds q.
  Proof.
    intros ds q F [N Fq]. unfold Pr_leaf. transitivity (cprod 0 ds (constr q)).
    - assert (F1 : Forall (fun d => Qsum (d_params d) == 1) ds). { clear - F. induction F as [|D d doms ds O F IH]; constructor; [apply O|exact IH]. }
      assert (Len : length ds = length doms) by (symmetry; apply (Forall2_len _ _ _ _ _ F)).
      clear F. revert N Fq. induction q as [|[v s] q IH]; intros N Fq; cbn [leaf_prob].
      + symmetry. apply cprod_true, F1.
      + cbn [map fst] in N. inversion N as [|? ? Nv Nq]; subst. rewrite IH; [|exact Nq|intros v' s' I; apply (Fq v' s'); right; exact I]. destruct (Fq v s (or_introl eq_refl)) as [V _].
        destruct (nth_error ds v) as [d|] eqn:E; [|apply nth_error_None in E; lia].
        change (@nth_error (dist discrete) ds v) with (@nth_error ddist ds v). rewrite E.
        transitivity (pm (d_params d) s * cprod 0 ds (constr q)); [reflexivity|]. symmetry.
        apply (cprod_update ds 0 (constr q) v s d F1); [|exact E]. intro x. apply constr_free, Nv.
    - rewrite <- (product_sum doms ds 0 (constr q)).
      + apply Qsum_map_ext. intros w I. rewrite sat_csat; [reflexivity|]. intros v s Iv. rewrite (worlds_length _ _ I). apply (Fq v s Iv).
      + apply (Forall2_impl _ _ _ _ _ _ (fun D d _ O => proj1 (proj2 O)) F).
  Qed.

  Lemma Pr_leaves : forall J q, Pr doms J q == Qsum (map (fun l : leaf discrete => l_prior l * Pr_leaf doms (l_dists l) q) (leaves J)).
  Proof.
    intros J q. unfold Pr, joint, Pr_leaf. transitivity (Qsum (map (fun w => Qsum (map (fun l : leaf discrete => if sat q w then l_prior l * density (l_dists l) w else 0) (leaves J))) (worlds doms))).
    - apply Qsum_map_ext. intros w _. destruct (sat q w); [reflexivity|]. symmetry. apply Qsum_map_zero. reflexivity.
    - rewrite Qsum_exchange. apply Qsum_map_ext. intros l _. rewrite <- Qsum_map_scale. apply Qsum_map_ext. intros w _. destruct (sat q w); ring.
  Qed.

  Lemma ok_dists_nth : forall ds, length ds = length doms -> (Forall2 ok_dist doms ds <-> forall v d, nth_error ds v = Some d -> ok_dist (domain doms v) d).
  Proof.
    unfold domain. intros ds Len. split.
    - intro F. clear Len. induction F as [|D d doms0 ds O F IH]; intros [|v] d' E; cbn in E; try discriminate; [inversion E; subst; exact O|]. cbn. apply IH, E.
    - revert ds Len. induction doms as [|D doms0 IH]; intros [|d ds] Len H; cbn in Len; try discriminate; constructor.
      + apply (H O d). reflexivity.
      + apply IH; [lia|]. intros v d' E. apply (H (S v) d' E).
  Qed.

  (** A set outside of which there is no mass has probability one, and conversely. *)
  Lemma sure_iff : forall ps s, proper ps -> (pm ps s == 1 <-> forall x, ~ In x s -> nth x ps 0 == 0).
  Proof.
    intros ps s [N S]. pose proof (pm_compl ps s) as C.
    assert (D : lmass (seq 0 (length ps)) ps (fun v => negb (nmem v s)) == Qsum (map (fun x => if negb (nmem x s) then nth x ps 0 else 0) (seq 0 (length ps)))) by apply lmass_values.
    assert (Nn : forall x, 0 <= nth x ps 0). { intro x. destruct (nth_in_or_default x ps 0) as [I|E]; [rewrite Forall_forall in N; apply N, I|rewrite E; lra]. }
    split.
    - intros H x Nx. destruct (Nat.lt_ge_cases x (length ps)) as [Lt|Ge]; [|rewrite nth_overflow by lia; reflexivity].
      assert (Z : Qsum (map (fun x => if negb (nmem x s) then nth x ps 0 else 0) (seq 0 (length ps))) == 0) by lra.
      assert (Nm : nmem x s = false). { destruct (nmem x s) eqn:B; [|reflexivity]. unfold nmem in B. apply existsb_exists in B. destruct B as (y & I & E). apply Nat.eqb_eq in E. subst y. contradiction. }
      assert (F0 : Forall (fun y => 0 <= y) (map (fun x => if negb (nmem x s) then nth x ps 0 else 0) (seq 0 (length ps)))).
      { apply Forall_forall. intros y I. apply in_map_iff in I. destruct I as (z & <- & _). destruct (negb (nmem z s)); [apply Nn|lra]. }
      apply (Qsum_zero_all _ F0 Z). apply in_map_iff. exists x. rewrite Nm. split; [reflexivity|]. apply in_seq. lia.
    - intro H. assert (lmass (seq 0 (length ps)) ps (fun v => negb (nmem v s)) == 0); [|lra]. rewrite D. apply Qsum_map_zero. intros x _.
      destruct (nmem x s) eqn:B; [reflexivity|]. cbn. apply H. intro I. unfold nmem in B. assert (existsb (Nat.eqb x) s = true); [|congruence]. apply existsb_exists. exists x. split; [exact I|apply Nat.eqb_refl].
  Qed.

  Lemma ok_event_iff : forall D s, ok_event D s <-> forall x, In x s -> (x < n_values D)%nat.
  Proof. intros. apply Forall_forall. Qed.

  Lemma wf_leaf_iff : forall l, wf_leaf doms l <-> proper_leaf L (length doms) l /\ supported_leaf L l.
  Proof.
    intro l. split.
    - intros [Fd P0 Pt Sp]. assert (Len : length (l_dists l) = length doms) by (symmetry; apply (Forall2_len _ _ _ _ _ Fd)).
      assert (Ok : forall v d, nth_error (l_dists l) v = Some d -> ok_dist (domain doms v) d). { apply ok_dists_nth; [exact Len|exact Fd]. }
      split; [split; [exact Len|]; split; [exact Ok|]; split; [exact P0|]|].
      + intros v s I. destruct (Pt v s I) as [V X]. split; [exact V|]. apply ok_event_iff, X.
      + intros v d s E I. apply sure_iff; [apply (Ok v d E)|]. intros x Nx. apply (Sp v s d x I E Nx).
    - intros [(Len & Ok & P0 & Pt) Su]. constructor.
      + apply (ok_dists_nth (l_dists l) Len), Ok.
      + exact P0.
      + intros v s I. destruct (Pt v s I) as [V X]. split; [exact V|]. apply ok_event_iff, X.
      + intros v s d x I E Nx. revert x Nx. apply sure_iff; [apply (Ok v d E)|]. exact (Su v d s E I).
  Qed.

  Lemma wf_query_event : forall q, wf_query doms q <-> event L (length doms) q.
  Proof.
    intro q. unfold wf_query, event, keys. split; intros [N H]; (split; [exact N|]).
    - apply Forall_forall. intros [v s] I. cbn. destruct (H v s I) as [V X]. split; [exact V|]. apply ok_event_iff, X.
    - intros v s I. rewrite Forall_forall in H. destruct (H (v, s) I) as [V X]. split; [exact V|]. apply ok_event_iff, X.
  Qed.

  Lemma wf_tree_iff : forall ns ls r ps, let J := @JPT discrete (length doms) (dfull doms) ns ls r ps in
    wf_tree doms J <-> tree_ok J /\ proper_tree J L /\ supported_tree J L.
  Proof.
    intros ns ls r ps J. unfold proper_tree, supported_tree. split.
    - intros [_ _ T Fl]. split; [exact T|]. rewrite !Forall_forall in *. split; intros l I; destruct (proj1 (wf_leaf_iff l) (Fl l I)); assumption.
    - intros (T & Pp & Su). constructor; try reflexivity; [exact T|]. rewrite !Forall_forall in *. intros l I. apply wf_leaf_iff. split; [apply Pp, I|apply Su, I].
  Qed.

  Lemma mixture_worlds : forall ns ls r ps q, let J := @JPT discrete (length doms) (dfull doms) ns ls r ps in
    Forall (wf_leaf doms) ls -> wf_query doms q -> mixture J L q == Pr doms J q.
  Proof.
    intros ns ls r ps q J Fl Wq. rewrite Pr_leaves. unfold mixture. apply Qsum_map_ext. intros l I. rewrite Forall_forall in Fl. destruct (Fl l I) as [Fd _ _ _].
    apply Qmult_comp; [reflexivity|]. exact (leaf_prob_worlds _ q Fd Wq).
  Qed.

  Lemma sat_app : forall q e w, sat (q ++ e) w = sat q w && sat e w.
  Proof. intros. unfold sat. apply forallb_app. Qed.

  Lemma Pr_ext : forall J q q', (forall w, In w (worlds doms) -> sat q w = sat q' w) -> Pr doms J q == Pr doms J q'.
  Proof. intros J q q' H. apply Qsum_map_ext. intros w I. rewrite (H w I). reflexivity. Qed.

  Lemma sat_meet : forall (q e : query) w, NoDup (map fst e) -> sat (@meet discrete q e) w = sat (q ++ e) w.
  Proof.
    intros q e w N. rewrite sat_app. unfold meet. rewrite sat_app.
    apply eq_true_iff_eq. rewrite !andb_true_iff. unfold sat. rewrite !forallb_forall.
    assert (Mem : forall x s, existsb (Nat.eqb x) s = nmem x s) by reflexivity.
    split.
    - intros [A B]. split.
      + intros [v s] I. specialize (A _ (in_map _ _ _ I)). cbn in A. destruct (lookup e v) as [ev|]; [|exact A]. cbn in A.
        rewrite Mem, nmem_inter in A. apply andb_true_iff in A. apply A.
      + intros [v s] I. destruct (existsb (Nat.eqb v) (keys q)) eqn:B1.
        * apply existsb_exists in B1. destruct B1 as (v' & Iv & E). apply Nat.eqb_eq in E. subst v'. unfold keys in Iv. apply in_map_iff in Iv. destruct Iv as ([v' sq] & E & Iq). cbn in E. subst v'.
          specialize (A _ (in_map _ _ _ Iq)). cbn in A. rewrite (in_lookup _ e v s N I) in A. cbn in A. rewrite Mem, nmem_inter in A. apply andb_true_iff in A. apply A.
        * apply B. apply filter_In. split; [exact I|]. cbn. rewrite B1. reflexivity.
    - intros [A B]. split.
      + intros vs I. apply in_map_iff in I. destruct I as ([v s] & <- & I). cbn. specialize (A _ I). cbn in A. destruct (lookup e v) as [ev|] eqn:E; [|exact A].
        cbn. rewrite Mem, nmem_inter. apply andb_true_iff. split; [exact A|]. apply (B (v, ev)). apply lookup_in, E.
      + intros vs I. apply filter_In in I. apply B, I.
  Qed.

  Lemma wf_meet : forall q e, wf_query doms q -> wf_query doms e -> wf_query doms (@meet discrete q e).
  Proof.
    intros q e [Nq Hq] [Ne He]. unfold meet. split.
    - rewrite map_app, map_map. match goal with |- NoDup (?a ++ _) => replace a with (map fst q) end.
      2:{ apply map_ext. intros [v s]. cbn. destruct (lookup e v); reflexivity. }
      apply NoDup_app_intro; [exact Nq| |].
      + clear - Ne. induction e as [|[v s] e IH]; cbn; [constructor|]. cbn in Ne. inversion Ne as [|? ? N1 N2]; subst. destruct (negb (existsb (Nat.eqb v) (keys q))); cbn; [constructor; [|apply IH, N2]|apply IH, N2].
        intro I. apply N1. apply in_map_iff in I. destruct I as (x & E & I). apply filter_In in I. rewrite <- E. apply in_map, I.
      + intros v Iv Ie. apply in_map_iff in Ie. destruct Ie as ([v' s] & E & I). cbn in E. subst v'. apply filter_In in I. destruct I as [_ B]. cbn in B.
        apply negb_true_iff in B. assert (existsb (Nat.eqb v) (keys q) = true); [|congruence]. apply existsb_exists. exists v. split; [exact Iv|apply Nat.eqb_refl].
    - intros v s I. apply in_app_iff in I. destruct I as [I|I].
      + apply in_map_iff in I. destruct I as ([v' s'] & E & I). cbn in E. destruct (Hq v' s' I) as [V X]. destruct (lookup e v') as [ev|]; inversion E; subst; (split; [exact V|]); [|exact X].
        intros x Ix. apply filter_In in Ix. apply X, Ix.
      + apply filter_In in I. apply He, I.
  Qed.

  Lemma wf_app : forall q e, wf_query doms q -> wf_query doms e -> disjoint_keys (F := discrete) q e -> wf_query doms (q ++ e).
  Proof.
    intros q e [Nq Hq] [Ne He] D. split.
    - rewrite map_app. apply NoDup_app_intro; assumption.
    - intros v s I. apply in_app_iff in I. destruct I; auto.
  Qed.
End Bridge.

(** ** A single world as a query *)

Definition singles (w : list nat) : query := combine (seq 0 (length w)) (map (fun x => [x]) w).

Lemma worlds_nodup : forall doms, NoDup (worlds doms).
Proof.
  induction doms as [|D doms IH]; cbn [worlds]; [repeat constructor; intros []|].
  assert (G : forall xs, NoDup xs -> NoDup (flat_map (fun x => map (cons x) (worlds doms)) xs)).
  { induction xs as [|x xs IHx]; intro N; cbn; [constructor|]. inversion N as [|? ? N1 N2]; subst. apply NoDup_app_intro.
    - apply FinFun.Injective_map_NoDup; [|exact IH]. intros a b E. inversion E; reflexivity.
    - apply IHx, N2.
    - intros w I1 I2. apply in_map_iff in I1. destruct I1 as (w1 & <- & _). apply in_flat_map in I2. destruct I2 as (y & Iy & I2). apply in_map_iff in I2. destruct I2 as (w2 & E & _). inversion E; subst. contradiction. }
  apply G, seq_NoDup.
Qed.

Lemma singles_in : forall w v s, In (v, s) (singles w) -> (v < length w)%nat /\ s = [nth v w O].
Proof.
  intros w v s. unfold singles. assert (G : forall w k, In (v, s) (combine (seq k (length w)) (map (fun x => [x]) w)) -> (k <= v < k + length w)%nat /\ s = [nth (v - k) w O]).
  { clear w. induction w as [|x w IH]; intros k I; cbn in I; [contradiction|]. destruct I as [E|I].
    - inversion E; subst. rewrite Nat.sub_diag. cbn. split; [lia|reflexivity].
    - apply IH in I. destruct I as [B E]. cbn [length]. split; [lia|]. replace (v - k)%nat with (S (v - S k)) by lia. exact E. }
  intro I. apply G in I. rewrite Nat.sub_0_r in I. split; [lia|apply I].
Qed.

Lemma singles_keys : forall w, map fst (singles w) = seq 0 (length w).
Proof.
  intro w. unfold singles. generalize 0%nat. induction w as [|x w IH]; intro k; cbn; [reflexivity|]. f_equal. apply IH.
Qed.

Lemma sat_singles : forall w w', length w' = length w -> (sat (singles w) w' = true <-> w' = w).
Proof.
  intros w w' Len. split.
  - intro H. unfold sat in H. rewrite forallb_forall in H. apply (nth_ext _ _ O O Len). intros k Hk. rewrite Len in Hk.
    assert (I : In k (map fst (singles w))) by (rewrite singles_keys; apply in_seq; lia). apply in_map_iff in I. destruct I as ([v s] & E & I). cbn in E. subst v.
    destruct (singles_in w k s I) as [_ ->]. specialize (H _ I). cbn in H. rewrite orb_false_r in H. apply Nat.eqb_eq in H. exact H.
  - intros ->. apply forallb_forall. intros [v s] I. destruct (singles_in w v s I) as [_ ->]. cbn. rewrite Nat.eqb_refl. reflexivity.
Qed.

Lemma sum_one : forall (f : list nat -> Q) (p : list nat -> bool) ws w, NoDup ws -> In w ws -> (forall w', In w' ws -> p w' = true <-> w' = w) ->
  Qsum (map (fun w' => if p w' then f w' else 0) ws) == f w.
Proof.
  intros f p ws w N I H. induction ws as [|x ws IH]; [contradiction|]. inversion N as [|? ? N1 N2]; subst. cbn [map Qsum]. destruct I as [->|I].
  - assert (p w = true) as -> by (apply H; [left; reflexivity|reflexivity]). rewrite Qsum_map_zero; [ring|]. intros w' I'. destruct (p w') eqn:E; [|reflexivity].
    apply (H w' (or_intror I')) in E. subst. contradiction.
  - rewrite IH; [|exact N2|exact I|intros; apply H; right; assumption]. destruct (p x) eqn:E; [|ring]. apply (H x (or_introl eq_refl)) in E. subst. contradiction.
Qed.

Lemma sum_singles : forall doms (f : list nat -> Q) w, In w (worlds doms) -> Qsum (map (fun w' => if sat (singles w) w' then f w' else 0) (worlds doms)) == f w.
Proof.
  intros doms f w I. apply sum_one; [apply worlds_nodup|exact I|]. intros w' I'. apply sat_singles. rewrite (worlds_length _ _ I), (worlds_length _ _ I'). reflexivity.
Qed.

Lemma singles_wf : forall doms w, In w (worlds doms) -> wf_query doms (singles w).
Proof.
  intros doms w I. split; [rewrite singles_keys; apply seq_NoDup|]. intros v s Iv. destruct (singles_in w v s Iv) as [V ->]. rewrite (worlds_length _ _ I) in V. split; [exact V|].
  intros x [<-|[]]. apply worlds_spec in I. clear Iv. unfold domain. revert v V. induction I as [|D x doms w B I IH]; intros [|v] V; cbn in *; try lia. apply IH. lia.
Qed.

Lemma Pr_singles : forall doms J w, In w (worlds doms) -> Pr doms J (singles w) == joint J w.
Proof. intros doms J w I. apply (sum_singles doms (joint J) w I). Qed.
Lemma Pr_leaf_singles : forall doms ds w, In w (worlds doms) -> Pr_leaf doms ds (singles w) == density ds w.
Proof. intros doms ds w I. apply (sum_singles doms (density ds) w I). Qed.
Lemma Pr_leaf_singles_and : forall doms ds w e, In w (worlds doms) -> Pr_leaf doms ds (singles w ++ e) == if sat e w then density ds w else 0.
Proof.
  intros doms ds w e I. rewrite <- (sum_singles doms (fun w => if sat e w then density ds w else 0) w I). apply Qsum_map_ext. intros w' _. rewrite sat_app.
  destruct (sat (singles w) w'), (sat e w'); reflexivity.
Qed.
Lemma Pr_leaf_ext : forall doms ds q q', (forall w, In w (worlds doms) -> sat q w = sat q' w) -> Pr_leaf doms ds q == Pr_leaf doms ds q'.
Proof. intros doms ds q q' H. apply Qsum_map_ext. intros w I. rewrite (H w I). reflexivity. Qed.
