(** Proofs about fitting, mixtures, k-MPE, similarity, sums and objects of the
    categorical distributions. *)
Require Import QArith Qabs ZArith Bool List Arith Lia Lqa Permutation Sorted.
Require Import Verif.Base Verif.NumBase Verif.UtilModel Verif.UtilProofs Verif.DiscreteModel Verif.DiscreteProofs.
Import ListNotations.
Open Scope Q_scope.

(** ** Fitting *)
Definition count {L} (T : L -> bool) (data : list L) : nat := length (filter T data).

Lemma add_at_spec : forall L (ls : list L) ps v x l T, length ps = length ls -> nth_error ls v = Some l ->
  exists r, add_at ps v x = Ok r /\ length r = length ls /\ lmass ls r T == lmass ls ps T + (if T l then x else 0).
Proof.
  induction ls as [|l0 ls IH]; intros [|p ps] v x l T E H; cbn in *; try discriminate.
  - destruct v; discriminate.
  - destruct v as [|v]; cbn in *.
    + inversion H; subst. eexists. split; [reflexivity|]. split; [cbn; lia|]. unfold lmass. cbn. destruct (T l); lra.
    + destruct (IH ps v x l T) as (r & -> & Lr & M); [lia|exact H|]. cbn. eexists. split; [reflexivity|]. split; [cbn; lia|].
      unfold lmass in *. cbn. rewrite M. lra.
Qed.

Lemma fit_loop_spec : forall L (ls : list L) x data vs ps T, length ps = length ls ->
  Forall2 (fun l v => nth_error ls v = Some l) data vs ->
  exists r, fit_loop x ps vs = Ok r /\ length r = length ls /\ lmass ls r T == lmass ls ps T + Qn (count T data) * x.
Proof.
  intros L ls x data vs ps T E F. revert ps E. induction F as [|l v data vs H F IH]; intros ps E; cbn.
  - exists ps. split; [reflexivity|]. split; [exact E|]. change (Qn 0) with 0. lra.
  - destruct (add_at_spec L ls ps v x l T E H) as (r & -> & Lr & M). cbn.
    destruct (IH r Lr) as (r' & -> & Lr' & M'). exists r'. split; [reflexivity|]. split; [exact Lr'|].
    rewrite M', M. unfold count. cbn. destruct (T l); cbn; [rewrite Qn_S|]; lra.
Qed.

Lemma add_at_nonneg : forall ps v x r, 0 <= x -> Forall (fun p => 0 <= p) ps -> add_at ps v x = Ok r -> Forall (fun p => 0 <= p) r.
Proof.
  induction ps as [|p ps IH]; intros v x r X F H; [discriminate|]. inversion F; subst. destruct v as [|v]; cbn in H.
  - inversion H; subst. constructor; [lra|assumption].
  - destruct (add_at ps v x) eqn:E; cbn in H; [|discriminate]. inversion H; subst. constructor; [assumption|]. apply (IH v x a X); assumption.
Qed.
Lemma fit_loop_nonneg : forall data ps x r, 0 <= x -> Forall (fun p => 0 <= p) ps -> fit_loop x ps data = Ok r -> Forall (fun p => 0 <= p) r.
Proof.
  induction data as [|v data IH]; intros ps x r X F H; cbn in H; [inversion H; subst; exact F|].
  destruct (add_at ps v x) eqn:E; cbn in H; [|discriminate]. apply (IH a x r X); [|exact H].
  apply (add_at_nonneg ps v x a X F E).
Qed.

Lemma mass_zeros : forall L (ls : list L) n T, lmass ls (repeat 0 n) T == 0.
Proof.
  intros. apply Qsum_map_zero. intros [l p] I. apply in_combine_r in I. apply repeat_spec in I. cbn. subst. destruct (T l); reflexivity.
Qed.

Lemma lab_fit_spec : forall L Leqb (Ls : forall a b : L, Leqb a b = true <-> a = b) (ls : list L) data,
  NoDup ls -> data <> [] -> (forall l, In l data -> In l ls) ->
  exists r, lab_fit L Leqb ls data = Ok r /\ length r = length ls /\ proper r /\
    forall T, lmass ls r T == Qn (count T data) / Qn (length data).
Proof.
  intros L Leqb Ls ls data N D H. unfold lab_fit. destruct (l2v_total L Leqb Ls ls data H) as (vs & El & Em).
  rewrite Em. cbn [bind]. apply (l2v_spec L Leqb Ls) in El; [|exact N]. unfold fit.
  assert (Lv : length vs = length data) by (clear -El; induction El; cbn; congruence). rewrite Lv.
  assert (P : 0 < Qn (length data)) by (apply Qn_pos; destruct data; [contradiction|cbn; lia]).
  destruct (fit_loop_spec L ls (1 / Qn (length data)) data vs (repeat 0 (length ls)) (fun _ => true)) as (r & Er & Lr & M); [apply repeat_length|exact El|].
  assert (G : forall T, lmass ls r T == Qn (count T data) / Qn (length data)).
  { intro T. destruct (fit_loop_spec L ls (1 / Qn (length data)) data vs (repeat 0 (length ls)) T) as (r' & Er' & _ & M'); [apply repeat_length|exact El|].
    rewrite Er in Er'. inversion Er'; subst r'. rewrite M', mass_zeros. field. lra. }
  exists r. split; [exact Er|]. split; [exact Lr|]. split; [|exact G]. split.
  - apply (fit_loop_nonneg vs (repeat 0 (length ls)) (1 / Qn (length data)) r); [apply Qlt_le_weak, Qdiv_pos; lra| |exact Er].
    apply Forall_forall. intros x I. apply repeat_spec in I. subst. lra.
  - rewrite <- (mass_full L ls) by auto. rewrite G. unfold count.
    replace (filter (fun _ => true) data) with data; [apply Qdiv_same; lra|].
    clear. induction data; cbn; congruence.
Qed.

(** ** Mixtures *)
Lemma vadd_length : forall a b, length a = length b -> length (vadd a b) = length a.
Proof. intros. unfold vadd. rewrite map_length, combine_length. lia. Qed.
Lemma vadd_mass : forall L (ls : list L) a b T, length a = length b -> lmass ls (vadd a b) T == lmass ls a T + lmass ls b T.
Proof.
  intros L ls a b T. unfold lmass. revert a b. induction ls as [|l ls IH]; intros [|x a] [|y b] E; cbn in *; try discriminate; try lra.
  fold (vadd a b). rewrite (IH a b) by lia. destruct (T l); lra.
Qed.
Lemma vscale_mass : forall L (ls : list L) c a T, lmass ls (vscale c a) T == c * lmass ls a T.
Proof. intros. unfold vscale. rewrite (mass_map L ls (fun x => x * c) c); [lra|intro; reflexivity]. Qed.
Lemma vadd_nonneg : forall a b, Forall (fun p => 0 <= p) a -> Forall (fun p => 0 <= p) b -> Forall (fun p => 0 <= p) (vadd a b).
Proof.
  intros a b A B. apply Forall_forall. intros x I. apply in_map_iff in I. destruct I as ([p q] & <- & I).
  rewrite Forall_forall in A, B. pose proof (A _ (in_combine_l _ _ _ _ I)). pose proof (B _ (in_combine_r _ _ _ _ I)). cbn. lra.
Qed.
Lemma vscale_nonneg : forall c a, 0 <= c -> Forall (fun p => 0 <= p) a -> Forall (fun p => 0 <= p) (vscale c a).
Proof.
  intros c a C A. apply Forall_forall. intros x I. apply in_map_iff in I. destruct I as (p & <- & I).
  rewrite Forall_forall in A. apply Qmult_le_0_compat; auto.
Qed.

Definition wmix {L} (ls : list L) (dws : list (list Q * Q)) (T : L -> bool) : Q :=
  Qsum (map (fun dw => snd dw * lmass ls (fst dw) T) dws).

Lemma merge_loop_spec : forall L (ls : list L) dws acc, Forall (fun dw => length (fst dw) = length ls) dws -> length acc = length ls ->
  exists r, merge_loop acc dws = Ok r /\ length r = length ls /\ forall T, lmass ls r T == lmass ls acc T + wmix ls dws T.
Proof.
  intros L ls dws. induction dws as [|[d w] dws IH]; intros acc F E; cbn.
  - exists acc. split; [reflexivity|]. split; [exact E|]. intro T. unfold wmix. cbn. lra.
  - inversion F as [|? ? Ed F']; subst. cbn in Ed. rewrite E, Ed, Nat.eqb_refl.
    assert (Ls : length acc = length (vscale w d)) by (unfold vscale; rewrite map_length; congruence).
    destruct (IH (vadd acc (vscale w d)) F') as (r & -> & Lr & M); [rewrite vadd_length; assumption|].
    exists r. split; [reflexivity|]. split; [exact Lr|]. intro T. rewrite M, vadd_mass, vscale_mass by exact Ls.
    unfold wmix. cbn. lra.
Qed.
Lemma merge_loop_nonneg : forall dws acc r, Forall (fun dw => Forall (fun p => 0 <= p) (fst dw) /\ 0 <= snd dw) dws ->
  Forall (fun p => 0 <= p) acc -> merge_loop acc dws = Ok r -> Forall (fun p => 0 <= p) r.
Proof.
  induction dws as [|[d w] dws IH]; intros acc r F A H; cbn in H; [inversion H; subst; exact A|].
  inversion F as [|? ? [Pd Pw] F']; subst. cbn in *. destruct (Nat.eqb (length acc) (length d)); [|discriminate].
  apply (IH _ _ F') in H; [exact H|]. apply vadd_nonneg; [exact A|]. apply vscale_nonneg; assumption.
Qed.

Lemma wmix_total : forall L (ls : list L) ds ws, length ds = length ws ->
  Forall (fun d => length d = length ls /\ Qsum d == 1) ds -> wmix ls (combine ds ws) (fun _ => true) == Qsum ws.
Proof.
  intros L ls ds. unfold wmix. induction ds as [|d ds IH]; intros [|w ws] E F; cbn in *; try discriminate; [reflexivity|].
  inversion F as [|? ? [Ed Sd] F']; subst. rewrite (IH ws) by (lia || assumption). rewrite mass_full by auto. rewrite Sd. lra.
Qed.

Lemma merge_spec : forall L (ls : list L) ds ws r, ls <> [] -> length ds = length ws ->
  Forall (fun d => length d = length ls /\ proper d) ds -> Forall (fun w => 0 <= w) ws ->
  merge (length ls) ds ws = Ok r ->
  length r = length ls /\ Forall (fun p => 0 <= p) r /\ Qsum r == Qsum ws /\ Qabs (1 - Qsum ws) <= 1 # 10000000000 /\
  forall T, lmass ls r T == wmix ls (combine ds ws) T.
Proof.
  intros L ls ds ws r Nl E F W H. unfold merge in H. destruct ds as [|d0 ds]; [discriminate|].
  set (dss := d0 :: ds) in *. clearbody dss. unfold Qltb in H.
  destruct (Qltb_spec (1 # 10000000000) (Qabs (1 - Qsum ws))) as [Q|Q]; [discriminate|].
  destruct (merge_loop_spec L ls (combine dss ws) (repeat 0 (length ls))) as (p & Ep & Lp & M).
  { apply Forall_forall. intros [d w] I. apply in_combine_l in I. rewrite Forall_forall in F. apply (F d I). }
  { apply repeat_length. }
  rewrite Ep in H. cbn [bind] in H. destruct (negb _) in H; [discriminate|].
  unfold set_params in H. rewrite Lp, Nat.eqb_refl in H. inversion H; subst p. clear H.
  assert (M' : forall T, lmass ls r T == wmix ls (combine dss ws) T) by (intro T; rewrite M, mass_zeros; lra).
  split; [exact Lp|]. split; [|split; [|split; [lra|exact M']]].
  - apply (merge_loop_nonneg (combine dss ws) (repeat 0 (length ls)) r); [| |exact Ep].
    + apply Forall_forall. intros [d w] I. rewrite Forall_forall in F, W. cbn. split.
      * apply (F d), (in_combine_l _ _ _ _ I).
      * apply (W w), (in_combine_r _ _ _ _ I).
    + apply Forall_forall. intros x I. apply repeat_spec in I. subst. lra.
  - rewrite <- (mass_full L ls) by auto. rewrite M'. apply wmix_total; [exact E|].
    eapply Forall_impl; [|exact F]. cbn. intros a [A [_ B]]. auto.
Qed.

Lemma merge_total : forall L (ls : list L) ds ws, ds <> [] -> length ds = length ws -> Forall (fun d => length d = length ls /\ proper d) ds ->
  Qsum ws == 1 -> exists r, merge (length ls) ds ws = Ok r.
Proof.
  intros L ls ds ws Nd E F S. unfold merge. destruct ds as [|d0 ds]; [contradiction|].
  set (dss := d0 :: ds) in *. clearbody dss. unfold Qltb at 1.
  destruct (Qltb_spec (1 # 10000000000) (Qabs (1 - Qsum ws))) as [Q|Q].
  { exfalso. assert (X : 1 - Qsum ws == 0) by lra. rewrite X in Q. cbn in Q. discriminate. }
  destruct (merge_loop_spec L ls (combine dss ws) (repeat 0 (length ls))) as (p & Ep & Lp & M).
  { apply Forall_forall. intros [d w] I. apply in_combine_l in I. rewrite Forall_forall in F. apply (F d I). }
  { apply repeat_length. }
  rewrite Ep. cbn [bind]. assert (Sp : Qsum p == 1).
  { rewrite <- (mass_full L ls) by auto. rewrite M, mass_zeros, wmix_total; [lra|exact E|].
    eapply Forall_impl; [|exact F]. cbn. intros a [A [_ B]]. auto. }
  unfold Qltb. destruct (Qltb_spec (Qabs (Qsum p)) (1 # 10000000000)) as [K|K].
  { exfalso. rewrite Sp in K. cbn in K. discriminate. }
  unfold set_params. rewrite Lp, Nat.eqb_refl. eauto.
Qed.

Lemma merge_rejects : forall n ds ws, ds <> [] -> (1 # 10000000000) < Qabs (1 - Qsum ws) -> merge n ds ws = Err ValueError.
Proof.
  intros n ds ws N H. unfold merge. destruct ds; [contradiction|]. unfold Qltb. destruct (Qltb_spec (1 # 10000000000) (Qabs (1 - Qsum ws))); [reflexivity|lra].
Qed.

Lemma update_spec : forall L (ls : list L) ps d w, length ps = length ls -> length d = length ls -> 0 <= w -> w <= 1 -> proper ps -> proper d ->
  exists r, update (length ls) (Some ps) d w = Ok r /\ length r = length ls /\ proper r /\
    forall T, lmass ls r T == (1 - w) * lmass ls ps T + w * lmass ls d T.
Proof.
  intros L ls ps d w Lp Ld W0 W1 [Pp Sp] [Pd Sd]. unfold update. destruct (Qleb_spec 0 w); [|lra]. destruct (Qleb_spec w 1); [|lra].
  cbn [andb negb]. rewrite Lp, Ld, Nat.eqb_refl. eexists. split; [reflexivity|].
  assert (E : length (vscale (1 - w) ps) = length (vscale w d)) by (unfold vscale; rewrite !map_length; lia).
  assert (M : forall T, lmass ls (vadd (vscale (1 - w) ps) (vscale w d)) T == (1 - w) * lmass ls ps T + w * lmass ls d T).
  { intro T. rewrite vadd_mass by exact E. rewrite !vscale_mass. reflexivity. }
  assert (Lr : length (vadd (vscale (1 - w) ps) (vscale w d)) = length ls).
  { rewrite vadd_length by exact E. unfold vscale. rewrite map_length. exact Lp. }
  split; [exact Lr|]. split; [|exact M]. split.
  - apply vadd_nonneg; apply vscale_nonneg; try assumption; lra.
  - rewrite <- (mass_full L ls) by auto. rewrite M, !mass_full by auto. rewrite Sp, Sd. lra.
Qed.

(** ** k-MPE *)
Lemma qset_in : forall l x, In x l -> exists y, In y (qset l) /\ y == x.
Proof.
  induction l as [|a l IH]; intros x I; [destruct I|]. destruct I as [->|I]; cbn.
  - destruct (existsb (Qeq_bool x) l) eqn:E; [|exists x; split; [left; reflexivity|reflexivity]].
    apply existsb_exists in E. destruct E as (y & I & Q). apply Qeq_bool_iff in Q. destruct (IH y I) as (z & Iz & Qz).
    exists z. split; [exact Iz|]. rewrite Qz. symmetry. exact Q.
  - destruct (IH x I) as (y & Iy & Q). exists y. split; [|exact Q]. destruct (existsb (Qeq_bool a) l); [exact Iy|right; exact Iy].
Qed.
Lemma qset_sub : forall l x, In x (qset l) -> In x l.
Proof.
  induction l as [|a l IH]; intros x I; cbn in *; [exact I|]. destruct (existsb (Qeq_bool a) l); [right; auto|].
  destruct I as [->|I]; [left; reflexivity|right; auto].
Qed.
Inductive qdistinct : list Q -> Prop :=
| qd_nil : qdistinct []
| qd_cons : forall x l, (forall y, In y l -> ~ x == y) -> qdistinct l -> qdistinct (x :: l).
Lemma qset_distinct : forall l, qdistinct (qset l).
Proof.
  induction l as [|a l IH]; cbn; [constructor|]. destruct (existsb (Qeq_bool a) l) eqn:E; [exact IH|]. constructor; [|exact IH].
  intros y I Q. apply qset_sub in I. assert (existsb (Qeq_bool a) l = true); [|congruence].
  apply existsb_exists. exists y. split; [exact I|apply Qeq_bool_iff, Q].
Qed.
Lemma insert_desc_in : forall x l y, In y (insert_desc x l) <-> y = x \/ In y l.
Proof.
  induction l as [|a l IH]; intro y; cbn; [intuition|]. destruct (Qle_bool a x); cbn; [intuition|]. rewrite IH. intuition.
Qed.
Lemma sort_desc_in : forall l y, In y (sort_desc l) <-> In y l.
Proof. induction l as [|a l IH]; intro y; cbn; [tauto|]. rewrite insert_desc_in, IH. intuition. Qed.
Lemma insert_desc_sorted : forall x l, StronglySorted (fun a b => b < a) l -> (forall y, In y l -> ~ x == y) -> StronglySorted (fun a b => b < a) (insert_desc x l).
Proof.
  induction l as [|a l IH]; intros S D; cbn; [repeat constructor|]. inversion S as [|? ? S' F]; subst.
  destruct (Qleb_spec a x) as [Q|Q].
  - assert (a < x). { apply Qle_lteq in Q. destruct Q as [Q|Q]; [exact Q|]. exfalso. apply (D a); [left; reflexivity|]. symmetry; exact Q. }
    constructor; [exact S|]. constructor; [exact H|]. eapply Forall_impl; [|exact F]. cbn. intros b B. lra.
  - constructor; [apply IH; [exact S'|intros; apply D; right; assumption]|]. apply Forall_forall. intros y I.
    apply insert_desc_in in I. rewrite Forall_forall in F. destruct I as [->|I]; [lra|auto].
Qed.
Lemma sort_desc_sorted : forall l, qdistinct l -> StronglySorted (fun a b => b < a) (sort_desc l).
Proof.
  induction 1 as [|x l D _ IH]; cbn; [constructor|]. apply insert_desc_sorted; [exact IH|]. intros y I. apply D. apply sort_desc_in, I.
Qed.
Lemma sort_desc_length : forall l, length (sort_desc l) = length l.
Proof.
  assert (I : forall x l, length (insert_desc x l) = S (length l)).
  { intros x l. induction l as [|a l IH]; cbn; [reflexivity|]. destruct (Qle_bool a x); cbn; [reflexivity|]. rewrite IH. reflexivity. }
  induction l as [|a l IH]; [reflexivity|]. change (sort_desc (a :: l)) with (insert_desc a (sort_desc l)). rewrite I, IH. reflexivity.
Qed.

Lemma seq_combine_in : forall (ps : list Q) k v p, In (v, p) (combine (seq k (length ps)) ps) <-> (k <= v)%nat /\ nth_error ps (v - k) = Some p.
Proof.
  induction ps as [|q ps IH]; intros k v p; cbn.
  - split; [tauto|]. intros [_ H]. destruct (v - k)%nat; discriminate.
  - split.
    + intros [H|H]; [inversion H; subst; rewrite Nat.sub_diag; auto|]. apply IH in H. destruct H as [A B].
      split; [lia|]. replace (v - k)%nat with (S (v - S k)) by lia. exact B.
    + intros [A B]. destruct (Nat.eq_dec v k) as [->|Ne].
      * rewrite Nat.sub_diag in B. cbn in B. inversion B. left; reflexivity.
      * right. apply IH. split; [lia|]. replace (v - k)%nat with (S (v - S k)) in B by lia. exact B.
Qed.

Lemma states_of_spec : forall ps p v, In v (states_of ps p) <-> exists q, nth_error ps v = Some q /\ q == p.
Proof.
  intros ps p v. unfold states_of. rewrite in_map_iff. split.
  - intros ([v' q] & E & I). cbn in E. subst v'. apply filter_In in I. destruct I as [I B]. apply seq_combine_in in I.
    destruct I as [_ I]. rewrite Nat.sub_0_r in I. cbn in B. apply Qeq_bool_iff in B. eauto.
  - intros (q & E & B). exists (v, q). split; [reflexivity|]. apply filter_In. split; [|apply Qeq_bool_iff, B].
    apply seq_combine_in. rewrite Nat.sub_0_r. split; [lia|exact E].
Qed.
Lemma states_of_nodup : forall ps p, NoDup (states_of ps p).
Proof.
  intros ps p. unfold states_of. generalize (Qeq_bool) as eqb. intro eqb.
  assert (forall k, NoDup (map fst (filter (fun vp => eqb (snd vp) p) (combine (seq k (length ps)) ps))) /\
     forall v, In v (map fst (filter (fun vp => eqb (snd vp) p) (combine (seq k (length ps)) ps))) -> (k <= v)%nat) as H; [|apply H].
  induction ps as [|q ps IH]; intro k; cbn; [split; [constructor|tauto]|]. destruct (IH (S k)) as [A B].
  destruct (eqb q p); cbn.
  - split; [constructor; [|exact A]; intro I; apply B in I; lia|]. intros v [->|I]; [lia|apply B in I; lia].
  - split; [exact A|]. intros v I. apply B in I. lia.
Qed.

Lemma k_mpe_levels : forall ps, 
  StronglySorted (fun a b => snd b < snd a) (k_mpe ps None) /\
  (forall S p, In (S, p) (k_mpe ps None) -> ~ p == 0 /\ S <> [] /\ NoDup S /\ forall v, In v S <-> exists q, nth_error ps v = Some q /\ q == p) /\
  (forall v q, nth_error ps v = Some q -> ~ q == 0 -> exists S p, In (S, p) (k_mpe ps None) /\ In v S).
Proof.
  intro ps. unfold k_mpe. set (q := qset (filter (fun p => negb (Qeq_bool p 0)) ps)).
  assert (firstn (length q) (sort_desc q) = sort_desc q) as -> by (rewrite <- sort_desc_length; apply firstn_all).
  assert (Q1 : forall x, In x (sort_desc q) -> In x ps /\ ~ x == 0).
  { intros x I. apply sort_desc_in, qset_sub, filter_In in I. destruct I as [I N]. split; [exact I|].
    destruct (Qeqb_spec x 0); [discriminate|assumption]. }
  split; [|split].
  - pose proof (sort_desc_sorted q (qset_distinct _)) as S. induction S as [|a l S IH F]; cbn; constructor.
    + apply IH. intros x I. apply Q1. right; exact I.
    + apply Forall_forall. intros [s p] I. apply in_map_iff in I. destruct I as (y & E & I). inversion E; subst. cbn.
      rewrite Forall_forall in F. auto.
  - intros S p I. apply in_map_iff in I. destruct I as (y & E & I). inversion E; subst. destruct (Q1 p I) as [Ip N].
    split; [exact N|]. split; [|split; [apply states_of_nodup|apply states_of_spec]].
    apply In_nth_error in Ip. destruct Ip as [v Ev]. intro Z. assert (In v (states_of ps p)) as X by (apply states_of_spec; exists p; split; [exact Ev|reflexivity]).
    rewrite Z in X. destruct X.
  - intros v x E N. destruct (qset_in (filter (fun p => negb (Qeq_bool p 0)) ps) x) as (y & Iy & Qy).
    { apply filter_In. split; [apply nth_error_In in E; exact E|]. destruct (Qeqb_spec x 0); [contradiction|reflexivity]. }
    exists (states_of ps y), y. split; [|apply states_of_spec; exists x; split; [exact E|symmetry; exact Qy]].
    apply in_map_iff. exists y. split; [reflexivity|]. apply sort_desc_in. exact Iy.
Qed.

Lemma firstn_map' : forall A B (f : A -> B) k l, firstn k (map f l) = map f (firstn k l).
Proof. intros A B f. induction k as [|k IH]; intros [|a l]; cbn; try reflexivity. rewrite IH. reflexivity. Qed.

Lemma k_mpe_prefix : forall ps k, k_mpe ps (Some k) = firstn k (k_mpe ps None).
Proof.
  intros. unfold k_mpe. set (q := qset _).
  assert (firstn (length q) (sort_desc q) = sort_desc q) as -> by (rewrite <- sort_desc_length; apply firstn_all).
  rewrite firstn_map'. reflexivity.
Qed.

Lemma mpe_spec : forall ps, proper ps -> exists S p, mpe ps = Ok (S, p) /\ 0 < p /\
  (forall v, In v S <-> exists q, nth_error ps v = Some q /\ forall v' q', nth_error ps v' = Some q' -> q' <= q) /\
  (forall v q, In v S -> nth_error ps v = Some q -> q == p) /\ S <> [].
Proof.
  intros ps [P S1]. destruct (k_mpe_levels ps) as (St & Lv & Cv). unfold mpe. rewrite k_mpe_prefix.
  destruct (Qsum_pos_ex ps) as (x & Ix & Px); [rewrite S1; reflexivity|]. apply In_nth_error in Ix. destruct Ix as [v0 E0].
  destruct (Cv v0 x E0) as (S0 & p0 & I0 & _); [lra|].
  destruct (k_mpe ps None) as [|[S p] rest] eqn:K; [destruct I0|]. cbn [firstn]. exists S, p. split; [reflexivity|].
  destruct (Lv S p (or_introl eq_refl)) as (Np & NS & _ & Ex).
  assert (Pp : 0 < p).
  { destruct S as [|v S]; [contradiction|]. destruct (proj1 (Ex v) (or_introl eq_refl)) as (q & Eq & Qq).
    apply nth_error_In in Eq. rewrite Forall_forall in P. specialize (P q Eq). lra. }
  assert (Max : forall v' q', nth_error ps v' = Some q' -> q' <= p).
  { intros v' q' E'. destruct (Qeq_dec q' 0) as [Z|Z]; [lra|]. destruct (Cv v' q' E' Z) as (S' & p' & I' & Iv).
    destruct (Lv S' p' I') as (_ & _ & _ & Ex'). apply Ex' in Iv. destruct Iv as (q'' & E'' & Q''). rewrite E' in E''. inversion E''; subst q''.
    destruct I' as [I'|I']; [inversion I'; subst; lra|]. inversion St as [|? ? _ F]; subst. rewrite Forall_forall in F.
    specialize (F _ I'). cbn in F. lra. }
  split; [exact Pp|]. split; [|split; [|exact NS]].
  - intro v. rewrite Ex. split.
    + intros (q & E & Q). exists q. split; [exact E|]. intros v' q' E'. rewrite Q. eauto.
    + intros (q & E & M). exists q. split; [exact E|]. specialize (Max v q E).
      destruct S as [|v1 S]; [contradiction|]. destruct (proj1 (Ex v1) (or_introl eq_refl)) as (q1 & E1 & Q1).
      specialize (M v1 q1 E1). lra.
  - intros v q I E. apply Ex in I. destruct I as (q' & E' & Q'). rewrite E in E'. inversion E'; subst. exact Q'.
Qed.

(** ** Similarity *)
Lemma qmin_comm : forall x y, qmin x y == qmin y x.
Proof. intros. unfold qmin, Qltb. destruct (Qltb_spec y x), (Qltb_spec x y); lra. Qed.
Lemma qmax_comm : forall x y, qmax x y == qmax y x.
Proof. intros. unfold qmax, Qltb. destruct (Qltb_spec y x), (Qltb_spec x y); lra. Qed.
Lemma qmin_le : forall x y, qmin x y <= x /\ qmin x y <= y.
Proof. intros. unfold qmin, Qltb. destruct (Qltb_spec y x); lra. Qed.
Lemma qmax_ge : forall x y, x <= qmax x y /\ y <= qmax x y.
Proof. intros. unfold qmax, Qltb. destruct (Qltb_spec x y); lra. Qed.
Lemma qmin_nonneg : forall x y, 0 <= x -> 0 <= y -> 0 <= qmin x y.
Proof. intros. unfold qmin, Qltb. destruct (Qltb_spec y x); lra. Qed.

Lemma combine_swap_sum : forall (f : Q -> Q -> Q), (forall x y, f x y == f y x) -> forall a b,
  Qsum (map (fun xy => f (fst xy) (snd xy)) (combine a b)) == Qsum (map (fun xy => f (fst xy) (snd xy)) (combine b a)).
Proof. intros f C. induction a as [|x a IH]; intros [|y b]; cbn; try reflexivity. rewrite (IH b), C. reflexivity. Qed.

Lemma Qsum_combine_l : forall a b, length a = length b -> Qsum (map (fun xy : Q * Q => fst xy) (combine a b)) == Qsum a.
Proof. induction a as [|x a IH]; intros [|y b] E; cbn in *; try discriminate; [reflexivity|]. rewrite IH by lia. reflexivity. Qed.

Lemma jaccard_spec : forall a b, length a = length b -> proper a -> proper b ->
  exists j, jaccard a b = Ok j /\ 0 <= j /\ j <= 1 /\ (Qleq a b <-> j == 1).
Proof.
  intros a b E [Pa Sa] [Pb Sb]. unfold jaccard. cbv zeta.
  set (i := Qsum (map (fun xy => qmin (fst xy) (snd xy)) (combine a b))). set (u := Qsum (map (fun xy => qmax (fst xy) (snd xy)) (combine a b))).
  assert (U1 : 1 <= u). { rewrite <- Sa, <- (Qsum_combine_l a b E). apply Qsum_map_le. intros [x y] _. apply qmax_ge. }
  assert (I0 : 0 <= i).
  { apply Qsum_map_nonneg. intros [x y] I. rewrite Forall_forall in Pa, Pb. apply qmin_nonneg; [apply (Pa x), (in_combine_l _ _ _ _ I)|apply (Pb y), (in_combine_r _ _ _ _ I)]. }
  assert (IU : i <= u). { apply Qsum_map_le. intros [x y] _. cbn. pose proof (qmin_le x y). pose proof (qmax_ge x y). lra. }
  destruct (Qeqb_spec u 0); [lra|]. exists (i / u). split; [reflexivity|]. split; [apply Qdiv_nonneg; lra|]. split; [apply Qdiv_le_1; lra|].
  assert (EQ : Qleq a b <-> i == u).
  { subst i u. clear -E. revert b E. induction a as [|x a IH]; intros [|y b] E; cbn in *; try discriminate; [split; [reflexivity|constructor]|].
    assert (IU' : Qsum (map (fun xy => qmin (fst xy) (snd xy)) (combine a b)) <= Qsum (map (fun xy => qmax (fst xy) (snd xy)) (combine a b))).
    { apply Qsum_map_le. intros [p q] _. cbn. pose proof (qmin_le p q). pose proof (qmax_ge p q). lra. }
    pose proof (qmin_le x y) as M1. pose proof (qmax_ge x y) as M2. split; intro H.
    - inversion H; subst. match goal with K : Forall2 _ a b |- _ => rewrite (proj1 (IH b ltac:(lia)) K) end. unfold qmin, qmax, Qltb. destruct (Qltb_spec y x), (Qltb_spec x y); lra.
    - constructor; [|apply IH; [lia|]]; lra. }
  rewrite EQ. split; intro H; [rewrite H; apply Qdiv_same; lra|].
  assert (X : i == i / u * u) by (field; lra). rewrite H in X. lra.
Qed.

Lemma jaccard_sym : forall a b j, jaccard a b = Ok j -> exists j', jaccard b a = Ok j' /\ j' == j.
Proof.
  intros a b j. unfold jaccard. cbv zeta.
  pose proof (combine_swap_sum qmin qmin_comm a b) as A. pose proof (combine_swap_sum qmax qmax_comm a b) as B.
  destruct (Qeqb_spec (Qsum (map (fun xy => qmax (fst xy) (snd xy)) (combine a b))) 0) as [Z|Z]; [discriminate|]. intro H; inversion H; subst.
  destruct (Qeqb_spec (Qsum (map (fun xy => qmax (fst xy) (snd xy)) (combine b a))) 0) as [Z'|Z']; [exfalso; apply Z; rewrite B; exact Z'|].
  eexists. split; [reflexivity|]. rewrite A, B. reflexivity.
Qed.

Lemma kl_spec : forall a b, length a = length b -> Forall (fun p => 0 <= p) a ->
  0 <= kl_divergence a b /\ (kl_divergence a b == 0 <-> forall v p q, nth_error a v = Some p -> nth_error b v = Some q -> p == 0 \/ p == q).
Proof.
  intros a b E F. unfold kl_divergence.
  assert (N : forall xy : Q * Q, In xy (combine a b) -> 0 <= fst xy * Qabs (fst xy - snd xy)).
  { intros [x y] I. apply Qmult_le_0_compat; [|apply Qabs_nonneg]. rewrite Forall_forall in F. apply F, (in_combine_l _ _ _ _ I). }
  split; [apply Qsum_map_nonneg; exact N|].
  revert b E N. induction a as [|x a IH]; intros [|y b] E N; try discriminate.
  - split; [intros _ [|v]; discriminate|reflexivity].
  - cbn [combine map Qsum fst snd]. cbn [length] in E. inversion F; subst. pose proof (N (x, y) (or_introl eq_refl)) as N0. cbn [fst snd] in N0.
    assert (NS : 0 <= Qsum (map (fun xy => fst xy * Qabs (fst xy - snd xy)) (combine a b))).
    { apply Qsum_map_nonneg. intros xy I. apply N. right; exact I. }
    specialize (IH H2 b ltac:(lia) (fun xy I => N xy (or_intror I))). split.
    + intros Z [|v] p q Ep Eq; cbn [nth_error] in *.
      * inversion Ep; inversion Eq; subst. assert (K : p * Qabs (p - q) == 0) by lra. apply Qmult_integral in K. destruct K as [K|K]; [auto|].
        right. revert K. apply Qabs_case; intros; lra.
      * apply (proj1 IH) with (v := v); auto. lra.
    + intro H. rewrite (proj2 IH). 2:{ intros v p q Ep Eq. apply (H (S v)); assumption. }
      destruct (H O x y eq_refl eq_refl) as [K|K]; [rewrite K; lra|]. assert (Z : x - y == 0) by lra. rewrite Z. change (Qabs 0) with 0. lra.
Qed.

(** ** Sums of integer variables *)
Definition Zrange (lo : Z) (n : nat) : list Z := map (fun k => lo + Z.of_nat k)%Z (seq 0 n).

Definition iwf (d : idist) : Prop := (lmin d <= lmax d)%Z /\ length (iparams d) = Z.to_nat (lmax d - lmin d + 1).

Definition iprob (d : idist) (l : Z) : Q :=
  if (lmin d <=? l)%Z && (l <=? lmax d)%Z then nth (Z.to_nat (l - lmin d)) (iparams d) 0 else 0.

Lemma Zrange_nodup : forall lo n, NoDup (Zrange lo n).
Proof. intros. apply FinFun.Injective_map_NoDup; [intros a b H; cbn in H; lia|apply seq_NoDup]. Qed.
Lemma Zrange_nth : forall lo n i, (i < n)%nat -> nth_error (Zrange lo n) i = Some (lo + Z.of_nat i)%Z.
Proof.
  intros. unfold Zrange. rewrite nth_error_map, nth_error_nth' with (d := O) by (rewrite seq_length; lia). rewrite seq_nth by lia. reflexivity.
Qed.
Lemma Zrange_in : forall lo n z, In z (Zrange lo n) <-> (lo <= z < lo + Z.of_nat n)%Z.
Proof.
  intros. unfold Zrange. rewrite in_map_iff. split.
  - intros (k & <- & I). apply in_seq in I. lia.
  - intro H. exists (Z.to_nat (z - lo)). split; [lia|]. apply in_seq. lia.
Qed.
Lemma Zrange_length : forall lo n, length (Zrange lo n) = n.
Proof. intros. unfold Zrange. rewrite map_length, seq_length. reflexivity. Qed.

Lemma int_p1_ok : forall d l, iwf d -> In l (ilabels d) -> exists q, int_p1 d l = Ok q /\ q == iprob d l.
Proof.
  intros d l [Lm Len] I. unfold int_p1. change (ilabels d) with (Zrange (lmin d) (Z.to_nat (lmax d - lmin d + 1))) in *.
  apply Zrange_in in I.
  assert (label2value1 Z Z.eqb (Zrange (lmin d) (Z.to_nat (lmax d - lmin d + 1))) l = Ok (Z.to_nat (l - lmin d))) as ->.
  { apply (l2v1_spec Z Z.eqb Z.eqb_eq); [apply Zrange_nodup|]. rewrite Zrange_nth by lia. f_equal. lia. }
  cbn [bind]. unfold int_p. cbn [forallb]. rewrite (proj2 (Nat.ltb_lt _ _)) by (rewrite Len; lia). cbn [andb].
  unfold mn_p. cbn [nodup in_dec]. cbn. unfold pget. destruct (nth_error (iparams d) (Z.to_nat (l - lmin d))) as [p|] eqn:E.
  2:{ apply nth_error_None in E. lia. }
  cbn. eexists. split; [reflexivity|]. unfold iprob.
  rewrite (proj2 (Z.leb_le _ _)) by lia. rewrite (proj2 (Z.leb_le _ _)) by lia. cbn [andb].
  rewrite (nth_error_nth _ _ 0 E). lra.
Qed.

Lemma sumM_ok : forall A (f : A -> res Q) (g : A -> Q) l, (forall x, In x l -> exists q, f x = Ok q /\ q == g x) ->
  exists q, sumM (map f l) = Ok q /\ q == Qsum (map g l).
Proof.
  intros A f g. induction l as [|a l IH]; intros H; cbn; [exists 0; split; reflexivity|].
  destruct (H a (or_introl eq_refl)) as (q & -> & E). destruct IH as (q' & -> & E'); [intros; apply H; right; assumption|].
  cbn. eexists. split; [reflexivity|]. rewrite E, E'. reflexivity.
Qed.

Lemma mapM_ok : forall A (f : A -> res Q) (g : A -> Q) l, (forall x, In x l -> exists q, f x = Ok q /\ q == g x) ->
  exists r, mapM f l = Ok r /\ Qleq r (map g l).
Proof.
  intros A f g. induction l as [|a l IH]; intros H; cbn; [exists []; split; [reflexivity|constructor]|].
  destruct (H a (or_introl eq_refl)) as (q & -> & E). destruct IH as (q' & -> & E'); [intros; apply H; right; assumption|].
  cbn. eexists. split; [reflexivity|]. constructor; assumption.
Qed.

(** The expectation of [g] under an integer distribution, by labels. *)
Definition iexp (d : idist) (g : Z -> Q) : Q := Qsum (map (fun lp => g (fst lp) * snd lp) (combine (ilabels d) (iparams d))).

Lemma iexp_prob : forall d g, iwf d -> iexp d g == Qsum (map (fun l => g l * iprob d l) (ilabels d)).
Proof.
  intros d g [Lm Len]. unfold iexp. 
  assert (G : forall n ps lo (f : Z -> Q), length ps = n -> (forall i, (i < n)%nat -> f (lo + Z.of_nat i)%Z == nth i ps 0) ->
    Qsum (map (fun lp => g (fst lp) * snd lp) (combine (Zrange lo n) ps)) == Qsum (map (fun l => g l * f l) (Zrange lo n))).
  { induction n as [|n IH]; intros [|p ps] lo f E H; cbn in E; try discriminate; [reflexivity|].
    assert (R : Zrange lo (S n) = lo :: Zrange (lo + 1) n).
    { unfold Zrange. cbn [seq map]. f_equal; [lia|]. rewrite <- seq_shift, map_map. apply map_ext. intro; lia. }
    rewrite R. cbn. rewrite (IH ps (lo + 1)%Z f).
    - pose proof (H O ltac:(lia)) as H0. cbn in H0. rewrite Z.add_0_r in H0. rewrite H0. reflexivity.
    - lia.
    - intros i Hi. specialize (H (S i) ltac:(lia)). cbn [nth] in H. rewrite <- H. replace (lo + 1 + Z.of_nat i)%Z with (lo + Z.of_nat (S i))%Z by lia. reflexivity. }
  apply (G _ (iparams d) (lmin d) (iprob d)); [exact Len|]. intros i Hi. unfold iprob.
  rewrite (proj2 (Z.leb_le _ _)) by lia. rewrite (proj2 (Z.leb_le _ _)) by lia. cbn [andb].
  replace (lmin d + Z.of_nat i - lmin d)%Z with (Z.of_nat i) by lia. rewrite Nat2Z.id. reflexivity.
Qed.

Lemma Zrange_split : forall lo a b, Zrange lo (a + b) = Zrange lo a ++ Zrange (lo + Z.of_nat a) b.
Proof.
  intros. unfold Zrange. rewrite seq_app, map_app. f_equal. cbn. 
  rewrite <- (map_map Z.of_nat (fun k => lo + k)%Z), <- (map_map Z.of_nat (fun k => lo + Z.of_nat a + k)%Z).
  revert a. induction b as [|b IH]; intro a; cbn; [reflexivity|]. f_equal; [lia|].
  rewrite (IH (S a)). rewrite <- (seq_shift b 0), !map_map. apply map_ext. intro; lia.
Qed.

Lemma int_add_spec : forall a b, iwf a -> iwf b -> exists r, int_add a b = Ok r /\ iwf r /\
  lmin r = (lmin a + lmin b)%Z /\ lmax r = (lmax a + lmax b)%Z /\
  forall g, iexp r g == iexp a (fun i => iexp b (fun j => g (i + j)%Z)).
Proof.
  intros a b Wa Wb. pose proof Wa as [La Na]. pose proof Wb as [Lb Nb]. unfold int_add, IntegerType.
  rewrite (proj2 (Z.ltb_ge _ _)) by lia. cbn [bind].
  set (n := Z.to_nat (lmax a + lmax b - (lmin a + lmin b) + 1)).
  change (map (fun k : nat => (lmin a + lmin b + Z.of_nat k)%Z) (seq 0 n)) with (Zrange (lmin a + lmin b) n).
  destruct (mapM_ok Z (fun z => sumM (map (fun k =>
       do pa <- int_p1 a k;
       do pb <- (if (lmin b <=? z - k)%Z && (z - k <=? lmax b)%Z then int_p1 b (z - k) else Ok 0);
       Ok (pa * pb)) (ilabels a))) (fun z => Qsum (map (fun k => iprob a k * iprob b (z - k)) (ilabels a))) (Zrange (lmin a + lmin b) n)) as (ps & E & Q).
  { intros z Iz. apply sumM_ok. intros k Ik. destruct (int_p1_ok a k Wa Ik) as (pa & -> & Ea). cbn [bind].
    unfold iprob at 2. destruct ((lmin b <=? z - k)%Z && (z - k <=? lmax b)%Z) eqn:C.
    - apply andb_true_iff in C. destruct C as [C1 C2]. apply Z.leb_le in C1, C2.
      destruct (int_p1_ok b (z - k) Wb) as (pb & -> & Eb). { apply Zrange_in. lia. }
      cbn [bind]. eexists. split; [reflexivity|]. rewrite Ea, Eb. unfold iprob at 2.
      rewrite (proj2 (Z.leb_le _ _) C1), (proj2 (Z.leb_le _ _) C2). reflexivity.
    - cbn [bind]. eexists. split; [reflexivity|]. rewrite Ea. reflexivity. }
  rewrite E. cbn [bind]. assert (Lp : length ps = n).
  { assert (X : length ps = length (map (fun z => Qsum (map (fun k => iprob a k * iprob b (z - k)) (ilabels a))) (Zrange (lmin a + lmin b) n))) by (clear -Q; induction Q; cbn; congruence).
    rewrite X, map_length, Zrange_length. reflexivity. }
  unfold set_params. rewrite Zrange_length, Lp, Nat.eqb_refl. cbn [bind]. eexists. split; [reflexivity|].
  assert (Wr : iwf (IDist (lmin a + lmin b) (lmax a + lmax b) ps)) by (split; cbn; [lia|exact Lp]).
  split; [exact Wr|]. split; [reflexivity|]. split; [reflexivity|]. intro g.
  (* left side: sum over z *)
  transitivity (Qsum (map (fun z => g z * Qsum (map (fun k => iprob a k * iprob b (z - k)) (ilabels a))) (Zrange (lmin a + lmin b) n))).
  { unfold iexp. change (ilabels (IDist (lmin a + lmin b) (lmax a + lmax b) ps)) with (Zrange (lmin a + lmin b) n). cbn [iparams].
    clear -Q. revert ps Q. generalize (Zrange (lmin a + lmin b) n). induction l as [|z l IH]; intros ps Q; cbn; [reflexivity|].
    cbn in Q. inversion Q as [|p ? ps' ? E Q']; subst. cbn. rewrite E. rewrite (IH ps' Q'). reflexivity. }
  rewrite (iexp_prob a) by exact Wa.
  transitivity (Qsum (map (fun z => Qsum (map (fun k => g z * (iprob a k * iprob b (z - k))) (ilabels a))) (Zrange (lmin a + lmin b) n))).
  { apply Qsum_map_ext. intros z _. rewrite Qsum_map_scale. reflexivity. }
  rewrite Qsum_exchange. apply Qsum_map_ext. intros k Ik.
  transitivity (Qsum (map (fun z => iprob a k * (g z * iprob b (z - k))) (Zrange (lmin a + lmin b) n))).
  { apply Qsum_map_ext. intros z _. ring. }
  rewrite Qsum_map_scale, Qmult_comm. apply Qmult_comp; [|reflexivity].
  rewrite (iexp_prob b) by exact Wb.
  (* the z with z - k in the range of b *)
  change (ilabels a) with (Zrange (lmin a) (Z.to_nat (lmax a - lmin a + 1))) in Ik. apply Zrange_in in Ik.
  set (m := Z.to_nat (lmax b - lmin b + 1)). set (off := Z.to_nat (k - lmin a)).
  assert (n = off + (m + (n - off - m)))%nat as -> by lia. rewrite !Zrange_split, !map_app, !Qsum_app.
  rewrite (Qsum_map_zero _ _ (Zrange (lmin a + lmin b) off)).
  2:{ intros z Iz. apply Zrange_in in Iz. unfold iprob. rewrite (proj2 (Z.leb_gt _ _)) by lia. cbn [andb]. ring. }
  rewrite (Qsum_map_zero _ _ (Zrange (lmin a + lmin b + Z.of_nat off + Z.of_nat m) _)).
  2:{ intros z Iz. apply Zrange_in in Iz. unfold iprob. rewrite (proj2 (Z.leb_gt (z - k) (lmax b))) by lia. rewrite andb_false_r. ring. }
  change (ilabels b) with (Zrange (lmin b) m). replace (lmin a + lmin b + Z.of_nat off)%Z with (k + lmin b)%Z by lia.
  transitivity (Qsum (map (fun z => g z * iprob b (z - k)) (Zrange (k + lmin b) m))); [lra|].
  unfold Zrange. rewrite !map_map. apply Qsum_map_ext. intros i _.
  replace (k + lmin b + Z.of_nat i - k)%Z with (lmin b + Z.of_nat i)%Z by lia. replace (k + (lmin b + Z.of_nat i))%Z with (k + lmin b + Z.of_nat i)%Z by lia. reflexivity.
Qed.

Lemma int_expectation_iexp : forall d, int_expectation d == iexp d inject_Z.
Proof.
  intro d. unfold int_expectation, iexp. generalize (ilabels d) as ls. generalize (iparams d) as ps.
  induction ps as [|p ps IH]; intros [|l ls]; cbn [combine map Qsum fst snd]; try reflexivity. rewrite IH. ring.
Qed.
Lemma iexp_plus : forall d f g, iexp d (fun l => f l + g l) == iexp d f + iexp d g.
Proof. intros. unfold iexp. rewrite <- Qsum_map_plus. apply Qsum_map_ext. intros. ring. Qed.
Lemma iexp_scale : forall d c f, iexp d (fun l => c * f l) == c * iexp d f.
Proof. intros. unfold iexp. rewrite <- Qsum_map_scale. apply Qsum_map_ext. intros. ring. Qed.
Lemma iexp_ext : forall d f g, (forall l, f l == g l) -> iexp d f == iexp d g.
Proof. intros. unfold iexp. apply Qsum_map_ext. intros. rewrite H. reflexivity. Qed.
Lemma ilabels_length : forall d, iwf d -> length (ilabels d) = length (iparams d).
Proof. intros d [_ L]. rewrite L. apply Zrange_length. Qed.
Lemma iexp_const : forall d c, iwf d -> proper (iparams d) -> iexp d (fun _ => c) == c.
Proof.
  intros d c W [_ S]. unfold iexp. pose proof (mass_full Z (ilabels d) (iparams d) (ilabels_length d W)) as M.
  unfold lmass in M. rewrite S in M. transitivity (c * 1); [|ring]. rewrite <- M, <- Qsum_map_scale. apply Qsum_map_ext. intros. cbn. ring.
Qed.
Lemma iexp_mass : forall d T, lmass (ilabels d) (iparams d) T == iexp d (fun l => if T l then 1 else 0).
Proof. intros. unfold lmass, iexp. apply Qsum_map_ext. intros [l p] _. cbn [fst snd]. destruct (T l); ring. Qed.

Lemma int_add_nonneg : forall a b r, iwf a -> iwf b -> Forall (fun p => 0 <= p) (iparams a) -> Forall (fun p => 0 <= p) (iparams b) ->
  int_add a b = Ok r -> Forall (fun p => 0 <= p) (iparams r).
Proof.
  intros a b r Wa Wb Pa Pb E. destruct (int_add_spec a b Wa Wb) as (r' & E' & Wr & Lm & LM & G). rewrite E in E'. inversion E'; subst r'.
  apply Forall_forall. intros p I. apply In_nth_error in I. destruct I as [i Ei].
  set (z := (lmin r + Z.of_nat i)%Z).
  assert (H : iexp r (fun l => if Z.eqb l z then 1 else 0) == p).
  { rewrite (iexp_prob r) by exact Wr. assert (Li : (i < length (iparams r))%nat) by (apply nth_error_Some; congruence).
    destruct Wr as [Wr1 Wr2]. change (ilabels r) with (Zrange (lmin r) (Z.to_nat (lmax r - lmin r + 1))). rewrite <- Wr2.
    replace (length (iparams r)) with (i + (1 + (length (iparams r) - i - 1)))%nat by lia.
    rewrite !Zrange_split, !map_app, !Qsum_app. rewrite (Qsum_map_zero _ _ (Zrange (lmin r) i)), (Qsum_map_zero _ _ (Zrange (lmin r + Z.of_nat i + Z.of_nat 1) _)).
    - unfold Zrange. cbn [seq map Qsum Z.of_nat]. rewrite Z.add_0_r. fold z. rewrite Z.eqb_refl. unfold iprob.
      rewrite (proj2 (Z.leb_le _ _)) by lia. rewrite (proj2 (Z.leb_le _ _)) by lia. cbn [andb].
      replace (Z.to_nat (z - lmin r)) with i by lia. rewrite (nth_error_nth _ _ 0 Ei). ring.
    - intros x Ix. apply Zrange_in in Ix. rewrite (proj2 (Z.eqb_neq _ _)) by lia. ring.
    - intros x Ix. apply Zrange_in in Ix. rewrite (proj2 (Z.eqb_neq _ _)) by lia. ring. }
  rewrite <- H, G. unfold iexp. apply Qsum_map_nonneg. intros [l q] Iq. cbn [fst snd]. apply in_combine_r in Iq. rewrite Forall_forall in Pa.
  apply Qmult_le_0_compat; [|auto]. apply Qsum_map_nonneg. intros [l' q'] Iq'. cbn [fst snd]. apply in_combine_r in Iq'. rewrite Forall_forall in Pb.
  apply Qmult_le_0_compat; [destruct (Z.eqb _ _); lra|auto].
Qed.

Lemma iexp_nonneg : forall d f, Forall (fun p => 0 <= p) (iparams d) -> (forall l, 0 <= f l) -> 0 <= iexp d f.
Proof.
  intros d f P H. unfold iexp. apply Qsum_map_nonneg. intros [l q] I. cbn [fst snd]. apply in_combine_r in I. rewrite Forall_forall in P.
  apply Qmult_le_0_compat; auto.
Qed.

Lemma sq_nonneg : forall x : Q, 0 <= x * x.
Proof. intro x. nra. Qed.

Lemma variance_spec : forall d, iwf d -> proper (iparams d) -> 0 <= int_variance d /\
  int_variance d == iexp d (fun l => inject_Z l * inject_Z l) - iexp d inject_Z * iexp d inject_Z /\ int_variance d == int_moment d 2 (int_expectation d).
Proof.
  intros d W P. set (e := int_expectation d).
  assert (V : int_variance d == iexp d (fun l => (inject_Z l - e) * (inject_Z l - e))) by reflexivity.
  split; [rewrite V; apply iexp_nonneg; [apply P|intros; apply sq_nonneg]|]. split.
  - rewrite V. transitivity (iexp d (fun l => inject_Z l * inject_Z l + ((- (2) * e) * inject_Z l + e * e))); [apply iexp_ext; intro; ring|].
    rewrite iexp_plus, iexp_plus, iexp_scale, iexp_const by assumption. unfold e. rewrite int_expectation_iexp. ring.
  - rewrite V. unfold int_moment, iexp. apply Qsum_map_ext. intros [l p] _. cbn [fst snd Z.of_nat Pos.of_succ_nat Pos.succ Qpower Qpower_positive pow_pos].
    fold e. reflexivity.
Qed.

(** ** Samples *)
Lemma lab_sample_support : forall L (ls : list L) ps u, length ps = length ls -> Forall (fun p => 0 <= p) ps -> 0 < u -> u <= Qsum ps ->
  exists l v p, lab_sample L ls ps u = Ok l /\ nth_error ls v = Some l /\ nth_error ps v = Some p /\ 0 < p.
Proof.
  intros L ls ps u E P U1 U2. unfold lab_sample, roulette_weights. rewrite seq_length, E, Nat.eqb_refl. cbn [negb bind].
  destruct (roulette_spec ps u P U1 U2) as (i & Ei & _ & _ & (w & Ew & Pw) & _). unfold roulette_get. rewrite Ei. cbn [bind].
  assert (Li : (i < length ls)%nat) by (rewrite <- E; apply nth_error_Some; congruence).
  rewrite nth_error_nth' with (d := O) by (rewrite seq_length; exact Li). rewrite seq_nth by exact Li. cbn [Nat.add bind].
  unfold value2label1. destruct (nth_error ls i) as [l|] eqn:El; [|apply nth_error_None in El; lia].
  exists l, i, w. auto.
Qed.

(** ** Objects *)
Lemma list_set_length : forall A (l : list A) i x, length (list_set l i x) = length l.
Proof. induction l as [|y l IH]; intros [|i] x; cbn; try reflexivity. rewrite IH. reflexivity. Qed.
Lemma list_set_nth : forall A (l : list A) i j x d, (i < length l)%nat -> nth j (list_set l i x) d = if Nat.eqb j i then x else nth j l d.
Proof.
  induction l as [|y l IH]; intros [|i] [|j] x d H; cbn in *; try lia; try reflexivity. apply IH. lia.
Qed.
Lemma list_set_nth_other : forall A (l : list A) i j x d, j <> i -> nth j (list_set l i x) d = nth j l d.
Proof. induction l as [|y l IH]; intros [|i] [|j] x d H; cbn; try reflexivity; try congruence. apply IH. congruence. Qed.

Lemma crop_loop_spec : forall restr idxs st r, (r < length st)%nat -> length (crop_loop st r restr idxs) = length st /\
  (forall q, q <> r -> deref (crop_loop st r restr idxs) q = deref st q) /\
  length (deref (crop_loop st r restr idxs) r) = length (deref st r) /\
  forall v, nth v (deref (crop_loop st r restr idxs) r) 0 = if nmem v idxs && negb (nmem v restr) then 0 else nth v (deref st r) 0.
Proof.
  intros restr. induction idxs as [|i idxs IH]; intros st r H; cbn [crop_loop].
  - repeat split.
  - match goal with |- length (crop_loop ?s _ _ _) = _ /\ _ => set (st1 := s) end.
    assert (L1 : length st1 = length st) by (unfold st1; destruct (nmem i restr); [reflexivity|apply list_set_length]).
    assert (O1 : forall q, q <> r -> deref st1 q = deref st q).
    { intros q N. unfold st1. destruct (nmem i restr); [reflexivity|]. unfold deref, assign. apply list_set_nth_other, N. }
    assert (D1 : deref st1 r = if nmem i restr then deref st r else list_set (deref st r) i 0).
    { unfold st1. destruct (nmem i restr); [reflexivity|]. unfold deref at 1, assign. rewrite list_set_nth by exact H. rewrite Nat.eqb_refl. reflexivity. }
    destruct (IH st1 r) as (A & B & C & D); [lia|]. split; [rewrite A; exact L1|]. split; [intros q N; rewrite B, O1 by exact N; reflexivity|].
    split; [rewrite C, D1; destruct (nmem i restr); [reflexivity|apply list_set_length]|].
    intro v. rewrite D, D1. cbn [nmem existsb]. fold (nmem v idxs). destruct (Nat.eqb_spec v i) as [->|N]; cbn [orb].
    + destruct (nmem i restr) eqn:M; cbn [negb]; rewrite ?andb_false_r; cbn [andb]; [reflexivity|].
      destruct (nmem i idxs); cbn [andb]; [reflexivity|]. destruct (Nat.lt_ge_cases i (length (deref st r))) as [Lt|Ge].
      * rewrite list_set_nth by exact Lt. rewrite Nat.eqb_refl. reflexivity.
      * apply nth_overflow. rewrite list_set_length. exact Ge.
    + destruct (nmem v idxs && negb (nmem v restr)); [reflexivity|]. destruct (nmem i restr); [reflexivity|]. apply list_set_nth_other, N.
Qed.

Lemma alloc_deref_old : forall st a q, (q < length st)%nat -> deref (fst (alloc st a)) q = deref st q.
Proof. intros. unfold deref, alloc. cbn. apply app_nth1. assumption. Qed.
Lemma alloc_deref_new : forall st a, deref (fst (alloc st a)) (snd (alloc st a)) = a.
Proof. intros. unfold deref, alloc. cbn. rewrite app_nth2, Nat.sub_diag by lia. reflexivity. Qed.

Lemma zero_outside_nth : forall ps vs v, nth v (zero_outside ps vs) 0 = if nmem v vs then nth v ps 0 else 0.
Proof.
  intros ps vs. unfold zero_outside. assert (H : forall k v, nth v (map (fun vp => if nmem (fst vp) vs then snd vp else 0) (combine (seq k (length ps)) ps)) 0
    = if nmem (k + v) vs then nth v ps 0 else 0).
  { induction ps as [|p ps IH]; intros k [|v]; cbn [length seq combine map nth fst snd].
    - destruct (nmem _ vs); reflexivity.
    - destruct (nmem _ vs); reflexivity.
    - rewrite Nat.add_0_r. reflexivity.
    - rewrite IH. replace (S k + v)%nat with (k + S v)%nat by lia. reflexivity. }
  apply (H O).
Qed.

Lemma obj_crop_spec : forall st r restr, (r < length st)%nat ->
  (forall q, (q < length st)%nat -> deref (fst (obj_crop st r restr)) q = deref st q) /\
  match snd (obj_crop st r restr), mn_crop (deref st r) restr with
  | Ok c, Ok ps => (length st <= c)%nat /\ deref (fst (obj_crop st r restr)) c = ps
  | Err e, Err e' => e = e'
  | _, _ => False
  end.
Proof.
  intros st r restr H. unfold obj_crop. cbn [alloc].
  set (c := length st). set (st1 := st ++ [deref st r]).
  assert (Hc : (c < length st1)%nat) by (unfold st1, c; rewrite app_length; cbn; lia).
  destruct (crop_loop_spec restr (seq 0 (length (deref st r))) st1 c Hc) as (A & B & C & D).
  set (st2 := crop_loop st1 c restr (seq 0 (length (deref st r)))) in *.
  assert (D1 : deref st1 c = deref st r) by (apply (alloc_deref_new st)).
  assert (O1 : forall q, (q < length st)%nat -> deref st2 q = deref st q).
  { intros q Hq. rewrite B by (unfold c; lia). apply (alloc_deref_old st); exact Hq. }
  assert (Z : deref st2 c = zero_outside (deref st r) restr).
  { apply nth_ext with (d := 0) (d' := 0); [rewrite C, D1, zero_outside_length; reflexivity|]. intros v Hv.
    rewrite D, D1, zero_outside_nth. rewrite C, D1 in Hv.
    assert (nmem v (seq 0 (length (deref st r))) = true) as -> by (apply nmem_spec, in_seq; lia). cbn [andb].
    destruct (nmem v restr); reflexivity. }
  unfold mn_crop. rewrite Z. destruct (Qeq_bool (Qsum (zero_outside (deref st r) restr)) 0); cbn [fst snd].
  - split; [exact O1|reflexivity].
  - assert (L2 : (length st <= length st2)%nat) by (rewrite A; unfold st1; rewrite app_length; lia).
    split; [intros q Hq; unfold deref; rewrite app_nth1 by lia; apply O1, Hq|].
    split; [exact L2|]. apply (alloc_deref_new st2).
Qed.

Lemma obj_update_spec : forall st r d w, (r < length st)%nat -> r <> d ->
  (forall q, q <> r -> deref (fst (obj_update st r d w)) q = deref st q) /\
  match snd (obj_update st r d w), update (length (deref st r)) (Some (deref st r)) (deref st d) w with
  | Ok c, Ok ps => c = r /\ deref (fst (obj_update st r d w)) r = ps
  | Err e, Err e' => e = e'
  | _, _ => False
  end.
Proof.
  intros st r d w H N. unfold obj_update, update. destruct (negb _); cbn [fst snd]; [split; [reflexivity|reflexivity]|].
  set (st1 := assign st r (vscale (1 - w) (deref st r))).
  assert (Dr : deref st1 r = vscale (1 - w) (deref st r)) by (unfold deref at 1, st1, assign; rewrite list_set_nth by exact H; rewrite Nat.eqb_refl; reflexivity).
  assert (O1 : forall q, q <> r -> deref st1 q = deref st q) by (intros q Q; unfold deref, st1, assign; apply list_set_nth_other, Q).
  rewrite Dr, (O1 d) by congruence. replace (length (vscale (1 - w) (deref st r))) with (length (deref st r)) by (unfold vscale; rewrite map_length; reflexivity).
  destruct (Nat.eqb (length (deref st r)) (length (deref st d))); cbn [fst snd].
  - split; [intros q Q; unfold deref, assign; rewrite list_set_nth_other by exact Q; apply O1, Q|]. split; [reflexivity|].
    unfold deref at 1, assign. rewrite list_set_nth by (unfold st1, assign; rewrite list_set_length; exact H). rewrite Nat.eqb_refl. reflexivity.
  - split; [exact O1|reflexivity].
Qed.
