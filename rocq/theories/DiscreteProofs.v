(** Proofs about the categorical distributions. *)
Require Import QArith Qabs ZArith Bool List Arith Lia Lqa Permutation Sorted.
Require Import Verif.Base Verif.NumBase Verif.UtilModel Verif.UtilProofs Verif.DiscreteModel.
Import ListNotations.
Open Scope Q_scope.

(** ** Specification: the mass a labelled weight vector gives to a set *)
Definition lmass {L} (labels : list L) (params : list Q) (S : L -> bool) : Q :=
  Qsum (map (fun lp => if S (fst lp) then snd lp else 0) (combine labels params)).

Definition proper (params : list Q) : Prop := Forall (fun p => 0 <= p) params /\ Qsum params == 1.

Lemma mass_ext : forall L (ls : list L) ps S T, (forall l, In l ls -> S l = T l) -> lmass ls ps S == lmass ls ps T.
Proof.
  intros. apply Qsum_map_ext. intros [l p] I. apply in_combine_l in I. cbn. rewrite (H l I). reflexivity.
Qed.

Lemma mass_empty : forall L (ls : list L) ps, lmass ls ps (fun _ => false) == 0.
Proof. intros. apply Qsum_map_zero. reflexivity. Qed.

Lemma mass_full : forall L (ls : list L) ps, length ls = length ps -> lmass ls ps (fun _ => true) == Qsum ps.
Proof.
  intros L ls. unfold lmass. induction ls as [|l ls IH]; intros [|p ps] E; cbn in *; try discriminate; [reflexivity|].
  rewrite IH by lia. reflexivity.
Qed.

Lemma mass_or : forall L (ls : list L) ps S T, lmass ls ps (fun l => S l || T l) + lmass ls ps (fun l => S l && T l) == lmass ls ps S + lmass ls ps T.
Proof.
  intros. unfold lmass. rewrite <- !Qsum_map_plus. apply Qsum_map_ext. intros [l p] _. cbn.
  destruct (S l), (T l); cbn; lra.
Qed.

Lemma mass_nonneg : forall L (ls : list L) ps S, Forall (fun p => 0 <= p) ps -> 0 <= lmass ls ps S.
Proof.
  intros L ls ps S F. apply Qsum_map_nonneg. intros [l p] I. apply in_combine_r in I. rewrite Forall_forall in F.
  specialize (F p I). cbn. destruct (S l); lra.
Qed.

Lemma mass_mono : forall L (ls : list L) ps (S T : L -> bool), Forall (fun p => 0 <= p) ps -> (forall l, S l = true -> T l = true) ->
  lmass ls ps S <= lmass ls ps T.
Proof.
  intros L ls ps S T F M. apply Qsum_map_le. intros [l p] I. apply in_combine_r in I. rewrite Forall_forall in F.
  specialize (F p I). cbn. specialize (M l). destruct (S l); [rewrite (M eq_refl)|destruct (T l)]; lra.
Qed.

Lemma mass_map : forall L (ls : list L) (f : Q -> Q) (c : Q) ps S, (forall p, f p == p * c) -> lmass ls (map f ps) S == lmass ls ps S * c.
Proof.
  intros L ls f c ps S H. unfold lmass. revert ps. induction ls as [|l ls IH]; intros [|p ps]; cbn; try lra.
  rewrite IH. destruct (S l); [rewrite H|]; lra.
Qed.

Lemma F2_scale : forall (s : Q) z r, 0 < s -> Forall2 (fun w y => y * s == w) z r -> Forall2 (fun w y => y == w * / s) z r.
Proof. intros s z r P F. induction F as [|w y z r E F IH]; constructor; [|exact IH]. rewrite <- E. field. lra. Qed.

Lemma mass_F2 : forall L (ls : list L) (c : Q) z r T, Forall2 (fun w y => y == w * c) z r -> lmass ls r T == lmass ls z T * c.
Proof.
  intros L ls c z r T F. unfold lmass. revert ls. induction F as [|w y z r E F IH]; intros [|l ls]; cbn; try lra.
  rewrite IH. destruct (T l); [rewrite E|]; lra.
Qed.

(** ** Positions of labels *)
Section Dom.
  Variable L : Type.
  Variable Leqb : L -> L -> bool.
  Hypothesis Leqb_spec : forall a b, Leqb a b = true <-> a = b.

  Lemma memb_In : forall l ls, memb L Leqb l ls = true <-> In l ls.
  Proof.
    intros. unfold memb. rewrite existsb_exists. split.
    - intros (x & I & E). apply Leqb_spec in E. subst. exact I.
    - intro I. exists l. split; [exact I|apply Leqb_spec; reflexivity].
  Qed.

  Lemma has_dup_spec : forall ls, has_dup L Leqb ls = false <-> NoDup ls.
  Proof.
    induction ls as [|l ls IH]; cbn; [split; [constructor|reflexivity]|].
    rewrite orb_false_iff, IH. split.
    - intros [A B]. constructor; [|exact B]. intro I. apply memb_In in I. congruence.
    - intro N. inversion N; subst. split; [|assumption]. destruct (memb L Leqb l ls) eqn:M; [|reflexivity].
      apply memb_In in M. contradiction.
  Qed.

  Lemma symbolic_ok : forall ls, (exists t, SymbolicType L Leqb ls = Ok t) <-> ls <> [] /\ NoDup ls.
  Proof.
    intros [|l ls]; unfold SymbolicType.
    - split; [intros [t H]; discriminate|intros [H _]; contradiction].
    - destruct (has_dup L Leqb (l :: ls)) eqn:D; split.
      + intros [t H]; discriminate.
      + intros [_ N]. apply has_dup_spec in N. congruence.
      + intros _. split; [discriminate|]. apply has_dup_spec, D.
      + intros _. exists (l :: ls). reflexivity.
  Qed.
  Lemma symbolic_id : forall ls t, SymbolicType L Leqb ls = Ok t -> t = ls.
  Proof.
    intros [|l ls] t E; unfold SymbolicType in E; [discriminate|]. destruct (has_dup L Leqb (l :: ls)); [discriminate|].
    inversion E. reflexivity.
  Qed.

  Lemma value_of_Some : forall ls l v, value_of L Leqb ls l = Some v -> nth_error ls v = Some l.
  Proof.
    induction ls as [|x ls IH]; cbn; intros l v H; [discriminate|].
    destruct (Leqb x l) eqn:E.
    - inversion H; subst. apply Leqb_spec in E. subst. reflexivity.
    - destruct (value_of L Leqb ls l) as [w|] eqn:V; cbn in H; [|discriminate]. inversion H; subst. cbn. apply IH, V.
  Qed.
  Lemma value_of_nth : forall ls l v, NoDup ls -> nth_error ls v = Some l -> value_of L Leqb ls l = Some v.
  Proof.
    induction ls as [|x ls IH]; intros l v N H; [destruct v; discriminate|]. inversion N; subst.
    destruct v as [|v]; cbn in *.
    - inversion H; subst. destruct (Leqb l l) eqn:E; [reflexivity|]. assert (Leqb l l = true) by (apply Leqb_spec; reflexivity). congruence.
    - destruct (Leqb x l) eqn:E.
      + apply Leqb_spec in E. subst. apply nth_error_In in H. contradiction.
      + rewrite (IH l v); [reflexivity|assumption|exact H].
  Qed.
  Lemma value_of_None : forall ls l, value_of L Leqb ls l = None <-> ~ In l ls.
  Proof.
    induction ls as [|x ls IH]; cbn; intros l; [tauto|].
    destruct (Leqb x l) eqn:E.
    - apply Leqb_spec in E. subst. split; [discriminate|tauto].
    - assert (x <> l) by (intro Q; apply Leqb_spec in Q; congruence). specialize (IH l).
      destruct (value_of L Leqb ls l); cbn; split; intro K; try discriminate; try reflexivity.
      + exfalso. apply K. right. destruct (in_dec (fun a b => match bool_dec (Leqb a b) true with
           | Coq.Init.Specif.left e => Coq.Init.Specif.left (proj1 (Leqb_spec a b) e)
           | Coq.Init.Specif.right n => Coq.Init.Specif.right (fun q => n (proj2 (Leqb_spec a b) q)) end) l ls) as [I|N]; [exact I|].
        apply IH in N. discriminate.
      + intros [Q|Q]; [contradiction|]. apply (proj1 IH); [reflexivity|exact Q].
  Qed.

  Lemma l2v1_spec : forall ls l v, NoDup ls -> label2value1 L Leqb ls l = Ok v <-> nth_error ls v = Some l.
  Proof.
    intros ls l v N. unfold label2value1. split.
    - destruct (value_of L Leqb ls l) eqn:E; intro H; inversion H; subst. apply value_of_Some, E.
    - intro H. rewrite (value_of_nth ls l v N H). reflexivity.
  Qed.
  Lemma l2v1_err : forall ls l e, label2value1 L Leqb ls l = Err e <-> e = ValueError /\ ~ In l ls.
  Proof.
    intros. unfold label2value1. rewrite <- value_of_None. destruct (value_of L Leqb ls l); split; intro H.
    - discriminate.
    - destruct H; discriminate.
    - inversion H; auto.
    - destruct H as [-> _]. reflexivity.
  Qed.
  Lemma v2l1_spec : forall ls l v, value2label1 L ls v = Ok l <-> nth_error ls v = Some l.
  Proof. intros. unfold value2label1. destruct (nth_error ls v); split; intro H; inversion H; reflexivity. Qed.

  Lemma mapM_Forall2 : forall A B (f : A -> res B) l r, mapM f l = Ok r <-> Forall2 (fun a b => f a = Ok b) l r.
  Proof.
    induction l as [|a l IH]; intros r; cbn.
    - split; intro H; [inversion H; constructor|inversion H; reflexivity].
    - destruct (f a) as [b|e] eqn:F; cbn.
      + destruct (mapM f l) as [bs|e] eqn:M; cbn.
        * split; intro H.
          -- inversion H; subst. constructor; [exact F|]. apply IH. reflexivity.
          -- inversion H as [|? b' ? bs' E H']; subst. rewrite F in E. inversion E; subst. apply IH in H'. inversion H'; subst. reflexivity.
        * split; intro H; [discriminate|]. inversion H as [|? b' ? bs' E H']; subst. apply IH in H'. discriminate.
      + split; intro H; [discriminate|]. inversion H as [|? b' ? bs' E H']; subst. congruence.
  Qed.

  Lemma v2l_spec : forall ls vs rs, value2label L ls vs = Ok rs <-> Forall2 (fun v l => nth_error ls v = Some l) vs rs.
  Proof.
    intros ls vs rs. unfold value2label.
    assert (Q : forall vs rs, Forall2 (fun v l => value2label1 L ls v = Ok l) vs rs <-> Forall2 (fun v l => nth_error ls v = Some l) vs rs).
    { intros vs' rs'. split; induction 1; constructor; try assumption; apply v2l1_spec; assumption. }
    destruct (forallb (fun v => Nat.ltb v (length ls)) vs) eqn:F.
    - rewrite mapM_Forall2. apply Q.
    - split; [discriminate|]. intro H. exfalso. assert (forallb (fun v => Nat.ltb v (length ls)) vs = true); [|congruence].
      apply forallb_forall. intros v I. apply Nat.ltb_lt. apply nth_error_Some. clear F Q.
      induction H as [|v' l' vs' rs' E H IH]; [destruct I|]. destruct I as [->|I]; [congruence|auto].
  Qed.

  Lemma l2v_spec : forall ls es vs, NoDup ls -> label2value L Leqb ls es = Ok vs <-> Forall2 (fun l v => nth_error ls v = Some l) es vs.
  Proof.
    intros ls es vs N. unfold label2value.
    assert (Q : forall es vs, Forall2 (fun l v => label2value1 L Leqb ls l = Ok v) es vs <-> Forall2 (fun l v => nth_error ls v = Some l) es vs).
    { intros vs' rs'. split; induction 1; constructor; try assumption; apply (l2v1_spec ls _ _ N); assumption. }
    destruct (forallb (fun l => memb L Leqb l ls) es) eqn:F.
    - rewrite mapM_Forall2. apply Q.
    - split; [discriminate|]. intro H. exfalso. assert (forallb (fun l => memb L Leqb l ls) es = true); [|congruence].
      apply forallb_forall. intros v I. apply memb_In. clear F Q.
      induction H as [|v' l' vs' rs' E H IH]; [destruct I|]. destruct I as [->|I]; [apply nth_error_In in E; exact E|auto].
  Qed.

  Lemma l2v_total : forall ls es, (forall l, In l es -> In l ls) -> exists vs, label2value L Leqb ls es = Ok vs /\ mapM (label2value1 L Leqb ls) es = Ok vs.
  Proof.
    intros ls es H. unfold label2value.
    assert (forallb (fun l => memb L Leqb l ls) es = true) as ->.
    { apply forallb_forall. intros l I. apply memb_In. auto. }
    assert (exists vs, mapM (label2value1 L Leqb ls) es = Ok vs) as [vs E]; [|eauto].
    induction es as [|l es IH]; cbn; [eauto|]. destruct IH as [vs E]; [intros; apply H; right; assumption|].
    destruct (label2value1 L Leqb ls l) as [v|e] eqn:K; [cbn; rewrite E; cbn; eauto|].
    apply l2v1_err in K. destruct K as [_ K]. exfalso. apply K, H. left; reflexivity.
  Qed.
  Lemma l2v_err : forall ls es e, label2value L Leqb ls es = Err e <-> e = ValueError /\ exists l, In l es /\ ~ In l ls.
  Proof.
    intros ls es e. destruct (forallb (fun l => memb L Leqb l ls) es) eqn:F.
    - assert (H : forall l, In l es -> In l ls). { intros l I. rewrite forallb_forall in F. apply memb_In. auto. }
      destruct (l2v_total ls es H) as [vs [E _]]. rewrite E. split; [discriminate|]. intros [_ (l & I & N)]. exfalso; auto.
    - unfold label2value. rewrite F. assert (exists l, In l es /\ ~ In l ls) as X.
      { clear e. induction es as [|l es IH]; cbn in F; [discriminate|]. destruct (memb L Leqb l ls) eqn:M.
        - cbn in F. destruct (IH F) as (l' & I & N). exists l'. split; [right; exact I|exact N].
        - exists l. split; [left; reflexivity|]. intro I. apply memb_In in I. congruence. }
      split; intro H; [inversion H; auto|destruct H as [-> _]; reflexivity].
  Qed.

  (** The set of values denotes the set of labels. *)
  Lemma nmem_spec : forall v vs, nmem v vs = true <-> In v vs.
  Proof.
    intros. unfold nmem. rewrite existsb_exists. split; [intros (x & I & E); apply Nat.eqb_eq in E; subst; exact I|].
    intro I. exists v. split; [exact I|apply Nat.eqb_refl].
  Qed.

  Lemma l2v_mem : forall ls es vs v l, NoDup ls -> Forall2 (fun l v => nth_error ls v = Some l) es vs ->
    nth_error ls v = Some l -> nmem v vs = memb L Leqb l es.
  Proof.
    intros ls es vs v l N F E. apply eq_iff_eq_true. rewrite nmem_spec, memb_In.
    induction F as [|l' v' es vs E' F IH]; cbn; [tauto|]. rewrite IH. split; intros [->|H]; auto.
    - left. congruence.
    - left. apply NoDup_nth_error with (l := ls); [exact N| |congruence]. apply nth_error_Some. congruence.
  Qed.

  (** Mass of the values = mass of the labels. *)
  Lemma seq_mass : forall (ls : list L) ps k (S : nat -> bool) (T : L -> bool),
    (forall i l, nth_error ls i = Some l -> S (k + i)%nat = T l) ->
    lmass (seq k (length ls)) ps S == lmass ls ps T.
  Proof.
    unfold lmass. induction ls as [|l ls IH]; intros [|p ps] k S T H; cbn; try reflexivity.
    rewrite (IH ps (Datatypes.S k) S T). 2:{ intros i l' E. rewrite <- (H (Datatypes.S i) l' E). f_equal. lia. }
    specialize (H O l eq_refl). rewrite Nat.add_0_r in H. rewrite H. reflexivity.
  Qed.

  Lemma seq_mass_nth : forall ps k (S : nat -> bool), lmass (seq k (length ps)) ps S == Qsum (map (fun v => if S v then nth (v - k) ps 0 else 0) (seq k (length ps))).
  Proof.
    unfold lmass. induction ps as [|p ps IH]; intros k S; cbn; [reflexivity|].
    rewrite Nat.sub_diag. rewrite IH.
    rewrite (Qsum_map_ext _ (fun v => if S v then nth (v - Datatypes.S k) ps 0 else 0)
      (fun v => if S v then nth (v - k) (p :: ps) 0 else 0)); [reflexivity|].
    intros v I. apply in_seq in I. destruct (S v); [|reflexivity].
    replace (v - k)%nat with (Datatypes.S (v - Datatypes.S k)) by lia. reflexivity.
  Qed.

  Lemma pget_all : forall ps vs, (forall v, In v vs -> (v < length ps)%nat) -> mapM (pget ps) vs = Ok (map (fun v => nth v ps 0) vs).
  Proof.
    intros ps vs H. induction vs as [|v vs IH]; cbn; [reflexivity|]. rewrite IH by (intros; apply H; right; assumption).
    unfold pget. destruct (nth_error ps v) as [p|] eqn:E.
    - cbn. rewrite (nth_error_nth ps v 0 E). reflexivity.
    - apply nth_error_None in E. specialize (H v (or_introl eq_refl)). lia.
  Qed.

  Lemma mn_p_mass : forall ps vs, (forall v, In v vs -> (v < length ps)%nat) ->
    exists q, mn_p ps vs = Ok q /\ int_p ps vs = Ok q /\ q == lmass (seq 0 (length ps)) ps (fun v => nmem v vs).
  Proof.
    intros ps vs H. unfold int_p. assert (forallb (fun v => Nat.ltb v (length ps)) vs = true) as ->.
    { apply forallb_forall. intros v I. apply Nat.ltb_lt. auto. }
    unfold mn_p. rewrite pget_all by (intros v I; apply nodup_In in I; auto). cbn [bind].
    eexists. split; [reflexivity|]. split; [reflexivity|].
    rewrite seq_mass_nth.
    rewrite <- (Qsum_filter nat (fun v => nmem v vs) (fun v => nth (v - 0) ps 0)).
    rewrite (Qsum_map_ext _ (fun v => nth v ps 0) (fun v => nth (v - 0) ps 0)) by (intros v _; rewrite Nat.sub_0_r; reflexivity).
    apply Qsum_perm, Permutation_map. apply NoDup_Permutation; [apply NoDup_nodup|apply NoDup_filter, seq_NoDup|].
    intro v. rewrite nodup_In, filter_In, nmem_spec, in_seq. split; [|tauto]. intro I. specialize (H v I). repeat split; try assumption; lia.
  Qed.

  (** p of a label event. *)
  Lemma sym_p_ok : forall ls ps es, NoDup ls -> length ps = length ls -> (forall l, In l es -> In l ls) ->
    exists q, sym_p L Leqb ls ps es = Ok q /\ num_p L Leqb ls ps es = Ok q /\ q == lmass ls ps (fun l => memb L Leqb l es).
  Proof.
    intros ls ps es N E H. unfold sym_p, num_p. destruct (l2v_total ls es H) as (vs & El & _). rewrite El. cbn [bind].
    apply l2v_spec in El; [|exact N].
    destruct (mn_p_mass ps vs) as (q & A & B & C).
    { intros v I. rewrite E. clear H. induction El as [|l v' es vs E' F IH]; [destruct I|].
      destruct I as [->|I]; [apply nth_error_Some; congruence|auto]. }
    exists q. split; [exact A|]. split; [exact B|]. rewrite C, E. apply seq_mass.
    intros i l Ei. cbn. apply (l2v_mem ls es vs i l N El Ei).
  Qed.
  Lemma sym_p_err : forall ls ps es l, In l es -> ~ In l ls -> sym_p L Leqb ls ps es = Err ValueError /\ num_p L Leqb ls ps es = Err ValueError.
  Proof.
    intros. unfold sym_p, num_p. assert (label2value L Leqb ls es = Err ValueError) as ->; [|split; reflexivity].
    apply l2v_err. eauto.
  Qed.

  (** ** Cropping *)
  Lemma zero_outside_length : forall ps vs, length (zero_outside ps vs) = length ps.
  Proof. intros. unfold zero_outside. rewrite map_length, combine_length, seq_length. lia. Qed.

  Lemma zo_mass : forall (ls : list L) ps (R : nat -> bool) (S : L -> bool) (T : L -> bool) k, length ps = length ls ->
    (forall i l, nth_error ls i = Some l -> R (k + i)%nat = S l) ->
    lmass ls (map (fun vp => if R (fst vp) then snd vp else 0) (combine (seq k (length ps)) ps)) T == lmass ls ps (fun l => S l && T l).
  Proof.
    unfold lmass. induction ls as [|l ls IH]; intros [|p ps] R S T k E H; cbn in *; try discriminate; try reflexivity.
    rewrite (IH ps R S T (Datatypes.S k)); [|lia|].
    2:{ intros i l' E'. rewrite <- (H (Datatypes.S i) l' E'). f_equal. lia. }
    specialize (H O l eq_refl). rewrite Nat.add_0_r in H. rewrite H. destruct (S l), (T l); cbn; lra.
  Qed.

  Lemma zero_outside_mass : forall ls ps es vs T, NoDup ls -> length ps = length ls -> Forall2 (fun l v => nth_error ls v = Some l) es vs ->
    lmass ls (zero_outside ps vs) T == lmass ls ps (fun l => memb L Leqb l es && T l).
  Proof.
    intros ls ps es vs T N E F. unfold zero_outside. apply (zo_mass ls ps (fun v => nmem v vs)); [exact E|].
    intros i l Ei. apply (l2v_mem ls es vs i l N F Ei).
  Qed.
  Lemma zero_outside_sum : forall ls ps es vs, NoDup ls -> length ps = length ls -> Forall2 (fun l v => nth_error ls v = Some l) es vs ->
    Qsum (zero_outside ps vs) == lmass ls ps (fun l => memb L Leqb l es).
  Proof.
    intros ls ps es vs N E F. rewrite <- (mass_full L ls) by (rewrite zero_outside_length; auto).
    rewrite (zero_outside_mass ls ps es vs _ N E F). apply mass_ext. intros. apply andb_true_r.
  Qed.
  Lemma zero_outside_nonneg : forall ps vs, Forall (fun p => 0 <= p) ps -> Forall (fun p => 0 <= p) (zero_outside ps vs).
  Proof.
    intros ps vs F. unfold zero_outside. apply Forall_forall. intros x I. apply in_map_iff in I.
    destruct I as ([v p] & <- & I). apply in_combine_r in I. rewrite Forall_forall in F. specialize (F p I).
    cbn. destruct (nmem v vs); lra.
  Qed.

  Definition conditioned (ls : list L) (ps : list Q) (es : list L) (r : list Q) : Prop :=
    length r = length ps /\ proper r /\
    forall T, lmass ls r T == lmass ls ps (fun l => memb L Leqb l es && T l) / lmass ls ps (fun l => memb L Leqb l es).

  Lemma sym_crop_spec : forall ls ps es, NoDup ls -> length ps = length ls -> Forall (fun p => 0 <= p) ps -> (forall l, In l es -> In l ls) ->
    (lmass ls ps (fun l => memb L Leqb l es) == 0 -> sym_crop L Leqb ls ps es = Err Unsatisfiability) /\
    (~ lmass ls ps (fun l => memb L Leqb l es) == 0 -> exists r, sym_crop L Leqb ls ps es = Ok r /\ conditioned ls ps es r).
  Proof.
    intros ls ps es N E F H. unfold sym_crop. destruct (l2v_total ls es H) as (vs & El & _). rewrite El. cbn [bind].
    apply l2v_spec in El; [|exact N]. unfold mn_crop.
    pose proof (zero_outside_sum ls ps es vs N E El) as ZS. pose proof (zero_outside_mass ls ps es vs) as ZM.
    pose proof (zero_outside_nonneg ps vs F) as ZN. pose proof (zero_outside_length ps vs) as ZL.
    set (z := zero_outside ps vs) in *. clearbody z. destruct (Qeqb_spec (Qsum z) 0) as [Z|Z]; split; intro M; try reflexivity.
    - exfalso. apply M. rewrite <- ZS. exact Z.
    - exfalso. apply Z. rewrite ZS. exact M.
    - eexists. split; [reflexivity|]. assert (P : 0 < Qsum z).
      { pose proof (Qsum_nonneg z ZN). apply Qle_lteq in H0. destruct H0 as [?|Q]; [assumption|]. symmetry in Q. contradiction. }
      split; [rewrite map_length; exact ZL|]. split; [split|].
      + apply Forall_forall. intros x I. apply in_map_iff in I. destruct I as (y & <- & I). rewrite Forall_forall in ZN.
        apply Qdiv_nonneg; auto.
      + rewrite Qsum_map_div, map_id. apply Qdiv_same. exact Z.
      + intro T. rewrite (mass_map L ls (fun p => p / Qsum z) (/ Qsum z)) by (intro; reflexivity).
        rewrite (ZM T N E El), ZS. reflexivity.
  Qed.

  Lemma num_crop_spec : forall ls ps es, NoDup ls -> length ps = length ls -> Forall (fun p => 0 <= p) ps -> (forall l, In l es -> In l ls) ->
    (lmass ls ps (fun l => memb L Leqb l es) == 0 -> num_crop L Leqb ls ps es = Err Unsatisfiability) /\
    (~ lmass ls ps (fun l => memb L Leqb l es) == 0 -> exists r, num_crop L Leqb ls ps es = Ok r /\ conditioned ls ps es r).
  Proof.
    intros ls ps es N E F H. unfold num_crop. destruct (l2v_total ls es H) as (vs & El & Em). rewrite Em. cbn [bind].
    apply l2v_spec in El; [|exact N]. unfold int_crop.
    pose proof (zero_outside_sum ls ps es vs N E El) as ZS. pose proof (zero_outside_mass ls ps es vs) as ZM.
    pose proof (zero_outside_nonneg ps vs F) as ZN. pose proof (zero_outside_length ps vs) as ZL.
    set (z := zero_outside ps vs) in *. clearbody z.
    assert (A : Qsum (map Qabs z) == Qsum z).
    { rewrite <- (map_id z) at 2. apply Qsum_map_ext. intros x I. rewrite Forall_forall in ZN. apply Qabs_pos, ZN, I. }
    split; intro M.
    - assert (Z0 : forall x, In x z -> x == 0). { apply Qsum_zero_all; [exact ZN|]. rewrite ZS. exact M. }
      destruct (proj2 (normalized_raises z false false)) as [e Ee]; [right; auto|].
      assert (e = ValueError) as ->; [|rewrite Ee; reflexivity].
      unfold normalized in Ee. assert (forallb (fun e => Qle_bool 0 e) z = true) as Fb by (apply forallb_nonneg; intros x I; rewrite Forall_forall in ZN; auto).
      rewrite Fb in Ee. cbn [negb andb normalize_loop bind] in Ee. destruct (Qeqb_spec (Qsum (map Qabs z)) 0) as [_|X].
      + cbn in Ee. congruence.
      + exfalso. apply X. rewrite A, ZS. exact M.
    - assert (NZ : ~ (forall x, In x z -> x == 0)).
      { intro Q. apply M. rewrite <- ZS. rewrite <- (map_id z). apply Qsum_map_zero. exact Q. }
      destruct (normalized z false false 0) as [r|e] eqn:Er.
      2:{ exfalso. assert (X : exists e, normalized z false false 0 = Err e) by eauto. apply normalized_raises in X.
          destruct X as [[_ (x & I & Lt)]|[_ X]]; [|contradiction]. rewrite Forall_forall in ZN. specialize (ZN x I). lra. }
      destruct (normalized_exact z false false r Er NZ) as [S1 F2].
      assert (Lr : length z = length r) by (clear -F2; induction F2; cbn; congruence).
      unfold set_params. rewrite <- Lr, ZL, Nat.eqb_refl. exists r. split; [reflexivity|].
      assert (P : 0 < Qsum z).
      { pose proof (Qsum_nonneg z ZN) as Q. apply Qle_lteq in Q. destruct Q as [?|Q]; [assumption|]. exfalso. apply M. rewrite <- ZS. symmetry; exact Q. }
      apply (F2_scale _ _ _) in F2; [|rewrite A; exact P].
      split; [lia|]. split; [split|].
      + clear -F2 ZN P A. revert F2. assert (Pa : 0 < / Qsum (map Qabs z)) by (apply Qinv_lt_0_compat; rewrite A; exact P).
        revert Pa. generalize (/ Qsum (map Qabs z)). clear A P. intros c Pc F2. induction F2 as [|w y z r E F IH]; constructor.
        * inversion ZN; subst. rewrite E. apply Qmult_le_0_compat; lra.
        * inversion ZN; auto.
      + rewrite <- S1. rewrite <- (map_id r) at 1. apply Qsum_map_ext. intros x I. symmetry. apply Qabs_pos.
        clear -F2 ZN P A I. revert F2. assert (Pa : 0 < / Qsum (map Qabs z)) by (apply Qinv_lt_0_compat; rewrite A; exact P).
        revert Pa. generalize (/ Qsum (map Qabs z)). clear A P. intros c Pc F2. induction F2 as [|w y z r E F IH]; [destruct I|].
        inversion ZN; subst. destruct I as [->|I]; [rewrite E; apply Qmult_le_0_compat; lra|auto].
      + intro T. rewrite (mass_F2 L ls _ _ _ T F2). rewrite (ZM T N E El), A, ZS. reflexivity.
  Qed.

  Lemma crop_unknown : forall ls ps es l, In l es -> ~ In l ls -> sym_crop L Leqb ls ps es = Err ValueError /\ num_crop L Leqb ls ps es = Err ValueError.
  Proof.
    intros ls ps es l I N. unfold sym_crop, num_crop. assert (label2value L Leqb ls es = Err ValueError) as ->.
    { apply l2v_err. eauto. }
    split; [reflexivity|]. assert (mapM (label2value1 L Leqb ls) es = Err ValueError) as ->; [|reflexivity].
    induction es as [|x es IH]; [destruct I|]. cbn. destruct (label2value1 L Leqb ls x) as [v|e] eqn:K.
    - destruct I as [->|I]; [|rewrite IH; [reflexivity|exact I]]. unfold label2value1 in K. apply value_of_None in N. rewrite N in K. discriminate.
    - apply l2v1_err in K. destruct K as [-> _]. reflexivity.
  Qed.
End Dom.
