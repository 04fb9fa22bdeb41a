(** C86: reverse lookup finds the leaves that match a query. *)
Require Import String ZArith QArith Lqa Bool List Arith Lia Sorted.
Require Import Verif.Base Verif.FloatLine Verif.NumBase Verif.VarModel Verif.VarProofs Verif.IntervalModel Verif.IntervalSpec Verif.IntervalProofs Verif.DiscreteModel Verif.DiscreteProofs
  Verif.TreeModel Verif.TreeSpec Verif.TreeInfer Verif.TreeDiscrete Verif.NumericTree Verif.MixedTree Verif.MixedProps Verif.NumericModel Verif.InfBounds Verif.BindModel Verif.BindSpec Verif.BindProofs Verif.BindProps Verif.UnionInfer Verif.UnionProps Verif.UnionBind Verif.ReverseModel.
Import ListNotations.
Open Scope Q_scope.

(** ** Specification *)

(** [x] comes before [y] in the list. *)
Definition precedes {A} (l : list A) (x y : A) : Prop := exists l1 l2 l3, l = l1 ++ x :: l2 ++ y :: l3.
(** The answer lists the leaves all of whose confidences reach the threshold, those with the
    greatest sum first, equal ones as in the tree. *)
Definition ranked (ls : list mleaf) (cf : mleaf -> list Q) (confidence : Q) (r : list (list Q * mleaf)) : Prop :=
  (forall c l, In (c, l) r <-> In l ls /\ c = cf l /\ forall p, In p c -> confidence <= p) /\
  StronglySorted (fun x y => Qsum (fst y) < Qsum (fst x) \/ Qsum (fst x) == Qsum (fst y) /\ precedes ls (snd x) (snd y)) r.

(** The labels of a variable. *)
Definition is_label_of (v : uvar) (l : atom) : Prop :=
  match u_kind v with UNum _ _ => exists x, l = PFlt x /\ finite x | k => exists n, labels_of k n l end.
(** The set asked for: what is said of the variable, otherwise all labels. *)
Definition asked (float : Z -> Z) (d : list (key uvar * arg)) (v : uvar) (s : mset) : Prop :=
  (forall a, said d v a -> forall l, told_apart float v a l -> (holds v s l <-> describes float v a l)) /\
  ((forall a, ~ said d v a) -> forall l, is_label_of v l -> holds v s l).

(** ** Proofs *)
Lemma precedes_sorted : forall A (l : list A), StronglySorted (precedes l) l.
Proof.
  intros A l. assert (G : forall l2 l1, l1 ++ l2 = l -> StronglySorted (precedes l) l2).
  { induction l2 as [|x l2 IH]; intros l1 E; constructor; [apply (IH (l1 ++ [x])); rewrite <- app_assoc; exact E|]. apply Forall_forall. intros y I. apply in_split in I. destruct I as (a & b & ->). exists l1, a, b. symmetry. exact E. }
  apply (G l []). reflexivity.
Qed.
Lemma sorted_map_filter : forall A B (R : B -> B -> Prop) (f : A -> B) (p : B -> bool) l, StronglySorted (fun x y => R (f x) (f y)) l -> StronglySorted R (filter p (map f l)).
Proof.
  intros A B R f p l S. induction S as [|x l S IH H]; [constructor|]. cbn [map filter].
  destruct (p (f x)); [|exact IH]. constructor; [exact IH|]. apply Forall_forall. intros y I. apply filter_In in I. destruct I as [I _]. apply in_map_iff in I. destruct I as (z & <- & I). rewrite Forall_forall in H. apply H, I.
Qed.

Lemma insert_in : forall x r y, In y (insert_cand x r) <-> y = x \/ In y r.
Proof.
  intros x r y. induction r as [|z r IH]; cbn [insert_cand]; [cbn; intuition congruence|]. destruct (Qle_bool (total z) (total x)); cbn [In]; [intuition congruence|]. rewrite IH. tauto.
Qed.
Lemma sort_in : forall r y, In y (sort_cands r) <-> In y r.
Proof. induction r as [|x r IH]; intro y; [reflexivity|]. cbn [sort_cands fold_right]. rewrite insert_in. fold (sort_cands r). rewrite IH. cbn [In]. intuition congruence. Qed.
Section Sort.
Variable R : list Q * mleaf -> list Q * mleaf -> Prop.
Let T (x y : list Q * mleaf) : Prop := Qsum (fst y) < Qsum (fst x) \/ Qsum (fst x) == Qsum (fst y) /\ R x y.
Lemma insert_sorted : forall x r, (forall y, In y r -> R x y) -> StronglySorted T r -> StronglySorted T (insert_cand x r).
Proof.
  intros x r. induction r as [|y r IH]; intros H S; cbn [insert_cand]; [repeat constructor|]. inversion S as [|? ? S' F]; subst. destruct (Qle_bool (total y) (total x)) eqn:E.
  - apply Qle_bool_iff in E. unfold total in E. constructor; [exact S|]. apply Forall_forall. intros z Iz.
    assert (L : Qsum (fst z) <= Qsum (fst x)). { destruct Iz as [<-|Iz]; [exact E|]. rewrite Forall_forall in F. destruct (F z Iz) as [K|[K _]]; lra. }
    destruct (Qlt_le_dec (Qsum (fst z)) (Qsum (fst x))) as [K|K]; [left; exact K|right]. split; [lra|apply H; exact Iz].
  - assert (K : Qsum (fst x) < Qsum (fst y)). { destruct (Qlt_le_dec (Qsum (fst x)) (Qsum (fst y))) as [K|K]; [exact K|]. apply Qle_bool_iff in K. unfold total in E. congruence. }
    constructor; [apply IH; [intros; apply H; right; assumption|exact S']|]. apply Forall_forall. intros z Iz. apply insert_in in Iz. destruct Iz as [->|Iz]; [left; exact K|]. rewrite Forall_forall in F. apply F, Iz.
Qed.
Lemma sort_sorted : forall r, StronglySorted R r -> StronglySorted T (sort_cands r).
Proof.
  intros r S. induction S as [|x r S IH H]; [constructor|]. cbn [sort_cands fold_right]. apply insert_sorted; [|exact IH]. intros y I. apply (proj1 (sort_in r y)) in I. rewrite Forall_forall in H. apply H, I.
Qed.
End Sort.

Definition everything_arg (v : uvar) : arg := match u_kind v with UNum _ _ => GInterval RR | k => GSet (label_list k) end.
Lemma everything_arg_pre : forall float v, preprocess_arg float false v (everything_arg v) = Ok (everything v).
Proof. intros float v. unfold preprocess_arg, everything_arg, everything. destruct (u_kind v); reflexivity. Qed.
Lemma everything_ok : forall v, label_ok v (everything v) = Ok tt.
Proof.
  intro v. unfold label_ok, everything. destruct (u_kind v) as [|labels|]; try reflexivity. cbn [label_list].
  replace (forallb (is_label labels) (map Some labels)) with true; [reflexivity|]. symmetry. apply forallb_forall. intros e I. apply in_map_iff in I. destruct I as (b & <- & I). apply is_label_in. eauto.
Qed.
Lemma everything_said : forall float v, sayable float v (everything_arg v).
Proof.
  intros float v. unfold sayable, everything_arg. destruct (u_kind v) as [|labels|lo hi]; [exact I|intros x H; exact H|]. cbn [label_list]. intros e I. apply in_map_iff in I. destruct I as (z & <- & I). exists z. split; [reflexivity|]. apply range_in, I.
Qed.
Lemma everything_describes : forall float v l, is_label_of v l -> describes float v (everything_arg v) l.
Proof.
  intros float v l H. unfold is_label_of in H. unfold describes, everything_arg. destruct (u_kind v) as [|labels|lo hi].
  - destruct H as (x & -> & Fx). exists x. split; [reflexivity|]. split; [exact Fx|]. cbn [describes_number]. unfold cs_mem, RR. cbn [left right lower upper]. unfold finite in *. lia.
  - destruct H as (n & H). cbn [describes_label label_list labels_of] in *. exact (nth_error_In _ _ H).
  - destruct H as (n & -> & H). cbn [describes_label label_list]. apply in_map, range_in. lia.
Qed.

Section Skip.
Variables (float : Z -> Z) (vars : list uvar) (d : list (key uvar * arg)).
Hypothesis VO : vars_ok vars.
Hypothesis DO : dict_ok vars d.
Let VN := vs_names _ VO.

Definition known (ka : key uvar * arg) : bool := match snd ka with GNone => true | _ => match key_var vars (fst ka) with Some _ => true | None => false end end.
Lemma pre_skip : forall e m, preprocess float vars true false m e = preprocess float vars false false m (filter known e).
Proof.
  induction e as [|[k a] e IH]; intro m; [reflexivity|]. cbn [filter]. unfold known at 1. cbn [fst snd].
  destruct a; cbn [preprocess]; try apply IH; (destruct (key_var vars k) as [v|] eqn:K; [cbn [preprocess]; rewrite K|apply IH]); (match goal with |- bind ?x _ = _ => destruct x as [y|] end; [cbn [bind]|reflexivity]; destruct (label_ok v y) as [[]|]; [cbn [bind]; apply IH|reflexivity]).
Qed.
Lemma known_own : own vars (filter known d).
Proof. intros v a I. apply filter_In in I. exact (dk_own _ _ DO v a (proj1 I)). Qed.
Lemma known_last : forall v, In v vars -> last_said (filter known d) (u_name v) = last_said d (u_name v).
Proof.
  intros v Iv. clear DO. induction d as [|[k a] e IH]; [reflexivity|]. cbn [filter last_said]. destruct (known (k, a)) eqn:K; [cbn [last_said]; rewrite IH; reflexivity|]. rewrite IH.
  destruct (last_said e (u_name v)); [reflexivity|]. unfold known in K. cbn [fst snd] in K.
  assert (X : a = GNone \/ key_var vars k = None) by (destruct a; [left; reflexivity|..]; right; (destruct (key_var vars k); [discriminate|reflexivity])).
  destruct X as [->|X]; [reflexivity|]. destruct k as [s|w|]; cbn [key_var key_name] in *; [|discriminate|destruct a; reflexivity].
  destruct (String.eqb_spec s (u_name v)) as [->|N]; [rewrite (V0_get vars VN v Iv) in X; discriminate|destruct a; reflexivity].
Qed.

(** Everything said is sayable; keys may be unknown. *)
Hypothesis SY : forall k a, In (k, a) d -> a = GNone \/ (forall v, In v vars -> ~ names k v) \/ exists v, In v vars /\ names k v /\ sayable float v a.

Definition effective (v : uvar) : arg := match last_said d (u_name v) with Some a => a | None => everything_arg v end.
Lemma effective_built : forall v, In v vars -> built (effective v).
Proof.
  intros v Iv. unfold effective. destruct (last_said d (u_name v)) as [a|] eqn:L.
  - apply (said_last vars VN d v a (dk_own _ _ DO) Iv) in L. exact (said_built vars d DO v a L).
  - unfold everything_arg, built. destruct (u_kind v); try exact I. unfold RR. cbn [lower upper]. pose proof ord_facts. lia.
Qed.
Lemma skip_ok : exists m, preprocess float vars true false (VM (vm_declare u_name vars) []) d = Ok m /\
  forall v, In v vars -> exists s, arg_set float v (effective v) = Ok s /\ (do y <- to_value v (match dget (vm_map m) (u_name v) with Some x => x | None => everything v end); match y with VSet s => Ok s | VNum _ => Err AttributeError end) = Ok s.
Proof.
  rewrite pre_skip.
  assert (Set_of : forall v a, In v vars -> built a -> sayable float v a -> exists x s, preprocess_arg float false v a = Ok x /\ label_ok v x = Ok tt /\ to_value v x = Ok (VSet s)).
  { intros v a Iv B S. destruct (sayable_set float v a (fun sc bl U => vs_num _ VO v sc bl Iv U) B S) as [s E]. unfold arg_set in E.
    destruct (preprocess_arg float false v a) as [x|]; [|discriminate]. cbn [bind] in E. destruct (label_ok v x) as [[]|] eqn:L; [|discriminate]. cbn [bind] in E. destruct (to_value v x) as [[y|y]|] eqn:T; cbn [bind] in E; try discriminate. exists x, y. auto. }
  assert (Saybl : forall k a, In (k, a) (filter known d) -> a = GNone \/ exists v, In v vars /\ names k v /\ sayable float v a).
  { intros k a I. apply filter_In in I. destruct I as [I K]. destruct (SY k a I) as [->|[N|H]]; [auto| |auto]. unfold known in K. cbn [fst snd] in K.
    destruct (key_var vars k) as [v|] eqn:Kv; [|destruct a; [auto|discriminate..]]. exfalso.
    destruct k as [s|w|]; cbn [key_var] in Kv; [|injection Kv as ->|discriminate].
    - apply (V0_some vars VN) in Kv. destruct Kv as [Iv <-]. apply (N v Iv). left. reflexivity.
    - apply (N v (dk_own _ _ DO v a I)). right. reflexivity. }
  destruct (pre_ok float vars VN (filter known d) (VM (vm_declare u_name vars) []) known_own) as [m B].
  { intros k a I. destruct (Saybl k a I) as [->|(v & Iv & Nk & S)]; [left; reflexivity|right]. apply filter_In in I. destruct (Set_of v a Iv (entry_built vars d DO k a (proj1 I)) S) as (x & s & Px & Lx & _). exists v, x. auto. }
  exists m. split; [exact B|]. intros v Iv.
  destruct (pre_spec float vars VN (filter known d) (VM (vm_declare u_name vars) []) m known_own eq_refl (NoDup_nil _) (fun n (I : In n []) => match I with end) B) as (_ & _ & _ & _ & Last).
  specialize (Last v Iv). rewrite (known_last v Iv) in Last. unfold effective, arg_set. destruct (last_said d (u_name v)) as [a|] eqn:L.
  - destruct Last as (x & Px & Lx & ->). rewrite Px. cbn [bind]. rewrite Lx. cbn [bind].
    assert (S : sayable float v a).
    { apply (said_last vars VN d v a (dk_own _ _ DO) Iv) in L. destruct L as (d1 & k & d2 & Ed & Nk & Na & _). destruct (SY k a) as [E|[N|(w & Iw & Nw & S)]]; [rewrite Ed; apply in_app_iff; right; left; reflexivity|contradiction|exfalso; exact (N v Iv Nk)|].
      assert (w = v); [|subst; exact S]. apply (same_name vars VN); [assumption..|]. destruct Nk as [->| ->], Nw as [Q|Q]; congruence. }
    assert (Bt : built a). { pose proof (effective_built v Iv) as Bt. unfold effective in Bt. rewrite L in Bt. exact Bt. }
    destruct (Set_of v a Iv Bt S) as (y & s & Py & _ & T). assert (y = x) as -> by congruence. rewrite T. cbn [bind]. eauto.
  - rewrite Last. cbn [vm_map dget]. rewrite everything_arg_pre. cbn [bind]. rewrite everything_ok. cbn [bind].
    assert (Bt : built (everything_arg v)). { pose proof (effective_built v Iv) as Bt. unfold effective in Bt. rewrite L in Bt. exact Bt. }
    destruct (Set_of v (everything_arg v) Iv Bt (everything_said float v)) as (y & s & Py & _ & T). rewrite everything_arg_pre in Py. injection Py as <-. rewrite T. cbn [bind]. eauto.
Qed.
End Skip.

Lemma umass_wd : forall d s q q', q == q' -> umass d s q -> umass d s q'.
Proof. intros d s q q' E M. destruct M as [d s q M|p l qs q M Q]; [apply um_plain; exact (mass_wd _ _ _ _ E M)|apply (um_union p l qs); [exact M|rewrite <- E; exact Q]]. Qed.
Lemma wide_p : forall kinds G (GG : forall v, gridded (G v)) i d s, fits (G i) (nth i kinds None) d -> usuits (G i) (nth i kinds None) (mopn s) ->
  exists c, d_p (mixed numeric discrete) d s = Ok c /\ umass d (mopn s) c.
Proof.
  intros kinds G GG i d s Fd Ss. destruct (q_p _ (LW kinds G GG) i d s (fits_okd kinds G GG i d Fd) Ss) as (c & E & C). exists c. split; [exact E|].
  apply (umass_wd d (mopn s) (up d (mopn s)) c); [symmetry; exact C|]. apply (up_umass kinds G GG i); assumption.
Qed.

(** Reverse lookup returns exactly the leaves in which every variable takes a value asked for
    with at least the given probability, best first.  Missing: blurred numbers, unions of
    intervals which are closed at infinity, Variable objects of other trees. *)
Theorem C86_reverse_partial : forall kinds G (J : mtree) float vars, wf_mixed kinds G J -> vars_ok vars -> Forall2 of_kind vars kinds ->
  forall d confidence, dict_ok vars d ->
    (forall k a, In (k, a) d -> a = GNone \/ (forall v, In v vars -> ~ names k v) \/ exists v, In v vars /\ names k v /\ sayable float v a) ->
    (forall i v a, nth_error vars i = Some v -> said d v a -> on_line_u float (G i) v a) ->
    ((forall k a v, In (k, a) d -> In v vars -> ~ names k v) -> reverse float vars J d confidence = Ok []) /\
    ((exists k a v, In (k, a) d /\ In v vars /\ names k v) ->
      exists sets cf r, length sets = length vars /\
        (forall i v s, nth_error vars i = Some v -> nth_error sets i = Some s -> usuits (G i) (nth i kinds None) s /\ asked float d v s) /\
        (forall l, In l (leaves J) -> length (cf l) = length vars) /\
        (forall l i dist s c, In l (leaves J) -> nth_error (l_dists l) i = Some dist -> nth_error sets i = Some s -> nth_error (cf l) i = Some c -> umass dist s c) /\
        reverse float vars J d confidence = Ok r /\ ranked (leaves J) cf confidence r).
Proof.
  intros kinds G J float vars W VO FK d confidence DO SY Line. pose proof (vs_names _ VO) as VN.
  assert (Men : mentioned vars d = true <-> exists k a v, In (k, a) d /\ In v vars /\ names k v).
  { unfold mentioned. rewrite existsb_exists. split.
    - intros ([k a] & I & E). cbn [fst] in E. destruct k as [s|w|]; [|exists (KVar w), a, w|discriminate].
      + apply existsb_exists in E. destruct E as (n & In_ & Q). apply String.eqb_eq in Q. subst n. apply in_map_iff in In_. destruct In_ as (v & <- & Iv). exists (KName (u_name v)), a, v. split; [exact I|]. split; [exact Iv|left; reflexivity].
      + split; [exact I|]. split; [exact (dk_own _ _ DO w a I)|right; reflexivity].
    - intros (k & a & v & I & Iv & [->| ->]); eexists; (split; [exact I|]); cbn [fst]; apply existsb_exists; exists (u_name v); (split; [apply in_map, Iv|apply String.eqb_refl]). }
  split.
  - intro N. unfold reverse. destruct (mentioned vars d); [|reflexivity]. destruct (proj1 Men eq_refl) as (k & a & v & I & Iv & Nk). destruct (N k a v I Iv Nk).
  - intro H. unfold reverse. rewrite (proj2 Men H). cbn [negb]. destruct (skip_ok float vars d VO DO SY) as (m & Em & Hm). rewrite Em. cbn [bind].
    assert (Len : length vars = length kinds) by (clear - FK; induction FK; cbn; congruence).
    assert (Kv : forall i v, nth_error vars i = Some v -> of_kind v (nth i kinds None)).
    { clear - FK. induction FK as [|v k vars kinds H FK IH]; intros i w E; [destruct i; discriminate|]. destruct i as [|i]; cbn [nth_error nth] in *; [injection E as <-; exact H|exact (IH i w E)]. }
    set (set_of := fun v => match arg_set float v (effective d v) with Ok s => s | Err _ => inr [] end).
    assert (Sset : forall i v, nth_error vars i = Some v -> arg_set float v (effective d v) = Ok (set_of v) /\ usuits (G i) (nth i kinds None) (mopn (set_of v))).
    { intros i v Ev. pose proof (nth_error_In _ _ Ev) as Iv. destruct (Hm v Iv) as (s & Es & _). unfold set_of. rewrite Es. split; [reflexivity|].
      apply (arg_usuits float vars (G i) v (nth i kinds None) (effective d v) s VO (mx_grid _ _ _ W i) Iv (Kv i v Ev)); [exact (effective_built vars d VO DO v Iv)| |exact Es].
      unfold effective. destruct (last_said d (u_name v)) as [a|] eqn:L; [apply (Line i v a Ev); apply (said_last vars VN d v a (dk_own _ _ DO) Iv), L|].
      pose proof (vs_num _ VO v) as Hn. unfold on_line_u, on_line, everything_arg. destruct (u_kind v) as [sc bl| |] eqn:U; [|exact I..]. destruct (Hn sc bl Iv eq_refl) as [S _]. destruct (sc_inf _ S) as [S1 S2]. destruct (g_inf _ (mx_grid _ _ _ W i)) as [G1 G2].
      split; [|unfold RR; cbn [lower upper]; pose proof ord_facts; lia]. intros b [->| ->]; unfold RR; cbn [lower upper]; [rewrite S1|rewrite S2]; (split; [assumption|right; pose proof ord_facts; lia]). }
    assert (Cf : forall l, In l (leaves J) -> exists cs, leaf_confs vars m l = Ok cs /\ length cs = length vars /\ forall i v dist c, nth_error vars i = Some v -> nth_error (l_dists l) i = Some dist -> nth_error cs i = Some c -> umass dist (mopn (set_of v)) c).
    { intros l Il. unfold leaf_confs. pose proof (mx_len _ _ _ W l Il) as Ll. pose proof (mx_dists _ _ _ W l) as Ld.
      assert (Gen : forall vs ds k, length vs = length ds -> (forall i v, nth_error vs i = Some v -> nth_error vars (k + i) = Some v) -> (forall i dist, nth_error ds i = Some dist -> nth_error (l_dists l) (k + i) = Some dist) ->
        exists cs, mapM (fun vd : uvar * mdist => conf_of m (fst vd) (snd vd)) (combine vs ds) = Ok cs /\ length cs = length vs /\ forall i v dist c, nth_error vs i = Some v -> nth_error ds i = Some dist -> nth_error cs i = Some c -> umass dist (mopn (set_of v)) c).
      { induction vs as [|v vs IH]; intros [|dist ds] k Lg Hv Hd; try discriminate Lg; [exists []; split; [reflexivity|]; split; [reflexivity|]; intros i v dist c E; destruct i; discriminate E|].
        injection Lg as Lg. destruct (IH ds (S k) Lg) as (cs & Ec & Lc & Hc). { intros i w E. rewrite Nat.add_succ_comm. apply (Hv (S i) w E). } { intros i w E. rewrite Nat.add_succ_comm. apply (Hd (S i) w E). }
        pose proof (Hv 0%nat v eq_refl) as Ev. pose proof (Hd 0%nat dist eq_refl) as Ed. rewrite Nat.add_0_r in Ev, Ed. destruct (Sset k v Ev) as [Es Ss].
        destruct (wide_p kinds G (mx_grid _ _ _ W) k dist (set_of v) (Ld k dist Il Ed) Ss) as (c & Ep & Mc).
        destruct (Hm v (nth_error_In _ _ Ev)) as (s & Es' & Tv). assert (s = set_of v) as -> by congruence.
        exists (c :: cs). cbn [combine mapM fst snd].
        assert (Ec' : conf_of m v dist = Ok c).
        { unfold conf_of. destruct (to_value v _) as [[y|y]|]; cbn [bind] in Tv |- *; try discriminate Tv. injection Tv as ->. exact Ep. }
        rewrite Ec'. cbn [bind]. rewrite Ec. split; [reflexivity|]. split; [cbn [length]; rewrite Lc; reflexivity|].
        intros [|i] w dist' c' E1 E2 E3; cbn [nth_error] in *; [injection E1 as <-; injection E2 as <-; injection E3 as <-; exact Mc|exact (Hc i w dist' c' E1 E2 E3)]. }
      apply (Gen vars (l_dists l) 0%nat); [congruence|auto..]. }
    set (cf := fun l => match leaf_confs vars m l with Ok cs => cs | Err _ => [] end).
    assert (Mp : mapM (fun l : mleaf => do c <- leaf_confs vars m l; Ok (c, l)) (leaves J) = Ok (map (fun l => (cf l, l)) (leaves J))).
    { clear - Cf. assert (Gen : forall ls, (forall l, In l ls -> In l (leaves J)) -> mapM (fun l : mleaf => do c <- leaf_confs vars m l; Ok (c, l)) ls = Ok (map (fun l => (cf l, l)) ls)); [|apply Gen; auto].
      induction ls as [|l ls IH]; intro H; [reflexivity|]. cbn [mapM map]. destruct (Cf l (H l (or_introl eq_refl))) as (cs & E & _). unfold cf at 1. rewrite E. cbn [bind]. rewrite IH by (intros; apply H; right; assumption). reflexivity. }
    rewrite Mp. cbn [bind]. exists (map (fun v => mopn (set_of v)) vars), cf. eexists. split; [apply map_length|]. split; [|split; [|split; [|split; [reflexivity|]]]].
    + intros i v s Ev Es. rewrite nth_error_map, Ev in Es. cbn [option_map] in Es. injection Es as <-. destruct (Sset i v Ev) as [Ea Ss]. split; [exact Ss|]. pose proof (nth_error_In _ _ Ev) as Iv.
      pose proof (arg_described float vars VO v (effective d v) (set_of v) Iv (effective_built vars d VO DO v Iv) Ea) as (_ & _ & D). unfold effective in D. split.
      * intros a S l T. apply (said_last vars VN d v a (dk_own _ _ DO) Iv) in S. rewrite S in D. rewrite holds_mopn. apply D, T.
      * intros N l Hl. rewrite holds_mopn. destruct (last_said d (u_name v)) as [a|] eqn:L; [destruct (N a); apply (said_last vars VN d v a (dk_own _ _ DO) Iv), L|].
        apply D; [|apply everything_describes, Hl]. pose proof (vs_num _ VO v) as Hn. unfold told_apart, everything_arg. unfold is_label_of in Hl. destruct (u_kind v) as [sc bl| |]; [|exact I..]. destruct (Hn sc bl Iv eq_refl) as [S _]. destruct (sc_inf _ S) as [S1 S2].
        destruct Hl as (x & -> & Fx). intros y b Ey Mb Q. injection Ey as <-. pose proof (sc_fin _ S x Fx) as Fs. unfold finite in Fs. exfalso. unfold RR in Mb. cbn [mentions lower upper] in Mb. destruct Mb as [->| ->]; [rewrite S1 in Q|rewrite S2 in Q]; lia.
    + intros l Il. destruct (Cf l Il) as (cs & E & Lc & _). unfold cf. rewrite E. exact Lc.
    + intros l i dist s c Il Ed Es Ec. rewrite nth_error_map in Es. destruct (nth_error vars i) as [v|] eqn:Ev; [|discriminate]. cbn [option_map] in Es. injection Es as <-.
      destruct (Cf l Il) as (cs & E & Lc & Hc). unfold cf in Ec. rewrite E in Ec. exact (Hc i v dist c Ev Ed Ec).
    + split.
      * intros c l. rewrite sort_in, filter_In, in_map_iff. cbn [fst]. rewrite forallb_forall. split.
        -- intros ((l' & Q & Il) & F). injection Q as <- <-. split; [exact Il|]. split; [reflexivity|]. intros p Ip. apply Qle_bool_iff, F, Ip.
        -- intros (Il & -> & F). split; [exists l; split; [reflexivity|exact Il]|]. intros p Ip. apply Qle_bool_iff, F, Ip.
      * apply (sort_sorted (fun x y => precedes (leaves J) (snd x) (snd y))). apply sorted_map_filter. cbn [snd]. apply precedes_sorted.
Qed.
Print Assumptions C86_reverse_partial.

(** Example: the tree of MixedProps.v; x >= 0.5 and the first label are asked for. *)
Lemma got_reverse : forall A (x : res (list (list Q * mleaf))) (f : list (list Q * mleaf) -> A) y, (match x with Ok r => Some (f r) | Err _ => None end) = Some y -> exists r, x = Ok r /\ f r = y.
Proof. intros A [r|e] f y E; [injection E as <-; eauto|discriminate]. Qed.
Example C86_example : exists r, reverse (fun z => z) [ex_x; ex_s] mx ((KName "other", GAtom (PInt 1)) :: ex_query) (1 # 10) = Ok r /\ map (fun c => (l_idx (snd c), map Qred (fst c))) r = [(2%nat, [1; 1]); (1%nat, [1 # 4; 1])].
Proof. apply got_reverse. vm_compute. reflexivity. Qed.
Example C86_union_example : exists r, reverse (fun z => z) [ex_x; ex_s] mx u_query (1 # 2) = Ok r /\ map (fun c => (l_idx (snd c), map Qred (fst c))) r = [(2%nat, [1; 1]); (1%nat, [3 # 4; 1])].
Proof. apply got_reverse. vm_compute. reflexivity. Qed.
