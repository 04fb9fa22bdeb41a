(** Queries and the state of the model. *)
Require Import ZArith QArith Lqa Bool List Arith Lia.
Require Import Verif.Base Verif.FloatLine Verif.NumBase Verif.UtilModel Verif.IntervalModel Verif.IntervalSpec Verif.IntervalProofs Verif.IntervalExact
  Verif.FunctionModel Verif.NumericModel Verif.NumericSpec Verif.TreeModel Verif.TreeSpec Verif.TreeDiscrete Verif.NumericTree Verif.MixedTree Verif.MixedProps Verif.TreeEffect.
Import ListNotations.
Open Scope Q_scope.

(** ** Specification *)

(** Exactly one double lies in both intervals. *)
Definition meet_in_a_point (a b : cs) : Prop := exists x, forall y, cs_mem y a /\ cs_mem y b <-> y = x.

(** The variables for which a call returns distributions, expectations or moments. *)
Definition asked {F} (J : jpt F) (r : request F) : list var :=
  match r with
  | Posterior vs _ _ | Moment vs _ _ _ _ => vs
  | Expectation vs e _ => expectation_vars J vs e
  | _ => []
  end.
Definition evidence {F} (r : request F) : assignment F :=
  match r with
  | Posterior _ e _ | Moment _ _ _ e _ | Expectation _ e _ => e
  | _ => []
  end.
(** No interval given as evidence for a variable that is asked for meets the interval of
    a leaf's path in exactly one double. *)
Definition pointless (J : mtree) (r : request (mixed numeric discrete)) : Prop :=
  forall l v s p, In l (leaves J) -> In v (asked J r) -> lookup (evidence r) v = Some (inl s) -> path_get (full J) (l_path l) v = Some p ->
    exists a b, s = NC a /\ p = inl (NC b) /\ wf a /\ wf b /\ ~ meet_in_a_point a b.

(** ** Proofs *)

Lemma size_one : forall c, wf c -> cs_size c = Some 1%Z -> exists x, forall y, cs_mem y c <-> y = x.
Proof.
  intros c W S. unfold cs_size in S. destruct (cs_isempty c) eqn:E; [discriminate|]. pose proof W as W0. destruct W as (Le & _). pose proof (wf_lo1 c W0) as L.
  assert (X : lo1 c = hi1 c).
  { destruct (Z.eqb_spec (lower c) (upper c)) as [Q|Q].
    - unfold cs_isempty in E. replace (upper c <? lower c)%Z with false in E by (symmetry; apply Z.ltb_ge; lia).
      rewrite (proj2 (Z.eqb_eq _ _) Q) in E. unfold isclosed, itype in E. unfold lo1, hi1. destruct (left c), (right c); cbn in E |- *; try discriminate; lia.
    - cbn [orb] in S. destruct (Z.ltb_spec (lower c) (upper c)); [|lia].
      destruct ((lower c + 1 =? upper c)%Z && (itype c =? 3)%Z) eqn:A; [|discriminate]. apply andb_true_iff in A as [A B]. apply Z.eqb_eq in A, B.
      unfold itype in B. unfold lo1, hi1. destruct (left c), (right c); cbn in B |- *; try discriminate; lia. }
  exists (lo1 c). intro y. rewrite (mem_ends c y W0). lia.
Qed.

Lemma cut_wf : forall a b, wf a -> wf b -> wf (cut a b).
Proof.
  intros a b Wa Wb. destruct (cut_bounds a b Wa Wb) as [->|(El & Eu & Le & F1 & F2 & F3 & F4)]; [apply wf_empty|].
  destruct Wa as (A1 & A2 & A3 & A4 & A5 & A6 & A7), Wb as (B1 & B2 & B3 & B4 & B5 & B6 & B7). unfold wf.
  split; [exact Le|]. rewrite El, Eu in *.
  split; [destruct (Z.max_spec (lower a) (lower b)) as [[_ ->]|[_ ->]]; assumption|].
  split; [destruct (Z.min_spec (upper a) (upper b)) as [[_ ->]|[_ ->]]; assumption|].
  split; [destruct (Z.max_spec (lower a) (lower b)) as [[_ ->]|[_ ->]]; assumption|].
  split; [destruct (Z.min_spec (upper a) (upper b)) as [[_ ->]|[_ ->]]; assumption|].
  split; intro E.
  - destruct (Z.max_spec (lower a) (lower b)) as [[_ M]|[_ M]]; rewrite M in *; [apply F2; [reflexivity|exact (B6 E)]|apply F1; [reflexivity|exact (A6 E)]].
  - destruct (Z.min_spec (upper a) (upper b)) as [[_ M]|[_ M]]; rewrite M in *; [apply F3; [reflexivity|exact (A7 E)]|apply F4; [reflexivity|exact (B7 E)]].
Qed.

Lemma inter_pointless : forall (d : plf) a b, wf a -> wf b -> ~ meet_in_a_point a b -> crop_after d (n_inter (NC a) (NC b)) = d.
Proof.
  intros d a b Wa Wb N. cbn [n_inter]. pose proof (cut_mem a b Wa Wb) as M. pose proof (cut_wf a b Wa Wb) as Wc. unfold cut in M, Wc.
  destruct (cs_intersection a b) as [c|]; [|reflexivity]. cbn [crop_after]. destruct (cs_size c) as [z|] eqn:S; [|reflexivity].
  destruct (Z.eq_dec z 1) as [->|Z]; [|destruct z as [|[| |]|]; try reflexivity; lia].
  exfalso. destruct (size_one c Wc S) as (x & X). apply N. exists x. intro y. rewrite <- M. apply X.
Qed.

Lemma pointless_harmless : forall J r, pointless J r -> harmless (F := mixed numeric discrete) mspoil J r.
Proof.
  intros J r H l v d s p L V D E P.
  assert (V' : In v (asked J r)) by (destruct r; exact V). assert (E' : lookup (evidence r) v = Some s) by (destruct r; exact E).
  destruct d as [d|d]; [|reflexivity]. destruct s as [s|s]; [|destruct p; reflexivity].
  destruct (H l v s p L V' E' P) as (a & b & -> & -> & Wa & Wb & N). cbn [mspoil inter mixed]. f_equal. exact (inter_pointless d a b Wa Wb N).
Qed.

Lemma nodup_r : forall A (l m : list A), NoDup (l ++ m) -> NoDup m.
Proof. induction l as [|a l I]; intros m N; [exact N|]. apply I. inversion N. assumption. Qed.
Lemma leaf_ids : forall F (J : jpt F), tree_ok J -> NoDup (map l_idx (leaves J)).
Proof. intros F J T. apply (nodup_r _ _ _ (ids J T)). Qed.

(** ** Theorems *)

(** For trees over symbolic and integer variables every sequence of calls is answered as
    if each call were the first, and leaves the tree as it was. *)
Theorem C78_discrete : forall (J : jpt discrete) rs, tree_ok J ->
  session keep J rs = (map (ask J) rs, J).
Proof.
  intros J rs T. apply session_same.
  - apply (leaf_ids _ J T).
  - apply Forall_forall. intros r _ l v d s p _ _ _ _ _. reflexivity.
Qed.
Print Assumptions C78_discrete.

(** With numeric variables this holds as long as no evidence meets the path of a leaf in
    a single point.  Missing: such evidence, for which the claim is false (below). *)
Theorem C78_sequences_partial : forall (J : mtree) rs, tree_ok J -> Forall (pointless J) rs ->
  session mspoil J rs = (map (ask J) rs, J).
Proof.
  intros J rs T H. apply session_same; [apply (leaf_ids _ J T)|].
  apply Forall_forall. intros r R. apply pointless_harmless. rewrite Forall_forall in H. exact (H r R).
Qed.
Print Assumptions C78_sequences_partial.

(** In particular if no numeric variable is asked for together with evidence for it. *)
Corollary C78_other_variables : forall (J : mtree) rs, tree_ok J ->
  (forall r v s, In r rs -> In v (asked J r) -> lookup (evidence r) v <> Some (inl s)) ->
  session mspoil J rs = (map (ask J) rs, J).
Proof.
  intros J rs T H. apply C78_sequences_partial; [exact T|]. apply Forall_forall. intros r R l v s p _ V E _. exfalso. exact (H r v s R V E).
Qed.
Print Assumptions C78_other_variables.

(** Cropping a numeric distribution to a point returns a distribution with all its mass
    there, and the receiver is that distribution afterwards. *)
Theorem C78_point_spoils : forall (d : plf) x, (Z.abs x < ORD_INF)%Z ->
  crop_set d (NC (CS x x INC INC)) = Ok (dirac x) /\ crop_after d (NC (CS x x INC INC)) = dirac x.
Proof.
  intros d x X. assert (S : cs_size (CS x x INC INC) = Some 1%Z).
  { unfold cs_size, cs_isempty. cbn [lower upper]. rewrite Z.ltb_irrefl, Z.eqb_refl. reflexivity. }
  cbn [crop_set crop_after]. unfold crop_interval. rewrite S. split; reflexivity.
Qed.
Print Assumptions C78_point_spoils.

(** The tree of C39_mixed_example: after asking for the posterior of x given x = 0.5 the
    probability of x >= 0.5 is 1; it was 7/16 before. *)
Definition at_half : nset := NC (CS (1022 * 2 ^ 52) (1022 * 2 ^ 52) INC INC).
Definition how_likely : request (mixed numeric discrete) := Infer (F := mixed numeric discrete) [(0%nat, inl (NC half_up))] [] true.
Definition look : request (mixed numeric discrete) := Posterior (F := mixed numeric discrete) [0%nat] [(0%nat, inl at_half)] true.

Lemma second : forall F (spoil : dist F -> vset F -> dist F) J r1 r2, nth_error (fst (session spoil J [r1; r2])) 1 = Some (ask (after spoil J r1) r2).
Proof. reflexivity. Qed.
Lemma how_likely_before : exists a, infer mx [(0%nat, inl (NC half_up))] [] true = Ok (Some a) /\ a == 7 # 16.
Proof. eexists. split; [vm_compute; reflexivity|]. vm_compute. reflexivity. Qed.
Lemma how_likely_after : exists a, infer (after mspoil mx look) [(0%nat, inl (NC half_up))] [] true = Ok (Some a) /\ a == 1.
Proof. eexists. split; [vm_compute; reflexivity|]. vm_compute. reflexivity. Qed.

Theorem C78_queries_change_the_model_refuted : exists (J : mtree) r1 r2 a b, tree_ok J /\
  ask J r2 = Chance (Ok (Some a)) /\ nth_error (fst (session mspoil J [r1; r2])) 1 = Some (Chance (Ok (Some b))) /\ ~ a == b.
Proof.
  destruct how_likely_before as (a & A & A'), how_likely_after as (b & B & B').
  exists mx, look, how_likely, a, b. split; [exact mx_tree_ok|]. split; [unfold how_likely; cbn [ask]; f_equal; exact A|]. split.
  - rewrite second. unfold how_likely. cbn [ask]. do 2 f_equal. exact B.
  - rewrite A', B'. discriminate.
Qed.
Print Assumptions C78_queries_change_the_model_refuted.

(** Asking for the expectation or a moment of x given x = 0.5 has the same effect. *)
Definition expect_x : request (mixed numeric discrete) := Expectation (F := mixed numeric discrete) (Some [0%nat]) [(0%nat, inl at_half)] true.
Definition variance_x : request (mixed numeric discrete) := Moment (F := mixed numeric discrete) [0%nat] 2 [] [(0%nat, inl at_half)] true.
Theorem C78_expectation_moment_refuted : exists (J : mtree) r2 a, tree_ok J /\ ask J r2 = Chance (Ok (Some a)) /\
  Forall (fun r1 => exists b, nth_error (fst (session mspoil J [r1; r2])) 1 = Some (Chance (Ok (Some b))) /\ ~ a == b) [expect_x; variance_x].
Proof.
  destruct how_likely_before as (a & A & A'), how_likely_after as (b & B & B').
  exists mx, how_likely, a. split; [exact mx_tree_ok|]. split; [unfold how_likely; cbn [ask]; f_equal; exact A|].
  assert (G : forall r1, after mspoil mx r1 = after mspoil mx look -> exists b, nth_error (fst (session mspoil mx [r1; how_likely])) 1 = Some (Chance (Ok (Some b))) /\ ~ a == b).
  { intros r1 E. exists b. split; [rewrite second, E; unfold how_likely; cbn [ask]; do 2 f_equal; exact B|]. rewrite A', B'. discriminate. }
  repeat constructor; apply G; reflexivity.
Qed.
Print Assumptions C78_expectation_moment_refuted.

(** The same holds for the distribution alone: [crop] is documented to return the
    restricted distribution, but the receiver has changed as well ... *)
Definition unit_cdf : plf := fit1 [0; 1023 * 2 ^ 52]%Z.
Theorem C24_receiver_changed_refuted : exists d s r, fit_cdf (1 # 100) None None [0; 1023 * 2 ^ 52]%Z = Ok d /\
  crop_set d s = Ok r /\ crop_after d s <> d.
Proof.
  exists unit_cdf, at_half, (dirac (1022 * 2 ^ 52)). split; [vm_compute; reflexivity|]. split; [vm_compute; reflexivity|]. vm_compute. discriminate.
Qed.
Print Assumptions C24_receiver_changed_refuted.

(** ... and the restriction to two points has all its mass on the second one. *)
Theorem C24_points_refuted : exists d r, fit_cdf (1 # 100) None None [0; 1023 * 2 ^ 52]%Z = Ok d /\
  crop_set d (NR [CS (1021 * 2 ^ 52) (1021 * 2 ^ 52) INC INC; CS (1022 * 2 ^ 52) (1022 * 2 ^ 52) INC INC])%Z = Ok r /\
  match p_interval r (CS (- ORD_INF) (1021 * 2 ^ 52 + 1) EXC INC)%Z, p_interval r (CS (1022 * 2 ^ 52) ORD_INF INC EXC)%Z with Ok a, Ok b => a == 0 /\ b == 1 | _, _ => False end.
Proof. exists unit_cdf. eexists. split; [vm_compute; reflexivity|]. split; [vm_compute; reflexivity|]. vm_compute. split; reflexivity. Qed.
Print Assumptions C24_points_refuted.

(** Hypotheses: three calls with evidence on intervals. *)
Definition half_open : nset := NC (CS (- ORD_INF) (1022 * 2 ^ 52) EXC EXC).
Definition calls : list (request (mixed numeric discrete)) :=
  [Posterior (F := mixed numeric discrete) [0%nat; 1%nat] [(0%nat, inl half_open)] true; how_likely;
   Expectation (F := mixed numeric discrete) None [(0%nat, inl (NC half_up))] false].
Example C78_sequences_example : tree_ok mx /\ Forall (pointless mx) calls /\ session mspoil mx calls = (map (ask mx) calls, mx).
Proof.
  assert (P : Forall (pointless mx) calls).
  { assert (N : forall a b x y, x <> y -> cs_mem x a -> cs_mem x b -> cs_mem y a -> cs_mem y b -> ~ meet_in_a_point a b).
    { intros a b x y D Xa Xb Ya Yb (z & Z). apply D. transitivity z; [apply Z|symmetry; apply Z]; split; assumption. }
    assert (E : forall a b, (forall y, ~ (cs_mem y a /\ cs_mem y b)) -> ~ meet_in_a_point a b).
    { intros a b D (z & Z). apply (D z), Z. reflexivity. }
    assert (W : forall c, In c [below; above; half_up] -> wf c) by (intros c C; exact (proj1 (mx_on c 0%nat C))).
    assert (W2 : wf (CS (- ORD_INF) (1022 * 2 ^ 52) EXC EXC)).
    { change (1022 * 2 ^ 52)%Z with 4602678819172646912%Z. unfold wf, moderate. cbn [lower upper left right]. unfold ORD_INF, ORD_53. repeat split; try lia; intros; try discriminate; lia. }
    assert (P1 : path_get (full mx) (l_path mx_l1) 0%nat = Some (inl (NC below))) by (vm_compute; reflexivity).
    assert (P2 : path_get (full mx) (l_path mx_l2) 0%nat = Some (inl (NC above))) by (vm_compute; reflexivity).
    unfold calls. apply Forall_cons; [|apply Forall_cons; [|apply Forall_cons; [|apply Forall_nil]]].
    - intros l v s p L V S P. destruct V as [<-|[<-|[]]]; [|discriminate S]. injection S as <-.
      destruct L as [<-|[<-|[]]]; [rewrite P1 in P|rewrite P2 in P]; injection P as <-.
      + eexists _, _. split; [reflexivity|]. split; [reflexivity|]. split; [exact W2|]. split; [apply W; cbn; tauto|]. apply (N _ _ 0%Z 1%Z); [discriminate| | | |]; vm_compute; repeat split; discriminate.
      + eexists _, _. split; [reflexivity|]. split; [reflexivity|]. split; [exact W2|]. split; [apply W; cbn; tauto|]. apply E. intros y [A B].
        apply (proj1 (mem_ends _ y W2)) in A. apply (proj1 (mem_ends _ y (W above (or_intror (or_introl eq_refl))))) in B. clear - A B.
        unfold lo1, hi1, above in A, B. cbn [lower upper left right] in A, B. change MID with 4609434218613702656%Z in B. change (1022 * 2 ^ 52)%Z with 4602678819172646912%Z in A. lia.
    - intros l v s p L V S P. destruct V.
    - intros l v s p L V S P. destruct V as [<-|[<-|[]]]; [|discriminate S]. injection S as <-.
      destruct L as [<-|[<-|[]]]; [rewrite P1 in P|rewrite P2 in P]; injection P as <-.
      + eexists _, _. split; [reflexivity|]. split; [reflexivity|]. split; [apply W; cbn; tauto|]. split; [apply W; cbn; tauto|]. apply (N _ _ (1022 * 2 ^ 52)%Z (1022 * 2 ^ 52 + 1)%Z); [discriminate| | | |]; vm_compute; repeat split; discriminate.
      + eexists _, _. split; [reflexivity|]. split; [reflexivity|]. split; [apply W; cbn; tauto|]. split; [apply W; cbn; tauto|]. apply (N _ _ (1024 * 2 ^ 52)%Z (1024 * 2 ^ 52 + 1)%Z); [discriminate| | | |]; vm_compute; repeat split; discriminate. }
  split; [exact mx_tree_ok|]. split; [exact P|]. exact (C78_sequences_partial mx calls mx_tree_ok P).
Qed.
