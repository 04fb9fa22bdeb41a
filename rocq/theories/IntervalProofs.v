(** Proofs about ContinuousSet.  Statements for readers are in IntervalProps. *)
Require Import ZArith Bool List Lia Sorting.Sorted.
Require Import Verif.Base Verif.FloatLine Verif.IntervalModel Verif.IntervalSpec.
Import ListNotations.
Open Scope Z_scope.

Lemma plus_eps_mod : forall x, moderate x ->
  (Z.abs x < ORD_53 /\ plus_eps x = x + 1) \/ (Z.abs x = ORD_INF /\ plus_eps x = x).
Proof.
  intros x [H|H]; [left|right]; (split; [exact H|]); unfold plus_eps, adds_one.
  - destruct (Z.ltb_spec (Z.abs x) ORD_53); [reflexivity|lia].
  - rewrite H. reflexivity.
Qed.

Lemma minus_eps_mod : forall x, moderate x ->
  (Z.abs x < ORD_53 /\ minus_eps x = x - 1) \/ (Z.abs x = ORD_INF /\ minus_eps x = x).
Proof.
  intros x [H|H]; [left|right]; (split; [exact H|]); unfold minus_eps, subs_one, adds_one;
    rewrite ?Z.abs_opp.
  - destruct (Z.ltb_spec (Z.abs x) ORD_53); [reflexivity|lia].
  - rewrite H. reflexivity.
Qed.

Ltac zb :=
  repeat match goal with
  | |- context [?a <? ?b] => destruct (Z.ltb_spec a b)
  | |- context [?a <=? ?b] => destruct (Z.leb_spec a b)
  | |- context [?a =? ?b] => destruct (Z.eqb_spec a b)
  | H : context [?a <? ?b] |- _ => destruct (Z.ltb_spec a b)
  | H : context [?a <=? ?b] |- _ => destruct (Z.leb_spec a b)
  | H : context [?a =? ?b] |- _ => destruct (Z.eqb_spec a b)
  end.

(** Facts about the neighbours of the bounds of a well-formed interval. *)
Ltac eps_facts :=
  repeat match goal with
  | H : moderate ?x |- _ =>
      let p := fresh "P" in let m := fresh "M" in
      pose proof (plus_eps_mod x H) as p; pose proof (minus_eps_mod x H) as m;
      clear H
  end.

Ltac consts := unfold ORD_INF, ORD_53 in *.


Ltac clean_flags :=
  repeat match goal with
  | H : ?P -> INC = EXC |- _ =>
      let n := fresh "N" in
      assert (n : ~ P) by (let h := fresh in intro h; discriminate (H h)); clear H
  | H : _ -> EXC = EXC |- _ => clear H
  | H : _ /\ _ |- _ => destruct H
  end.

Lemma ord_facts : 4 < ORD_53 /\ ORD_53 + 4 < ORD_INF.
Proof. split; reflexivity. Qed.

Ltac zl := clean_flags; unfold finite in *; pose proof ord_facts; lia.

(** Closed integer bounds of an interval. *)
Definition lo1 (s : cs) : Z := match left s with INC => lower s | EXC => lower s + 1 end.
Definition hi1 (s : cs) : Z := match right s with INC => upper s | EXC => upper s - 1 end.

Lemma mem_lo1 : forall x s, cs_mem x s <-> finite x /\ lo1 s <= x <= hi1 s.
Proof. intros x [lo hi [] []]; unfold cs_mem, lo1, hi1; cbn -[ORD_INF]; zl. Qed.

Lemma wf_lo1 : forall s, wf s -> - ORD_INF < lo1 s /\ hi1 s < ORD_INF.
Proof.
  intros [lo hi l r] W. unfold wf, lo1, hi1, moderate in *. cbn [lower upper left right] in *.
  destruct l, r; zl.
Qed.

Lemma isempty_lo1 : forall s, wf s -> cs_isempty s = true <-> hi1 s < lo1 s.
Proof.
  intros [lo hi l r] (Hle & Hml & Hmu & Hli & Hui & Hfl & Hfr). cbn [lower upper left right] in *.
  eps_facts. unfold cs_isempty, isclosed, itype, lo1, hi1. cbn [lower upper left right].
  destruct l, r; cbn -[ORD_INF]; zb; cbn -[ORD_INF]; split; intros; try discriminate; try reflexivity; zl.
Qed.

Lemma isempty_lo1_f : forall s, wf s -> cs_isempty s = false <-> lo1 s <= hi1 s.
Proof.
  intros s W. pose proof (isempty_lo1 s W). destruct (cs_isempty s); split; intros; try discriminate; try reflexivity.
  - destruct H as [H _]. specialize (H eq_refl). lia.
  - destruct H as [_ H]. destruct (Z.le_gt_cases (lo1 s) (hi1 s)); [assumption|].
    discriminate (H ltac:(lia)).
Qed.

Lemma contains_value_spec : forall s v, finite v ->
  cs_contains_value s v = true <-> cs_mem v s.
Proof.
  intros [lo hi l r] v Hv.
  unfold cs_contains_value, cs_intersects, cs_isempty, cs_mem, isclosed, itype.
  cbn -[ORD_INF]. rewrite Z.ltb_irrefl, Z.eqb_refl. cbn -[ORD_INF].
  destruct l, r; cbn -[ORD_INF]; zb; cbn -[ORD_INF]; split; intros; try discriminate; try reflexivity; try zl.
Qed.

Lemma isempty_spec : forall s, wf s ->
  cs_isempty s = true <-> (forall x, ~ cs_mem x s).
Proof.
  intros s W. rewrite isempty_lo1 by assumption. pose proof (wf_lo1 s W). split.
  - intros Hlt x Hx. apply mem_lo1 in Hx. lia.
  - intro Hn. destruct (Z.le_gt_cases (lo1 s) (hi1 s)); [|lia].
    exfalso. apply (Hn (lo1 s)). apply mem_lo1. zl.
Qed.

Lemma nonempty_ex : forall s, wf s -> cs_isempty s = false -> exists x, cs_mem x s.
Proof.
  intros s W E. apply isempty_lo1_f in E; [|assumption]. pose proof (wf_lo1 s W).
  exists (lo1 s). apply mem_lo1. zl.
Qed.

(** Greatest and least members. *)
Lemma lowermost_spec : forall s, wf s -> cs_isempty s = false -> - ORD_INF < lower s ->
  cs_mem (lowermost s) s /\ forall x, cs_mem x s -> lowermost s <= x.
Proof.
  intros s W E L.
  destruct s as [lo hi l r]. destruct W as (Hle & Hml & Hmu & Hli & Hui & Hfl & Hfr).
  cbn [lower upper left right] in *. eps_facts.
  unfold cs_isempty, isclosed, itype, cs_mem, finite, lowermost in *. cbn [lower upper left right] in *.
  destruct l, r; cbn -[ORD_INF] in *; revert E; zb; cbn -[ORD_INF]; intros; try discriminate; (split; [|intros]); zl.
Qed.

Lemma uppermost_spec : forall s, wf s -> cs_isempty s = false -> upper s < ORD_INF ->
  cs_mem (uppermost s) s /\ forall x, cs_mem x s -> x <= uppermost s.
Proof.
  intros s W E L.
  destruct s as [lo hi l r]. destruct W as (Hle & Hml & Hmu & Hli & Hui & Hfl & Hfr).
  cbn [lower upper left right] in *. eps_facts.
  unfold cs_isempty, isclosed, itype, cs_mem, finite, uppermost in *. cbn [lower upper left right] in *.
  destruct l, r; cbn -[ORD_INF] in *; revert E; zb; cbn -[ORD_INF]; intros; try discriminate; (split; [|intros]); zl.
Qed.

Ltac unf2 a b :=
  let lo1 := fresh "lo" in let hi1 := fresh "hi" in let l1 := fresh "l" in let r1 := fresh "r" in
  let lo2 := fresh "lo" in let hi2 := fresh "hi" in let l2 := fresh "l" in let r2 := fresh "r" in
  destruct a as [lo1 hi1 l1 r1]; destruct b as [lo2 hi2 l2 r2].

Lemma spaced_bounds : forall a b, spaced (bounds a ++ bounds b) ->
  (lower a = lower b \/ 2 <= Z.abs (lower a - lower b)) /\
  (lower a = upper b \/ 2 <= Z.abs (lower a - upper b)) /\
  (upper a = lower b \/ 2 <= Z.abs (upper a - lower b)) /\
  (upper a = upper b \/ 2 <= Z.abs (upper a - upper b)) /\
  (lower a = upper a \/ 2 <= Z.abs (lower a - upper a)) /\
  (lower b = upper b \/ 2 <= Z.abs (lower b - upper b)).
Proof. intros a b H. unfold bounds in H. repeat split; apply H; cbn; tauto. Qed.

(** The only case in which [intersects] says yes although nothing is shared. *)
Definition gap_overlap (a b : cs) : Prop :=
  Z.min (upper a) (upper b) = Z.max (lower a) (lower b) + 1
  /\ ~ (exists x, cs_mem x a /\ cs_mem x b).

Lemma intersects_complete : forall a b, wf a -> wf b ->
  (exists x, cs_mem x a /\ cs_mem x b) -> cs_intersects a b = true.
Proof.
  intros a b Wa Wb (x & Xa & Xb).
  assert (E : cs_isempty b = false).
  { destruct (cs_isempty b) eqn:E; [|reflexivity].
    exact (False_ind _ (proj1 (isempty_spec b Wb) E x Xb)). }
  unfold cs_intersects. rewrite E. clear Wa Wb E.
  unf2 a b. unfold cs_mem in *. cbn [lower upper left right] in *.
  destruct l, r, l0, r0; cbn -[ORD_INF] in *; zb; cbn; try reflexivity; zl.
Qed.

(** [intersects] without its emptiness test, on closed integer bounds. *)
Lemma intersects_core : forall a b, wf a -> wf b -> cs_isempty b = false ->
  spaced (bounds a ++ bounds b) -> cs_isempty a = false ->
  cs_intersects a b = true <-> (lo1 a <= hi1 b /\ lo1 b <= hi1 a).
Proof.
  intros a b Wa Wb Eb Sp Ea. pose proof (spaced_bounds _ _ Sp) as S. clear Sp.
  unfold cs_intersects. rewrite Eb.
  apply isempty_lo1_f in Ea; [|assumption]. apply isempty_lo1_f in Eb; [|assumption].
  destruct S as (_ & S1 & S2 & _). destruct Wa as (La & _). destruct Wb as (Lb & _).
  unf2 a b. unfold lo1, hi1 in *. cbn [lower upper left right] in *.
  destruct l, r, l0, r0; cbn -[ORD_INF] in *; zb; cbn; split; intros; try discriminate; try reflexivity; try lia.
Qed.

Lemma intersects_sound : forall a b, wf a -> wf b -> cs_isempty a = false ->
  spaced (bounds a ++ bounds b) -> cs_intersects a b = true ->
  exists x, cs_mem x a /\ cs_mem x b.
Proof.
  intros a b Wa Wb Ea Sp H.
  assert (Eb : cs_isempty b = false).
  { unfold cs_intersects in H. destruct (cs_isempty b); [discriminate|reflexivity]. }
  apply intersects_core in H; try assumption.
  apply isempty_lo1_f in Ea; [|assumption]. apply isempty_lo1_f in Eb; [|assumption].
  pose proof (wf_lo1 a Wa). pose proof (wf_lo1 b Wb).
  exists (Z.max (lo1 a) (lo1 b)). rewrite !mem_lo1. zl.
Qed.

Lemma cs_intersection_lr_ok : forall a b fl fr, lower a <= upper a -> lower b <= upper b ->
  exists r, cs_intersection_lr a b fl fr = Ok r.
Proof.
  intros a b fl fr Ha Hb. unfold cs_intersection_lr.
  destruct (cs_intersects a b) eqn:E; cbn [negb]; [|eexists; reflexivity].
  unfold mk_cs. destruct (Z.ltb_spec (Z.min (upper a) (upper b)) (Z.max (lower a) (lower b))).
  - exfalso. unfold cs_intersects in E. revert E. destruct (cs_isempty b); [discriminate|].
    zb; cbn; try discriminate; lia.
  - cbn. eexists; reflexivity.
Qed.

Lemma EMPTY_mem : forall x, ~ cs_mem x EMPTY.
Proof. intros x (_ & H). cbn in H. lia. Qed.

Lemma intersection_spec : forall a b r, wf a -> wf b -> cs_intersection a b = Ok r ->
  forall x, cs_mem x r <-> cs_mem x a /\ cs_mem x b.
Proof.
  intros a b r Wa Wb. unfold cs_intersection, cs_intersection_lr.
  destruct (cs_intersects a b) eqn:E; cbn [negb].
  - unfold mk_cs. destruct (_ <? _); cbn; [discriminate|].
    injection 1 as <-. intro x. clear E Wa Wb. unf2 a b. unfold cs_mem. cbn [lower upper left right].
    destruct l, r, l0, r0; cbn -[ORD_INF]; zb; zl.
  - injection 1 as <-. intro x. split.
    + intro H. destruct (EMPTY_mem _ H).
    + intros [Xa Xb]. rewrite intersects_complete in E; [discriminate|assumption..|].
      exists x; auto.
Qed.

Lemma set_left_mem : forall s fl x, moderate (lower s) -> cs_mem x (set_left s fl) <-> cs_mem x s.
Proof.
  intros [lo hi l r] fl x Hl. cbn [lower] in Hl. eps_facts.
  unfold set_left, cs_mem. destruct fl as [[]|]; destruct l; cbn -[ORD_INF]; destruct r; zl.
Qed.

Lemma set_right_mem : forall s fl x, moderate (upper s) -> cs_mem x (set_right s fl) <-> cs_mem x s.
Proof.
  intros [lo hi l r] fl x Hl. cbn [upper] in Hl. eps_facts.
  unfold set_right, cs_mem. destruct fl as [[]|]; destruct r; cbn -[ORD_INF]; destruct l; zl.
Qed.

Lemma moderate_max : forall x y, moderate x -> moderate y -> moderate (Z.max x y).
Proof. intros; destruct (Z.max_spec x y) as [[_ ->]|[_ ->]]; assumption. Qed.
Lemma moderate_min : forall x y, moderate x -> moderate y -> moderate (Z.min x y).
Proof. intros; destruct (Z.min_spec x y) as [[_ ->]|[_ ->]]; assumption. Qed.

Lemma set_left_upper : forall s fl, upper (set_left s fl) = upper s.
Proof. intros [? ? [] ?] [[]|]; reflexivity. Qed.

Lemma intersection_lr_mem : forall a b fl fr r, wf a -> wf b ->
  cs_intersection_lr a b fl fr = Ok r ->
  forall x, cs_mem x r <-> cs_mem x a /\ cs_mem x b.
Proof.
  intros a b fl fr r Wa Wb H x.
  pose proof (intersection_spec a b) as IS. unfold cs_intersection in IS.
  unfold cs_intersection_lr in *.
  destruct (negb (cs_intersects a b)).
  - injection H as <-. apply (IS EMPTY); auto.
  - unfold mk_cs in *. destruct (_ <? _); cbn in *; [discriminate|].
    injection H as <-.
    destruct Wa as (? & ? & ? & Wa), Wb as (? & ? & ? & Wb).
    rewrite set_right_mem, set_left_mem.
    + apply IS; [unfold wf; tauto..|]. reflexivity.
    + cbn. apply moderate_max; assumption.
    + rewrite set_left_upper. cbn. apply moderate_min; assumption.
Qed.

Lemma lowermost_lo1 : forall s, wf s ->
  (- ORD_INF < lower s /\ lowermost s = lo1 s /\ - ORD_53 < lo1 s)
  \/ (lower s = - ORD_INF /\ left s = EXC /\ lowermost s = - ORD_INF /\ lo1 s = - ORD_INF + 1).
Proof.
  intros [lo hi l r] (Hle & Hml & Hmu & Hli & Hui & Hfl & Hfr).
  unfold lowermost, lo1. cbn [lower upper left right] in *. eps_facts.
  destruct (Z.eq_dec lo (- ORD_INF)).
  - right. rewrite (Hfl e). repeat split; try reflexivity; zl.
  - left. destruct l; zl.
Qed.

Lemma uppermost_hi1 : forall s, wf s ->
  (upper s < ORD_INF /\ uppermost s = hi1 s /\ hi1 s < ORD_53)
  \/ (upper s = ORD_INF /\ right s = EXC /\ uppermost s = ORD_INF /\ hi1 s = ORD_INF - 1).
Proof.
  intros [lo hi l r] (Hle & Hml & Hmu & Hli & Hui & Hfl & Hfr).
  unfold uppermost, hi1. cbn [lower upper left right] in *. eps_facts.
  destruct (Z.eq_dec hi ORD_INF).
  - right. rewrite (Hfr e). repeat split; try reflexivity; zl.
  - left. destruct r; zl.
Qed.

Lemma lowermost_le : forall a b, wf a -> wf b ->
  (lowermost b <? lowermost a) = (lo1 b <? lo1 a).
Proof.
  intros a b Wa Wb. pose proof (wf_lo1 a Wa). pose proof (wf_lo1 b Wb).
  destruct (lowermost_lo1 a Wa) as [(? & -> & ?)|(? & ? & -> & ->)];
  destruct (lowermost_lo1 b Wb) as [(? & -> & ?)|(? & ? & -> & ->)]; zb; try reflexivity; zl.
Qed.

Lemma uppermost_le : forall a b, wf a -> wf b ->
  (uppermost a <? uppermost b) = (hi1 a <? hi1 b).
Proof.
  intros a b Wa Wb. pose proof (wf_lo1 a Wa). pose proof (wf_lo1 b Wb).
  destruct (uppermost_hi1 a Wa) as [(? & -> & ?)|(? & ? & -> & ->)];
  destruct (uppermost_hi1 b Wb) as [(? & -> & ?)|(? & ? & -> & ->)]; zb; try reflexivity; zl.
Qed.

Lemma lowermost_eqb : forall a b, wf a -> wf b ->
  (lowermost a =? lowermost b) = (lo1 a =? lo1 b).
Proof.
  intros a b Wa Wb. pose proof (lowermost_le a b Wa Wb). pose proof (lowermost_le b a Wb Wa). zb; lia.
Qed.

Lemma uppermost_eqb : forall a b, wf a -> wf b ->
  (uppermost a =? uppermost b) = (hi1 a =? hi1 b).
Proof.
  intros a b Wa Wb. pose proof (uppermost_le a b Wa Wb). pose proof (uppermost_le b a Wb Wa). zb; lia.
Qed.

Lemma contains_interval_core : forall a b, wf a -> wf b -> cs_isempty a = false ->
  cs_contains_interval a b false = true <-> lo1 a <= lo1 b /\ hi1 b <= hi1 a.
Proof.
  intros a b Wa Wb Ea. unfold cs_contains_interval. rewrite Ea, lowermost_le, uppermost_le by assumption.
  clear. unf2 a b. unfold lo1, hi1. cbn [lower upper left right].
  destruct l, r, l0, r0; cbn -[ORD_INF]; zb; cbn; split; intros; try discriminate; try reflexivity; lia.
Qed.

Lemma sub_lo1 : forall a b, wf a -> wf b -> cs_isempty b = false ->
  (forall x, cs_mem x b -> cs_mem x a) <-> lo1 a <= lo1 b /\ hi1 b <= hi1 a.
Proof.
  intros a b Wa Wb Eb. apply isempty_lo1_f in Eb; [|assumption].
  pose proof (wf_lo1 a Wa). pose proof (wf_lo1 b Wb). split.
  - intro S.
    assert (S1 : cs_mem (lo1 b) a) by (apply S; apply mem_lo1; zl).
    assert (S2 : cs_mem (hi1 b) a) by (apply S; apply mem_lo1; zl).
    rewrite mem_lo1 in S1, S2. lia.
  - intros L x. rewrite !mem_lo1. intros [F I]. split; [exact F|lia].
Qed.

Lemma contains_interval_spec : forall a b, wf a -> wf b -> cs_isempty b = false ->
  cs_contains_interval a b false = true <-> (forall x, cs_mem x b -> cs_mem x a).
Proof.
  intros a b Wa Wb Eb. rewrite sub_lo1 by assumption.
  destruct (cs_isempty a) eqn:Ea; [|apply contains_interval_core; assumption].
  unfold cs_contains_interval. rewrite Ea. split; [discriminate|].
  apply isempty_lo1 in Ea; [|assumption]. apply isempty_lo1_f in Eb; [|assumption]. lia.
Qed.

Lemma eq_spec : forall a b, wf a -> wf b ->
  cs_eq a b = true <-> (forall x, cs_mem x a <-> cs_mem x b).
Proof.
  intros a b Wa Wb. unfold cs_eq. rewrite lowermost_eqb, uppermost_eqb by assumption.
  destruct (cs_isempty a) eqn:Ea, (cs_isempty b) eqn:Eb; cbn [andb orb].
  - rewrite orb_true_r. split; [intros _|reflexivity]. intro x.
    pose proof (proj1 (isempty_spec a Wa) Ea x). pose proof (proj1 (isempty_spec b Wb) Eb x). tauto.
  - rewrite orb_false_r. split.
    + apply isempty_lo1 in Ea; [|assumption]. apply isempty_lo1_f in Eb; [|assumption]. zb; cbn; try discriminate. lia.
    + intro S. destruct (nonempty_ex b Wb Eb) as [x Hx].
      exact (False_ind _ (proj1 (isempty_spec a Wa) Ea x (proj2 (S x) Hx))).
  - rewrite orb_false_r. split.
    + apply isempty_lo1 in Eb; [|assumption]. apply isempty_lo1_f in Ea; [|assumption]. zb; cbn; try discriminate. lia.
    + intro S. destruct (nonempty_ex a Wa Ea) as [x Hx].
      exact (False_ind _ (proj1 (isempty_spec b Wb) Eb x (proj1 (S x) Hx))).
  - rewrite orb_false_r. split.
    + intros H x. rewrite !mem_lo1. revert H. zb; cbn; try discriminate. intros _. rewrite e, e0. reflexivity.
    + intro S.
      assert (S1 : lo1 a <= lo1 b /\ hi1 b <= hi1 a) by (apply sub_lo1; [assumption..|intros; apply S; assumption]).
      assert (S2 : lo1 b <= lo1 a /\ hi1 a <= hi1 b) by (apply sub_lo1; [assumption..|intros; apply S; assumption]).
      zb; cbn; try reflexivity; lia.
Qed.

