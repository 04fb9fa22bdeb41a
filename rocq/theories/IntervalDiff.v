(** Proofs about ContinuousSet.difference.  Statements for readers are in
    IntervalProps. *)
Require Import ZArith Bool List Lia.
Require Import Verif.Base Verif.FloatLine Verif.IntervalModel Verif.IntervalSpec Verif.IntervalProofs.
Import ListNotations.
Open Scope Z_scope.

(** ** Difference *)

Definition span_bounds (r : nset) : list Z := all_bounds (as_list r).

(** The one situation in which [difference] raises: the subtrahend starts (or
    ends) with an open border at the double just outside the minuend's closed
    border, and lies inside otherwise. *)
Definition diff_raises (a b : cs) : Prop :=
  (exists x, cs_mem x b) /\ (forall x, cs_mem x b -> cs_mem x a)
  /\ (exists x, cs_mem x a /\ ~ cs_mem x b)
  /\ (lower b < lower a \/ upper a < upper b)
  /\ ~ (lower a = lower b /\ left a = left b)
  /\ ~ (upper a = upper b /\ right a = right b).

Lemma flag_eqb_spec : forall f g, reflect (f = g) (flag_eqb f g).
Proof. intros [] []; constructor; congruence. Qed.

Lemma contains_proper_bool : forall a b,
  cs_contains_interval a b true =
  cs_contains_interval a b false
  && negb ((lower a =? lower b) && flag_eqb (left a) (left b))
  && negb ((upper a =? upper b) && flag_eqb (right a) (right b)).
Proof.
  intros a b. unfold cs_contains_interval.
  destruct (cs_isempty a), (lowermost b <? lowermost a), (uppermost a <? uppermost b),
    (lower a =? lower b), (upper a =? upper b), (left a), (left b), (right a), (right b); reflexivity.
Qed.

Lemma contains_proper_core : forall a b, wf a -> wf b -> cs_isempty a = false ->
  cs_contains_interval a b true = true <->
  lo1 a <= lo1 b /\ hi1 b <= hi1 a
  /\ ~ (lower a = lower b /\ left a = left b)
  /\ ~ (upper a = upper b /\ right a = right b).
Proof.
  intros a b Wa Wb Ea. rewrite contains_proper_bool.
  pose proof (contains_interval_core a b Wa Wb Ea) as C.
  rewrite !andb_true_iff, C, !negb_true_iff, !andb_false_iff.
  destruct (Z.eqb_spec (lower a) (lower b)), (Z.eqb_spec (upper a) (upper b)),
    (flag_eqb_spec (left a) (left b)), (flag_eqb_spec (right a) (right b)); intuition congruence.
Qed.

Lemma contains_value_top : forall a b, wf a -> wf b ->
  cs_contains_value a (uppermost b) = true <-> upper b < ORD_INF /\ lo1 a <= hi1 b <= hi1 a.
Proof.
  intros a b Wa Wb. pose proof (wf_lo1 a Wa) as [La Ha]. pose proof (wf_lo1 b Wb) as [Lb Hb].
  destruct (uppermost_hi1 b Wb) as [(U & -> & ?)|(U & _ & -> & ?)].
  - destruct (Z.le_gt_cases (lo1 a) (hi1 b)).
    + rewrite contains_value_spec by zl. rewrite mem_lo1. zl.
    + split; [|lia]. intro C. exfalso.
      destruct (Z.lt_ge_cases (- ORD_INF) (hi1 b)).
      * apply contains_value_spec in C; [|zl]. apply mem_lo1 in C. lia.
      * destruct Wb as (? & ? & ? & ? & ? & ? & ?). unfold lo1, hi1, moderate in *. destruct (left b), (right b); zl.
  - split; [|lia]. intro C. exfalso. revert C.
    unfold cs_contains_value, cs_intersects, cs_isempty, isclosed, itype. cbn [lower upper left right].
    rewrite Z.ltb_irrefl, Z.eqb_refl. cbn -[ORD_INF].
    destruct Wa as (? & ? & Hm & _). unfold moderate in Hm.
    unfold hi1 in Ha. destruct (right a), (left a); zb; cbn; try discriminate; zl.
Qed.

Lemma contains_value_bot : forall a b, wf a -> wf b ->
  cs_contains_value a (lowermost b) = true <-> - ORD_INF < lower b /\ lo1 a <= lo1 b <= hi1 a.
Proof.
  intros a b Wa Wb. pose proof (wf_lo1 a Wa) as [La Ha]. pose proof (wf_lo1 b Wb) as [Lb Hb].
  destruct (lowermost_lo1 b Wb) as [(U & -> & ?)|(U & _ & -> & ?)].
  - destruct (Z.le_gt_cases (lo1 b) (hi1 a)).
    + rewrite contains_value_spec by zl. rewrite mem_lo1. zl.
    + split; [|lia]. intro C. exfalso.
      destruct (Z.lt_ge_cases (lo1 b) ORD_INF).
      * apply contains_value_spec in C; [|zl]. apply mem_lo1 in C. lia.
      * destruct Wb as (? & ? & ? & ? & ? & ? & ?). unfold lo1, hi1, moderate in *. destruct (left b), (right b); zl.
  - split; [|lia]. intro C. exfalso. revert C.
    unfold cs_contains_value, cs_intersects, cs_isempty, isclosed, itype. cbn [lower upper left right].
    rewrite Z.ltb_irrefl, Z.eqb_refl. cbn -[ORD_INF].
    destruct Wa as (? & Hm & _). unfold moderate in Hm.
    unfold lo1 in La. destruct (left a), (right a); zb; cbn -[ORD_INF]; try discriminate; zl.
Qed.

(** Shape of a difference. *)
Inductive diff_shape (a b : cs) : nset -> Prop :=
| DS_same : (forall x, cs_mem x a -> ~ cs_mem x b) -> diff_shape a b (NC a)
| DS_empty : (forall x, cs_mem x a -> cs_mem x b) -> diff_shape a b (NC EMPTY)
| DS_right : forall c, lower c = upper b -> upper c = upper a -> right c = right a ->
    wf c -> lo1 c = hi1 b + 1 -> hi1 c = hi1 a -> lo1 b <= lo1 a -> lo1 a <= hi1 b -> hi1 b < hi1 a ->
    diff_shape a b (NC c)
| DS_left : forall c, upper c = lower b -> lower c = lower a -> left c = left a ->
    wf c -> hi1 c = lo1 b - 1 -> lo1 c = lo1 a -> hi1 a <= hi1 b -> lo1 b <= hi1 a -> lo1 a < lo1 b ->
    diff_shape a b (NC c)
| DS_split : forall c d,
    lower c = lower a -> upper c = lower b -> lower d = upper b -> upper d = upper a ->
    left c = left a -> right d = right a ->
    wf c -> wf d -> lo1 c = lo1 a -> hi1 c = lo1 b - 1 -> lo1 d = hi1 b + 1 -> hi1 d = hi1 a ->
    lo1 b <= hi1 b -> lo1 a <= lo1 b -> hi1 b <= hi1 a ->
    ~ (lower a = lower b /\ left a = left b) -> ~ (upper a = upper b /\ right a = right b) ->
    diff_shape a b (NR [c; d]).

Lemma diff_shape_mem : forall a b r, diff_shape a b r ->
  forall x, ns_mem x r <-> cs_mem x a /\ ~ cs_mem x b.
Proof.
  intros a b r [D|D|c ? ? ? ? ? ? ? ? ?|c ? ? ? ? ? ? ? ? ?|c d ? ? ? ? ? ? ? ? ? ? ? ? ? ? ?] x;
    cbn [ns_mem]; rewrite ?mem_lo1.
  - split; [|tauto]. intro M. split; [exact M|]. rewrite <- mem_lo1. apply D. rewrite mem_lo1. exact M.
  - split.
    + intro M. exfalso. apply (EMPTY_mem x). rewrite mem_lo1. exact M.
    + rewrite <- !mem_lo1. intros [M N]. destruct (N (D x M)).
  - zl.
  - zl.
  - unfold rs_mem. split.
    + intros (s & [<-|[<-|[]]] & M); rewrite mem_lo1 in M; zl.
    + intros [[F I] N]. destruct (Z.lt_ge_cases x (lo1 b)).
      * exists c. split; [left; reflexivity|]. rewrite mem_lo1. split; [exact F|lia].
      * exists d. split; [right; left; reflexivity|]. rewrite mem_lo1. split; [exact F|].
        assert (~ x <= hi1 b) by (intro; apply N; split; [exact F|lia]). lia.
Qed.

Lemma difference_cases : forall a b, wf a -> wf b ->
  (exists r, cs_difference a b = Ok r /\ diff_shape a b r)
  \/ (cs_difference a b = Err ValueError /\ diff_raises a b).
Proof.
  intros a b Wa Wb. unfold cs_difference.
  destruct (cs_isempty b) eqn:Eb.
  { left. eexists; split; [reflexivity|]. apply DS_same. intros x _. exact (proj1 (isempty_spec b Wb) Eb x). }
  pose proof Eb as Eb1. apply isempty_lo1_f in Eb1; [|assumption].
  pose proof (wf_lo1 a Wa) as [La Ha]. pose proof (wf_lo1 b Wb) as [Lb Hb].
  destruct (cs_contains_interval b a false) eqn:Cba.
  { left. eexists; split; [reflexivity|]. apply DS_empty.
    apply contains_interval_core in Cba; try assumption.
    intro x. rewrite !mem_lo1. intros [F I]. split; [exact F|lia]. }
  assert (Cba' : ~ (lo1 b <= lo1 a /\ hi1 a <= hi1 b)).
  { intro C. apply contains_interval_core in C; try assumption. congruence. }
  destruct (cs_isempty a) eqn:Ea.
  { (* the minuend is empty: whatever branch, nothing is removed *)
    assert (Dis : forall x, cs_mem x a -> ~ cs_mem x b).
    { intros x Hx. destruct (proj1 (isempty_spec a Wa) Ea x Hx). }
    unfold cs_contains_interval at 1. rewrite Ea. cbn [andb].
    pose proof Ea as Ea1. apply isempty_lo1 in Ea1; [|assumption].
    destruct (cs_intersects a b); [|left; eexists; split; [reflexivity|]; apply DS_same; assumption].
    destruct (cs_contains_value a (uppermost b)) eqn:Cu; cbn [andb].
    { apply contains_value_top in Cu; try assumption. lia. }
    destruct (cs_contains_value a (lowermost b)) eqn:Cl; cbn [andb].
    { apply contains_value_bot in Cl; try assumption. lia. }
    left; eexists; split; [reflexivity|]; apply DS_same; assumption. }
  pose proof Ea as Ea1. apply isempty_lo1_f in Ea1; [|assumption].
  destruct (cs_contains_interval a b true) eqn:Cab.
  { apply contains_proper_core in Cab; try assumption. destruct Cab as (C1 & C2 & N1 & N2).
    assert (DR : (lower b < lower a \/ upper a < upper b) -> diff_raises a b).
    { intro O. unfold diff_raises. split; [|split; [|split; [|split; [exact O|split; assumption]]]].
      - exists (lo1 b). apply mem_lo1. zl.
      - apply sub_lo1; auto.
      - destruct (Z.le_gt_cases (lo1 b) (lo1 a)).
        + exists (hi1 a). rewrite !mem_lo1. zl.
        + exists (lo1 a). rewrite !mem_lo1. zl. }
    destruct (Z.lt_ge_cases (lower b) (lower a)).
    - right. unfold mk_cs at 1. destruct (Z.ltb_spec (lower b) (lower a)); [|lia].
      split; [reflexivity|]. apply DR. left; assumption.
    - destruct (Z.lt_ge_cases (upper a) (upper b)).
      + right. unfold mk_cs at 1. destruct (Z.ltb_spec (lower b) (lower a)); [lia|]. cbn [bind].
        unfold mk_cs at 1. destruct (Z.ltb_spec (upper a) (upper b)); [|lia].
        split; [reflexivity|]. apply DR. right; assumption.
      + left. unfold mk_cs. destruct (Z.ltb_spec (lower b) (lower a)); [lia|]. cbn [bind].
        destruct (Z.ltb_spec (upper a) (upper b)); [lia|].
        eexists; split; [reflexivity|].
        destruct Wa as (? & ? & ? & ? & ? & ? & ?), Wb as (? & ? & ? & ? & ? & ? & ?).
        apply DS_split; try reflexivity; try assumption.
        * unfold wf; cbn [lower upper left right]. refine (conj _ (conj _ (conj _ (conj _ (conj _ (conj _ _)))))); try assumption.
          -- assert (lower b = - ORD_INF \/ - ORD_INF < lower b) as [E|E] by (unfold moderate in *; zl); [|assumption].
             exfalso. assert (lower a = - ORD_INF) by (unfold moderate in *; zl). apply N1. split; [lia|]. rewrite H8, H15 by assumption. reflexivity.
          -- intro. zl.
        * unfold wf; cbn [lower upper left right]. refine (conj _ (conj _ (conj _ (conj _ (conj _ (conj _ _)))))); try assumption.
          -- assert (upper b = ORD_INF \/ upper b < ORD_INF) as [E|E] by (unfold moderate in *; zl); [|assumption].
             exfalso. assert (upper a = ORD_INF) by (unfold moderate in *; zl). apply N2. split; [lia|]. rewrite H9, H16 by assumption. reflexivity.
          -- intro. zl.
        * unfold hi1, lo1. cbn [lower upper left right]. destruct (left b); cbn; lia.
        * unfold hi1, lo1. cbn [lower upper left right]. destruct (right b); cbn; lia. }
  assert (Cab' : lo1 a <= lo1 b -> hi1 b <= hi1 a ->
     (lower a = lower b /\ left a = left b) \/ (upper a = upper b /\ right a = right b)).
  { intros C1 C2.
    destruct (Z.eq_dec (lower a) (lower b)), (flag_eqb_spec (left a) (left b)); [left; tauto|..];
    (destruct (Z.eq_dec (upper a) (upper b)), (flag_eqb_spec (right a) (right b)); [right; tauto|..]);
    (assert (C : cs_contains_interval a b true = true) by (apply contains_proper_core; try assumption; tauto); congruence). }
  clear Cab.
  assert (EQl : lower a = lower b /\ left a = left b -> lo1 a = lo1 b)
    by (unfold lo1; intros [-> ->]; reflexivity).
  assert (EQr : upper a = upper b /\ right a = right b -> hi1 a = hi1 b)
    by (unfold hi1; intros [-> ->]; reflexivity).
  destruct (cs_intersects a b) eqn:I.
  2:{ left. eexists; split; [reflexivity|]. apply DS_same. intros x Xa Xb.
      rewrite (intersects_complete a b) in I; [discriminate|assumption..|]. exists x; auto. }
  left. rewrite uppermost_eqb, lowermost_eqb by assumption.
  pose proof (contains_value_top a b Wa Wb) as CT. pose proof (contains_value_bot a b Wa Wb) as CB.
  destruct (cs_contains_value a (uppermost b) && negb (hi1 a =? hi1 b)) eqn:B1.
  { apply andb_true_iff in B1. destruct B1 as [B1 B1'].
    apply CT in B1. apply negb_true_iff, Z.eqb_neq in B1'.
    eexists; split; [reflexivity|].
    assert (lo1 b <= lo1 a).
    { destruct (Z.le_gt_cases (lo1 b) (lo1 a)); [assumption|].
      destruct Cab' as [C|C]; try lia; [apply EQl in C|apply EQr in C]; lia. }
    destruct Wa as (? & ? & ? & ? & ? & ? & ?), Wb as (? & ? & ? & ? & ? & ? & ?).
    apply DS_right; cbn [lower upper left right]; try reflexivity; try lia.
    - unfold wf; cbn [lower upper left right]. refine (conj _ (conj _ (conj _ (conj _ (conj _ (conj _ _)))))); try assumption; try lia.
      unfold hi1 in *. destruct (right a), (right b); lia.
    - unfold lo1, hi1. cbn [lower upper left right]. destruct (right b); cbn; lia. }
  destruct (cs_contains_value a (lowermost b) && negb (lo1 a =? lo1 b)) eqn:B2.
  { apply andb_true_iff in B2. destruct B2 as [B2 B2'].
    apply CB in B2. apply negb_true_iff, Z.eqb_neq in B2'.
    eexists; split; [reflexivity|].
    assert (hi1 a <= hi1 b).
    { destruct (Z.le_gt_cases (hi1 a) (hi1 b)); [assumption|].
      destruct Cab' as [C|C]; try lia; [apply EQl in C|apply EQr in C]; lia. }
    destruct Wa as (? & ? & ? & ? & ? & ? & ?), Wb as (? & ? & ? & ? & ? & ? & ?).
    apply DS_left; cbn [lower upper left right]; try reflexivity; try lia.
    - unfold wf; cbn [lower upper left right]. refine (conj _ (conj _ (conj _ (conj _ (conj _ (conj _ _)))))); try assumption; try lia.
      unfold lo1 in *. destruct (left a), (left b); lia.
    - unfold lo1, hi1. cbn [lower upper left right]. destruct (left b); cbn; lia. }
  eexists; split; [reflexivity|]. apply DS_same. intros x Xa Xb.
  apply mem_lo1 in Xa, Xb. destruct Xa as [F Xa], Xb as [_ Xb].
  destruct (Z.lt_ge_cases (lo1 a) (lo1 b)).
  - assert (cs_contains_value a (lowermost b) = true).
    { apply CB. split; [|lia]. destruct (lowermost_lo1 b Wb); lia. }
    rewrite H0 in B2. cbn in B2. destruct (Z.eqb_spec (lo1 a) (lo1 b)); [lia|discriminate].
  - assert (cs_contains_value a (uppermost b) = true).
    { apply CT. split; [|lia]. destruct (uppermost_hi1 b Wb); lia. }
    rewrite H0 in B1. cbn in B1. destruct (Z.eqb_spec (hi1 a) (hi1 b)); [lia|discriminate].
Qed.

Lemma difference_raises_iff : forall a b, wf a -> wf b ->
  cs_difference a b = Err ValueError <-> diff_raises a b.
Proof.
  intros a b Wa Wb. split.
  - intro H. destruct (difference_cases a b Wa Wb) as [(r & Hr & _)|[_ D]]; [congruence|exact D].
  - intros ((x & Xb) & Sub & (y & Ya & Yb) & O & N1 & N2).
    assert (Eb : cs_isempty b = false).
    { destruct (cs_isempty b) eqn:E; [|reflexivity]. destruct (proj1 (isempty_spec b Wb) E x Xb). }
    assert (Ea : cs_isempty a = false).
    { destruct (cs_isempty a) eqn:E; [|reflexivity]. destruct (proj1 (isempty_spec a Wa) E y Ya). }
    assert (S := proj1 (sub_lo1 a b Wa Wb Eb) Sub).
    unfold cs_difference. rewrite Eb.
    destruct (cs_contains_interval b a false) eqn:C1.
    { destruct (Yb (proj1 (contains_interval_spec b a Wb Wa Ea) C1 y Ya)). }
    assert (C2 : cs_contains_interval a b true = true) by (apply contains_proper_core; tauto).
    rewrite C2. unfold mk_cs.
    destruct (Z.ltb_spec (lower b) (lower a)); [reflexivity|]. cbn [bind].
    destruct (Z.ltb_spec (upper a) (upper b)); [reflexivity|]. lia.
Qed.

Lemma difference_mem : forall a b r, wf a -> wf b -> cs_difference a b = Ok r ->
  forall x, ns_mem x r <-> cs_mem x a /\ ~ cs_mem x b.
Proof.
  intros a b r Wa Wb H. destruct (difference_cases a b Wa Wb) as [(r' & Hr & D)|[E _]]; [|congruence].
  rewrite H in Hr. injection Hr as <-. apply diff_shape_mem; assumption.
Qed.
