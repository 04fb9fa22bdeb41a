(** Facts that hold for every constructible interval, whatever the magnitude
    of its bounds: membership, intersection, union, complement. *)
Require Import ZArith Bool List Lia.
Require Import Verif.Base Verif.FloatLine Verif.IntervalModel Verif.IntervalSpec.
Require Import Verif.IntervalProofs Verif.IntervalDiff Verif.RealSetProofs Verif.RealSetOps Verif.IntervalMore.
Import ListNotations.
Open Scope Z_scope.

Lemma contains_value_all : forall s v,
  cs_contains_value s v = true <->
  match left s with INC => lower s <= v | EXC => lower s < v end
  /\ match right s with INC => v <= upper s | EXC => v < upper s end.
Proof.
  intros [lo hi l r] v. unfold cs_contains_value, cs_intersects, cs_isempty, isclosed, itype.
  cbn [lower upper left right]. rewrite Z.ltb_irrefl, Z.eqb_refl.
  destruct l, r; cbn -[Z.ltb Z.eqb]; zb; cbn; split; intros; try discriminate; try reflexivity; lia.
Qed.

Lemma eps_cases : forall y, (plus_eps y = y \/ plus_eps y = y + 1) /\ (minus_eps y = y \/ minus_eps y = y - 1).
Proof. intro y. unfold plus_eps, minus_eps. destruct (adds_one y), (subs_one y); lia. Qed.

Lemma isempty_sound : forall s, cs_isempty s = true -> forall x, ~ cs_mem x s.
Proof.
  intros [lo hi l r] H x. unfold cs_isempty, isclosed, itype in H. cbn [lower upper left right] in H.
  pose proof (eps_cases lo) as [P _]. rewrite mem_lo1. unfold lo1, hi1. cbn [lower upper left right].
  destruct l, r; cbn -[plus_eps] in *; zb; cbn in *; try discriminate; lia.
Qed.

Lemma intersects_false_pos : forall a b, cs_intersects a b = false -> cs_isempty b = false ->
  upper a < lower b \/ upper b < lower a \/ (lower a = upper b /\ (right b = EXC \/ left a = EXC))
  \/ (upper a = lower b /\ (right a = EXC \/ left b = EXC)).
Proof.
  intros a b H E. unfold cs_intersects in H. rewrite E in H.
  destruct (left a), (right a), (left b), (right b); cbn in *; zb; cbn in *; try discriminate; intuition lia.
Qed.

Lemma intersection_exact : forall a b, lower a <= upper a -> lower b <= upper b ->
  exists r, cs_intersection a b = Ok r /\ forall x, cs_mem x r <-> cs_mem x a /\ cs_mem x b.
Proof.
  intros a b La Lb. unfold cs_intersection, cs_intersection_lr.
  destruct (cs_intersects a b) eqn:I; cbn [negb].
  - unfold mk_cs. destruct (Z.ltb_spec (Z.min (upper a) (upper b)) (Z.max (lower a) (lower b))) as [Q|Q].
    + exfalso. unfold cs_intersects in I. destruct (cs_isempty b); [discriminate|].
      revert I. zb; cbn; intro I; try discriminate; lia.
    + cbn [bind set_left set_right]. eexists. split; [reflexivity|]. intro x. unfold cs_mem, finite. clear.
      destruct a as [la ua fa ga], b as [lb ub fb gb]. cbn [lower upper left right].
      zb; destruct fa, ga, fb, gb; cbn [set_left set_right lower upper left right flag_max]; lia.
  - eexists. split; [reflexivity|]. intro x. split; [intro H; destruct (EMPTY_mem _ H)|]. intros [Xa Xb]. exfalso.
    destruct (cs_isempty b) eqn:E; [exact (isempty_sound b E x Xb)|].
    pose proof (intersects_false_pos a b I E) as K. apply mem_lo1 in Xa. apply mem_lo1 in Xb. unfold lo1, hi1 in *.
    destruct a as [la ua [] []], b as [lb ub [] []]; cbn [lower upper left right] in *;
      destruct K as [K|[K|[[K [K'|K']]|[K [K'|K']]]]]; try discriminate; lia.
Qed.

(** Any two doubles in order, other than an interval at infinity. *)
Definition valid (s : cs) : Prop :=
  lower s <= upper s /\ - ORD_INF <= lower s < ORD_INF /\ - ORD_INF < upper s <= ORD_INF.

Lemma contains_RR : forall s, valid s -> cs_contains_interval s RR false = true -> forall x, finite x -> cs_mem x s.
Proof.
  intros [lo hi l r] (V1 & V2 & V3) H x F. unfold cs_contains_interval in H.
  destruct (cs_isempty _); [discriminate|].
  unfold lowermost, uppermost, RR in H. cbn [lower upper left right] in *.
  change (plus_eps (- ORD_INF)) with (- ORD_INF) in H. change (minus_eps ORD_INF) with ORD_INF in H.
  pose proof (eps_cases lo) as [P _]. pose proof (eps_cases hi) as [_ M].
  unfold cs_mem. cbn [lower upper left right]. split; [exact F|]. unfold finite in F. revert H.
  destruct l, r; cbn -[plus_eps minus_eps ORD_INF]; zb; cbn -[ORD_INF]; intros; try discriminate; lia.
Qed.

Lemma complement_exact : forall s, valid s ->
  exists r, cs_complement s = Ok r /\ forall x, ns_mem x r <-> finite x /\ ~ cs_mem x s.
Proof.
  intros s V. unfold cs_complement, cs_difference.
  destruct (cs_isempty s) eqn:E.
  { exists (NC RR). split; [reflexivity|]. intro x. cbn [ns_mem]. rewrite RR_mem. pose proof (isempty_sound s E x). tauto. }
  destruct (cs_contains_interval s RR false) eqn:C1.
  { exists (NC EMPTY). split; [reflexivity|]. intro x. cbn [ns_mem]. pose proof (contains_RR s V C1 x). pose proof (EMPTY_mem x). tauto. }
  destruct V as (V1 & V2 & V3).
  assert (Hx : forall y, finite y -> - ORD_INF < y /\ y < ORD_INF) by (intros y Hy; exact Hy).
  destruct (cs_contains_interval RR s true) eqn:C2.
  - unfold mk_cs. cbn [lower upper left right RR].
    destruct (Z.ltb_spec (lower s) (- ORD_INF)); [lia|]. destruct (Z.ltb_spec ORD_INF (upper s)); [lia|]. cbn [bind].
    eexists. split; [reflexivity|]. intro x. cbn [ns_mem]. rewrite !rs_mem_cons. pose proof (rs_mem_nil x) as Nil.
    unfold cs_mem. cbn [lower upper left right]. split.
    + intros [H5|[H5|H5]]; [| |tauto]; (split; [tauto|]); unfold finite in *; destruct (left s), (right s); cbn [flag_flip] in *; lia.
    + intros [F N]. pose proof (Hx x F). unfold finite in *; destruct (left s), (right s); cbn [flag_flip] in *; lia.
  - assert (LR : lowermost RR = - ORD_INF) by reflexivity. assert (UR : uppermost RR = ORD_INF) by reflexivity.
    rewrite LR, UR.
    assert (CU : cs_contains_value RR (uppermost s) = true <-> finite (uppermost s)).
    { rewrite contains_value_all. unfold RR. cbn [lower upper left right]. unfold finite. tauto. }
    assert (CL : cs_contains_value RR (lowermost s) = true <-> finite (lowermost s)).
    { rewrite contains_value_all. unfold RR. cbn [lower upper left right]. unfold finite. tauto. }
    assert (Sh : lower s = - ORD_INF \/ upper s = ORD_INF).
    { destruct (Z.eq_dec (lower s) (- ORD_INF)) as [Q|Q]; [auto|]. destruct (Z.eq_dec (upper s) ORD_INF) as [R|R]; [auto|].
      exfalso. unfold cs_contains_interval in C2. change (cs_isempty RR) with false in C2. rewrite LR, UR in C2.
      unfold RR in C2. cbn [lower upper left right] in C2. revert C2.
      assert (- ORD_INF <= lowermost s /\ uppermost s <= ORD_INF).
      { unfold lowermost, uppermost. pose proof (eps_cases (lower s)) as [? _]. pose proof (eps_cases (upper s)) as [_ ?].
        destruct (left s), (right s); lia. }
      zb; cbn; intros; try discriminate; lia. }
    assert (I : cs_intersects RR s = true).
    { unfold cs_intersects. rewrite E. unfold RR. cbn [lower upper left right]. zb; cbn -[ORD_INF]; try reflexivity; try lia. }
    rewrite I.
    assert (LM : lower s <= lowermost s <= lower s + 1 /\ (lower s = - ORD_INF -> lowermost s = - ORD_INF)).
    { unfold lowermost. pose proof (eps_cases (lower s)) as [? _]. split; [destruct (left s); lia|].
      intro Q. rewrite Q. destruct (left s); reflexivity. }
    assert (UM : upper s - 1 <= uppermost s <= upper s /\ (upper s = ORD_INF -> uppermost s = ORD_INF)).
    { unfold uppermost. pose proof (eps_cases (upper s)) as [_ ?]. split; [destruct (right s); lia|].
      intro Q. rewrite Q. destruct (right s); reflexivity. }
    destruct (Z.eq_dec (lower s) (- ORD_INF)) as [Ql|Ql].
    + destruct (Z.eq_dec (upper s) ORD_INF) as [Qu|Qu].
      * exfalso. unfold cs_contains_interval in C1. rewrite E, LR, UR in C1.
        destruct LM as [_ LM], UM as [_ UM]. rewrite (LM Ql), (UM Qu) in C1. unfold RR in C1. cbn [lower upper left right] in C1.
        revert C1. rewrite Z.ltb_irrefl, Z.ltb_irrefl. destruct (left s), (right s); cbn -[ORD_INF Z.eqb];
          rewrite ?andb_false_r; cbn; discriminate.
      * assert (F : finite (uppermost s)).
        { unfold finite. destruct (Z.eq_dec (upper s) FLT_MIN) as [Qm|Qm].
          - unfold uppermost. rewrite Qm. destruct (right s); split; vm_compute; reflexivity.
          - unfold FLT_MIN in Qm. lia. }
        rewrite (proj2 CU F). destruct (Z.eqb_spec ORD_INF (uppermost s)) as [Q|Q]; [unfold finite in F; lia|]. cbn [negb andb].
        eexists. split; [reflexivity|]. intro x. cbn [ns_mem]. unfold cs_mem, RR. cbn [lower upper left right].
        rewrite Ql. unfold finite in *. destruct (left s), (right s); cbn [flag_flip]; lia.
    + destruct Sh as [Sh|Sh]; [contradiction|].
      assert (NF : cs_contains_value RR (uppermost s) = false).
      { destruct (cs_contains_value RR (uppermost s)); [|reflexivity]. pose proof (proj1 CU eq_refl) as F. unfold finite in F.
        rewrite (proj2 UM Sh) in F. lia. }
      rewrite NF. cbn [andb].
      assert (F : finite (lowermost s)).
      { unfold finite. destruct (Z.eq_dec (lower s) FLT_MAX) as [Qm|Qm].
        - unfold lowermost. rewrite Qm. destruct (left s); split; vm_compute; reflexivity.
        - unfold FLT_MAX in Qm. lia. }
      rewrite (proj2 CL F). destruct (Z.eqb_spec (- ORD_INF) (lowermost s)) as [Q|Q]; [unfold finite in F; lia|]. cbn [negb andb].
      eexists. split; [reflexivity|]. intro x. cbn [ns_mem]. unfold cs_mem, RR. cbn [lower upper left right].
      rewrite Sh. unfold finite in *. destruct (left s), (right s); cbn [flag_flip]; lia.
Qed.

(** ** Corollaries in the form of the property statements *)

Lemma difference_spaced : forall a b, wf a -> wf b -> spaced (bounds a ++ bounds b) ->
  exists r, cs_difference a b = Ok r /\ forall x, ns_mem x r <-> cs_mem x a /\ ~ cs_mem x b.
Proof.
  intros a b Wa Wb Sp. destruct (diff_good (bounds a ++ bounds b) a b Sp) as (r & E & D & _).
  - split; [exact Wa|]. right. intros z Iz. apply in_or_app. auto.
  - split; [exact Wb|]. right. intros z Iz. apply in_or_app. auto.
  - exists r. split; [exact E|]. apply diff_shape_mem. exact D.
Qed.

Lemma intersects_complete_all : forall a b x, cs_mem x a -> cs_mem x b ->
  cs_intersects a b = true /\ cs_intersects b a = true /\ cs_isdisjoint a b = false.
Proof.
  assert (K : forall a b x, cs_mem x a -> cs_mem x b -> cs_intersects a b = true).
  { intros a b x Xa Xb. destruct (cs_intersects a b) eqn:I; [reflexivity|]. exfalso.
    destruct (cs_isempty b) eqn:E; [exact (isempty_sound b E x Xb)|].
    pose proof (intersects_false_pos a b I E) as K. apply mem_lo1 in Xa. apply mem_lo1 in Xb. unfold lo1, hi1 in *.
    destruct a as [la ua [] []], b as [lb ub [] []]; cbn [lower upper left right] in *;
      destruct K as [K|[K|[[K [K'|K']]|[K [K'|K']]]]]; try discriminate; lia. }
  intros a b x Xa Xb. unfold cs_isdisjoint. rewrite (K a b x), (K b a x) by assumption. auto.
Qed.

Lemma intersects_iff : forall a b, wf a -> wf b -> (exists x, cs_mem x a) ->
  spaced (bounds a ++ bounds b) ->
  (cs_intersects a b = true <-> exists x, cs_mem x a /\ cs_mem x b).
Proof.
  intros a b Wa Wb Na Sp. split.
  - apply intersects_sound; [assumption..| |assumption]. apply nonempty_mem; assumption.
  - intros (x & Xa & Xb). apply (intersects_complete_all a b x Xa Xb).
Qed.

Lemma contains_interval_ne : forall a b, wf a -> wf b -> (exists x, cs_mem x b) ->
  (cs_contains_interval a b false = true <-> forall x, cs_mem x b -> cs_mem x a).
Proof. intros a b Wa Wb N. apply contains_interval_spec; [assumption..|]. apply nonempty_mem; assumption. Qed.

Lemma contains_proper_ne : forall a b, wf a -> wf b ->
  (exists x, cs_mem x a) -> (exists x, cs_mem x b) ->
  (cs_contains_interval a b true = true <->
   (forall x, cs_mem x b -> cs_mem x a)
   /\ ~ (lower a = lower b /\ left a = left b) /\ ~ (upper a = upper b /\ right a = right b)).
Proof.
  intros a b Wa Wb Na Nb. assert (Ea := proj2 (nonempty_mem a Wa) Na). assert (Eb := proj2 (nonempty_mem b Wb) Nb).
  rewrite (contains_proper_core a b Wa Wb Ea). pose proof (sub_lo1 a b Wa Wb Eb) as K. tauto.
Qed.

Lemma comparator_order : forall a b c, wf a -> wf b -> wf c ->
  (exists x, cs_mem x a) -> (exists x, cs_mem x b) -> (exists x, cs_mem x c) ->
  cs_comparator a a = Err ValueError
  /\ (cs_comparator a b = Ok (-1) -> cs_comparator b c = Ok (-1) -> cs_comparator a c = Ok (-1))
  /\ (cs_comparator a b = Ok (-1) <-> cs_comparator b a = Ok 1)
  /\ (disjoint a b -> cs_comparator a b = Ok (-1) \/ cs_comparator a b = Ok 1).
Proof.
  intros a b c Wa Wb Wc Na Nb Nc.
  destruct (comparator_spec a a Wa Wa Na Na) as (_ & _ & Raa).
  destruct (comparator_spec a b Wa Wb Na Nb) as (Lab & Gab & Eab).
  destruct (comparator_spec b a Wb Wa Nb Na) as (Lba & Gba & Eba).
  destruct (comparator_spec b c Wb Wc Nb Nc) as (Lbc & _ & _).
  destruct (comparator_spec a c Wa Wc Na Nc) as (Lac & _ & _).
  split; [apply Raa; destruct Na as (x & X); exists x; auto|]. split.
  - intros H1 H2. apply Lac. apply Lab in H1. apply Lbc in H2. destruct Nb as (y & Y). intros x z X Z.
    specialize (H1 x y X Y). specialize (H2 y z Y Z). lia.
  - split; [rewrite Lab, Gba; tauto|].
    intro D. unfold cs_comparator in *. destruct (uppermost a <? lowermost b); [auto|].
    destruct (uppermost b <? lowermost a); [auto|]. exfalso.
    destruct (proj1 Eab eq_refl) as (x & X1 & X2). exact (D x X1 X2).
Qed.
