(** The interval properties of /verif/properties.jsonl (C01-C09, C12-C15 and
    part of C58), stated over the specification of IntervalSpec.

    [wf s]: bounds of magnitude below 2^53 or infinite-and-open.
    [valid s]: any constructible interval that is not a point at infinity.
    [spaced bs]: no two of the bounds are neighbouring doubles. *)
Require Import ZArith Bool List Lia.
Require Import Verif.Base Verif.FloatLine Verif.IntervalModel Verif.IntervalSpec Verif.Json Verif.IntervalJson.
Require Import Verif.IntervalProofs Verif.IntervalDiff Verif.RealSetProofs Verif.RealSetOps Verif.IntervalMore.
Require Import Verif.RealSetMore Verif.IntervalMore2 Verif.IntervalExact Verif.IntervalDec.
Import ListNotations.
Open Scope Z_scope.

(** C01, for every interval and every double (infinities included). *)
Theorem C01_membership : forall s v,
  cs_contains_value s v = true <->
  match left s with INC => lower s <= v | EXC => lower s < v end
  /\ match right s with INC => v <= upper s | EXC => v < upper s end.
Proof. exact contains_value_all. Qed.
Print Assumptions C01_membership.
Example C01_ex : cs_contains_value (CS 0 ONE INC EXC) HALF = true /\ cs_contains_value (CS 0 ONE INC EXC) ONE = false.
Proof. vm_compute. auto. Qed.

(** C02.  Missing from the full statement: bounds of magnitude 2^53 and more
    (false there, see the refutation). *)
Theorem C02_isempty_partial : forall s, wf s -> cs_isempty s = true <-> (forall x, ~ cs_mem x s).
Proof. exact isempty_spec. Qed.
Print Assumptions C02_isempty_partial.
(** One direction holds for every interval. *)
Theorem C02_isempty_sound : forall s, cs_isempty s = true -> forall x, ~ cs_mem x s.
Proof. exact isempty_sound. Qed.
Print Assumptions C02_isempty_sound.
(** (2^54, next(2^54)) has no members but is not reported empty. *)
Theorem C02_isempty_refuted : exists s, valid s /\ cs_isempty s = false /\ (forall x, ~ cs_mem x s).
Proof.
  exists (CS ORD_54 (ORD_54 + 1) EXC EXC). split; [|split].
  - mem_dec.
  - vm_compute. reflexivity.
  - intros x (_ & H). mem_dec.
Qed.
Print Assumptions C02_isempty_refuted.
Example C02_ex : wf (CS 0 1 EXC EXC) /\ cs_isempty (CS 0 1 EXC EXC) = true
  /\ wf (CS 0 ONE EXC EXC) /\ cs_isempty (CS 0 ONE EXC EXC) = false.
Proof. split; [wf_dec|]. split; [reflexivity|]. split; [wf_dec|reflexivity]. Qed.

(** C03, for all intervals that can be constructed. *)
Theorem C03_intersection : forall a b, lower a <= upper a -> lower b <= upper b ->
  exists r, cs_intersection a b = Ok r /\ forall x, cs_mem x r <-> cs_mem x a /\ cs_mem x b.
Proof. exact intersection_exact. Qed.
Print Assumptions C03_intersection.
(** ... also with requested border kinds, for moderate bounds. *)
Theorem C03_intersection_borders : forall a b fl fr, wf a -> wf b ->
  exists r, cs_intersection_lr a b fl fr = Ok r /\ forall x, cs_mem x r <-> cs_mem x a /\ cs_mem x b.
Proof.
  intros a b fl fr Wa Wb. destruct (cs_intersection_lr_ok a b fl fr (proj1 Wa) (proj1 Wb)) as [r E].
  exists r. split; [exact E|]. exact (intersection_lr_mem a b fl fr r Wa Wb E).
Qed.
Print Assumptions C03_intersection_borders.
Example C03_ex : cs_intersection (CS 0 TWO INC EXC) (CS ONE THREE EXC INC) = Ok (CS ONE TWO EXC EXC).
Proof. vm_compute. reflexivity. Qed.

(** C04.  For moderate bounds no two of which are adjacent doubles. *)
Theorem C04_difference_partial : forall a b, wf a -> wf b -> spaced (bounds a ++ bounds b) ->
  exists r, cs_difference a b = Ok r /\ forall x, ns_mem x r <-> cs_mem x a /\ ~ cs_mem x b.
Proof. exact difference_spaced. Qed.
Print Assumptions C04_difference_partial.
(** Without the spacing guard: whatever is returned is exact, ... *)
Theorem C04_difference_exact_when_returned : forall a b r, wf a -> wf b -> cs_difference a b = Ok r ->
  forall x, ns_mem x r <-> cs_mem x a /\ ~ cs_mem x b.
Proof. exact difference_mem. Qed.
Print Assumptions C04_difference_exact_when_returned.
(** ... and ValueError is raised exactly in the following situation. *)
Theorem C04_difference_raises : forall a b, wf a -> wf b ->
  cs_difference a b = Err ValueError <->
  (exists x, cs_mem x b) /\ (forall x, cs_mem x b -> cs_mem x a)
  /\ (exists x, cs_mem x a /\ ~ cs_mem x b)
  /\ (lower b < lower a \/ upper a < upper b)
  /\ ~ (lower a = lower b /\ left a = left b)
  /\ ~ (upper a = upper b /\ right a = right b).
Proof. exact difference_raises_iff. Qed.
Print Assumptions C04_difference_raises.
(** [0,1] minus (pred 0, 0.5] raises. *)
Theorem C04_difference_refuted : exists a b, wf a /\ wf b /\ cs_difference a b = Err ValueError.
Proof.
  exists (CS 0 ONE INC INC), (CS (-1) HALF EXC INC).
  split; [wf_dec|]. split; [wf_dec|]. vm_compute. reflexivity.
Qed.
Print Assumptions C04_difference_refuted.
Example C04_ex : spaced (bounds (CS 0 FOUR INC INC) ++ bounds (CS ONE TWO INC EXC))
  /\ cs_difference (CS 0 FOUR INC INC) (CS ONE TWO INC EXC) = Ok (NR [CS 0 ONE INC EXC; CS TWO FOUR INC INC]).
Proof. split; [spaced_dec|vm_compute; reflexivity]. Qed.

(** C05, for moderate bounds (adjacent bounds allowed). *)
Theorem C05_union_partial : forall a b, wf a -> wf b ->
  exists r, cs_union a b = Ok r /\ (forall x, ns_mem x r <-> cs_mem x a \/ cs_mem x b).
Proof. exact cs_union_main. Qed.
Print Assumptions C05_union_partial.
(** (2^53+4, 2^53+6) united with [0, 2^53+4) raises. *)
Theorem C05_union_refuted : exists a b, valid a /\ valid b /\ cs_union a b = Err ValueError.
Proof.
  exists (CS (ORD_53 + 2) (ORD_53 + 3) EXC EXC), (CS 0 (ORD_53 + 2) INC EXC).
  split; [|split].
  - mem_dec.
  - mem_dec.
  - vm_compute. reflexivity.
Qed.
Print Assumptions C05_union_refuted.
Example C05_ex : cs_union (CS 0 ONE INC EXC) (CS ONE TWO INC INC) = Ok (NC (CS 0 TWO INC INC))
  /\ cs_union (CS 0 ONE INC EXC) (CS TWO THREE INC INC) = Ok (NR [CS 0 ONE INC EXC; CS TWO THREE INC INC]).
Proof. vm_compute. auto. Qed.

(** C06 for a single interval, without restriction on the bounds. *)
Theorem C06_complement : forall s, valid s ->
  exists r, cs_complement s = Ok r /\ forall x, ns_mem x r <-> finite x /\ ~ cs_mem x s.
Proof. exact complement_exact. Qed.
Print Assumptions C06_complement.
Example C06_ex : valid (CS 0 ONE INC EXC)
  /\ cs_complement (CS 0 ONE INC EXC) = Ok (NR [CS (- ORD_INF) 0 EXC EXC; CS ONE ORD_INF INC EXC]).
Proof. split; [mem_dec|vm_compute; reflexivity]. Qed.

(** C07.  The receiver must be non-empty and bounds not adjacent. *)
Theorem C07_intersects_partial : forall a b, wf a -> wf b -> (exists x, cs_mem x a) ->
  spaced (bounds a ++ bounds b) ->
  (cs_intersects a b = true <-> exists x, cs_mem x a /\ cs_mem x b).
Proof. exact intersects_iff. Qed.
Print Assumptions C07_intersects_partial.
(** A common member is always noticed, in both directions, for all bounds. *)
Theorem C07_intersects_complete : forall a b x, cs_mem x a -> cs_mem x b ->
  cs_intersects a b = true /\ cs_intersects b a = true /\ cs_isdisjoint a b = false.
Proof. exact intersects_complete_all. Qed.
Print Assumptions C07_intersects_complete.
(** The empty set "intersects" [-1,1], but not conversely: not symmetric. *)
Theorem C07_intersects_refuted : exists a b, wf a /\ wf b /\ spaced (bounds a ++ bounds b)
  /\ cs_intersects a b = true /\ cs_intersects b a = false /\ (forall x, ~ cs_mem x a).
Proof.
  exists EMPTY, (CS (- ONE) ONE INC INC). split; [wf_dec|]. split; [wf_dec|]. split; [spaced_dec|].
  split; [vm_compute; reflexivity|]. split; [vm_compute; reflexivity|]. exact EMPTY_mem.
Qed.
Print Assumptions C07_intersects_refuted.
(** Non-empty open intervals overlapping between two adjacent doubles only. *)
Theorem C07_intersects_adjacent_refuted : exists a b, wf a /\ wf b
  /\ (exists x, cs_mem x a) /\ (exists x, cs_mem x b)
  /\ cs_intersects a b = true /\ ~ (exists x, cs_mem x a /\ cs_mem x b).
Proof.
  exists (CS 0 2 EXC EXC), (CS 1 3 EXC EXC). split; [wf_dec|]. split; [wf_dec|].
  split; [exists 1; mem_dec|]. split; [exists 2; mem_dec|].
  split; [vm_compute; reflexivity|]. intros (x & (_ & A) & (_ & B)). mem_dec.
Qed.
Print Assumptions C07_intersects_adjacent_refuted.
Example C07_ex : spaced (bounds (CS 0 ONE INC EXC) ++ bounds (CS HALF TWO EXC INC))
  /\ cs_intersects (CS 0 ONE INC EXC) (CS HALF TWO EXC INC) = true
  /\ cs_intersects (CS 0 ONE INC EXC) (CS ONE TWO INC INC) = false.
Proof. split; [spaced_dec|]. vm_compute. auto. Qed.

(** C08, for moderate bounds. *)
Theorem C08_contains_interval_partial : forall a b, wf a -> wf b -> (exists x, cs_mem x b) ->
  (cs_contains_interval a b false = true <-> forall x, cs_mem x b -> cs_mem x a).
Proof. exact contains_interval_ne. Qed.
Print Assumptions C08_contains_interval_partial.
(** With [proper_containment], containment with both borders different. *)
Theorem C08_contains_proper_partial : forall a b, wf a -> wf b ->
  (exists x, cs_mem x a) -> (exists x, cs_mem x b) ->
  (cs_contains_interval a b true = true <->
   (forall x, cs_mem x b -> cs_mem x a)
   /\ ~ (lower a = lower b /\ left a = left b) /\ ~ (upper a = upper b /\ right a = right b)).
Proof. exact contains_proper_ne. Qed.
Print Assumptions C08_contains_proper_partial.
(** Beyond 2^54 the subset test is wrong: [x+,y] contains (x,y]. *)
Theorem C08_contains_interval_refuted : exists a b, valid a /\ valid b /\ (exists x, cs_mem x b)
  /\ (forall x, cs_mem x b -> cs_mem x a) /\ cs_contains_interval a b false = false.
Proof.
  exists (CS (ORD_54 + 1) (ORD_54 + 5) INC INC), (CS ORD_54 (ORD_54 + 5) EXC INC).
  split; [mem_dec|].
  split; [mem_dec|].
  split; [exists (ORD_54 + 1); mem_dec|].
  split; [|vm_compute; reflexivity].
  intros x (F & A & B). split; [exact F|]. mem_dec.
Qed.
Print Assumptions C08_contains_interval_refuted.
(** "Proper" containment is not strict inclusion: [0,1) properly contains, but
    also the set [0, pred 1] with the same members. *)
Theorem C08_contains_proper_refuted : exists a b, wf a /\ wf b /\ (exists x, cs_mem x b)
  /\ cs_contains_interval a b true = true /\ (forall x, cs_mem x a <-> cs_mem x b).
Proof.
  exists (CS 0 ONE INC EXC), (CS (-1) (ONE - 1) EXC INC). split; [wf_dec|]. split; [wf_dec|].
  split; [exists 0; mem_dec|]. split; [vm_compute; reflexivity|].
  intro x. mem_dec.
Qed.
Print Assumptions C08_contains_proper_refuted.
Example C08_ex : cs_contains_interval (CS 0 ONE INC EXC) (CS 0 HALF EXC INC) false = true
  /\ cs_contains_interval (CS 0 ONE INC EXC) (CS 0 ONE INC INC) false = false.
Proof. vm_compute. auto. Qed.

(** C09, equality, for moderate bounds. *)
Theorem C09_eq_partial : forall a b, wf a -> wf b ->
  (cs_eq a b = true <-> (forall x, cs_mem x a <-> cs_mem x b)).
Proof. exact eq_spec. Qed.
Print Assumptions C09_eq_partial.
(** Equal intervals with different hash keys. *)
Theorem C09_hash_refuted : exists a b, wf a /\ wf b /\ cs_eq a b = true /\ cs_hashkey a <> cs_hashkey b.
Proof.
  exists (CS 0 ONE INC EXC), (CS 0 (ONE - 1) INC INC). split; [wf_dec|]. split; [wf_dec|].
  split; [vm_compute; reflexivity|]. intro H. apply (f_equal (fun k => snd (fst (fst k)))) in H. vm_compute in H. discriminate.
Qed.
Print Assumptions C09_hash_refuted.
(** Beyond 2^54, different member sets may compare equal. *)
Theorem C09_eq_refuted : exists a b, valid a /\ valid b /\ cs_eq a b = true
  /\ exists x, cs_mem x a /\ ~ cs_mem x b.
Proof.
  exists (CS ORD_54 (ORD_54 + 5) INC INC), (CS ORD_54 (ORD_54 + 5) EXC INC).
  split; [mem_dec|].
  split; [mem_dec|].
  split; [vm_compute; reflexivity|]. exists ORD_54. split.
  - mem_dec.
  - intros (_ & H & _). mem_dec.
Qed.
Print Assumptions C09_eq_refuted.
Example C09_ex : cs_eq (CS 0 ONE INC EXC) (CS 0 (ONE - 1) INC INC) = true /\ cs_eq (CS 0 ONE INC EXC) (CS 0 ONE INC INC) = false.
Proof. vm_compute. auto. Qed.

(** C12: chop partitions; a chop point is only ever the least element of a piece. *)
Theorem C12_chop_partial : forall s ps, wf s -> Forall (fun p => finite p /\ p <> FLT_MIN) ps ->
  exists r, cs_chop s ps = Ok r
    /\ (forall x, rs_mem x r <-> cs_mem x s)
    /\ Forall (fun c => exists x, cs_mem x c) r
    /\ ForallOrdPairs before r
    /\ (forall c p, In c r -> In p ps -> cs_mem p c -> forall x, cs_mem x c -> p <= x).
Proof. exact chop_main. Qed.
Print Assumptions C12_chop_partial.
(** Chopping R at the least finite double yields a piece without members. *)
Theorem C12_chop_refuted : exists s ps r c, wf s /\ cs_chop s ps = Ok r /\ In c r /\ forall x, ~ cs_mem x c.
Proof.
  exists RR, [FLT_MIN]. eexists. exists (CS (- ORD_INF) FLT_MIN EXC EXC).
  split; [exact RR_wf|]. split; [vm_compute; reflexivity|]. split; [left; reflexivity|].
  intros x (F & A & B). mem_dec.
Qed.
Print Assumptions C12_chop_refuted.
Example C12_ex : cs_chop (CS 0 FOUR INC INC) [THREE; 0; FIVE; ONE]
  = Ok [CS 0 ONE INC EXC; CS ONE THREE INC EXC; CS THREE FOUR INC INC].
Proof. vm_compute. reflexivity. Qed.

(** C13, for every interval and every real set. *)
Theorem C13_xmirror : forall s x, cs_mem x (cs_xmirror s) <-> cs_mem (- x) s.
Proof. exact xmirror_mem. Qed.
Print Assumptions C13_xmirror.
Theorem C13_xmirror_involutive : forall s, cs_xmirror (cs_xmirror s) = s.
Proof. exact xmirror_invol. Qed.
Print Assumptions C13_xmirror_involutive.
Theorem C13_xmirror_realset : forall l x, rs_mem x (rs_xmirror l) <-> rs_mem (- x) l.
Proof. exact rs_xmirror_mem. Qed.
Print Assumptions C13_xmirror_realset.
Theorem C13_xmirror_realset_sorted : forall l, ForallOrdPairs before l -> ForallOrdPairs before (rs_xmirror l).
Proof. exact rs_xmirror_asc. Qed.
Print Assumptions C13_xmirror_realset_sorted.
Example C13_ex : cs_xmirror (CS 0 ONE INC EXC) = CS (- ONE) 0 EXC INC.
Proof. reflexivity. Qed.

(** C14, for moderate bounds. *)
Theorem C14_comparator_partial : forall a b, wf a -> wf b -> (exists x, cs_mem x a) -> (exists x, cs_mem x b) ->
  (cs_comparator a b = Ok (-1) <-> before a b)
  /\ (cs_comparator a b = Ok 1 <-> before b a)
  /\ (cs_comparator a b = Err ValueError <-> exists x, cs_mem x a /\ cs_mem x b).
Proof. exact comparator_spec. Qed.
Print Assumptions C14_comparator_partial.
(** It is a strict total order on pairwise disjoint non-empty intervals. *)
Theorem C14_comparator_order : forall a b c, wf a -> wf b -> wf c ->
  (exists x, cs_mem x a) -> (exists x, cs_mem x b) -> (exists x, cs_mem x c) ->
  cs_comparator a a = Err ValueError
  /\ (cs_comparator a b = Ok (-1) -> cs_comparator b c = Ok (-1) -> cs_comparator a c = Ok (-1))
  /\ (cs_comparator a b = Ok (-1) <-> cs_comparator b a = Ok 1)
  /\ (disjoint a b -> cs_comparator a b = Ok (-1) \/ cs_comparator a b = Ok 1).
Proof. exact comparator_order. Qed.
Print Assumptions C14_comparator_order.
(** Beyond 2^54: disjoint neighbours that the comparator calls overlapping. *)
Theorem C14_comparator_refuted : exists a b, valid a /\ valid b /\ disjoint a b /\ cs_comparator a b = Err ValueError.
Proof.
  exists (CS 0 ORD_54 INC EXC), (CS ORD_54 (ORD_54 + 5) INC INC).
  split; [mem_dec|].
  split; [mem_dec|].
  split; [|vm_compute; reflexivity]. intros x (_ & _ & A) (_ & B & _). mem_dec.
Qed.
Print Assumptions C14_comparator_refuted.
Example C14_ex : cs_comparator (CS 0 ONE INC EXC) (CS ONE TWO INC INC) = Ok (-1)
  /\ cs_comparator (CS 0 ONE INC INC) (CS ONE TWO INC INC) = Err ValueError.
Proof. vm_compute. auto. Qed.

(** C15 for intervals. *)
Theorem C15_json_interval : forall s, lower s <= upper s -> cs_from_json (cs_to_json s) = Ok s.
Proof. exact cs_json_roundtrip. Qed.
Print Assumptions C15_json_interval.
(** ... and for real sets: no real set survives the round trip. *)
Theorem C15_json_realset_refuted : forall l, exists e, rs_from_json (rs_to_json l) = Err e.
Proof. exact rs_json_fails. Qed.
Print Assumptions C15_json_realset_refuted.
Example C15_ex : cs_from_json (cs_to_json (CS (- ORD_INF) ONE EXC INC)) = Ok (CS (- ORD_INF) ONE EXC INC).
Proof. reflexivity. Qed.

(** Part of C58: the range handed to the generator is exactly the interval. *)
Theorem C58_interval_sample : forall s, wf s ->
  (cs_sample_range s = Err IndexError <-> forall x, ~ cs_mem x s)
  /\ (forall lo hi, cs_sample_range s = Ok (lo, hi) -> lo <= hi /\ forall x, lo <= x <= hi <-> cs_mem x s).
Proof. exact cs_sample_spec. Qed.
Print Assumptions C58_interval_sample.
(** The deterministic point of an unbounded interval is a member. *)
Theorem C58_any_point : forall s m, wf s -> (exists x, cs_mem x s) -> cs_any_point s = Some m -> cs_mem m s.
Proof. exact any_point_mem. Qed.
Print Assumptions C58_any_point.
Example C58_ex : cs_sample_range (CS 0 ONE EXC INC) = Ok (1, ONE) /\ cs_any_point (CS 0 ORD_INF EXC EXC) = Some 2.
Proof. vm_compute. auto. Qed.

(** First element, cardinality and border conversion of an interval. *)
Theorem C02_fst : forall s, wf s ->
  match cs_fst s with
  | None => forall x, ~ cs_mem x s
  | Some m => cs_mem m s /\ forall x, cs_mem x s -> m <= x
  end.
Proof. exact cs_fst_spec. Qed.
Print Assumptions C02_fst.
Theorem C02_size : forall s, wf s ->
  (cs_size s = Some 0 <-> forall x, ~ cs_mem x s)
  /\ (cs_size s = Some 1 -> exists m, forall x, cs_mem x s <-> x = m)
  /\ ((exists m, forall x, cs_mem x s <-> x = m) -> itype s <> 4 -> cs_size s = Some 1).
Proof. exact cs_size_spec. Qed.
Print Assumptions C02_size.
(** An open interval with one member is reported to have infinitely many. *)
Theorem C02_size_refuted : exists s, wf s /\ (exists m, forall x, cs_mem x s <-> x = m) /\ cs_size s = None.
Proof.
  exists (CS 0 2 EXC EXC). split; [wf_dec|]. split; [|vm_compute; reflexivity].
  exists 1. intro x. mem_dec.
Qed.
Print Assumptions C02_size_refuted.
Theorem C01_ends : forall s fl fr, wf s ->
  (forall x, cs_mem x (cs_ends s fl fr) <-> cs_mem x s)
  /\ (forall f, fl = Some f -> left (cs_ends s fl fr) = f)
  /\ (forall f, fr = Some f -> right (cs_ends s fl fr) = f).
Proof.
  intros s fl fr W. split; [intro x; exact (ends_mem s fl fr x W)|]. exact (ends_flags s fl fr).
Qed.
Print Assumptions C01_ends.
Theorem C01_boundaries : forall s fl fr x, wf s -> cs_mem x (cs_boundaries s fl fr) <-> cs_mem x s.
Proof. exact boundaries_mem. Qed.
Print Assumptions C01_boundaries.
Example C02_size_ex : wf (CS 0 1 INC EXC) /\ cs_size (CS 0 1 INC EXC) = Some 1 /\ cs_fst (CS 0 ONE EXC INC) = Some 1.
Proof. split; [wf_dec|]. vm_compute. auto. Qed.
