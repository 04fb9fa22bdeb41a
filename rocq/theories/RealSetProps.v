(** The RealSet properties of /verif/properties.jsonl: C10, C11 and the RealSet
    parts of C01, C02, C06-C09, C12 and C58. *)
Require Import ZArith Bool List Lia.
Require Import Verif.Base Verif.FloatLine Verif.IntervalModel Verif.IntervalSpec Verif.Json Verif.IntervalJson.
Require Import Verif.IntervalProofs Verif.IntervalDiff Verif.RealSetProofs Verif.RealSetOps Verif.IntervalMore.
Require Import Verif.RealSetMore Verif.IntervalMore2 Verif.RealSetAlias Verif.IntervalExact Verif.IntervalDec.
Import ListNotations.
Open Scope Z_scope.

Lemma simplifiable_safe : forall l, Forall wf l -> spaced (all_bounds l) -> simplifiable l -> pieces_safe l.
Proof.
  intros l W Sp [A|A]; [|apply left_closed_safe; assumption].
  exact (ascending_safe_B _ l Sp (good_all l W) A).
Qed.

(** C10.  Missing from the full statement: inputs with adjacent bounds and
    inputs that are neither ascending nor left-closed; there elements may be
    lost (refuted below). *)
Theorem C10_simplify_partial : forall l, Forall wf l -> spaced (all_bounds l) -> simplifiable l ->
  exists r, rs_simplify l = Ok r /\ (forall x, ns_mem x r <-> rs_mem x l)
    /\ (r = NC EMPTY \/ canonical (as_list r)).
Proof. intros l W Sp S. apply simplify_main; [assumption..|]. apply simplifiable_safe; assumption. Qed.
Print Assumptions C10_simplify_partial.
(** The receiver (whose first interval object may be overwritten) still
    denotes the same set. *)
Theorem C10_simplify_receiver_partial : forall l, Forall wf l -> spaced (all_bounds l) -> simplifiable l ->
  exists l', rs_simplify_receiver l = Ok l' /\ (forall x, rs_mem x l' <-> rs_mem x l)
    /\ length l' = length l /\ tl l' = tl l.
Proof. intros l W Sp S. apply simplify_receiver; [assumption..|]. apply simplifiable_safe; assumption. Qed.
Print Assumptions C10_simplify_receiver_partial.
(** [{[1,1], [0,1)}] is simplified to [[1,1]]: the number 0 is lost. *)
Theorem C10_simplify_refuted : exists l r x, Forall wf l /\ spaced (all_bounds l)
  /\ rs_simplify l = Ok r /\ rs_mem x l /\ ~ ns_mem x r.
Proof.
  exists [CS ONE ONE INC INC; CS 0 ONE INC EXC], (NC (CS ONE ONE INC EXC)), 0.
  split; [wf_dec|]. split; [spaced_dec|]. split; [vm_compute; reflexivity|]. split.
  - exists (CS 0 ONE INC EXC). split; [right; left; reflexivity|]. mem_dec.
  - intros (_ & H & _). mem_dec.
Qed.
Print Assumptions C10_simplify_refuted.
(** The overwritten receiver is observable: its first interval grows. *)
Theorem C10_receiver_mutated : exists l l', Forall wf l /\ spaced (all_bounds l) /\ simplifiable l
  /\ rs_simplify_receiver l = Ok l' /\ l' <> l.
Proof.
  exists [CS 0 ONE INC EXC; CS ONE TWO INC EXC], [CS 0 TWO INC EXC; CS ONE TWO INC EXC].
  split; [wf_dec|]. split; [spaced_dec|]. split; [|split; [vm_compute; reflexivity|discriminate]].
  right. repeat constructor; cbn; auto.
Qed.
Print Assumptions C10_receiver_mutated.
Example C10_ex : exists l, Forall wf l /\ spaced (all_bounds l) /\ simplifiable l
  /\ rs_simplify l = Ok (NR [CS 0 THREE INC INC; CS FIVE SIX INC EXC]).
Proof.
  exists [CS FIVE SIX INC EXC; CS 0 TWO INC EXC; CS ONE THREE INC INC].
  split; [wf_dec|]. split; [spaced_dec|]. split; [|vm_compute; reflexivity].
  right. repeat constructor; cbn; auto.
Qed.

(** C11: union, intersection and difference of real sets. *)
Theorem C11_union_partial : forall l o, Forall wf l -> Forall wf (as_list o) ->
  spaced (all_bounds (l ++ as_list o)) -> simplifiable (l ++ as_list o) ->
  exists r, rs_union l o = Ok r /\ (forall x, ns_mem x r <-> rs_mem x l \/ ns_mem x o) /\ ascending (as_list r).
Proof.
  intros l o W Wo Sp S. apply rs_union_main; [assumption..|].
  apply simplifiable_safe; [apply Forall_app; auto|assumption..].
Qed.
Print Assumptions C11_union_partial.
Theorem C11_intersection_partial : forall l o, Forall wf l -> Forall wf (as_list o) ->
  spaced (all_bounds (l ++ as_list o)) -> ascending l -> ascending (as_list o) ->
  exists r, rs_intersection l o = Ok r /\ (forall x, ns_mem x r <-> rs_mem x l /\ ns_mem x o) /\ ascending (as_list r).
Proof. exact rs_intersection_main. Qed.
Print Assumptions C11_intersection_partial.
Theorem C11_difference_partial : forall l o, Forall wf l -> Forall wf (as_list o) ->
  spaced (all_bounds (l ++ as_list o)) -> ascending l ->
  exists r, rs_difference l o = Ok r /\ (forall x, ns_mem x r <-> rs_mem x l /\ ~ ns_mem x o) /\ ascending (as_list r).
Proof. exact rs_difference_main. Qed.
Print Assumptions C11_difference_partial.
Theorem C11_complement_partial : forall l, Forall wf l -> spaced (- ORD_INF :: ORD_INF :: all_bounds l) ->
  exists r, rs_complement l = Ok r /\ (forall x, ns_mem x r <-> finite x /\ ~ rs_mem x l).
Proof. exact rs_complement_main. Qed.
Print Assumptions C11_complement_partial.
(** [{[1,1], [5,6]}] united with [[0,1)] loses 0. *)
Theorem C11_union_refuted : exists l o r x, canonical l /\ wf o /\ spaced (all_bounds (l ++ [o]))
  /\ rs_union l (NC o) = Ok r /\ cs_mem x o /\ ~ ns_mem x r.
Proof.
  exists [CS ONE ONE INC INC; CS FIVE SIX INC INC], (CS 0 ONE INC EXC),
    (NR [CS ONE ONE INC EXC; CS FIVE SIX INC INC]), 0.
  split.
  { split; [wf_dec|]. split.
    - constructor; [exists ONE; mem_dec|].
      constructor; [exists FIVE; mem_dec|constructor].
    - constructor; [|constructor; constructor]. constructor; [|constructor].
      exists TWO. split; [mem_dec|]. split; intros z Hz; mem_dec. }
  split; [wf_dec|]. split; [spaced_dec|]. split; [vm_compute; reflexivity|]. split.
  - mem_dec.
  - intros (s & [<-|[<-|[]]] & (_ & H & _)); mem_dec.
Qed.
Print Assumptions C11_union_refuted.
Example C11_ex :
  rs_intersection [CS 0 TWO INC EXC; CS THREE FIVE INC INC] (NR [CS ONE FOUR EXC INC; CS FIVE SIX INC INC])
    = Ok (NR [CS ONE TWO EXC EXC; CS THREE FOUR INC INC; CS FIVE FIVE INC INC])
  /\ rs_difference [CS 0 TWO INC EXC; CS THREE FIVE INC INC] (NC (CS ONE FOUR EXC INC))
    = Ok (NR [CS 0 ONE INC INC; CS FOUR FIVE EXC INC])
  /\ spaced (all_bounds ([CS 0 TWO INC EXC; CS THREE FIVE INC INC] ++ [CS ONE FOUR EXC INC; CS FIVE SIX INC INC])).
Proof. split; [vm_compute; reflexivity|]. split; [vm_compute; reflexivity|spaced_dec]. Qed.
Example C11_ex_ascending : ascending [CS 0 TWO INC EXC; CS THREE FIVE INC INC]
  /\ ascending [CS ONE FOUR EXC INC; CS FIVE SIX INC INC].
Proof.
  split; (constructor; [|constructor; constructor]); (constructor; [|constructor]); intros x y (_ & _ & A) (_ & B & _);
    mem_dec.
Qed.

(** C01 for real sets, for every constituent list. *)
Theorem C01_membership_realset : forall l v, finite v -> rs_contains_value l v = true <-> rs_mem v l.
Proof. exact rs_contains_value_spec. Qed.
Print Assumptions C01_membership_realset.

(** C08 for simplified receivers. *)
Theorem C08_contains_realset_partial : forall l o, canonical l -> Forall wf (as_list o) ->
  Forall (fun c => exists x, cs_mem x c) (as_list o) ->
  (rs_contains_interval l o = true <-> forall x, ns_mem x o -> rs_mem x l).
Proof. exact rs_contains_interval_spec. Qed.
Print Assumptions C08_contains_realset_partial.
(** [{[0,1], [0.5,2]}] is not found to contain [[0,2]]. *)
Theorem C08_contains_realset_refuted : exists l c, Forall wf l /\ wf c /\ (exists x, cs_mem x c)
  /\ (forall x, cs_mem x c -> rs_mem x l) /\ rs_contains_interval l (NC c) = false.
Proof.
  exists [CS 0 ONE INC INC; CS HALF TWO INC INC], (CS 0 TWO INC INC).
  split; [wf_dec|]. split; [wf_dec|]. split; [exists 0; mem_dec|].
  split; [|vm_compute; reflexivity].
  intros x (F & A & B). cbn [lower upper left right] in *.
  destruct (Z_le_gt_dec x ONE) as [L|G].
  - exists (CS 0 ONE INC INC). split; [left; reflexivity|]. split; [exact F|]. cbn. auto.
  - exists (CS HALF TWO INC INC). split; [right; left; reflexivity|]. split; [exact F|]. cbn.
    split; [|exact B]. unfold HALF, ONE in *. lia.
Qed.
Print Assumptions C08_contains_realset_refuted.

(** C07 for real sets without empty constituents. *)
Theorem C07_intersects_realset_partial : forall l o, Forall wf l -> Forall wf (as_list o) ->
  Forall (fun c => exists x, cs_mem x c) l -> spaced (all_bounds (l ++ as_list o)) ->
  (rs_intersects l o = true <-> exists x, rs_mem x l /\ ns_mem x o).
Proof. exact rs_intersects_spec. Qed.
Print Assumptions C07_intersects_realset_partial.

(** C09 for real sets. *)
Theorem C09_eq_realset_partial : forall l o, Forall wf l -> Forall wf (as_list o) ->
  spaced (all_bounds l) -> simplifiable l ->
  match o with NC _ => True | NR m => spaced (all_bounds m) /\ simplifiable m end ->
  exists b, rs_eq l o = Ok b /\ (b = true <-> (forall x, rs_mem x l <-> ns_mem x o)).
Proof.
  intros l o W Wo Sp S So. apply rs_eq_main; [assumption..| |].
  - split; [assumption|]. apply simplifiable_safe; assumption.
  - destruct o as [c|m]; [exact I|]. destruct So as [Sp' S']. split; [assumption|]. apply simplifiable_safe; assumption.
Qed.
Print Assumptions C09_eq_realset_partial.
Example C09_ex_realset :
  rs_eq [CS FIVE SIX INC EXC; CS 0 TWO INC EXC] (NR [CS 0 ONE INC EXC; CS FIVE SIX INC EXC; CS ONE TWO INC EXC]) = Ok true
  /\ rs_eq [CS FIVE SIX INC EXC; CS 0 TWO INC EXC] (NC (CS 0 TWO INC EXC)) = Ok false.
Proof. vm_compute. auto. Qed.

(** C02: the least element of a real set. *)
Theorem C02_fst_realset : forall l, Forall wf l ->
  match rs_fst l with
  | None => forall x, ~ rs_mem x l
  | Some m => rs_mem m l /\ forall x, rs_mem x l -> m <= x
  end.
Proof. exact rs_fst_spec. Qed.
Print Assumptions C02_fst_realset.
Theorem C02_isempty_realset_partial : forall l, Forall wf l -> rs_isempty l = true <-> (forall x, ~ rs_mem x l).
Proof. exact rs_isempty_spec. Qed.
Print Assumptions C02_isempty_realset_partial.

(** C58: sampling a real set without empty constituents. *)
Theorem C58_realset_sample_partial : forall l j, Forall wf l -> Forall (fun c => exists x, cs_mem x c) l ->
  (j < List.length l)%nat ->
  exists lo hi, rs_sample_range l j = Ok (lo, hi) /\ lo <= hi /\ forall x, lo <= x <= hi -> rs_mem x l.
Proof. exact rs_sample_spec. Qed.
Print Assumptions C58_realset_sample_partial.
(** With an empty constituent, index and weights are out of step: a non-empty
    set may raise. *)
Theorem C58_realset_sample_refuted : exists l j x, Forall wf l /\ rs_mem x l /\ (j < 1)%nat
  /\ rs_sample_range l j = Err IndexError.
Proof.
  exists [EMPTY; CS 0 ONE INC INC], 0%nat, 0. split; [wf_dec|]. split; [|split; [lia|vm_compute; reflexivity]].
  exists (CS 0 ONE INC INC). split; [right; left; reflexivity|]. mem_dec.
Qed.
Print Assumptions C58_realset_sample_refuted.
Example C58_ex_realset : rs_sample_range [CS 0 ONE INC INC; CS TWO THREE EXC INC] 1 = Ok (TWO + 1, THREE).
Proof. vm_compute. reflexivity. Qed.
