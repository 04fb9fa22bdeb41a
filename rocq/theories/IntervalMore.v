(** Proofs about further ContinuousSet operations: union, chop, mirroring,
    comparison, size, ends, any_point.  Statements are in IntervalProps. *)
Require Import ZArith Bool List Lia Permutation Sorting.Sorted.
Require Import Verif.Base Verif.FloatLine Verif.IntervalModel Verif.IntervalSpec.
Require Import Verif.IntervalProofs Verif.IntervalDiff Verif.RealSetProofs Verif.RealSetOps.
Import ListNotations.
Open Scope Z_scope.

(** ** Union *)

Definition hull (a b : cs) : cs :=
  CS (Z.min (lower a) (lower b)) (Z.max (upper a) (upper b))
     (if lower a =? lower b then flag_min (left a) (left b)
      else if lower a <? lower b then left a else left b)
     (if upper a =? upper b then flag_min (right a) (right b)
      else if upper b <? upper a then right a else right b).

Lemma hull_mem : forall a b, lower a <= upper a -> lower b <= upper b ->
  cs_intersects a b = true \/ cs_contiguous a b = true ->
  forall x, cs_mem x (hull a b) <-> cs_mem x a \/ cs_mem x b.
Proof.
  intros a b La Lb H x.
  assert (Hl : lo1 (hull a b) = Z.min (lo1 a) (lo1 b)).
  { clear H. unfold hull, lo1. cbn [lower upper left right]. destruct (left a), (left b); zb; cbn; lia. }
  assert (Hh : hi1 (hull a b) = Z.max (hi1 a) (hi1 b)).
  { clear H. unfold hull, hi1. cbn [lower upper left right]. destruct (right a), (right b); zb; cbn; lia. }
  rewrite !mem_lo1, Hl, Hh.
  assert (K : (Z.max (lo1 a) (lo1 b) <= Z.min (hi1 a) (hi1 b) + 1)
     \/ (hi1 a < lo1 a /\ lo1 b <= lo1 a /\ hi1 a <= hi1 b)
     \/ (hi1 b < lo1 b /\ lo1 a <= lo1 b /\ hi1 b <= hi1 a)
     \/ (hi1 a < lo1 a /\ hi1 b < lo1 b /\ Z.max (hi1 a) (hi1 b) < Z.min (lo1 a) (lo1 b))).
  { clear Hl Hh. destruct H as [H|H].
    - unfold cs_intersects in H. destruct (cs_isempty b); [discriminate|].
      unf2 a b. unfold lo1, hi1 in *. cbn [lower upper left right] in *. revert H.
      destruct l, r, l0, r0; cbn -[ORD_INF] in *; zb; cbn; intros; try discriminate; lia.
    - unfold cs_contiguous in H.
      unf2 a b. unfold lo1, hi1 in *. cbn [lower upper left right] in *. revert H.
      destruct l, r, l0, r0; cbn -[ORD_INF] in *; zb; cbn; intros; try discriminate; lia. }
  clear - K. unfold finite. lia.
Qed.

Lemma contiguous_sym : forall a b, cs_contiguous a b = cs_contiguous b a.
Proof.
  intros a b. unfold cs_contiguous. rewrite (Z.eqb_sym (lower b) (upper a)), (Z.eqb_sym (upper b) (lower a)).
  destruct (lower a =? upper b), (upper a =? lower b), (left a), (left b), (right a), (right b); reflexivity.
Qed.

Lemma cs_union_main : forall a b, wf a -> wf b ->
  exists r, cs_union a b = Ok r /\ (forall x, ns_mem x r <-> cs_mem x a \/ cs_mem x b).
Proof.
  intros a b Wa Wb. unfold cs_union.
  destruct (cs_intersects a b) eqn:I; [|destruct (cs_contiguous a b) eqn:C]; cbn [negb andb].
  1,2: destruct Wa as (La & _), Wb as (Lb & _); unfold mk_cs;
    (destruct (Z.ltb_spec (Z.max (upper a) (upper b)) (Z.min (lower a) (lower b))); [lia|]); cbn [bind];
    eexists; (split; [reflexivity|]); intro x; cbn [ns_mem]; apply hull_mem; auto.
  destruct (cs_isempty a) eqn:Ea.
  { eexists; split; [reflexivity|]. intro x. cbn. pose proof (proj1 (isempty_spec a Wa) Ea x). tauto. }
  assert (Dis : disjoint b a).
  { intros x Xb Xa. rewrite (intersects_complete a b) in I; [discriminate|assumption..|]. exists x; auto. }
  unfold rs_union, rs_simplify. cbn [app as_list length Nat.pow Nat.add Nat.mul disjoin_loop subtract_all].
  destruct (difference_cases b a Wb Wa) as [(r & Er & D)|[_ ((x & Xa) & Sub & _)]].
  2:{ destruct (Dis x (Sub x Xa) Xa). }
  assert (R : r = NC b \/ (r = NC EMPTY /\ cs_isempty b = true)).
  { pose proof (wf_lo1 a Wa). pose proof (wf_lo1 b Wb). inversion D; subst.
    - left; reflexivity.
    - right. split; [reflexivity|]. apply isempty_spec; [assumption|]. intros x Xb. exact (Dis x Xb (H1 x Xb)).
    - exfalso. apply (Dis (lo1 b)); apply mem_lo1; zl.
    - exfalso. apply (Dis (lo1 a)); apply mem_lo1; zl.
    - exfalso. apply (Dis (lo1 a)); apply mem_lo1; zl. }
  rewrite Er. cbn [bind].
  assert (One : forall c, cs_isempty b = true -> cs_isempty c = true ->
    exists r0, (do pieces <- (do rest <- disjoin_loop 3 [c]; Ok (a :: rest));
     match sort_by upper pieces with
     | [] => Ok (NC EMPTY)
     | h :: tl => match merge_loop h tl with [c0] => Ok (NC c0) | m => Ok (NR m) end
     end) = Ok r0 /\ (forall x, ns_mem x r0 <-> cs_mem x a \/ cs_mem x b)).
  { intros c Eb Ec. cbn. rewrite Ec. cbn. eexists; split; [reflexivity|]. intro x. cbn.
    pose proof (proj1 (isempty_spec b Wb) Eb x). tauto. }
  destruct R as [->|[-> Eb]]; rewrite Ea; cbn [negb].
  - destruct (cs_isempty b) eqn:Eb.
    + apply (One b eq_refl Eb).
    + cbn. rewrite Eb. cbn. destruct (upper a <=? upper b); cbn; rewrite ?C, ?(contiguous_sym b a), ?C;
        eexists; (split; [reflexivity|]); intro x; cbn [ns_mem]; rewrite !rs_mem_cons;
        pose proof (rs_mem_nil x); tauto.
  - apply (One EMPTY Eb eq_refl).
Qed.

(** ** Complement of one interval *)

Lemma cs_complement_main : forall s, wf s ->
  (exists r, cs_complement s = Ok r /\ (forall x, ns_mem x r <-> finite x /\ ~ cs_mem x s))
  \/ (cs_complement s = Err ValueError /\ diff_raises RR s).
Proof.
  intros s W. unfold cs_complement. destruct (difference_cases RR s RR_wf W) as [(r & E & D)|D]; [left|right; exact D].
  exists r. split; [exact E|]. intro x. rewrite (diff_shape_mem _ _ _ D), RR_mem. tauto.
Qed.

(** ** Chop *)

(** Enough for [isempty] to be exact (the upper bound may be any double). *)
Definition wfe (s : cs) : Prop :=
  lower s <= upper s
  /\ (left s = EXC -> moderate (lower s))
  /\ lower s < ORD_INF /\ - ORD_INF < upper s
  /\ (lower s = - ORD_INF -> left s = EXC)
  /\ (upper s = ORD_INF -> right s = EXC)
  /\ - ORD_INF <= lower s /\ upper s <= ORD_INF
  /\ (lower s = - ORD_INF -> FLT_MIN < upper s).

Lemma wf_wfe : forall s, wf s -> wfe s.
Proof.
  intros s (H1 & H2 & H3 & H4 & H5 & H6 & H7). unfold wfe.
  assert (- ORD_INF <= lower s /\ upper s <= ORD_INF /\ (lower s = - ORD_INF -> FLT_MIN < upper s)).
  { clear H6 H7. unfold moderate, FLT_MIN in *. pose proof ord_facts. lia. }
  tauto.
Qed.

Lemma isempty_wfe : forall s, wfe s -> cs_isempty s = true <-> hi1 s < lo1 s.
Proof.
  intros [lo hi l r] (Hle & Hm & Hli & Hui & Hfl & Hfr & _ & _ & Hmin). cbn [lower upper left right] in *.
  unfold cs_isempty, isclosed, itype, lo1, hi1. cbn [lower upper left right].
  destruct l.
  - destruct r; cbn -[ORD_INF plus_eps]; zb; cbn -[ORD_INF]; split; intros; try discriminate; try reflexivity; try zl.
    all: rewrite andb_comm in *; discriminate.
  - specialize (Hm eq_refl). eps_facts. unfold FLT_MIN in Hmin.
    destruct r; cbn -[ORD_INF]; zb; cbn -[ORD_INF]; split; intros; try discriminate; try reflexivity; zl.
Qed.

Lemma isempty_wfe_spec : forall s, wfe s -> cs_isempty s = true <-> (forall x, ~ cs_mem x s).
Proof.
  intros s W. rewrite (isempty_wfe s W). split.
  - intros H x M. apply mem_lo1 in M. lia.
  - intros H. destruct (Z.le_gt_cases (lo1 s) (hi1 s)) as [L|L]; [exfalso|lia].
    apply (H (lo1 s)). apply mem_lo1. destruct W as (? & _ & ? & ? & ? & ? & ? & ? & _).
    destruct s as [lo hi [] []]; unfold lo1, hi1 in *; cbn [lower upper left right] in *; zl.
Qed.

(** A point [p] only ever starts a piece. *)
Definition starts (p : Z) (c : cs) : Prop := cs_mem p c -> forall x, cs_mem x c -> p <= x.

Lemma chop_loop_spec : forall ps rem, wfe rem -> Forall (fun p => finite p /\ p <> FLT_MIN) ps -> StronglySorted Z.le ps ->
  exists r, chop_loop rem ps = Ok r
    /\ (forall x, rs_mem x r <-> cs_mem x rem)
    /\ Forall wfe r
    /\ Forall (fun c => exists x, cs_mem x c) r
    /\ ascending r
    /\ Forall (fun c => Forall (fun p => starts p c) ps) r.
Proof.
  induction ps as [|p ps IH]; intros rem W F S; cbn [chop_loop].
  - destruct (cs_isempty rem) eqn:E; cbn [negb]; eexists; (split; [reflexivity|]).
    + pose proof (proj1 (isempty_wfe_spec rem W) E) as N. split; [|repeat constructor].
      intro x. specialize (N x). split; [intro H; destruct (rs_mem_nil _ H)|tauto].
    + split; [intro x; rewrite rs_mem_cons; pose proof (rs_mem_nil x); tauto|].
      split; [constructor; [exact W|constructor]|]. split; [|split; [constructor; constructor|constructor; constructor]].
      constructor; [|constructor]. exists (lo1 rem). apply mem_lo1.
      pose proof (isempty_wfe rem W) as Q. rewrite E in Q.
      assert (L : lo1 rem <= hi1 rem).
      { destruct (Z.le_gt_cases (lo1 rem) (hi1 rem)) as [L|L]; [exact L|]. apply Z.lt_gt in L. 
        assert (false = true) by (apply Q; lia). discriminate. }
      clear Q E F S. destruct W as (? & _ & ? & ? & ? & ? & ? & ? & _).
      destruct rem as [lo hi [] []]; unfold lo1, hi1 in *; cbn [lower upper left right] in *; zl.
  - inversion F as [|? ? [Fp Np] F']; subst. inversion S as [|? ? S' Sp]; subst.
    pose proof (contains_value_spec rem p Fp) as CV.
    destruct (cs_contains_value rem p) eqn:E; cbn [negb].
    + apply proj1 in CV. specialize (CV eq_refl). pose proof CV as CV'. apply mem_lo1 in CV. 
      assert (Lp : lower rem <= p <= upper rem).
      { clear - CV. destruct rem as [lo hi [] []]; unfold lo1, hi1 in CV; cbn in *; lia. }
      unfold mk_cs. destruct (Z.ltb_spec p (lower rem)); [lia|]. cbn [bind].
      set (cut := CS (lower rem) p (left rem) EXC). set (rem' := CS p (upper rem) INC (right rem)).
      assert (Wc : wfe cut).
      { clear - W Fp Np Lp. destruct W as (? & ? & ? & ? & ? & ? & ? & ? & ?). unfold wfe, cut. cbn [lower upper left right].
        unfold finite, FLT_MIN in *. repeat match goal with |- _ /\ _ => split end; auto; try lia. }
      assert (Wr : wfe rem').
      { clear - W Fp Np Lp. destruct W as (? & ? & ? & ? & ? & ? & ? & ? & ?). unfold wfe, rem'. cbn [lower upper left right].
        unfold finite, FLT_MIN in *. repeat match goal with |- _ /\ _ => split end; auto; try lia; try discriminate. }
      assert (Mc : forall x, cs_mem x cut <-> cs_mem x rem /\ x < p).
      { intro x. clear - Lp CV. rewrite !mem_lo1. unfold cut, lo1, hi1 in *. cbn [lower upper left right] in *. 
        unfold finite; destruct (left rem), (right rem); lia. }
      assert (Mr : forall x, cs_mem x rem' <-> cs_mem x rem /\ p <= x).
      { intro x. clear - Lp CV. rewrite !mem_lo1. unfold rem', lo1, hi1 in *. cbn [lower upper left right] in *. 
        unfold finite; destruct (left rem), (right rem); lia. }
      assert (Er : cs_isempty rem' = false).
      { destruct (cs_isempty rem') eqn:Er; [|reflexivity]. exfalso.
        apply (proj1 (isempty_wfe_spec rem' Wr) Er p). apply Mr. split; [exact CV'|lia]. }
      rewrite Er. destruct (IH rem' Wr F' S') as (r & Hr & M & Wfs & N & A & St). rewrite Hr. cbn [bind].
      assert (St' : Forall (fun c => Forall (fun q => starts q c) (p :: ps)) r).
      { rewrite Forall_forall in *. intros c Ic. constructor; [|apply St; exact Ic].
        intros _ x Hx. apply (proj1 (Mr x)), M. exists c. auto. }
      eexists. split; [reflexivity|].
      destruct (cs_isempty cut) eqn:Ec; cbn [negb app].
      * split; [|auto]. intro x. rewrite M, Mr. pose proof (proj1 (isempty_wfe_spec cut Wc) Ec x) as Nx.
        rewrite Mc in Nx. split; [tauto|]. intro Hx. split; [exact Hx|]. destruct (Z.lt_ge_cases x p); [tauto|assumption].
      * split; [|split; [constructor; assumption|split; [|split]]].
        -- intro x. rewrite rs_mem_cons, M, Mr, Mc. split; [tauto|]. intro Hx.
           destruct (Z.lt_ge_cases x p); tauto.
        -- constructor; [|exact N].
           destruct (Z.lt_ge_cases (lo1 rem) p) as [L|L].
           ++ exists (lo1 rem). apply Mc. split; [|exact L]. apply mem_lo1. split; [|lia].
              clear - W CV L. destruct W as (? & _ & ? & ? & ? & ? & ? & ? & _).
              destruct rem as [lo hi [] []]; unfold lo1, hi1 in *; cbn [lower upper left right] in *; zl.
           ++ exfalso. enough (cs_isempty cut = true) by congruence. apply isempty_wfe_spec; [exact Wc|].
              intros x Hx. apply Mc in Hx. destruct Hx as [Hx ?]. apply mem_lo1 in Hx. lia.
        -- constructor; [|exact A]. rewrite Forall_forall. intros c Ic x y Hx Hy. apply Mc in Hx.
           assert (p <= y) by (apply (proj1 (Mr y)), M; exists c; auto). lia.
        -- constructor; [|exact St']. rewrite Forall_forall. intros q [<-|Iq] Hq x Hx.
           ++ apply Mc in Hq. lia.
           ++ apply Mc in Hq. rewrite Forall_forall in Sp. specialize (Sp q Iq). lia.
    + destruct (IH rem W F' S') as (r & Hr & M & Wfs & N & A & St). exists r. split; [exact Hr|].
      split; [exact M|]. split; [exact Wfs|]. split; [exact N|]. split; [exact A|].
      rewrite Forall_forall in *. intros c Ic. constructor; [|apply St; exact Ic].
      intros Hp. exfalso. assert (cs_mem p rem) as Q by (apply M; exists c; auto).
      apply CV in Q. discriminate.
Qed.

Lemma insert_id_sorted : forall x l, StronglySorted Z.le l -> StronglySorted Z.le (insert_by (fun p => p) x l).
Proof.
  intros x l. induction 1 as [|y l S IH F]; cbn.
  - repeat constructor.
  - destruct (Z.leb_spec x y).
    + constructor; [constructor; assumption|]. constructor; [assumption|].
      eapply Forall_impl; [|exact F]. cbn. intros; lia.
    + constructor; [exact IH|]. rewrite Forall_forall in *. intros z Iz.
      assert (P : In z (x :: l)).
      { clear - Iz. induction l as [|w l IH]; cbn in *; [tauto|]. destruct (x <=? w); cbn in *; tauto. }
      destruct P as [<-|P]; [lia|auto].
Qed.

Lemma sort_id_sorted : forall l, StronglySorted Z.le (sort_by (fun p => p) l).
Proof. induction l; cbn; [constructor|apply insert_id_sorted; assumption]. Qed.

Lemma chop_main : forall s ps, wf s -> Forall (fun p => finite p /\ p <> FLT_MIN) ps ->
  exists r, cs_chop s ps = Ok r
    /\ (forall x, rs_mem x r <-> cs_mem x s)
    /\ Forall (fun c => exists x, cs_mem x c) r
    /\ ascending r
    /\ (forall c p, In c r -> In p ps -> cs_mem p c -> forall x, cs_mem x c -> p <= x).
Proof.
  intros s ps W F. unfold cs_chop. assert (P := sort_perm (fun p : Z => p) ps).
  destruct (chop_loop_spec (sort_by (fun p => p) ps) s (wf_wfe s W)) as (r & E & M & _ & N & A & St).
  - eapply Permutation_Forall; [|exact F]. exact P || (symmetry; exact P).
  - apply sort_id_sorted.
  - exists r. split; [exact E|]. split; [exact M|]. split; [exact N|]. split; [exact A|].
    intros c p Ic Ip. rewrite Forall_forall in St. specialize (St c Ic). rewrite Forall_forall in St.
    apply St. eapply Permutation_in; [|exact Ip]. exact P || (symmetry; exact P).
Qed.

(** ** Mirroring *)

Lemma xmirror_mem : forall s x, cs_mem x (cs_xmirror s) <-> cs_mem (- x) s.
Proof. intros [lo hi [] []] x; unfold cs_mem, cs_xmirror, finite; cbn [lower upper left right]; lia. Qed.

Lemma xmirror_invol : forall s, cs_xmirror (cs_xmirror s) = s.
Proof. intros [lo hi l r]. unfold cs_xmirror. cbn [lower upper left right]. rewrite !Z.opp_involutive. reflexivity. Qed.

Lemma rs_xmirror_mem : forall l x, rs_mem x (rs_xmirror l) <-> rs_mem (- x) l.
Proof.
  intros l x. unfold rs_xmirror, rs_mem. split.
  - intros (s & I & M). apply in_rev, in_map_iff in I. destruct I as (t & <- & I). exists t. split; [exact I|].
    apply xmirror_mem. exact M.
  - intros (s & I & M). exists (cs_xmirror s). split; [|apply xmirror_mem; exact M].
    apply -> in_rev. apply in_map. exact I.
Qed.

Lemma rs_xmirror_asc : forall l, ascending l -> ascending (rs_xmirror l).
Proof.
  intros l. unfold rs_xmirror. induction 1 as [|s l F A IH]; cbn; [constructor|].
  apply FOP_app; [exact IH|constructor; constructor|].
  intros a b Ia [<-|[]]. apply in_rev, in_map_iff in Ia. destruct Ia as (t & <- & It).
  rewrite Forall_forall in F. specialize (F t It). intros x y Hx Hy.
  apply (proj1 (xmirror_mem _ _)) in Hx. apply (proj1 (xmirror_mem _ _)) in Hy.
  specialize (F _ _ Hy Hx). lia.
Qed.

(** ** The comparison function *)

Lemma comparator_spec : forall a b, wf a -> wf b -> (exists x, cs_mem x a) -> (exists x, cs_mem x b) ->
  (cs_comparator a b = Ok (-1) <-> before a b)
  /\ (cs_comparator a b = Ok 1 <-> before b a)
  /\ (cs_comparator a b = Err ValueError <-> exists x, cs_mem x a /\ cs_mem x b).
Proof.
  intros a b Wa Wb (xa & Xa) (xb & Xb).
  assert (Na : lo1 a <= hi1 a) by (apply mem_lo1 in Xa; lia).
  assert (Nb : lo1 b <= hi1 b) by (apply mem_lo1 in Xb; lia).
  assert (Ba : before a b <-> hi1 a < lo1 b).
  { pose proof (wf_lo1 a Wa). pose proof (wf_lo1 b Wb). split.
    - intro H1. apply H1; apply mem_lo1; zl.
    - intros H1 x y Hx Hy. apply mem_lo1 in Hx. apply mem_lo1 in Hy. lia. }
  assert (Bb : before b a <-> hi1 b < lo1 a).
  { pose proof (wf_lo1 a Wa). pose proof (wf_lo1 b Wb). split.
    - intro H1. apply H1; apply mem_lo1; zl.
    - intros H1 x y Hx Hy. apply mem_lo1 in Hx. apply mem_lo1 in Hy. lia. }
  assert (Ov : (exists x, cs_mem x a /\ cs_mem x b) <-> ~ hi1 a < lo1 b /\ ~ hi1 b < lo1 a).
  { split.
    - intros (x & Hx & Hy). apply mem_lo1 in Hx. apply mem_lo1 in Hy. lia.
    - intros H. exists (Z.max (lo1 a) (lo1 b)). pose proof (wf_lo1 a Wa). pose proof (wf_lo1 b Wb).
      split; apply mem_lo1; zl. }
  assert (U : forall c d, wf c -> wf d -> lo1 c <= hi1 c -> lo1 d <= hi1 d ->
     (uppermost c <? lowermost d) = (hi1 c <? lo1 d)).
  { clear. intros a b Wa Wb Na Nb. pose proof (wf_lo1 a Wa). pose proof (wf_lo1 b Wb).
    destruct (uppermost_hi1 a Wa) as [(? & -> & ?)|(? & ? & -> & ->)];
    destruct (lowermost_lo1 b Wb) as [(? & -> & ?)|(? & ? & -> & ->)]; zb; try reflexivity; zl. }
  rewrite Ba, Bb, Ov. unfold cs_comparator. rewrite (U a b), (U b a) by assumption. clear Ba Bb Ov U.
  zb; refine (conj _ (conj _ _)); split; intros; try discriminate; try reflexivity; try lia.
Qed.
