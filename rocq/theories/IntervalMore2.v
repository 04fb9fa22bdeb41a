(** Proofs: containment, intersection test, least element, size, ends, points,
    serialisation and sampling of intervals and real sets. *)
Require Import ZArith Bool List Lia String.
Require Import Verif.Base Verif.FloatLine Verif.IntervalModel Verif.IntervalSpec Verif.Json Verif.IntervalJson.
Require Import Verif.IntervalProofs Verif.IntervalDiff Verif.RealSetProofs Verif.RealSetOps Verif.IntervalMore Verif.RealSetMore.
Import ListNotations.
Open Scope Z_scope.

Lemma rs_contains_value_spec : forall l v, finite v -> rs_contains_value l v = true <-> rs_mem v l.
Proof.
  intros l v F. induction l as [|s l IH]; cbn.
  - split; [discriminate|]. intro H. destruct (rs_mem_nil _ H).
  - rewrite rs_mem_cons, <- (contains_value_spec s v F), <- IH.
    destruct (cs_contains_value s v); [tauto|]. split; [auto|]. intros [H|H]; [discriminate|exact H].
Qed.

Lemma rs_contains_cs_ex : forall l o, Forall wf l -> wf o -> (exists x, cs_mem x o) ->
  rs_contains_cs l o = true <-> exists s, In s l /\ forall x, cs_mem x o -> cs_mem x s.
Proof.
  intros l o W Wo Ne. assert (No := proj2 (nonempty_mem o Wo) Ne).
  induction W as [|s l Ws W IH]; cbn.
  - split; [discriminate|]. intros (s & [] & _).
  - pose proof (contains_interval_spec s o Ws Wo No) as Q.
    destruct (cs_contains_interval s o false).
    + split; [|reflexivity]. intros _. exists s. split; [auto|]. apply Q; reflexivity.
    + rewrite IH. split.
      * intros (t & It & Ht). exists t. auto.
      * intros (t & [<-|It] & Ht); [apply Q in Ht; discriminate|exists t; auto].
Qed.

Lemma rs_contains_cs_sound : forall l o, Forall wf l -> wf o -> (exists x, cs_mem x o) ->
  rs_contains_cs l o = true -> forall x, cs_mem x o -> rs_mem x l.
Proof.
  intros l o W Wo Ne H x X. apply rs_contains_cs_ex in H; [|assumption..].
  destruct H as (s & I & H). exists s. auto.
Qed.

(** An interval inside a union of separated intervals lies in one of them. *)
Lemma connected : forall l o, Forall wf l -> Forall (fun s => exists x, cs_mem x s) l -> ForallOrdPairs separated l ->
  wf o -> (exists x, cs_mem x o) -> (forall x, cs_mem x o -> rs_mem x l) ->
  exists s, In s l /\ forall x, cs_mem x o -> cs_mem x s.
Proof.
  intros l o W N S Wo (z & Z) H.
  assert (Bo := wf_lo1 o Wo). assert (Lo : lo1 o <= hi1 o) by (apply mem_lo1 in Z; lia).
  clear Z z. assert (Ml : cs_mem (lo1 o) o) by (apply mem_lo1; zl).
  destruct (H _ Ml) as (s & Is & Ms). exists s. split; [exact Is|].
  (* all of [o] stays in [s] *)
  assert (K : forall n : nat, lo1 o + Z.of_nat n <= hi1 o -> cs_mem (lo1 o + Z.of_nat n) s).
  { induction n as [|n IH]; intro Hn; [rewrite Z.add_0_r; exact Ms|].
    assert (In1 : cs_mem (lo1 o + Z.of_nat n) s) by (apply IH; lia).
    assert (Mo : cs_mem (lo1 o + Z.of_nat (Datatypes.S n)) o) by (apply mem_lo1; zl).
    destruct (H _ Mo) as (t & It & Mt).
    assert (C : s = t \/ separated s t \/ separated t s).
    { clear - S Is It. induction S as [|a l F S IH]; [destruct Is|].
      rewrite Forall_forall in F. destruct Is as [<-|Is], It as [<-|It]; auto. }
    destruct C as [->|[(y & _ & Y1 & Y2)|(y & _ & Y1 & Y2)]]; [exact Mt| |].
    - specialize (Y1 _ In1). specialize (Y2 _ Mt). lia.
    - specialize (Y1 _ Mt). specialize (Y2 _ In1). lia. }
  intros x X. apply mem_lo1 in X. replace x with (lo1 o + Z.of_nat (Z.to_nat (x - lo1 o))) by lia.
  apply K. lia.
Qed.

Lemma rs_contains_cs_complete : forall l o, canonical l -> wf o -> (exists x, cs_mem x o) ->
  (rs_contains_cs l o = true <-> forall x, cs_mem x o -> rs_mem x l).
Proof.
  intros l o (W & N & S) Wo Ne. split; [apply rs_contains_cs_sound; assumption|].
  intro H. apply rs_contains_cs_ex; [assumption..|]. apply connected; assumption.
Qed.

Lemma rs_contains_interval_spec : forall l o, canonical l -> Forall wf (as_list o) ->
  Forall (fun c => exists x, cs_mem x c) (as_list o) ->
  (rs_contains_interval l o = true <-> forall x, ns_mem x o -> rs_mem x l).
Proof.
  intros l [c|ol] C W N; cbn in *.
  - inversion W; inversion N; subst. apply rs_contains_cs_complete; assumption.
  - rewrite forallb_forall. rewrite Forall_forall in *. split.
    + intros H x (s & Is & X). exact (proj1 (rs_contains_cs_complete l s C (W s Is) (N s Is)) (H s Is) x X).
    + intros H s Is. apply rs_contains_cs_complete; auto. intros x X. apply H. exists s. auto.
Qed.

Lemma rs_intersects_spec : forall l o, Forall wf l -> Forall wf (as_list o) ->
  Forall (fun c => exists x, cs_mem x c) l -> spaced (all_bounds (l ++ as_list o)) ->
  (rs_intersects l o = true <-> exists x, rs_mem x l /\ ns_mem x o).
Proof.
  intros l o W Wo N Sp. unfold rs_intersects. rewrite existsb_exists. rewrite Forall_forall in *. split.
  - intros (s & Is & H). apply existsb_exists in H. destruct H as (t & It & H).
    destruct (intersects_sound s t) as (x & X1 & X2); auto.
    + apply nonempty_mem; auto.
    + intros a b Ia Ib. apply Sp; unfold all_bounds; apply in_flat_map; apply in_app_or in Ia, Ib.
      * destruct Ia; [exists s|exists t]; (split; [apply in_or_app; auto|assumption]).
      * destruct Ib; [exists s|exists t]; (split; [apply in_or_app; auto|assumption]).
    + exists x. split; [exists s; auto|]. apply as_list_mem. exists t. auto.
  - intros (x & (s & Is & X1) & X2). exists s. split; [exact Is|]. apply existsb_exists.
    apply as_list_mem in X2. destruct X2 as (t & It & X2). exists t. split; [exact It|].
    apply intersects_complete; auto. exists x. auto.
Qed.

(** ** fst *)

Lemma cs_fst_spec : forall s, wf s ->
  match cs_fst s with
  | None => forall x, ~ cs_mem x s
  | Some m => cs_mem m s /\ forall x, cs_mem x s -> m <= x
  end.
Proof.
  intros s W. unfold cs_fst. destruct (cs_isempty s) eqn:E; [apply isempty_spec; assumption|].
  assert (L := proj1 (isempty_lo1_f s W) E). assert (B := wf_lo1 s W).
  assert (F : (if negb (lower s =? - ORD_INF) then match left s with INC => Some (lower s) | EXC => Some (plus_eps (lower s)) end
               else Some FLT_MIN) = Some (lo1 s)).
  { destruct W as (? & Hm & _ & ? & ? & Hl & _). eps_facts. unfold lo1, FLT_MIN in *.
    destruct (Z.eqb_spec (lower s) (- ORD_INF)) as [Q|Q]; cbn.
    - rewrite (Hl Q), Q. reflexivity.
    - f_equal. destruct (left s); f_equal; zl. }
  rewrite F. split; [apply mem_lo1; zl|]. intros x X. apply mem_lo1 in X. lia.
Qed.

Lemma opt_min_spec : forall l,
  match opt_min l with
  | None => forall a, ~ In (Some a) l
  | Some m => In (Some m) l /\ forall a, In (Some a) l -> m <= a
  end.
Proof.
  induction l as [|[a|] l IH]; cbn; [tauto| |].
  - destruct (opt_min l) as [b|].
    + destruct IH as [I1 I2]. split.
      * destruct (Z.min_dec a b) as [->| ->]; auto.
      * intros c [H|H]; [injection H as <-; lia|]. specialize (I2 c H). lia.
    + split; [auto|]. intros c [H|H]; [injection H as <-; lia|destruct (IH c H)].
  - destruct (opt_min l) as [b|].
    + destruct IH as [I1 I2]. split; [auto|]. intros c [H|H]; [discriminate|auto].
    + intros a [H|H]; [discriminate|exact (IH a H)].
Qed.

Lemma rs_fst_spec : forall l, Forall wf l ->
  match rs_fst l with
  | None => forall x, ~ rs_mem x l
  | Some m => rs_mem m l /\ forall x, rs_mem x l -> m <= x
  end.
Proof.
  intros l W. unfold rs_fst. pose proof (opt_min_spec (map cs_fst (filter (fun i => negb (cs_isempty i)) l))) as O.
  rewrite Forall_forall in W.
  assert (K : forall s x, In s l -> cs_mem x s ->
     exists m, In (Some m) (map cs_fst (filter (fun i => negb (cs_isempty i)) l)) /\ m <= x).
  { intros s x Is X. pose proof (cs_fst_spec s (W s Is)) as F. destruct (cs_fst s) as [m|] eqn:E.
    - exists m. split; [|apply F; exact X]. rewrite <- E. apply in_map. apply filter_In. split; [exact Is|].
      rewrite (proj2 (nonempty_mem s (W s Is))); [reflexivity|]. exists x. exact X.
    - destruct (F x X). }
  destruct (opt_min _) as [m|].
  - destruct O as [O1 O2]. split.
    + apply in_map_iff in O1. destruct O1 as (s & E & Is). apply filter_In in Is. destruct Is as [Is _].
      pose proof (cs_fst_spec s (W s Is)) as F. rewrite E in F. exists s. split; [exact Is|apply F].
    + intros x (s & Is & X). destruct (K s x Is X) as (k & Ik & Lk). specialize (O2 k Ik). lia.
  - intros x (s & Is & X). destruct (K s x Is X) as (k & Ik & _). exact (O k Ik).
Qed.

(** ** size *)

Lemma cs_size_spec : forall s, wf s ->
  (cs_size s = Some 0 <-> forall x, ~ cs_mem x s)
  /\ (cs_size s = Some 1 -> exists m, forall x, cs_mem x s <-> x = m)
  /\ ((exists m, forall x, cs_mem x s <-> x = m) -> itype s <> 4 -> cs_size s = Some 1).
Proof.
  intros s W. unfold cs_size. destruct (cs_isempty s) eqn:E.
  - assert (N := proj1 (isempty_spec s W) E). split; [tauto|]. split; [discriminate|].
    intros (m & M) _. destruct (N m). apply M. reflexivity.
  - assert (L := proj1 (isempty_lo1_f s W) E). assert (B := wf_lo1 s W).
    assert (N : ~ (forall x, ~ cs_mem x s)).
    { intro N. apply (N (lo1 s)). apply mem_lo1. zl. }
    assert (Lu : lower s <= upper s) by apply W.
    set (c := (lower s =? upper s) || _ ).
    assert (C : c = true <-> (lo1 s = hi1 s /\ itype s <> 4)).
    { unfold c. clear - L Lu. destruct s as [lo hi [] []]; unfold lo1, hi1, itype in *;
        cbn [lower upper left right flag_val] in *; cbn; zb; cbn; lia. }
    assert (One : lo1 s = hi1 s <-> exists m, forall x, cs_mem x s <-> x = m).
    { split.
      - intro H. exists (lo1 s). intro x. rewrite mem_lo1. zl.
      - intros (m & M). pose proof (proj1 (M (lo1 s))) as A1. pose proof (proj1 (M (hi1 s))) as A2.
        rewrite !mem_lo1 in *. rewrite A1, A2 by zl. reflexivity. }
    destruct c.
    + split; [split; [discriminate|tauto]|]. split; [|reflexivity]. intros _. apply One. apply C. reflexivity.
    + split; [split; [discriminate|tauto]|]. split; [discriminate|]. intros H I. exfalso.
      assert (false = true); [|discriminate]. apply C. split; [apply One; exact H|exact I].
Qed.

(** ** ends, boundaries *)

Lemma boundaries_mem : forall s fl fr x, wf s -> cs_mem x (cs_boundaries s fl fr) <-> cs_mem x s.
Proof.
  intros s fl fr x (_ & Ml & Mu & _). unfold cs_boundaries. rewrite set_right_mem, set_left_mem; [tauto|assumption|].
  rewrite set_left_upper. exact Mu.
Qed.

Lemma ends_mem : forall s fl fr x, wf s -> cs_mem x (cs_ends s fl fr) <-> cs_mem x s.
Proof.
  intros [lo hi l r] fl fr x (Hle & Hml & Hmu & Hli & Hui & Hfl & Hfr). cbn [lower upper left right] in *. eps_facts.
  unfold cs_ends, isfinite, cs_mem, finite.
  destruct fl as [[]|], l, fr as [[]|], r; cbn -[ORD_INF plus_eps minus_eps Z.abs]; zb; cbn -[ORD_INF plus_eps minus_eps Z.abs]; zl.
Qed.

(** Requested border kinds are delivered. *)
Lemma ends_flags : forall s fl fr,
  (forall f, fl = Some f -> left (cs_ends s fl fr) = f) /\ (forall f, fr = Some f -> right (cs_ends s fl fr) = f).
Proof.
  intros [lo hi l r] fl fr. unfold cs_ends.
  destruct fl as [[]|], l, fr as [[]|], r; cbn; split; intros f H; congruence.
Qed.

(** ** any_point *)

Lemma any_point_mem : forall s m, wf s -> (exists x, cs_mem x s) -> cs_any_point s = Some m -> cs_mem m s.
Proof.
  intros s m W _. unfold cs_any_point, cs_ispinf, cs_isninf, isinf.
  pose proof (wf_lo1 s W) as B. pose proof (uppermost_hi1 s W) as U. pose proof (lowermost_lo1 s W) as L.
  rewrite mem_lo1.
  assert (Q : Z.abs (lower s) < ORD_53 \/ lower s = - ORD_INF).
  { destruct W as (_ & M & _ & ? & _). unfold moderate in M. zl. }
  assert (Q' : Z.abs (upper s) < ORD_53 \/ upper s = ORD_INF).
  { destruct W as (_ & _ & M & _ & ? & _). unfold moderate in M. zl. }
  assert (Hb : lo1 s <= lower s + 1 /\ upper s - 1 <= hi1 s /\ lower s <= lo1 s /\ hi1 s <= upper s)
    by (unfold lo1, hi1; destruct (left s), (right s); lia).
  assert (PE : forall y, plus_eps y = y \/ plus_eps y = y + 1) by (intro y; unfold plus_eps; destruct (adds_one y); lia).
  assert (ME : forall y, minus_eps y = y \/ minus_eps y = y - 1) by (intro y; unfold minus_eps; destruct (subs_one y); lia).
  specialize (PE (lowermost s)). specialize (ME (uppermost s)). clear W.
  zb; cbn; let K := fresh in intro K; inversion K; subst; clear K; zl.
Qed.

(** ** Serialisation *)

Lemma cs_json_roundtrip : forall s, lower s <= upper s -> cs_from_json (cs_to_json s) = Ok s.
Proof.
  intros [lo hi [] []] H; cbn in *; unfold mk_cs; cbn; destruct (Z.ltb_spec hi lo); try lia; reflexivity.
Qed.

Lemma rs_json_fails : forall l, exists e, rs_from_json (rs_to_json l) = Err e.
Proof.
  intro l. unfold rs_to_json.
  assert (K : forall l s0, exists s, fold_left (fun d s => obj_set d "intervals" (cs_to_json s)) l [("intervals"%string, cs_to_json s0)]
                       = [("intervals"%string, cs_to_json s)]).
  { induction l0 as [|a l0 IH]; intro s0; cbn; [exists s0; reflexivity|]. apply IH. }
  destruct l as [|a l]; cbn [fold_left obj_set].
  - exists KeyError. reflexivity.
  - destruct (K l a) as (s & ->). exists TypeError. reflexivity.
Qed.

(** ** Sampling *)

Lemma cs_sample_spec : forall s, wf s ->
  (cs_sample_range s = Err IndexError <-> forall x, ~ cs_mem x s)
  /\ (forall lo hi, cs_sample_range s = Ok (lo, hi) ->
        lo <= hi /\ forall x, lo <= x <= hi <-> cs_mem x s).
Proof.
  intros s W. unfold cs_sample_range. destruct (cs_isempty s) eqn:E.
  - assert (N := proj1 (isempty_spec s W) E). split; [tauto|discriminate].
  - assert (L := proj1 (isempty_lo1_f s W) E). assert (B := wf_lo1 s W).
    split.
    + split; [discriminate|]. intro N. destruct (N (lo1 s)). apply mem_lo1. zl.
    + intros lo hi H. injection H as <- <-.
      change (match left s with INC => lower s | EXC => plus_eps (lower s) end) with (lowermost s).
      change (match right s with INC => upper s | EXC => minus_eps (upper s) end) with (uppermost s).
      assert (E1 : Z.max FLT_MIN (lowermost s) = lo1 s).
      { unfold FLT_MIN. destruct (lowermost_lo1 s W) as [(? & -> & ?)|(? & ? & -> & ->)]; zl. }
      assert (E2 : Z.min FLT_MAX (uppermost s) = hi1 s).
      { unfold FLT_MAX. destruct (uppermost_hi1 s W) as [(? & -> & ?)|(? & ? & -> & ->)]; zl. }
      rewrite E1, E2. split; [exact L|]. intro x. rewrite mem_lo1. zl.
Qed.

Lemma filter_all : forall {A} (f : A -> bool) l, (forall x, In x l -> f x = true) -> filter f l = l.
Proof.
  intros A f l. induction l as [|a l IH]; cbn; intro H; [reflexivity|].
  rewrite (H a (or_introl eq_refl)). f_equal. apply IH. intros x I. apply H. right. exact I.
Qed.

Lemma rs_sample_spec : forall l j, Forall wf l -> Forall (fun c => exists x, cs_mem x c) l -> (j < List.length l)%nat ->
  exists lo hi, rs_sample_range l j = Ok (lo, hi) /\ lo <= hi /\ forall x, lo <= x <= hi -> rs_mem x l.
Proof.
  intros l j W N J. unfold rs_sample_range. destruct l as [|a l']; [cbn in J; lia|]. set (l := a :: l') in *.
  rewrite Forall_forall in *.
  assert (rs_isempty l = false) as ->.
  { cbn. rewrite (proj2 (nonempty_mem a (W a (or_introl eq_refl)))); [reflexivity|]. apply N. left; reflexivity. }
  rewrite filter_all.
  2:{ intros c Ic. destruct (cs_size c) as [[| |]|] eqn:Q; try reflexivity.
      destruct (N c Ic) as (x & X). destruct (proj1 (proj1 (cs_size_spec c (W c Ic))) Q x X). }
  destruct (Nat.ltb_spec j (List.length l)); [|lia].
  destruct (nth_error l j) as [c|] eqn:Nj.
  2:{ apply nth_error_None in Nj. lia. }
  apply nth_error_In in Nj. destruct (cs_sample_spec c (W c Nj)) as [S1 S2].
  destruct (cs_sample_range c) as [[lo hi]|e] eqn:R.
  - destruct (S2 lo hi eq_refl) as [S3 S4]. exists lo, hi. split; [reflexivity|]. split; [exact S3|].
    intros x X. exists c. split; [exact Nj|]. apply S4. exact X.
  - exfalso. unfold cs_sample_range in R. destruct (cs_isempty c) eqn:Q; [|discriminate].
    destruct (N c Nj) as (x & X). exact (proj1 (isempty_spec c (W c Nj)) Q x X).
Qed.
