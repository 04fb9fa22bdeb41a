(** C83: closing the gaps of a learnt leaf ([close_convex_gaps]); C25: densities of mixtures. *)
Require Import QArith Qabs Qround ZArith Bool List Permutation Sorted Lia Lqa.
Require Import Verif.Base Verif.FloatLine Verif.FloatVal Verif.NumBase Verif.IntervalModel Verif.IntervalSpec Verif.IntervalProofs Verif.FunctionModel Verif.FunctionSpec Verif.FunctionPlf
  Verif.NumericModel Verif.NumericSpec Verif.NumericFit Verif.NumericProb Verif.NumericMerge Verif.NumericMix Verif.NumericClose Verif.NumericTree Verif.NumericProps Verif.GapModel Verif.GapProofs.
Import ListNotations.
Open Scope Z_scope.

(** ** C25: the density of a mixture *)

(** The density of the result is the mixture of the densities, up to the last bound of all. *)
Theorem C25_density_partial : forall ds ws, length ds = length ws -> Forall component ds -> Forall (fun w => 0 <= w)%Q ws ->
  (Qsum ws == 1)%Q -> grained ds ws ->
  exists q last, merge_cdf ds ws = Ok q /\ finish_of ds ws last
    /\ forall x, finite x -> (density q x == if x <? last then mixture ws (map (fun p => density p x) ds) else 0)%Q.
Proof.
  intros ds ws L C N W G. assert (W' : (Qabs (Qsum ws - 1) <= tiny)%Q) by (rewrite W; vm_compute; discriminate).
  destruct (merge_general ds ws L C N W' G) as (q & la & E & M & _). pose proof (dws_of ds ws C N) as O. exists q, la. split; [exact E|]. split; [exact (merge_finish ds ws _ la q O M)|].
  intros x F. rewrite (ma_dens _ _ _ _ M x F). destruct (x <? la); [|reflexivity]. destruct (values_ex ds x C F) as (ys & Y & _). exact (proj1 (proj2 (events_value ds ws x ys L O C F Y))).
Qed.
Print Assumptions C25_density_partial.

(** ** C83: specification *)

(** The gaps between the bounds of an interval and the numbers from [lo] (inclusive) to [hi]
    (exclusive), where the bound is finite. *)
Definition gaps_of (c : cs) (lo hi : Z) : list (Z * Z) :=
  (if (- ORD_INF <? lower c) && (lower c <? lo) then [(lower c, lo)] else [])
  ++ (if (upper c <? ORD_INF) && (hi <? upper c) then [(hi, upper c)] else []).
Definition width (g : Z * Z) : Q := (dval (snd g) - dval (fst g))%Q.
(** The density of the uniform distribution on a gap, and the mean of several of them. *)
Definition uniform_density (g : Z * Z) (x : Z) : Q := if (fst g <=? x) && (x <? snd g) then (1 / width g)%Q else 0%Q.
Definition mean_density (gs : list (Z * Z)) (x : Z) : Q := (Qsum (map (fun g => uniform_density g x) gs) / Qn (length gs))%Q.
(** The hull: from the lower bound of the interval, if there is a gap, to its upper bound. *)
Definition hull_from (c : cs) (lo : Z) : Z := if (- ORD_INF <? lower c) && (lower c <? lo) then lower c else lo.
Definition hull_to (c : cs) (hi : Z) : Z := if (upper c <? ORD_INF) && (hi <? upper c) then upper c else hi.

(** The mass of the uniform distributions below [x]. *)
Definition mean_below (gs : list (Z * Z)) (x : Z) : Q := (Qsum (map (fun g : Z * Z => covered (fst g) (snd g) x) gs) / Qn (length gs))%Q.

Theorem C83_closed_partial : forall epsilon rows c n p lo hi,
  Forall (fun v => Z.abs v < ORD_53) rows -> least lo rows -> largest hi rows -> lo < hi ->
  fit_cdf epsilon None None rows = Ok p -> (0 < n)%nat ->
  let e := (1 / (2 * Qn n))%Q in let gs := gaps_of c lo (hi + 1) in
  gs <> [] ->
  (forall x, lo <= x <= hi -> (1 # 100000000 < (1 - e) * density p x)%Q) ->
  (forall g, In g gs -> (1 # 100000000 < e * (1 / Qn (length gs)) * (1 / width g))%Q) ->
  exists q, close_gaps p c n = Ok q
    /\ (forall x, finite x -> (density q x == (1 - e) * density p x + e * mean_density gs x)%Q)
    /\ (forall x, hull_from c lo <= x < hull_to c (hi + 1) -> (0 < density q x)%Q)
    /\ (forall x, finite x -> x < hull_from c lo -> plf_is q x 0)
    /\ (forall x, finite x -> hull_to c (hi + 1) <= x -> plf_is q x 1)
    /\ (forall x y, finite x -> x < hull_to c (hi + 1) -> plf_is p x y -> plf_is q x ((1 - e) * (y - lost p x) + e * mean_below gs x)).
Proof.
  intros epsilon rows c n p lo hi M Lo Hi Lt E Pn e gs Ng Pd Pg. pose proof ord_facts as O.
  assert (N : rows <> []) by (intros ->; destruct Lo as [[] _]).
  assert (Fi : Forall finite rows) by (apply Forall_forall; intros v I; rewrite Forall_forall in M; specialize (M v I); unfold finite; lia).
  destruct (fit_nonempty epsilon None None rows rows (fit_plain rows) N Fi) as [(z & A & I & E')|(p' & ks & E' & Ft)]; rewrite E in E'; injection E' as ->.
  { exfalso. rewrite (A lo (proj1 Lo)), (A hi (proj1 Hi)) in Lt. lia. }
  assert (El : hd 0 ks = lo). { destruct (ft_least _ _ _ Ft) as [I1 L1]. destruct Lo as [I2 L2]. specialize (L1 _ I2). specialize (L2 _ I1). lia. }
  assert (Eh : last ks 0 = hi). { destruct (ft_largest _ _ _ Ft) as [I1 L1]. destruct Hi as [I2 L2]. specialize (L1 _ I2). specialize (L2 _ I1). lia. }
  assert (Mh : Z.abs hi < ORD_53) by (rewrite Forall_forall in M; apply M; exact (proj1 Hi)).
  assert (Ml : Z.abs lo < ORD_53) by (rewrite Forall_forall in M; apply M; exact (proj1 Lo)).
  assert (Mk : Z.abs (last ks 0) < ORD_53) by (rewrite Eh; exact Mh).
  destruct (fitted_ends rows p' ks Ft Mk) as (E1 & E2 & E3 & _). rewrite El in E1. rewrite Eh in E2.
  unfold close_gaps. rewrite E3. unfold gap_below, gap_above. rewrite E1, E2. clear E1 E2 E3.
  subst gs. unfold gaps_of, hull_from, hull_to in *. unfold insert_convex_fragments. fold (share n). change (1 / (2 * Qn n))%Q with (share n) in e. subst e.
  assert (Fl : finite lo) by (unfold finite; lia). assert (Fh : finite (hi + 1)) by (unfold finite; lia).
  assert (One : forall l u r a b, finite l -> finite u -> l < u -> (forall m k v, gap_cdf (Some (CS l u INC INC)) None = Ok [(CS (- ORD_INF) l INC INC, FConst 0); (CS l u INC INC, FLin m k); (CS u ORD_INF INC INC, FConst v)] ->
      gap_cdf None (Some (CS l u INC INC)) = Ok [(CS (- ORD_INF) l INC INC, FConst 0); (CS l u INC INC, FLin m k); (CS u ORD_INF INC INC, FConst v)] -> r = Ok [(CS (- ORD_INF) l INC INC, FConst 0); (CS l u INC INC, FLin m k); (CS u ORD_INF INC INC, FConst v)]) ->
      (l = a /\ u = lo /\ b = hi + 1) \/ (a = lo /\ l = hi + 1 /\ u = b) ->
      (forall g, In g [(l, u)] -> (1 # 100000000 < share n * (1 / Qn (length [(l, u)])) * (1 / width g))%Q) ->
      exists q, (do g <- r; merge_cdf [p'; g] [(1 - share n)%Q; share n]) = Ok q
        /\ (forall x, finite x -> (density q x == (1 - share n) * density p' x + share n * mean_density [(l, u)] x)%Q)
        /\ (forall x, a <= x < b -> (0 < density q x)%Q) /\ (forall x, finite x -> x < a -> plf_is q x 0) /\ (forall x, finite x -> b <= x -> plf_is q x 1)
        /\ (forall x y, finite x -> x < b -> plf_is p' x y -> plf_is q x ((1 - share n) * (y - lost p' x) + share n * mean_below [(l, u)] x))).
  { intros l u r a b F1 F2 L R Sh P. destruct (one_gap l u F1 F2 L) as (m & k & v & Eg & Eg' & Hm & Hk & Hv). rewrite (R m k v Eg Eg'). cbn [bind].
    destruct (close_one rows p' ks n Ft Fi Mk Pn ltac:(rewrite El, Eh; exact Pd) l u m k v a b F1 F2 L Hm Hk Hv) as (q & Eq & D & Ph & Z0 & Z1 & Val).
    { specialize (P (l, u) (or_introl eq_refl)). unfold unif, tiny, width in *. rewrite (proj2 (Z.leb_le _ _) (Z.le_refl _)), (proj2 (Z.ltb_lt _ _) L). pose proof (dval_lt _ _ L). cbn [andb fst snd length] in *. eapply Qlt_le_trans; [exact P|]. change (Qn 1) with 1%Q. apply Qle_lteq. right. field. lra. }
    { rewrite El, Eh. exact Sh. }
    exists q. split; [exact Eq|]. split; [|split; [exact Ph|split; [exact Z0|split; [exact Z1|]]]].
    - intros x Fx. rewrite (D x Fx). unfold mean_density, uniform_density, unif, width. cbn [map Qsum length fst snd]. change (Qn 1) with 1%Q. field.
    - intros x y Fx X Y. refine (plf_is_wd q x _ _ _ (Val x y Fx X Y)). unfold mean_below. cbn [map Qsum length fst snd]. change (Qn 1) with 1%Q. field. }
  destruct (Z.ltb_spec (- ORD_INF) (lower c)) as [A1|A1]; [destruct (Z.ltb_spec (lower c) lo) as [A2|A2]|]; cbn [andb] in *;
    (destruct (Z.ltb_spec (upper c) ORD_INF) as [B1|B1]; [destruct (Z.ltb_spec (hi + 1) (upper c)) as [B2|B2]|]); cbn [andb] in *; cbn [app] in *; try (exfalso; apply Ng; reflexivity).
  - (* two gaps *)
    destruct (two_gaps (lower c) lo (hi + 1) (upper c)) as (m & k & v & m' & k' & v' & Eg & Hm & Hk & Hv & Hm' & Hk' & Hv'); try (unfold finite; lia).
    rewrite Eg. cbn [bind].
    destruct (close_two rows p' ks n Ft Fi Mk Pn ltac:(rewrite El, Eh; exact Pd) (lower c) lo (hi + 1) (upper c) m k v m' k' v') as (q & Eq & D & Ph & Z0 & Z1 & Val); try assumption; try (unfold finite; lia).
    { specialize (Pg (lower c, lo) (or_introl eq_refl)). unfold unif, tiny, width in *. rewrite (proj2 (Z.leb_le _ _) (Z.le_refl _)), (proj2 (Z.ltb_lt _ _) A2). pose proof (dval_lt _ _ A2). cbn [andb fst snd length] in *. eapply Qlt_le_trans; [exact Pg|]. change (Qn 2) with 2%Q. apply Qle_lteq. right. field. lra. }
    { specialize (Pg (hi + 1, upper c) (or_intror (or_introl eq_refl))). unfold unif, tiny, width in *. rewrite (proj2 (Z.leb_le _ _) (Z.le_refl _)), (proj2 (Z.ltb_lt _ _) B2). pose proof (dval_lt _ _ B2). cbn [andb fst snd length] in *. eapply Qlt_le_trans; [exact Pg|]. change (Qn 2) with 2%Q. apply Qle_lteq. right. field. lra. }
    exists q. split; [exact Eq|]. split; [|split; [exact Ph|split; [exact Z0|split; [exact Z1|]]]].
    + intros x Fx. rewrite (D x Fx). unfold mean_density, uniform_density, unif, width. cbn [map Qsum length fst snd]. change (Qn 2) with 2%Q. field.
    + intros x y Fx X Y. refine (plf_is_wd q x _ _ _ (Val x y Fx X Y)). unfold mean_below. cbn [map Qsum length fst snd]. change (Qn 2) with 2%Q. field.
  - apply (One (lower c) lo); auto; try (unfold finite; lia).
  - apply (One (lower c) lo); auto; try (unfold finite; lia).
  - apply (One (hi + 1) (upper c)); auto; try (unfold finite; lia).
  - apply (One (hi + 1) (upper c)); auto; try (unfold finite; lia).
Qed.

(** A leaf in which all values are the same becomes uniform between the ends of its gaps
    (lower end included, upper end not), unless that is too narrow for the tolerance of 1e-8. *)
Theorem C83_point_partial : forall epsilon rows c n x,
  rows <> [] -> (forall y, In y rows -> y = x) -> Z.abs x < ORD_53 ->
  let a := hull_from c x in let b := hull_to c x in
  Z.abs a < ORD_53 -> Z.abs b < ORD_53 -> a + 1 < b ->
  (dval b - dval a <= (1 + (1 # 100000000)) * (dval (b - 1) - dval a))%Q ->
  exists p q, fit_cdf epsilon None None rows = Ok p /\ close_gaps p c n = Ok q
    /\ forall y, finite y -> plf_is q y (covered a b y) /\ (density q y == uniform_density (a, b) y)%Q.
Proof.
  intros epsilon rows c n x N A M a b Ma Mb L R. pose proof ord_facts as O.
  assert (Fi : Forall finite rows) by (apply Forall_forall; intros v I; rewrite (A v I); unfold finite; lia).
  destruct (fit_nonempty epsilon None None rows rows (fit_plain rows) N Fi) as [(z & A' & I & E)|(p & ks & E & Ft)].
  2:{ exfalso. pose proof (ft_inc _ _ _ Ft) as Inc. pose proof (ft_len _ _ _ Ft) as Ln. destruct ks as [|k1 [|k2 ks]]; cbn in Ln; try lia.
      pose proof (A k1 (ft_data _ _ _ Ft k1 (or_introl eq_refl))). pose proof (A k2 (ft_data _ _ _ Ft k2 (or_intror (or_introl eq_refl)))). inversion Inc as [|? ? _ F]; subst. inversion F; lia. }
  rewrite (A z I) in E. clear z A' I.
  destruct (point_spread a b Ma Mb L R) as (z & m & k & v & Eq & Hz & Hm & Hk & Hv). eexists. eexists. split; [exact E|]. split.
  - unfold close_gaps, dirac. cbn [length Nat.eqb]. unfold gap_below, gap_above. cbn [length Nat.sub nth hd fst upper spread_point lower].
    assert (Ea : match (if (- ORD_INF <? lower c) && (lower c <? x) then Some (CS (lower c) x INC INC) else None) with Some g => lower g | None => x end = a) by (unfold a, hull_from; destruct ((- ORD_INF <? lower c) && (lower c <? x)); reflexivity).
    assert (Eb : match (if (upper c <? ORD_INF) && (x <? upper c) then Some (CS x (upper c) INC INC) else None) with Some g => upper g | None => x end = b) by (unfold b, hull_to; destruct ((upper c <? ORD_INF) && (x <? upper c)); reflexivity).
    rewrite Ea, Eb. unfold mk_cs. destruct (Z.ltb_spec b a); [lia|]. cbn [bind]. unfold uppermost, lowermost. cbn [left right lower upper]. rewrite (step_down b Mb). unfold Qz.
    assert (D : (dval a < dval (b - 1))%Q) by (apply dval_lt; lia). destruct (Qeq_bool (dval (b - 1) - dval a) 0) eqn:E0; [apply Qeq_bool_iff in E0; lra|]. exact Eq.
  - intros y Fy. apply (point_values a b z m k v); try assumption; unfold finite; lia.
Qed.
Print Assumptions C83_closed_partial.
Print Assumptions C83_point_partial.

(** ** C83: where the hull is not closed *)
Definition at_exp (k : Z) : Z := (1023 + k) * 2 ^ 52.

Lemma got_ok : forall (A : Type) (r : res A) (f : A -> bool), match r with Ok q => f q | Err _ => false end = true -> exists q, r = Ok q /\ f q = true.
Proof. intros A [q|e] f H; [exists q; auto|discriminate]. Qed.
Definition closed_fit (rows : list Z) (c : cs) (n : nat) : res (plf * plf) := do p <- fit_cdf (1 # 100) None None rows; do q <- close_gaps p c n; Ok (p, q).
Lemma closed_fit_of : forall rows c n p q, closed_fit rows c n = Ok (p, q) -> fit_cdf (1 # 100) None None rows = Ok p /\ close_gaps p c n = Ok q.
Proof. intros rows c n p q E. unfold closed_fit in E. destruct (fit_cdf (1 # 100) None None rows) as [p'|]; [cbn [bind] in E|discriminate]. destruct (close_gaps p' c n) as [q'|] eqn:E'; [|discriminate]. injection E as <- <-. auto. Qed.
Definition value_at (p : plf) (x : Z) : option Q := match plf_at p x with Some f => fn_eval f (dval x) | None => None end.
Definition value_sat (p : plf) (x : Z) (t : Q -> bool) : bool := match value_at p x with Some v => t v | None => false end.

(** A leaf whose only value is 2.0 and which has no upper bound, [1, inf): the value itself gets
    the density 0, because its uniform distribution is that on [1, 2). *)
Theorem C83_top_refuted : exists rows c n p q x, In x rows /\ cs_contains_value c x = true /\ fit_cdf (1 # 100) None None rows = Ok p /\ close_gaps p c n = Ok q /\ (density q x == 0)%Q.
Proof.
  destruct (got_ok _ (closed_fit [at_exp 1; at_exp 1] (CS (at_exp 0) ORD_INF INC EXC) 10) (fun pq => Qeq_bool (density (snd pq) (at_exp 1)) 0)) as ([p q] & E & H); [vm_compute; reflexivity|].
  apply closed_fit_of in E. apply Qeq_bool_iff in H. exists [at_exp 1; at_exp 1], (CS (at_exp 0) ORD_INF INC EXC), 10%nat, p, q, (at_exp 1). split; [left; reflexivity|]. split; [vm_compute; reflexivity|]. split; [exact (proj1 E)|]. split; [exact (proj2 E)|exact H].
Qed.
(** A gap wide enough that its density falls below 1e-8 stays open: values 2.0 and 4.0, path [1, 2^28). *)
Theorem C83_thin_refuted : exists rows c n p q x, rows <> [] /\ cs_contains_value c x = true /\ fit_cdf (1 # 100) None None rows = Ok p /\ close_gaps p c n = Ok q
  /\ lower c < x < upper c /\ (density q x == 0)%Q.
Proof.
  destruct (got_ok _ (closed_fit [at_exp 1; at_exp 2] (CS (at_exp 0) (at_exp 28) INC EXC) 10) (fun pq => Qeq_bool (density (snd pq) (at_exp 10)) 0)) as ([p q] & E & H); [vm_compute; reflexivity|].
  apply closed_fit_of in E. apply Qeq_bool_iff in H. exists [at_exp 1; at_exp 2], (CS (at_exp 0) (at_exp 28) INC EXC), 10%nat, p, q, (at_exp 10). split; [discriminate|]. split; [vm_compute; reflexivity|]. split; [exact (proj1 E)|]. split; [exact (proj2 E)|]. split; [split; vm_compute; reflexivity|exact H].
Qed.
(** A repeated least value loses its mass to the far end of the hull: values 2.0, 2.0, 4.0 and path [1, 8);
    the cdf was 1 at 4.0 and is now below 6/10. *)
Theorem C83_mass_refuted : exists rows c n p q x y, fit_cdf (1 # 100) None None rows = Ok p /\ close_gaps p c n = Ok q /\ largest x rows
  /\ plf_is p x 1 /\ plf_is q x y /\ (y < 6 # 10)%Q.
Proof.
  destruct (got_ok _ (closed_fit [at_exp 1; at_exp 1; at_exp 2] (CS (at_exp 0) (at_exp 3) INC EXC) 10) (fun pq => value_sat (fst pq) (at_exp 2) (fun v => Qeq_bool v 1) && value_sat (snd pq) (at_exp 2) (fun v => Qltb v (6 # 10)))) as ([p q] & E & H); [vm_compute; reflexivity|].
  apply closed_fit_of in E. apply andb_true_iff in H. destruct H as (H1 & H2). unfold value_sat, value_at in H1, H2. cbn [fst snd] in H1, H2.
  destruct (plf_at p (at_exp 2)) as [f|] eqn:Ef; [|discriminate]. destruct (fn_eval f (dval (at_exp 2))) as [v|] eqn:Ev; [|discriminate]. apply Qeq_bool_iff in H1.
  destruct (plf_at q (at_exp 2)) as [g|] eqn:Eg; [|discriminate]. destruct (fn_eval g (dval (at_exp 2))) as [w|] eqn:Ew; [|discriminate]. unfold Qltb in H2. destruct (Qltb_spec w (6 # 10)) as [Hw|]; [|discriminate].
  exists [at_exp 1; at_exp 1; at_exp 2], (CS (at_exp 0) (at_exp 3) INC EXC), 10%nat, p, q, (at_exp 2), w. split; [exact (proj1 E)|]. split; [exact (proj2 E)|].
  split; [split; [right; right; left; reflexivity|intros y [<-|[<-|[<-|[]]]]; vm_compute; discriminate]|]. split; [apply (plf_is_of _ _ _ _ Ef); exists v; auto|]. split; [apply (plf_is_of _ _ _ _ Eg); exists w; split; [exact Ew|reflexivity]|exact Hw].
Qed.
(** A single value between bounds which are few doubles apart: learning raises an error. *)
Theorem C83_error_refuted : exists rows c n p, rows <> [] /\ Forall (fun x => cs_contains_value c x = true) rows /\ fit_cdf (1 # 100) None None rows = Ok p /\ close_gaps p c n = Err ValueError.
Proof.
  destruct (got_ok _ (fit_cdf (1 # 100) None None [at_exp 30; at_exp 30]) (fun p => match close_gaps p (CS (at_exp 30 - 20) (at_exp 30 + 20) INC EXC) 10 with Err ValueError => true | _ => false end)) as (p & E & H); [vm_compute; reflexivity|].
  exists [at_exp 30; at_exp 30], (CS (at_exp 30 - 20) (at_exp 30 + 20) INC EXC), 10%nat, p. split; [discriminate|]. split; [repeat constructor; vm_compute; reflexivity|]. split; [exact E|]. destruct (close_gaps p _ 10) as [|[]]; try discriminate. reflexivity.
Qed.
Print Assumptions C83_top_refuted.
Print Assumptions C83_thin_refuted.
Print Assumptions C83_mass_refuted.
Print Assumptions C83_error_refuted.

(** A leaf with the values 2.0 and 4.0 and the path [1, 8) meets the hypotheses. *)
Definition one_line (p : plf) (a b : Z) (m : Q) : bool :=
  match p with
  | [(CS w x EXC EXC, FConst _); (CS l u INC EXC, FLin m' _); (CS y z INC EXC, FConst _)] =>
      (w =? - ORD_INF) && (x =? a) && (l =? a) && (u =? b) && (y =? b) && (z =? ORD_INF) && Qeq_bool m' m
  | _ => false
  end.
Lemma one_line_density : forall p a b m x, one_line p a b m = true -> a <= x < b -> finite a -> finite b -> (density p x == m)%Q.
Proof.
  intros p a b m x H X Fa Fb. unfold one_line in H. destruct p as [|[[l0 u0 [] []] [|v0|m0 c0|? ? ?]] [|[[l1 u1 [] []] [|v1|m1 c1|? ? ?]] [|[[l2 u2 [] []] [|v2|m2 c2|? ? ?]] [|? ?]]]]; try discriminate.
  repeat (apply andb_true_iff in H; destruct H as (H & ?)). apply Qeq_bool_iff in H0. apply Z.eqb_eq in H, H1, H2, H3, H4, H5. subst.
  assert (Fx : finite x) by (unfold finite in *; lia).
  assert (Ch : chain (- ORD_INF) [(CS (- ORD_INF) a EXC EXC, FConst v0); (CS a b INC EXC, FLin m1 c1); (CS b ORD_INF INC EXC, FConst v2)] ORD_INF) by (exact (ramp_chain a b m1 c1 v2 Fa Fb ltac:(lia))).
  unfold density. rewrite (chain_at _ (- ORD_INF) ORD_INF (CS a b INC EXC) (FLin m1 c1) x Ch); [exact H0| | |right; left; reflexivity|exact Fx|]; cbn [lower upper]; lia.
Qed.
Example C83_example : exists p, fit_cdf (1 # 100) None None [at_exp 1; at_exp 2] = Ok p /\
  let c := CS (at_exp 0) (at_exp 3) INC EXC in let gs := gaps_of c (at_exp 1) (at_exp 2 + 1) in
  length gs = 2%nat /\ (forall x, at_exp 1 <= x <= at_exp 2 -> (1 # 100000000 < (1 - 1 / (2 * Qn 10)) * density p x)%Q)
  /\ (forall g, In g gs -> (1 # 100000000 < 1 / (2 * Qn 10) * (1 / Qn (length gs)) * (1 / width g))%Q).
Proof.
  destruct (got_ok _ (fit_cdf (1 # 100) None None [at_exp 1; at_exp 2]) (fun p => one_line p (at_exp 1) (at_exp 2 + 1) (1 # 2))) as (p & E & H); [vm_compute; reflexivity|].
  exists p. split; [exact E|]. split; [vm_compute; reflexivity|]. split.
  - intros x X. rewrite (one_line_density p _ _ _ x H); [vm_compute; reflexivity|lia|split; vm_compute; reflexivity|split; vm_compute; reflexivity].
  - intros g [<-|[<-|[]]]; vm_compute; reflexivity.
Qed.
(** A leaf with the value 2.0 alone and the path [1, 8). *)
Example C83_point_example : let c := CS (at_exp 0) (at_exp 3) INC EXC in let a := hull_from c (at_exp 1) in let b := hull_to c (at_exp 1) in
  Z.abs a < ORD_53 /\ Z.abs b < ORD_53 /\ a + 1 < b /\ (dval b - dval a <= (1 + (1 # 100000000)) * (dval (b - 1) - dval a))%Q.
Proof. split; [vm_compute; reflexivity|]. split; [vm_compute; reflexivity|]. split; [vm_compute; reflexivity|]. vm_compute. discriminate. Qed.
