(** Moments of merged numeric distributions: the average of the moments. *)
Require Import ZArith QArith Qabs Qminmax Qpower Qfield Lqa Bool List Arith Lia.
Require Import Verif.Base Verif.FloatLine Verif.FloatVal Verif.IntervalModel Verif.IntervalSpec Verif.IntervalProofs
  Verif.NumBase Verif.UtilModel Verif.FunctionModel Verif.FunctionSpec
  Verif.FunctionProofs Verif.FunctionPlf Verif.FunctionInt Verif.NumericModel Verif.NumericSpec Verif.NumericFit Verif.NumericProb
  Verif.RealSetAlias Verif.NumericMerge Verif.NumericMix Verif.NumericClose Verif.NumericCrop Verif.NumericProps Verif.NumericProps2 Verif.NumericMoment Verif.MomentProps
  Verif.MixedPosteriorProps.
Import ListNotations.
Open Scope Q_scope.

(** ** Specification *)

(** [T] is the moment of order [n] around [c] of [p]: the integral (C79) up to a place
    where the cdf has reached 1. *)
Definition moment_is (p : plf) (n : nat) (c T : Q) : Prop := exists hi, climbs_to p hi /\ integral p (deviation c n) (dval hi) T.

(** No two ends of rising pieces of the cdfs are neighbouring doubles. *)
Definition knot_of (p : plf) (x : Z) : Prop := exists i m k, In (i, FLin m k) p /\ (x = lower i \/ x = upper i).
Definition spaced (P : plf -> Prop) : Prop := forall p p' x y, P p -> P p' -> knot_of p x -> knot_of p' y -> (y <> x + 1)%Z.

(** ** Where a continuous cdf ends *)

Lemma tiling_joined : forall p pre i f j g post, tiling p -> p = pre ++ (i, f) :: (j, g) :: post -> exists y, fn_is f (dval (upper i)) y /\ fn_is g (dval (upper i)) y.
Proof. intros p pre i f j g post T E. rewrite E in T. exact (tiling_meet _ _ _ _ _ _ T). Qed.

Lemma climbs_one : forall p hi, spread_cdf p -> tiling p -> finite hi -> plf_is p hi 1 -> climbs_to p hi.
Proof.
  intros p hi Sp T Fh One. constructor; [split; assumption| |intros pre i f j g post E _; exact (tiling_joined p _ _ _ _ _ _ T E)].
  intros i m k I. destruct (Z_lt_le_dec (lower i) hi) as [L|L]; [exact L|]. exfalso.
  pose proof (sp_chain p Sp) as C. pose proof (sp_rise p Sp) as R. rewrite Forall_forall in R. destruct (R _ I) as (Pm & Fl & Fu). cbn [fst] in Fl, Fu.
  destruct (chain_in _ _ _ _ _ C I) as (B1 & B2 & B3). unfold finite in Fu.
  destruct (chain_next p _ _ i _ C I) as (pre & j & g & post & E & Ej); [lia|].
  destruct (tiling_joined p _ _ _ _ _ _ T E) as (y & (v & V1 & V2) & Y2). cbn in V1. injection V1 as <-.
  assert (Lt : (lower i < upper i)%Z). { rewrite E in C. apply chain_app_inv in C. destruct C as (b & _ & Ei & Li & _). rewrite Ei. cbn [lower upper]. lia. }
  assert (A1 : plf_at p (lower i) = Some (FLin m k)) by (apply (chain_at p _ _ i _ (lower i) C); try assumption; unfold finite in *; lia).
  assert (Ij : In (j, g) p) by (rewrite E; apply in_or_app; right; right; left; reflexivity).
  assert (A2 : plf_at p (upper i) = Some g).
  { apply (chain_at p _ _ j g (upper i) C); try assumption; try lia. rewrite Ej. pose proof (chain_in _ _ _ _ _ C Ij) as (Q & _ & _).
    rewrite E in C. apply chain_app_inv in C. destruct C as (b & _ & _ & _ & Ejj & Lj & _). rewrite Ejj. cbn [lower upper]. lia. }
  destruct (sp_proper p Sp) as (lo & h & Fhh & P).
  destruct (pc_range p lo h P (upper i) Fu) as (z & Z1 & Z2 & Z3). pose proof (plf_is_fun _ _ _ _ (plf_is_of _ _ _ _ A2 Y2) Z1) as E1.
  assert (H1 : plf_is p (lower i) (m * dval (lower i) + k)) by (apply (plf_is_of _ _ _ _ A1); exists (m * dval (lower i) + k); split; reflexivity).
  pose proof (pc_mono p lo h P hi (lower i) _ _ Fh Fl L One H1) as M. pose proof (dval_lt (lower i) (upper i) Lt) as D.
  assert (m * dval (lower i) < m * dval (upper i)) by (rewrite !(Qmult_comm m); apply Qmult_lt_compat_r; assumption). lra.
Qed.
Lemma climbs_some : forall p, spread_cdf p -> tiling p -> exists hi, climbs_to p hi.
Proof.
  intros p Sp T. destruct (sp_proper p Sp) as (lo & hi & F & P). exists hi. apply climbs_one; try assumption. apply (pc_right p lo hi P); [exact F|lia].
Qed.

(** The moment computed is the moment. *)
Lemma moment_exact : forall p n c, spread_cdf p -> tiling p -> wide p ->
  exists M, moment_of p n c = Ok M /\ M == area n c p /\ moment_is p n c M /\ forall T, moment_is p n c T -> T == M.
Proof.
  intros p n c Sp T W. destruct (climbs_some p Sp T) as (hi & H). destruct (C79_continuous p hi n c Sp T H W) as (M & E & I).
  destruct (moment_area p n c Sp W) as (M' & E' & A). rewrite E in E'. injection E' as <-. exists M. split; [exact E|]. split; [exact A|]. split; [exists hi; auto|].
  intros T0 (hi' & H' & I'). destruct (C79_continuous p hi' n c Sp T H' W) as (M2 & E2 & I2). rewrite E in E2. injection E2 as <-.
  exact (C79_integral_unique p hi' n c T0 M Sp H' I' I2).
Qed.

(** ** Sums over doubles *)

Fixpoint zs (g : Z -> Q) (a : Z) (n : nat) : Q := match n with O => 0 | S n => zs g a n + g (a + Z.of_nat n)%Z end.
Definition zsum (a b : Z) (g : Z -> Q) : Q := zs g a (Z.to_nat (b - a)).
Lemma zs_ext : forall g h a n, (forall x, (a <= x < a + Z.of_nat n)%Z -> g x == h x) -> zs g a n == zs h a n.
Proof. intros g h a. induction n as [|n I]; intro H; cbn [zs]; [reflexivity|]. rewrite I by (intros; apply H; lia). rewrite (H (a + Z.of_nat n)%Z) by lia. reflexivity. Qed.
Lemma zsum_ext : forall a b g h, (forall x, (a <= x < b)%Z -> g x == h x) -> zsum a b g == zsum a b h.
Proof. intros a b g h H. apply zs_ext. intros x X. apply H. lia. Qed.
Lemma zs_app : forall g a n m, zs g a (n + m) == zs g a n + zs g (a + Z.of_nat n) m.
Proof.
  intros g a n. induction m as [|m I]; [rewrite Nat.add_0_r; cbn [zs]; ring|]. rewrite Nat.add_succ_r. cbn [zs]. rewrite I.
  replace (a + Z.of_nat (n + m))%Z with (a + Z.of_nat n + Z.of_nat m)%Z by lia. ring.
Qed.
Lemma zsum_split : forall a b c g, (a <= b)%Z -> (b <= c)%Z -> zsum a c g == zsum a b g + zsum b c g.
Proof.
  intros a b c g L1 L2. unfold zsum. replace (Z.to_nat (c - a)) with (Z.to_nat (b - a) + Z.to_nat (c - b))%nat by lia. rewrite zs_app.
  replace (a + Z.of_nat (Z.to_nat (b - a)))%Z with b by lia. reflexivity.
Qed.
Lemma zs_tele : forall k F a n, zs (fun x => k * (F (x + 1)%Z - F x)) a n == k * (F (a + Z.of_nat n)%Z - F a).
Proof.
  intros k F a. induction n as [|n I]; cbn [zs]; [rewrite Z.add_0_r; ring|]. rewrite I. replace (a + Z.of_nat (S n))%Z with (a + Z.of_nat n + 1)%Z by lia. ring.
Qed.
Lemma zsum_tele : forall k F a b, (a <= b)%Z -> zsum a b (fun x => k * (F (x + 1)%Z - F x)) == k * (F b - F a).
Proof. intros k F a b L. unfold zsum. rewrite zs_tele. replace (a + Z.of_nat (Z.to_nat (b - a)))%Z with b by lia. reflexivity. Qed.
Lemma zs_zero : forall a n, zs (fun _ => 0) a n == 0.
Proof. intros a. induction n as [|n I]; cbn [zs]; [reflexivity|]. rewrite I. ring. Qed.
Lemma zs_add : forall w g h a n, zs (fun x => w * g x + h x) a n == w * zs g a n + zs h a n.
Proof. intros w g h a. induction n as [|n I]; cbn [zs]; [ring|]. rewrite I. ring. Qed.
Lemma zsum_mix : forall (f : plf -> Z -> Q) a b ds ws, length ds = length ws ->
  zsum a b (fun x => mixture ws (map (fun p => f p x) ds)) == mixture ws (map (fun p => zsum a b (f p)) ds).
Proof.
  intros f a b. unfold zsum, mixture. induction ds as [|p ds IH]; intros [|w ws] L; cbn in L; try discriminate; cbn [map combine Qsum fst snd]; [apply zs_zero|].
  rewrite zs_add, IH by lia. reflexivity.
Qed.

Definition stepf (n : nat) (c : Q) (x : Z) : Q := prim n (dval (x + 1) - c) - prim n (dval x - c).
Lemma area_zsum : forall n c d p a b, chain a p b -> (forall i f x, In (i, f) p -> (lower i <= x < upper i)%Z -> d x == steepness f) ->
  area n c p == zsum a b (fun x => d x * stepf n c x).
Proof.
  intros n c d. induction p as [|[i f] p IH]; intros a b C H.
  - cbn in C. subst b. unfold area, zsum. rewrite Z.sub_diag. reflexivity.
  - destruct C as (Ei & L & C). unfold area in *. cbn [map Qsum]. rewrite (IH (upper i) b C) by (intros j g x I; apply H; right; exact I).
    assert (Le : (upper i <= b)%Z). { clear - C. revert C. generalize (upper i). induction p as [|[j g] p IH]; intros u C; [cbn in C; lia|]. destruct C as (_ & L & C). apply IH in C. lia. }
    rewrite (zsum_split a (upper i) b) by lia. apply Qplus_comp; [|reflexivity]. unfold rise, beg, fin. cbn [fst snd].
    assert (El : lower i = a) by (rewrite Ei; reflexivity). rewrite El.
    rewrite <- (zsum_tele (steepness f) (fun x => prim n (dval x - c)) a (upper i)) by lia. apply zsum_ext. intros x X. unfold stepf.
    rewrite (H i f x (or_introl eq_refl)) by lia. reflexivity.
Qed.

Definition dens0 (p : plf) (x : Z) : Q := if (x =? - ORD_INF)%Z then 0 else density p x.
Lemma spread_area : forall p n c, spread_cdf p -> area n c p == zsum (- ORD_INF) ORD_INF (fun x => dens0 p x * stepf n c x).
Proof.
  intros p n c Sp. pose proof (sp_chain p Sp) as C. apply area_zsum; [exact C|]. intros i f x I B. unfold dens0.
  destruct (chain_in _ _ _ _ _ C I) as (B1 & B2 & _). destruct (Z.eqb_spec x (- ORD_INF)) as [->|N].
  - destruct (sp_first p Sp) as (j & r & E). rewrite E in C, I. destruct C as (_ & L & C). destruct I as [I|I]; [injection I as _ <-; reflexivity|].
    destruct (chain_in _ _ _ _ _ C I) as (B3 & _). lia.
  - assert (Fx : finite x) by (unfold finite; lia). unfold density. rewrite (chain_at p _ _ i f x C ltac:(lia) ltac:(lia) I Fx B). reflexivity.
Qed.

Lemma area_merge : forall ds ws q n c, length ds = length ws -> Forall (fun p => spread_cdf p /\ tiling p) ds -> spread_cdf q -> tiling q ->
  (forall x ys, finite x -> Forall2 (fun p y => plf_is p x y) ds ys -> plf_is q x (mixture ws ys)) ->
  area n c q == mixture ws (map (area n c) ds).
Proof.
  intros ds ws q n c L Ds Sq Tq V. rewrite (spread_area q n c Sq).
  assert (E : mixture ws (map (area n c) ds) == mixture ws (map (fun p => zsum (- ORD_INF) ORD_INF (fun x => dens0 p x * stepf n c x)) ds)).
  { clear - Ds L. revert ws L. unfold mixture. induction Ds as [|p ds [Sp _] _ IH]; intros [|w ws] L; cbn in L; try discriminate; [reflexivity|]. cbn [map combine Qsum fst snd]. rewrite IH by lia. rewrite (spread_area p n c Sp). reflexivity. }
  rewrite E, <- zsum_mix by exact L. apply zsum_ext. intros x X. pose proof ord_facts as O.
  assert (D : dens0 q x == mixture ws (map (fun p => dens0 p x) ds)).
  { assert (Z0 : forall d : plf -> Q, Forall (fun p => d p == 0) ds -> mixture ws (map d ds) == 0).
    { intros d. clear - L. revert ws L. unfold mixture. induction ds as [|p ds IH]; intros [|w ws] L F; cbn in L; try discriminate; [reflexivity|]. inversion F; subst. cbn [map combine Qsum fst snd]. rewrite IH by (try lia; assumption). rewrite H1. ring. }
    unfold dens0. destruct (Z.eqb_spec x (- ORD_INF)) as [->|N]; [symmetry; apply Z0; apply Forall_forall; intros; reflexivity|].
    destruct (Z.eq_dec x (ORD_INF - 1)) as [->|N'].
    { rewrite (slope_last q Sq). symmetry. apply Z0. eapply Forall_impl; [|exact Ds]. intros p [Sp _]. exact (slope_last p Sp). }
    assert (Fx : finite x) by (unfold finite; lia). assert (Fx' : finite (x + 1)) by (unfold finite; lia).
    assert (Vals : forall y, finite y -> exists ys, Forall2 (fun p y0 => plf_is p y y0) ds ys).
    { intros y Fy. clear - Ds Fy. induction Ds as [|p ds [Sp _] _ (ys & IH)]; [exists []; constructor|]. destruct (sp_proper p Sp) as (lo & hi & _ & P). destruct (pc_range p lo hi P y Fy) as (z & Z & _). exists (z :: ys). constructor; assumption. }
    destruct (Vals x Fx) as (ys & Y). destruct (Vals (x + 1)%Z Fx') as (ys' & Y').
    rewrite (slope_quotient q x _ _ Sq Tq Fx Fx' (V x ys Fx Y) (V _ ys' Fx' Y')). pose proof (dval_lt x (x + 1) ltac:(lia)) as Lt.
    assert (G : mixture ws (map (fun p => density p x) ds) * (dval (x + 1) - dval x) == mixture ws ys' - mixture ws ys).
    { clear - Ds Y Y' L Fx Fx' Lt. revert ws ys ys' Y Y' L. unfold mixture. induction Ds as [|p ds [Sp Tp] _ IH]; intros [|w ws] ys ys' Y Y' L; cbn in L; try discriminate; inversion Y; inversion Y'; subst; cbn [map combine Qsum fst snd]; [ring|].
      rewrite Qmult_plus_distr_l. rewrite (IH ws l' l'0) by (try assumption; lia). rewrite (slope_quotient p x y y0 Sp Tp Fx Fx') by assumption. field. lra. }
    apply (Qmult_inj_r _ _ (dval (x + 1) - dval x)); [lra|]. rewrite G. field. lra. }
  rewrite D. clear - L. revert ws L. unfold mixture. induction ds as [|p ds IH]; intros [|w ws] L; cbn in L; try discriminate; cbn [map combine Qsum fst snd]; [ring|]. rewrite <- IH by lia. ring.
Qed.

(** ** The ends of the pieces of a merged cdf *)

Lemma lower_loop_in : forall lo other pivot m off lo' p' m' off', lower_loop lo other pivot m off = (lo', p', m', off') ->
  incl (map fst lo') (map fst lo) /\ forall x, p' = Some x -> pivot = Some x \/ In x (map fst lo).
Proof.
  induction lo as [|[x [k w]] lo I]; intros other pivot m off lo' p' m' off' H; cbn [lower_loop] in H.
  - injection H as <- <- <- <-. split; [apply incl_refl|]. auto.
  - destruct (take_entry pivot x other).
    + assert (T : exists pv mm oo, (pv = pivot \/ pv = Some x) /\ lower_loop lo other pv mm oo = (lo', p', m', off')).
      { destruct (no_effect x (- ORD_INF) k); [exists pivot, m, off; auto|]. destruct k; do 3 eexists; (split; [right; reflexivity|exact H]). }
      destruct T as (pv & mm & oo & Pv & T). destruct (I _ _ _ _ _ _ _ _ T) as [I1 I2]. split; [intros y Y; right; apply I1, Y|].
      intros y Y. destruct (I2 y Y) as [E|E]; [|right; right; exact E]. destruct Pv as [->| ->]; [left; exact E|]. injection E as <-. right. left. reflexivity.
    + injection H as <- <- <- <-. split; [apply incl_refl|]. auto.
Qed.
Lemma upper_loop_in : forall up other pivot m up' p' m', upper_loop up other pivot m = (up', p', m') ->
  incl (map fst up') (map fst up) /\ forall x, p' = Some x -> pivot = Some x \/ In x (map fst up).
Proof.
  induction up as [|[x [k w]] up I]; intros other pivot m up' p' m' H; cbn [upper_loop] in H.
  - injection H as <- <- <-. split; [apply incl_refl|]. auto.
  - destruct (take_entry pivot x other).
    + assert (T : exists pv mm, (pv = pivot \/ pv = Some x) /\ upper_loop up other pv mm = (up', p', m')).
      { destruct (no_effect x ORD_INF k); [exists pivot, m; auto|]. destruct k; do 2 eexists; (split; [|exact H]); auto. }
      destruct T as (pv & mm & Pv & T). destruct (I _ _ _ _ _ _ T) as [I1 I2]. split; [intros y Y; right; apply I1, Y|].
      intros y Y. destruct (I2 y Y) as [E|E]; [|right; right; exact E]. destruct Pv as [->| ->]; [left; exact E|]. injection E as <-. right. left. reflexivity.
    + injection H as <- <- <-. split; [apply incl_refl|]. auto.
Qed.
Definition starts (P : Z -> Prop) (out : plf) : Prop := forall s, In s out -> lower (fst s) = (- ORD_INF)%Z \/ P (lower (fst s)).
Lemma sweep_starts : forall (P : Z -> Prop) fuel lo up m c out out1, sweep fuel lo up m c out = Ok out1 -> (forall x, In x (map fst lo) \/ In x (map fst up) -> P x) ->
  starts P out -> starts P out1.
Proof.
  intros P. induction fuel as [|fuel I]; intros lo up m c out out1 H Hp St.
  - destruct lo; [destruct up|]; cbn in H; try discriminate. injection H as <-. exact St.
  - assert (Nil : lo = [] /\ up = [] \/ (lo <> [] \/ up <> [])) by (destruct lo; [destruct up; [left|right; right; discriminate]|right; left; discriminate]; auto).
    destruct Nil as [(-> & ->)|Ne]; [cbn in H; injection H as <-; exact St|].
    destruct out as [|[i f] out'].
    { cbn [sweep] in H. destruct (lower_loop lo (first_pos up) None m 0) as [[[lo' pv] m1] off] eqn:E1. destruct (upper_loop up (first_pos lo') pv m1) as [[up' pv'] m_] eqn:E2.
      destruct (lower_loop_in _ _ _ _ _ _ _ _ _ E1) as [A1 B1]. destruct (upper_loop_in _ _ _ _ _ _ _ E2) as [A2 B2].
      destruct lo, up; try (destruct Ne; contradiction); (destruct pv'; [discriminate|]; apply (I _ _ _ _ _ _ H); [intros x [X|X]; apply Hp; auto|exact St]). }
    rewrite (sweep_step fuel lo up m c i f out' Ne) in H. cbv zeta in H.
    destruct (lower_loop lo (first_pos up) None m 0) as [[[lo' pv] m1] off] eqn:E1. destruct (upper_loop up (first_pos lo') pv m1) as [[up' pv'] m_] eqn:E2.
    destruct (lower_loop_in _ _ _ _ _ _ _ _ _ E1) as [A1 B1]. destruct (upper_loop_in _ _ _ _ _ _ _ E2) as [A2 B2].
    assert (Hp' : forall x, In x (map fst lo') \/ In x (map fst up') -> P x) by (intros x [X|X]; apply Hp; auto).
    destruct pv' as [x|]; [|exact (I _ _ _ _ _ _ H Hp' St)].
    assert (Px : P x). { destruct (B2 x eq_refl) as [E|E]; [|apply Hp; auto]. subst pv. destruct (B1 x eq_refl) as [E|E]; [discriminate|apply Hp; auto]. }
    assert (St' : starts P ((set_upper i x, f) :: out')).
    { intros s [<-|S0]; [|apply St; right; exact S0]. cbn [fst]. exact (St (i, f) (or_introl eq_refl)). }
    match type of H with (if ?b then _ else _) = _ => destruct b end; [|exact (I _ _ _ _ _ _ H Hp' St')].
    destruct (mk_cs x ORD_INF INC EXC) as [k|] eqn:Ek; [|discriminate]. cbn [bind] in H. refine (I _ _ _ _ _ _ H Hp' _).
    intros s [<-|S0]; [|exact (St' s S0)]. right. cbn [fst]. assert (lower k = x); [|congruence].
    unfold mk_cs in Ek. repeat match type of Ek with (if ?b then _ else _) = _ => destruct b; try discriminate end; injection Ek as <-; reflexivity.
Qed.

Lemma drop_tail_incl : forall out s, In s (drop_tail out) -> In s out.
Proof.
  induction out as [|[i f] out I]; intros s H; [exact H|]. cbn [drop_tail] in H. destruct out as [|t out]; [exact H|].
  destruct (_ && _); [right; apply I, H|exact H].
Qed.
Lemma merge_starts : forall ds ws q, Forall spread_cdf ds -> merge_cdf ds ws = Ok q -> starts (fun x => exists p, In p ds /\ knot_of p x) q.
Proof.
  intros ds ws q Sp E. unfold merge_cdf in E. destruct (Qltb tiny (Qabs (Qsum ws - 1))); [discriminate|]. set (dws := combine ds ws) in *. cbv zeta in E.
  destruct (sweep _ (lower_events dws) (upper_events dws) 0 0 [(RR, FConst 0)]) as [out|] eqn:Es; [|discriminate]. cbn [bind] in E.
  assert (In1 : forall p w, In (p, w) dws -> In p ds) by (intros p w H; unfold dws in H; apply in_combine_l in H; exact H).
  assert (Nj : forall js, jumps dws = js -> js = []).
  { intros js <-. unfold jumps. assert (G : forall l js, (forall p w, In (p, w) l -> In p ds) -> fold_left (fun js (dw : plf * Q) => match fst dw with [(i, _); _] => jump_add (upper i) (snd dw) js | _ => js end) l js = js).
    { induction l as [|[p w] l IH]; intros js H; cbn [fold_left fst snd]; [reflexivity|]. rewrite IH by (intros p' w' I; apply (H p' w'); right; exact I).
      rewrite Forall_forall in Sp. pose proof (sp_len p (Sp p (H p w (or_introl eq_refl)))) as Ln. destruct p as [|[a b] [|s [|s' p]]]; try reflexivity. cbn in Ln. lia. }
    apply G. exact In1. }
  assert (Kn : forall b, (b = lower \/ b = upper) -> forall e, In e (pieces_of b dws) -> exists p, In p ds /\ knot_of p (fst e)).
  { intros b Hb e I. unfold pieces_of in I. apply in_flat_map in I. destruct I as ([p w] & Ip & I). cbn [fst snd] in I. destruct (Qltb 0 w); [|destruct I].
    apply in_map_iff in I. destruct I as ([i f] & <- & I). apply filter_In in I. destruct I as [I C]. cbn [fst snd] in C |- *. exists p. split; [exact (In1 p w Ip)|].
    pose proof (sp_affine p (proj1 (Forall_forall _ _) Sp p (In1 p w Ip))) as Af. unfold affines in Af. rewrite Forall_forall in Af. specialize (Af _ I). cbn [snd] in Af.
    destruct f as [|v|m k|]; cbn in Af; try contradiction; [discriminate C|]. exists i, m, k. split; [exact I|]. destruct Hb as [->| ->]; auto. }
  assert (St : starts (fun x => exists p, In p ds /\ knot_of p x) out).
  { refine (sweep_starts _ _ _ _ _ _ _ _ Es _ _).
    - intros x [X|X]; apply in_map_iff in X; destruct X as (e & <- & I).
      + unfold lower_events in I. apply (Permutation.Permutation_in e (Permutation.Permutation_sym (sort_t_perm fst _))) in I. rewrite (Nj _ eq_refl) in I. cbn [filter map] in I. rewrite app_nil_r in I. exact (Kn lower (or_introl eq_refl) e I).
      + unfold upper_events in I. apply (Permutation.Permutation_in e (Permutation.Permutation_sym (sort_t_perm fst _))) in I. exact (Kn upper (or_intror eq_refl) e I).
    - intros s [<-|[]]. left. reflexivity. }
  assert (St' : starts (fun x => exists p, In p ds /\ knot_of p x) (drop_tail out)) by (intros s I; apply St, drop_tail_incl, I).
  destruct (ensure_right_one (drop_tail out)) as [out2|] eqn:Er; [|discriminate]. cbn [bind] in E. injection E as <-. intros s I. apply in_rev in I.
  unfold ensure_right_one in Er. destruct (drop_tail out) as [|[i f] o]; [discriminate|]. destruct (fn_intersection f (FConst 1)) as [x|]; [|discriminate]. cbn [bind] in Er.
  destruct x; injection Er as <-; first [exact (St' s I)|destruct I as [<-|I]; [exact (St' (i, f) (or_introl eq_refl))|apply St'; right; exact I]].
Qed.

Lemma merge_wide : forall ds ws q, Forall spread_cdf ds -> spread_cdf q -> merge_cdf ds ws = Ok q -> spaced (fun p => In p ds) -> wide q.
Proof.
  intros ds ws q Sp Sq E Sep i m k I. pose proof (merge_starts ds ws q Sp E) as St. pose proof (sp_chain q Sq) as C.
  pose proof (sp_rise q Sq) as R. rewrite Forall_forall in R. destruct (R _ I) as (_ & Fl & Fu). cbn [fst] in Fl, Fu. unfold finite in Fl, Fu.
  destruct (chain_next q _ _ i _ C I) as (pre & j & g & post & Eq & Ej); [lia|].
  assert (Lt : (lower i < upper i)%Z). { rewrite Eq in C. apply chain_app_inv in C. destruct C as (b & _ & Ei & Li & _). rewrite Ei. cbn [lower upper]. lia. }
  assert (Ij : In (j, g) q) by (rewrite Eq; apply in_or_app; right; right; left; reflexivity).
  destruct (St _ I) as [A|(p & Ip & Kp)]; cbn [fst] in *; [lia|]. destruct (St _ Ij) as [A|(p' & Ip' & Kp')]; cbn [fst] in *; [lia|].
  pose proof (Sep p p' _ _ Ip Ip' Kp Kp'). lia.
Qed.
Lemma spaced_wide : forall P p, spread_cdf p -> spaced P -> P p -> wide p.
Proof.
  intros P p Sp Sep Pp i m k I. pose proof (sp_chain p Sp) as C. destruct (in_split _ _ I) as (pre & post & E). rewrite E in C. apply chain_app_inv in C. destruct C as (b & _ & Ei & Li & _).
  assert (Lt : (lower i < upper i)%Z) by (rewrite Ei; cbn [lower upper]; lia).
  pose proof (Sep p p (lower i) (upper i) Pp Pp ltac:(exists i, m, k; auto) ltac:(exists i, m, k; auto)). lia.
Qed.

(** The moments of a mixture are the mixture of the moments. *)
Lemma moment_merge : forall ds ws n c, length ds = length ws -> Forall (fun p => spread_cdf p /\ tiling p) ds -> Forall (fun w => 0 <= w) ws ->
  Qsum ws == 1 -> grained ds ws -> spaced (fun p => In p ds) ->
  exists q M, merge_cdf ds ws = Ok q /\ spread_cdf q /\ tiling q /\ wide q /\ moment_of q n c = Ok M /\
    forall Ms, Forall2 (fun p T => moment_is p n c T) ds Ms -> M == mixture ws Ms.
Proof.
  intros ds ws n c L Ds Wn W1 Gr Sep. destruct (merge_closed ds ws L Ds Wn W1 Gr) as (q & E & Sq & Tq).
  assert (Sm : Forall seamless ds) by (eapply Forall_impl; [|exact Ds]; right; assumption).
  destruct (C25_mixture_partial ds ws L Sm Wn W1 Gr) as (q' & lo & hi & E' & _ & V). rewrite E in E'. injection E' as <-.
  assert (Sp : Forall spread_cdf ds) by (eapply Forall_impl; [|exact Ds]; intros p [A _]; exact A).
  pose proof (merge_wide ds ws q Sp Sq E Sep) as Wq. destruct (moment_exact q n c Sq Tq Wq) as (M & Em & Ea & _ & _).
  exists q, M. repeat (split; [assumption|]). intros Ms F. rewrite Ea, (area_merge ds ws q n c L Ds Sq Tq V).
  assert (Ar : Forall2 (fun p T => T == area n c p) ds Ms).
  { clear - F Ds Sep. assert (G : forall p, In p ds -> wide p) by (intros p I; apply (spaced_wide (fun p => In p ds)); [rewrite Forall_forall in Ds; apply (Ds p I)|exact Sep|exact I]). clear Sep.
    induction F as [|p T ds Ms H F IH]; constructor; [|apply IH; [exact (Forall_inv_tail Ds)|intros; apply G; right; assumption]].
    destruct (Forall_inv Ds) as [Sp Tp]. destruct (moment_exact p n c Sp Tp (G p (or_introl eq_refl))) as (M & _ & Ea & _ & U). rewrite (U T H). exact Ea. }
  clear - Ar L. revert ws L. unfold mixture. induction Ar as [|p T ds Ms H _ IH]; intros [|w ws] L; cbn in L; try discriminate; [reflexivity|]. cbn [map combine Qsum fst snd]. rewrite IH by lia. rewrite H. reflexivity.
Qed.
