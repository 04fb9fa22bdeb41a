(** Moments of numeric distributions are integrals against the cdf. *)
Require Import ZArith QArith Qabs Qminmax Qpower Qround Qfield Lqa Bool List Arith Lia.
Require Import Verif.Base Verif.FloatLine Verif.FloatVal Verif.IntervalModel Verif.IntervalSpec Verif.IntervalProofs
  Verif.NumBase Verif.UtilModel Verif.FunctionModel Verif.FunctionSpec
  Verif.FunctionProofs Verif.FunctionPlf Verif.FunctionInt Verif.NumericModel Verif.NumericSpec Verif.NumericFit Verif.NumericProb.
Import ListNotations.
Open Scope Q_scope.

(** ** Specification

    Riemann-Stieltjes sums of [h] against the cdf [p] over [[s, u]]: [g] is below (above)
    [h] on a cell of the partition and counts with the mass of the cell. *)
Inductive lower_sum (p : plf) (h : Q -> Q) : Q -> Q -> Q -> Prop :=
| ls_nil : forall s u, s == u -> lower_sum p h s u 0
| ls_cons : forall s t u g ys yt S, s <= t -> cdf_real p s ys -> cdf_real p t yt -> (forall x, s <= x <= t -> g <= h x) ->
    lower_sum p h t u S -> lower_sum p h s u (g * (yt - ys) + S).
Inductive upper_sum (p : plf) (h : Q -> Q) : Q -> Q -> Q -> Prop :=
| us_nil : forall s u, s == u -> upper_sum p h s u 0
| us_cons : forall s t u g ys yt S, s <= t -> cdf_real p s ys -> cdf_real p t yt -> (forall x, s <= x <= t -> h x <= g) ->
    upper_sum p h t u S -> upper_sum p h s u (g * (yt - ys) + S).

(** [T] lies between all sums over intervals from a point where the cdf is 0 to [hi]. *)
Definition integral (p : plf) (h : Q -> Q) (hi T : Q) : Prop :=
  forall s, cdf_real p s 0 -> (forall S, lower_sum p h s hi S -> S <= T) /\ (forall S, upper_sum p h s hi S -> T <= S).

(** [(x - c)^r] *)
Definition deviation (c : Q) (r : nat) (x : Q) : Q := (x - c) ^ Z.of_nat r.

(** Rising pieces of a cdf may extend beyond the point [hi] where it reaches 1 (the last
    piece of a fitted cdf does, by one double); the mass they have there in excess. *)
Definition excess (p : plf) (hi : Q) : Q :=
  Qsum (map (fun s : cs * fn => steepness (snd s) * Qmax 0 (dval (upper (fst s)) - hi)) p).
Definition reach (p : plf) (x : Q) : Prop := exists i f, In (i, f) p /\ 0 < steepness f /\ x <= dval (upper i).

(** Every rising piece contains two doubles. *)
Definition wide (p : plf) : Prop := forall i m c, In (i, FLin m c) p -> (lower i + 1 < upper i)%Z.

(** ** Powers *)

Lemma pw_S : forall x n, x ^ Z.of_nat (S n) == x * x ^ Z.of_nat n.
Proof. intros x n. rewrite Nat2Z.inj_succ, <- Z.add_1_r. rewrite (Qpower_plus' x (Z.of_nat n) 1) by lia. change (x ^ 1) with x. ring. Qed.
Lemma pw_0 : forall x, x ^ Z.of_nat 0 == 1.
Proof. reflexivity. Qed.
Lemma pw_wd : forall x y n, x == y -> x ^ Z.of_nat n == y ^ Z.of_nat n.
Proof. intros x y n E. rewrite E. reflexivity. Qed.
Lemma pw_nonneg : forall x n, 0 <= x -> 0 <= x ^ Z.of_nat n.
Proof. intros x n X. induction n as [|n I]; [change (0 <= 1); lra|]. rewrite pw_S. apply Qmult_le_0_compat; assumption. Qed.
Lemma pw_mono : forall a b n, 0 <= a -> a <= b -> a ^ Z.of_nat n <= b ^ Z.of_nat n.
Proof.
  intros a b n A L. induction n as [|n I]; [change (1 <= 1); lra|]. rewrite !pw_S.
  apply Qle_trans with (b * a ^ Z.of_nat n).
  - apply Qmult_le_compat_r; [exact L|apply pw_nonneg, A].
  - rewrite (Qmult_comm b), (Qmult_comm b). apply Qmult_le_compat_r; [exact I|lra].
Qed.
Lemma pw_neg : forall n, (forall x, (- x) ^ Z.of_nat n == x ^ Z.of_nat n) \/ (forall x, (- x) ^ Z.of_nat n == - x ^ Z.of_nat n).
Proof.
  induction n as [|n [I|I]].
  - left. intro. reflexivity.
  - right. intro x. rewrite !pw_S, I. ring.
  - left. intro x. rewrite !pw_S, I. ring.
Qed.
Lemma Qn_SS : forall n, Qn (S n) == Qn n + 1.
Proof. intro n. unfold Qn. rewrite Nat2Z.inj_succ. unfold Z.succ. rewrite inject_Z_plus. reflexivity. Qed.
Lemma Qn_0 : Qn 0 == 0. Proof. reflexivity. Qed.
Lemma Qn_pos : forall n, 0 < Qn (S n).
Proof. intro n. unfold Qn. rewrite <- (Qmult_1_l 0). unfold Qlt. cbn. lia. Qed.

Lemma diff_bounds : forall n a b, 0 <= a -> a <= b ->
  Qn (S n) * a ^ Z.of_nat n * (b - a) <= b ^ Z.of_nat (S n) - a ^ Z.of_nat (S n) <= Qn (S n) * b ^ Z.of_nat n * (b - a).
Proof.
  induction n as [|n I]; intros a b A L.
  - rewrite (pw_S a 0), (pw_S b 0). change (a ^ Z.of_nat 0) with 1. change (b ^ Z.of_nat 0) with 1. change (Qn 1) with 1. split; lra.
  - destruct (I a b A L) as [I1 I2]. pose proof (pw_nonneg a n A) as Pa. pose proof (pw_nonneg b n (Qle_trans _ _ _ A L)) as Pb. pose proof (Qn_pos n) as N.
    rewrite (pw_S b (S n)), (pw_S a (S n)). rewrite (Qn_SS (S n)). rewrite (pw_S a n), (pw_S b n) in *.
    set (x := a ^ Z.of_nat n) in *. set (y := b ^ Z.of_nat n) in *. set (k := Qn (S n)) in *. clearbody x y k. clear I. split.
    + assert (E : b * (b * y) - a * (a * x) == b * (b * y - a * x) + a * x * (b - a)) by ring. rewrite E. clear E.
      assert (H : b * (k * x * (b - a)) <= b * (b * y - a * x)) by (rewrite (Qmult_comm b), (Qmult_comm b (b * y - _)); apply Qmult_le_compat_r; lra).
      assert (H2 : a * (k * x * (b - a)) <= b * (k * x * (b - a))).
      { apply Qmult_le_compat_r; [exact L|]. apply Qmult_le_0_compat; [apply Qmult_le_0_compat; lra|lra]. }
      lra.
    + assert (E : b * (b * y) - a * (a * x) == b * y * (b - a) + a * (b * y - a * x)) by ring. rewrite E. clear E.
      assert (H : a * (b * y - a * x) <= a * (k * y * (b - a))) by (rewrite (Qmult_comm a), (Qmult_comm a (k * _ * _)); apply Qmult_le_compat_r; lra).
      assert (H2 : a * (k * y * (b - a)) <= b * (k * y * (b - a))).
      { apply Qmult_le_compat_r; [exact L|]. apply Qmult_le_0_compat; [apply Qmult_le_0_compat; lra|lra]. }
      lra.
Qed.

(** The antiderivative of [x^n]. *)
Definition prim (n : nat) (x : Q) : Q := x ^ Z.of_nat (S n) / Qn (S n).
Lemma prim_wd : forall n x y, x == y -> prim n x == prim n y.
Proof. intros n x y E. unfold prim. rewrite (pw_wd x y _ E). reflexivity. Qed.
Lemma prim_eq : forall n a b, prim n b - prim n a == (b ^ Z.of_nat (S n) - a ^ Z.of_nat (S n)) / Qn (S n).
Proof. intros n a b. unfold prim. pose proof (Qn_pos n). field. lra. Qed.

Lemma cell_pos : forall n a b, 0 <= a -> a <= b -> a ^ Z.of_nat n * (b - a) <= prim n b - prim n a <= b ^ Z.of_nat n * (b - a).
Proof.
  intros n a b A L. destruct (diff_bounds n a b A L) as [D1 D2]. pose proof (Qn_pos n) as N. rewrite prim_eq. split.
  - apply Qle_shift_div_l; [exact N|]. lra.
  - apply Qle_shift_div_r; [exact N|]. lra.
Qed.
Definition below_on (n : nat) (a b g : Q) : Prop := forall x, a <= x <= b -> g <= x ^ Z.of_nat n.
Definition above_on (n : nat) (a b g : Q) : Prop := forall x, a <= x <= b -> x ^ Z.of_nat n <= g.

Lemma mul_le_r : forall g x w, 0 <= w -> g <= x -> g * w <= x * w.
Proof. intros. apply Qmult_le_compat_r; assumption. Qed.

Lemma cell_signed : forall n a b g, a <= b -> 0 <= a \/ b <= 0 ->
  (below_on n a b g -> g * (b - a) <= prim n b - prim n a) /\ (above_on n a b g -> prim n b - prim n a <= g * (b - a)).
Proof.
  intros n a b g L [A|B].
  - destruct (cell_pos n a b A L) as [C1 C2]. split; intro H.
    + eapply Qle_trans; [|exact C1]. apply mul_le_r; [lra|]. apply H. lra.
    + eapply Qle_trans; [exact C2|]. apply mul_le_r; [lra|]. apply H. lra.
  - destruct (cell_pos n (- b) (- a)) as [C1 C2]; [lra|lra|].
    pose proof (pw_neg n) as [P|P].
    + assert (E : prim n (- a) - prim n (- b) == prim n b - prim n a).
      { unfold prim. rewrite !pw_S, !P. pose proof (Qn_pos n). field. lra. }
      rewrite E in C1, C2. rewrite (P b) in C1. rewrite (P a) in C2. split; intro H.
      * eapply Qle_trans; [|eapply Qle_trans; [|exact C1]]; [|apply Qle_refl].
        assert (X : g * (b - a) <= b ^ Z.of_nat n * (b - a)) by (apply mul_le_r; [lra|apply H; lra]).
        eapply Qle_trans; [exact X|]. apply Qle_lteq. right. ring.
      * assert (X : a ^ Z.of_nat n * (b - a) <= g * (b - a)) by (apply mul_le_r; [lra|apply H; lra]).
        eapply Qle_trans; [exact C2|]. eapply Qle_trans; [|exact X]. apply Qle_lteq. right. ring.
    + assert (E : prim n (- a) - prim n (- b) == - (prim n b - prim n a)).
      { unfold prim. rewrite !pw_S, !P. pose proof (Qn_pos n). field. lra. }
      rewrite E in C1, C2. rewrite (P b) in C1. rewrite (P a) in C2. split; intro H.
      * assert (X : g * (b - a) <= a ^ Z.of_nat n * (b - a)) by (apply mul_le_r; [lra|apply H; lra]). lra.
      * assert (X : b ^ Z.of_nat n * (b - a) <= g * (b - a)) by (apply mul_le_r; [lra|apply H; lra]). lra.
Qed.
Lemma cell : forall n a b g, a <= b ->
  (below_on n a b g -> g * (b - a) <= prim n b - prim n a) /\ (above_on n a b g -> prim n b - prim n a <= g * (b - a)).
Proof.
  intros n a b g L. destruct (Qlt_le_dec a 0) as [A|A]; [|apply cell_signed; [exact L|left; exact A]].
  destruct (Qlt_le_dec 0 b) as [B|B]; [|apply cell_signed; [exact L|right; exact B]].
  destruct (cell_signed n a 0 g) as [L1 U1]; [lra|right; lra|]. destruct (cell_signed n 0 b g) as [L2 U2]; [lra|left; lra|].
  split; intro H.
  - assert (X1 := L1 (fun x X => H x ltac:(lra))). assert (X2 := L2 (fun x X => H x ltac:(lra))). lra.
  - assert (X1 := U1 (fun x X => H x ltac:(lra))). assert (X2 := U2 (fun x X => H x ltac:(lra))). lra.
Qed.

(** ** Mass and area up to a point *)

Definition clip (a b x : Q) : Q := Qmax a (Qmin x b).
Lemma clip_low : forall a b x, a <= b -> x <= a -> clip a b x == a.
Proof. intros a b x L X. unfold clip. apply Q.max_l. eapply Qle_trans; [apply Q.le_min_l|exact X]. Qed.
Lemma clip_high : forall a b x, a <= b -> b <= x -> clip a b x == b.
Proof. intros a b x L X. unfold clip. rewrite (Q.min_r x b X). apply Q.max_r. exact L. Qed.
Lemma clip_mid : forall a b x, a <= x -> x <= b -> clip a b x == x.
Proof. intros a b x L X. unfold clip. rewrite (Q.min_l x b X). apply Q.max_r. exact L. Qed.
Lemma clip_range : forall a b x, a <= b -> a <= clip a b x <= b.
Proof. intros a b x L. unfold clip. split; [apply Q.le_max_l|]. apply Q.max_lub; [exact L|apply Q.le_min_r]. Qed.
Lemma clip_cases : forall a b x, a <= b -> (x <= a /\ clip a b x == a) \/ (a <= x <= b /\ clip a b x == x) \/ (b <= x /\ clip a b x == b).
Proof.
  intros a b x L. destruct (Qlt_le_dec x a) as [A|A]; [left; split; [lra|apply clip_low; lra]|].
  destruct (Qlt_le_dec b x) as [B|B]; [right; right; split; [lra|apply clip_high; lra]|right; left; split; [lra|apply clip_mid; lra]].
Qed.
Lemma clip_step : forall a b s t, a <= b -> s <= t ->
  clip a b s <= clip a b t /\ (clip a b s == clip a b t \/ (s <= clip a b s /\ clip a b t <= t)).
Proof.
  intros a b s t L H. destruct (clip_cases a b s L) as [(A & E)|[(A & E)|(A & E)]], (clip_cases a b t L) as [(B & G)|[(B & G)|(B & G)]]; rewrite E, G; (split; [lra|]); lra.
Qed.

Notation seg := (cs * fn)%type.
Definition rise (s : seg) : Q := steepness (snd s).
Definition beg (s : seg) : Q := dval (lower (fst s)).
Definition fin (s : seg) : Q := dval (upper (fst s)).
Definition upto (s : seg) (t : Q) : Q := clip (beg s) (fin s) t.
Lemma upto_step : forall e s t, beg e <= fin e -> s <= t -> upto e s <= upto e t /\ (upto e s == upto e t \/ (s <= upto e s /\ upto e t <= t)).
Proof. intros e s t. apply clip_step. Qed.
Definition massto (p : plf) (t : Q) : Q := Qsum (map (fun s => rise s * (upto s t - beg s)) p).
Definition areato (n : nat) (c : Q) (p : plf) (t : Q) : Q := Qsum (map (fun s => rise s * (prim n (upto s t - c) - prim n (beg s - c))) p).

Definition joined (p : plf) (hi : Z) : Prop := forall pre i f j g post, p = pre ++ (i, f) :: (j, g) :: post -> (upper i <= hi)%Z ->
  exists y, fn_is f (dval (upper i)) y /\ fn_is g (dval (upper i)) y.
Lemma joined_tail : forall s p hi, joined (s :: p) hi -> joined p hi.
Proof. intros s p hi J pre i f j g post E. apply (J (s :: pre) i f j g post). rewrite E. reflexivity. Qed.
Lemma is_height : forall f x y, affine f -> fn_is f x y -> height f x == y.
Proof.
  intros f x y A (v & E & V). destruct f; cbn in A, E; try contradiction; injection E as <-; unfold height; cbn [steepness]; rewrite <- V; ring.
Qed.
Lemma height_step : forall f x y, height f y == height f x + steepness f * (y - x).
Proof. intros f x y. unfold height. ring. Qed.

Lemma chain_beg : forall p a b s, chain a p b -> In s p -> (a <= lower (fst s) < upper (fst s))%Z /\ (upper (fst s) <= b)%Z.
Proof. intros p a b [i f] C I. destruct (chain_in _ _ _ _ _ C I) as (A & B & _). split; assumption. Qed.

Lemma mass_before : forall p a b t, chain a p b -> t <= dval a -> massto p t == 0.
Proof.
  intros p a b t C T. unfold massto. apply Qsum_map_zero. intros s I. destruct (chain_beg _ _ _ _ C I) as [[A B] _].
  unfold upto. rewrite clip_low; [ring|apply dval_le; lia|]. apply Qle_trans with (dval a); [exact T|apply dval_le; lia].
Qed.

Lemma height_mass : forall p a b hi y0, chain a p b -> affines p -> joined p hi -> (- ORD_INF < a)%Z -> (hi < ORD_INF)%Z ->
  (match p with [] => True | (i, f) :: _ => height f (dval a) == y0 end) ->
  forall i f t, In (i, f) p -> real_mem t i -> t <= dval hi -> height f t == y0 + massto p t.
Proof.
  induction p as [|[i0 f0] p IH]; intros a b hi y0 C Af Jn A0 Hi H0 i f t I M T; [destruct I|].
  destruct C as (E0 & L0 & C). inversion Af as [|? ? Af0 Af']. subst. cbn [snd] in Af0.
  assert (El : lower i0 = a) by (rewrite E0; reflexivity). assert (Elf : left i0 = INC) by (rewrite E0; cbn [left]; destruct (Z.eqb_spec a (- ORD_INF)); [lia|reflexivity]). assert (Er : right i0 = EXC) by (rewrite E0; reflexivity).
  change (massto ((i0, f0) :: p) t) with (rise (i0, f0) * (upto (i0, f0) t - beg (i0, f0)) + massto p t).
  unfold rise, upto, beg, fin. cbn [fst snd]. rewrite El. assert (Lq : dval a <= dval (upper i0)) by (apply dval_le; lia).
  destruct I as [I|I].
  - injection I as <- <-. destruct M as [M1 M2]. rewrite El, Elf in M1. rewrite Er in M2.
    assert (Ta : dval a <= t) by (destruct M1; [lia|assumption]).
    assert (Tb : t <= dval (upper i0)).
    { destruct M2 as [M2|M2]; [|lra]. apply Qle_trans with (dval hi); [exact T|]. apply dval_le. lia. }
    rewrite clip_mid by assumption. rewrite (mass_before p (upper i0) b t C Tb), (height_step f0 (dval a) t), H0. ring.
  - pose proof (chain_beg _ _ _ _ C I) as [[Bi1 Bi2] _]. cbn [fst] in Bi1, Bi2.
    assert (Et : dval (upper i0) <= t).
    { destruct M as [M1 _]. pose proof (chain_in _ _ _ _ _ C I) as (_ & _ & K). destruct M1 as [M1|M1]; [lia|].
      apply Qle_trans with (dval (lower i)); [apply dval_le; lia|]. destruct (left i); lra. }
    assert (Uh : (upper i0 <= hi)%Z) by (apply dval_le_iff; lra).
    rewrite clip_high by assumption.
    rewrite (IH (upper i0) b hi (height f0 (dval (upper i0))) C Af' (joined_tail _ _ _ Jn) ltac:(lia) Hi) with (i := i) (f := f) (t := t); try assumption.
    + rewrite (height_step f0 (dval a) (dval (upper i0))), H0. ring.
    + destruct p as [|[j g] p]; [trivial|]. destruct (Jn [] i0 f0 j g p eq_refl Uh) as (y & Y1 & Y2).
      inversion Af' as [|? ? Ag _]. cbn [snd] in Ag. rewrite (is_height _ _ _ Af0 Y1). apply (is_height _ _ _ Ag Y2).
Qed.

Lemma cdf_mass : forall p hi t y, chain (- ORD_INF) p ORD_INF -> affines p -> (exists i r, p = (i, FConst 0) :: r /\ r <> []) ->
  joined p hi -> (hi < ORD_INF)%Z -> cdf_real p t y -> t <= dval hi -> y == massto p t.
Proof.
  intros p hi t y C Af (i0 & r & -> & Nr) Jn Hi (i & f & I & M & Y) T. destruct C as (E0 & L0 & C). inversion Af as [|? ? _ Af']. subst.
  change (massto ((i0, FConst 0) :: r) t) with (0 * (upto (i0, FConst 0) t - beg (i0, FConst 0)) + massto r t).
  assert (Ui : (upper i0 < ORD_INF)%Z).
  { destruct r as [|[j g] r]; [contradiction|]. destruct C as (_ & L1 & C1). pose proof (chain_le _ _ _ C1). lia. }
  destruct I as [I|I].
  - injection I as <- <-. rewrite <- Y. unfold height. cbn [steepness]. destruct M as [_ M2]. rewrite E0 in M2. cbn [right upper] in M2.
    rewrite (mass_before r (upper i0) ORD_INF t C); [ring|]. destruct M2; [lia|lra].
  - assert (Uh : (upper i0 <= hi)%Z).
    { pose proof (chain_beg _ _ _ _ C I) as [[B1 _] _]. cbn [fst] in B1. destruct M as [[M1|M1] _]; [lia|].
      apply dval_le_iff. apply Qle_trans with (dval (lower i)); [apply dval_le; lia|]. destruct (left i); lra. }
    rewrite <- Y. rewrite (height_mass r (upper i0) ORD_INF hi 0 C Af' (joined_tail _ _ _ Jn) ltac:(lia) Hi) with (i := i) (f := f) (t := t); try assumption; [ring|].
    destruct r as [|[j g] r]; [trivial|]. destruct (Jn [] i0 (FConst 0) j g r eq_refl Uh) as (z & Z1 & Z2). inversion Af' as [|? ? Ag _]. cbn [snd] in Ag.
    rewrite (is_height _ _ _ Ag Z2). symmetry. rewrite <- (is_height (FConst 0) _ _ Logic.I Z1). unfold height. cbn. ring.
Qed.

(** ** Sums *)

Section Sums.
  Variables (p : plf) (n : nat) (c : Q).
  Hypothesis Order : forall s, In s p -> beg s <= fin s.
  Hypothesis Up : forall s, In s p -> 0 <= rise s.

  Lemma below_cell : forall s t g, s <= t -> (forall x, s <= x <= t -> g <= deviation c n x) ->
    g * (massto p t - massto p s) <= areato n c p t - areato n c p s.
  Proof.
    intros s t g L H. unfold massto, areato. rewrite <- !Qsum_map_minus, <- Qsum_map_scale. apply Qsum_map_le. intros e I.
    assert (E1 : g * (rise e * (upto e t - beg e) - rise e * (upto e s - beg e)) == rise e * (g * ((upto e t - c) - (upto e s - c)))) by ring.
    assert (E2 : rise e * (prim n (upto e t - c) - prim n (beg e - c)) - rise e * (prim n (upto e s - c) - prim n (beg e - c)) == rise e * (prim n (upto e t - c) - prim n (upto e s - c))) by ring.
    rewrite E1, E2. clear E1 E2. rewrite (Qmult_comm (rise e)), (Qmult_comm (rise e) (prim n _ - _)). apply Qmult_le_compat_r; [|apply Up, I].
    destruct (upto_step e s t (Order e I) L) as [S1 [S2|[S2 S3]]].
    - rewrite (prim_wd n (upto e t - c) (upto e s - c)) by lra. setoid_replace (upto e t - c - (upto e s - c)) with 0 by lra. lra.
    - apply (proj1 (cell n (upto e s - c) (upto e t - c) g ltac:(lra))). intros x X. specialize (H (x + c) ltac:(lra)). unfold deviation in H.
      rewrite (pw_wd (x + c - c) x) in H by ring. exact H.
  Qed.
  Lemma above_cell : forall s t g, s <= t -> (forall x, s <= x <= t -> deviation c n x <= g) ->
    areato n c p t - areato n c p s <= g * (massto p t - massto p s).
  Proof.
    intros s t g L H. unfold massto, areato. rewrite <- !Qsum_map_minus, <- Qsum_map_scale. apply Qsum_map_le. intros e I.
    assert (E1 : g * (rise e * (upto e t - beg e) - rise e * (upto e s - beg e)) == rise e * (g * ((upto e t - c) - (upto e s - c)))) by ring.
    assert (E2 : rise e * (prim n (upto e t - c) - prim n (beg e - c)) - rise e * (prim n (upto e s - c) - prim n (beg e - c)) == rise e * (prim n (upto e t - c) - prim n (upto e s - c))) by ring.
    rewrite E1, E2. clear E1 E2. rewrite (Qmult_comm (rise e)), (Qmult_comm (rise e) (g * _)). apply Qmult_le_compat_r; [|apply Up, I].
    destruct (upto_step e s t (Order e I) L) as [S1 [S2|[S2 S3]]].
    - rewrite (prim_wd n (upto e t - c) (upto e s - c)) by lra. setoid_replace (upto e t - c - (upto e s - c)) with 0 by lra. lra.
    - apply (proj2 (cell n (upto e s - c) (upto e t - c) g ltac:(lra))). intros x X. specialize (H (x + c) ltac:(lra)). unfold deviation in H.
      rewrite (pw_wd (x + c - c) x) in H by ring. exact H.
  Qed.

  Lemma upto_wd : forall e s t, s == t -> upto e s == upto e t.
  Proof. intros e s t E. unfold upto, clip. rewrite E. reflexivity. Qed.
  Lemma area_wd : forall s t, s == t -> areato n c p s == areato n c p t.
  Proof.
    intros s t E. unfold areato. apply Qsum_map_ext. intros e _. rewrite (prim_wd n (upto e s - c) (upto e t - c)); [reflexivity|]. rewrite (upto_wd e s t E). reflexivity.
  Qed.

  Variable hi : Q.
  Hypothesis Rep : forall t y, cdf_real p t y -> t <= hi -> y == massto p t.

  Lemma lower_bound : forall s u S, lower_sum p (deviation c n) s u S -> u <= hi -> s <= u /\ S <= areato n c p u - areato n c p s.
  Proof.
    intros s u S H. induction H as [s u E|s t u g ys yt S L Cs Ct B H IH]; intro U.
    - split; [lra|]. rewrite (area_wd s u E). lra.
    - destruct (IH U) as [I1 I2]. split; [lra|]. rewrite (Rep s ys Cs), (Rep t yt Ct) by lra. pose proof (below_cell s t g L B). lra.
  Qed.
  Lemma upper_bound : forall s u S, upper_sum p (deviation c n) s u S -> u <= hi -> s <= u /\ areato n c p u - areato n c p s <= S.
  Proof.
    intros s u S H. induction H as [s u E|s t u g ys yt S L Cs Ct B H IH]; intro U.
    - split; [lra|]. rewrite (area_wd s u E). lra.
    - destruct (IH U) as [I1 I2]. split; [lra|]. rewrite (Rep s ys Cs), (Rep t yt Ct) by lra. pose proof (above_cell s t g L B). lra.
  Qed.
  (** Nothing lies before a point where the cdf is 0. *)
  Lemma area_zero : forall s, massto p s == 0 -> areato n c p s == 0.
  Proof.
    intros s Z. unfold areato. apply Qsum_map_zero. intros e I. unfold massto in Z.
    assert (N : Forall (fun y => 0 <= y) (map (fun s0 => rise s0 * (upto s0 s - beg s0)) p)).
    { apply Forall_forall. intros y Y. apply in_map_iff in Y. destruct Y as (k & <- & K). apply Qmult_le_0_compat; [apply Up, K|]. pose proof (clip_range (beg k) (fin k) s (Order k K)). unfold upto. lra. }
    pose proof (Qsum_zero_all _ N Z (rise e * (upto e s - beg e)) (in_map (fun s0 => rise s0 * (upto s0 s - beg s0)) _ _ I)) as X.
    destruct (Qmult_integral _ _ X) as [X1|X1]; [rewrite X1; ring|]. rewrite (prim_wd n (upto e s - c) (beg e - c)); [ring|lra].
  Qed.
  Lemma area_integral : integral p (deviation c n) hi (areato n c p hi).
  Proof.
    intros s Zs. split; intros S H.
    - destruct (lower_bound _ _ _ H (Qle_refl _)) as [L B]. rewrite (area_zero s) in B; [lra|]. symmetry. apply Rep; assumption.
    - destruct (upper_bound _ _ _ H (Qle_refl _)) as [L B]. rewrite (area_zero s) in B; [lra|]. symmetry. apply Rep; assumption.
  Qed.
End Sums.

(** ** The computed moment *)

Definition area (n : nat) (c : Q) (p : plf) : Q := Qsum (map (fun s => rise s * (prim n (fin s - c) - prim n (beg s - c))) p).

Lemma sum_res_ok : forall A (f : A -> res Q) (g : A -> Q) l, (forall x, In x l -> exists v, f x = Ok v /\ v == g x) ->
  exists V, sum_res (map f l) = Ok V /\ V == Qsum (map g l).
Proof.
  intros A f g l. induction l as [|x l I]; intro H; [exists 0; split; reflexivity|].
  destruct (H x (or_introl eq_refl)) as (v & E & V), (I (fun y Y => H y (or_intror Y))) as (W & E' & V').
  exists (v + W). cbn [map sum_res]. rewrite E, E'. cbn [bind]. split; [reflexivity|]. cbn [Qsum]. rewrite V, V'. reflexivity.
Qed.
Lemma spread_split : forall p, spread_cdf p -> exists i q j v, p = (i, FConst 0) :: q ++ [(j, FConst v)] /\ upper j = ORD_INF /\ q <> [].
Proof.
  intros p [C Af Len (i & r & E) R Sm Pr]. subst p. destruct (exists_last (l := r)) as (q & [j f] & ->).
  { intros ->. cbn in Len. lia. }
  exists i, q, j. assert (U : upper j = ORD_INF).
  { destruct (chain_app_inv ((i, FConst 0) :: q) [(j, f)] _ _ C) as (b & _ & _ & _ & X). exact X. }
  assert (Ij : In (j, f) ((i, FConst 0) :: q ++ [(j, f)])) by (right; apply in_or_app; right; left; reflexivity).
  unfold affines in Af. rewrite Forall_forall in Af, R. specialize (Af _ Ij). specialize (R _ Ij). cbn [snd fst] in Af, R. destruct f as [|v|m k|]; cbn in Af; try contradiction.
  - exists v. split; [reflexivity|]. split; [exact U|]. intros ->. cbn in Len. lia.
  - exfalso. destruct R as (_ & _ & F). unfold finite in F. pose proof ord_facts. lia.
Qed.
Lemma middle_spec : forall A (a : A) l b, middle (a :: l ++ [b]) = l.
Proof. intros A a l b. unfold middle. cbn [tl]. apply removelast_last. Qed.

Lemma moment_area : forall p n c, spread_cdf p -> wide p -> exists M, moment_of p n c = Ok M /\ M == area n c p.
Proof.
  intros p n c Sp W. pose proof (density_spec p (sp_affine p Sp) (sp_len p Sp)) as D. unfold moment_of. rewrite D. cbn [bind].
  assert (Nd : is_dirac p = false). { unfold is_dirac. apply Nat.eqb_neq. pose proof (sp_len p Sp). lia. }
  rewrite Nd. destruct (spread_split p Sp) as (i & q & j & v & E & U & Nq).
  assert (Mid : middle (slopes p) = map (fun s : cs * fn => (fst s, DFin (steepness (snd s)))) q).
  { rewrite E. unfold slopes. cbn [map fst snd]. rewrite map_app. cbn [map fst snd]. apply middle_spec. }
  rewrite Mid, map_map. cbn [fst snd].
  pose proof (sp_chain p Sp) as C. rewrite E in C. destruct C as (Ei & Li & C). destruct (chain_app_inv q _ _ _ C) as (b & Cq & Cj). destruct Cj as (Ej & Lj & _). rewrite U in Lj.
  assert (Lo : (- ORD_INF < upper i)%Z) by lia.
  destruct (sum_res_ok seg (fun s => let i := fst s in
        if isinf (lower i) || isinf (upper i) then Err ArithmeticError
        else if Qeq_bool (width i) 0 then Ok 0
        else Ok (((dval (upper i) - c) ^ Z.of_nat (S n) - (dval (lower i) - c) ^ Z.of_nat (S n)) * steepness (snd s) / Qn (S n)))
     (fun s => rise s * (prim n (fin s - c) - prim n (beg s - c))) q) as (V & E1 & E2).
  { intros [k f] K. destruct (chain_beg _ _ _ _ Cq K) as [[B1 B2] B3]. cbn [fst snd] in *.
    assert (F1 : isinf (lower k) = false) by (unfold isinf; apply Z.leb_gt; lia). assert (F2 : isinf (upper k) = false) by (unfold isinf; apply Z.leb_gt; lia).
    rewrite F1, F2. cbn [orb].
    assert (Ip : In (k, f) p) by (rewrite E; right; apply in_or_app; left; exact K).
    unfold rise, fin, beg. cbn [fst snd].
    destruct (Qeq_bool (width k) 0) eqn:Wk.
    - exists 0. split; [reflexivity|]. destruct f as [|v0|m k0|]; cbn [steepness]; try ring.
      exfalso. apply Qeq_bool_iff in Wk. unfold width in Wk. specialize (W k m k0 Ip).
      pose proof (chain_in _ _ _ _ _ Cq K) as (_ & _ & Ek). 
      assert (Lk : left k = INC /\ right k = EXC). { clear - Cq K Lo. revert K Lo Cq. generalize (upper i). induction q as [|[a g] q' IHq]; intros z K Lo Cq; [destruct K|]. destruct Cq as (A1 & A2 & A3). destruct K as [K|K]; [injection K as -> ->; rewrite A1; cbn [left right]; split; [destruct (Z.eqb_spec z (- ORD_INF)); [lia|reflexivity]|reflexivity]|apply (IHq (upper a)); [exact K|lia|exact A3]]. }
      unfold uppermost, lowermost in Wk. rewrite (proj1 Lk), (proj2 Lk) in Wk.
      assert (X : dval (minus_eps (upper k)) == dval (lower k)) by lra. apply dval_inj in X. destruct (minus_eps_cases (upper k)); lia.
    - eexists. split; [reflexivity|]. rewrite prim_eq. pose proof (Qn_pos n). unfold Qdiv. ring. }
  exists V. split.
  - destruct n; exact E1.
  - rewrite E2, E. unfold area. cbn [map Qsum]. rewrite map_app, Qsum_app. cbn [map Qsum]. change (rise (i, FConst 0)) with 0. change (rise (j, FConst v)) with 0. ring.
Qed.

Lemma spread_order : forall p, spread_cdf p -> (forall s, In s p -> beg s <= fin s) /\ (forall s, In s p -> 0 <= rise s).
Proof.
  intros p Sp. split; intros s I.
  - destruct (chain_beg _ _ _ _ (sp_chain p Sp) I). apply dval_le. lia.
  - pose proof (sp_rise p Sp) as R. rewrite Forall_forall in R. specialize (R s I). unfold rise. destruct s as [i f]. cbn [snd fst] in *. destruct f; cbn [steepness]; try lra.
Qed.
Lemma spread_rep : forall p hi, spread_cdf p -> climbs_to p hi -> forall t y, cdf_real p t y -> t <= dval hi -> y == massto p t.
Proof.
  intros p hi Sp Ct t y. apply cdf_mass.
  - apply (sp_chain p Sp).
  - apply (sp_affine p Sp).
  - destruct (sp_first p Sp) as (i & r & E). exists i, r. split; [exact E|]. intros ->. pose proof (sp_len p Sp) as L. rewrite E in L. cbn in L. lia.
  - exact (ct_joined p hi Ct).
  - destruct (ct_one p hi Ct) as [F _]. unfold finite in F. lia.
Qed.

Lemma moment_integral : forall p hi n c, spread_cdf p -> climbs_to p hi -> wide p ->
  exists M T, moment_of p n c = Ok M /\ integral p (deviation c n) (dval hi) T /\
    (forall g, (forall x, dval hi <= x -> reach p x -> g <= deviation c n x) -> g * excess p (dval hi) <= M - T) /\
    (forall g, (forall x, dval hi <= x -> reach p x -> deviation c n x <= g) -> M - T <= g * excess p (dval hi)).
Proof.
  intros p hi n c Sp Ct W. destruct (moment_area p n c Sp W) as (M & E & V). destruct (spread_order p Sp) as [O U].
  exists M, (areato n c p (dval hi)). split; [exact E|]. split; [apply area_integral; [exact O|exact U|exact (spread_rep p hi Sp Ct)]|].
  assert (D : M - areato n c p (dval hi) == Qsum (map (fun s => rise s * (prim n (fin s - c) - prim n (upto s (dval hi) - c))) p)).
  { rewrite V. unfold area, areato. rewrite <- Qsum_map_minus. apply Qsum_map_ext. intros s _. ring. }
  assert (Z : forall s, In s p -> rise s == 0 \/ (0 < rise s /\ ((fin s <= dval hi /\ upto s (dval hi) == fin s /\ Qmax 0 (fin s - dval hi) == 0) \/ (dval hi <= fin s /\ upto s (dval hi) == dval hi /\ Qmax 0 (fin s - dval hi) == fin s - dval hi)))).
  { intros [i f] I. unfold rise, fin, upto, beg. cbn [fst snd]. pose proof (sp_affine p Sp) as Af. unfold affines in Af. rewrite Forall_forall in Af. specialize (Af _ I). cbn [snd] in Af.
    destruct f as [|v|m k|]; cbn in Af; try contradiction; cbn [steepness]; [left; reflexivity|]. right.
    pose proof (sp_rise p Sp) as R. rewrite Forall_forall in R. specialize (R _ I). cbn [fst snd] in R. destruct R as (Pm & _). split; [exact Pm|].
    pose proof (ct_rising p hi Ct i m k I) as L. pose proof (O _ I) as Oi. unfold beg, fin in Oi. cbn [fst snd] in Oi. unfold fin. cbn [fst]. assert (L' : dval (lower i) <= dval hi) by (apply dval_le; lia).
    destruct (Qlt_le_dec (dval (upper i)) (dval hi)) as [H|H].
    - left. split; [lra|]. split; [apply clip_high; lra|]. apply Q.max_l. lra.
    - right. split; [exact H|]. split; [apply clip_mid; assumption|]. apply Q.max_r. lra. }
  split; intros g H; rewrite D; unfold excess; rewrite <- Qsum_map_scale; apply Qsum_map_le; intros s I; fold (rise s); change (dval (upper (fst s))) with (fin s).
  - destruct (Z s I) as [Zr|(Pr & [(A & B & C)|(A & B & C)])].
    + rewrite Zr. lra.
    + rewrite C. rewrite (prim_wd n (upto s (dval hi) - c) (fin s - c)) by lra. setoid_replace (rise s * (prim n (fin s - c) - prim n (fin s - c))) with 0 by ring. setoid_replace (g * (rise s * 0)) with 0 by ring. lra.
    + rewrite C. rewrite (prim_wd n (upto s (dval hi) - c) (dval hi - c)) by lra.
      assert (X : g * ((fin s - c) - (dval hi - c)) <= prim n (fin s - c) - prim n (dval hi - c)).
      { apply (proj1 (cell n (dval hi - c) (fin s - c) g ltac:(lra))). intros x X. specialize (H (x + c) ltac:(lra)). unfold deviation in H. rewrite (pw_wd (x + c - c) x) in H by ring.
        apply H. destruct s as [i f]. exists i, f. split; [exact I|]. split; [exact Pr|]. unfold fin in X. cbn [fst] in X. lra. }
      setoid_replace (g * (rise s * (fin s - dval hi))) with (rise s * (g * (fin s - c - (dval hi - c)))) by ring.
      rewrite (Qmult_comm (rise s)), (Qmult_comm (rise s) (prim _ _ - _)). apply Qmult_le_compat_r; [exact X|lra].
  - destruct (Z s I) as [Zr|(Pr & [(A & B & C)|(A & B & C)])].
    + rewrite Zr. lra.
    + rewrite C. rewrite (prim_wd n (upto s (dval hi) - c) (fin s - c)) by lra. setoid_replace (rise s * (prim n (fin s - c) - prim n (fin s - c))) with 0 by ring. setoid_replace (g * (rise s * 0)) with 0 by ring. lra.
    + rewrite C. rewrite (prim_wd n (upto s (dval hi) - c) (dval hi - c)) by lra.
      assert (X : prim n (fin s - c) - prim n (dval hi - c) <= g * ((fin s - c) - (dval hi - c))).
      { apply (proj2 (cell n (dval hi - c) (fin s - c) g ltac:(lra))). intros x X. specialize (H (x + c) ltac:(lra)). unfold deviation in H. rewrite (pw_wd (x + c - c) x) in H by ring.
        apply H. destruct s as [i f]. exists i, f. split; [exact I|]. split; [exact Pr|]. unfold fin in X. cbn [fst] in X. lra. }
      setoid_replace (g * (rise s * (fin s - dval hi))) with (rise s * (g * (fin s - c - (dval hi - c)))) by ring.
      rewrite (Qmult_comm (rise s)), (Qmult_comm (rise s) (g * _)). apply Qmult_le_compat_r; [exact X|lra].
Qed.

(** ** The integral is unique *)

Lemma chain_real : forall p a b t, chain a p b -> b = ORD_INF -> p <> [] -> a = (- ORD_INF)%Z \/ dval a <= t -> exists i f, In (i, f) p /\ real_mem t i.
Proof.
  induction p as [|[i f] p IH]; intros a b t C B N A; [congruence|]. destruct C as (E & L & C).
  destruct (Z.eq_dec (upper i) ORD_INF) as [U|U].
  - exists i, f. split; [left; reflexivity|]. split; [|left; exact U]. rewrite E. cbn [lower left]. destruct (Z.eqb_spec a (- ORD_INF)); [left; assumption|].
    destruct A as [A|A]; [left; assumption|right; exact A].
  - destruct (Qlt_le_dec t (dval (upper i))) as [T|T].
    + exists i, f. split; [left; reflexivity|]. split; [|right; rewrite E; cbn [right]; exact T]. rewrite E. cbn [lower left]. destruct (Z.eqb_spec a (- ORD_INF)); [left; assumption|].
      destruct A as [A|A]; [left; assumption|right; exact A].
    + destruct (IH _ _ t C B) as (j & g & J & M); [|right; exact T|exists j, g; split; [right; exact J|exact M]].
      intros ->. cbn in C. congruence.
Qed.
Lemma spread_real : forall p t, spread_cdf p -> exists y, cdf_real p t y.
Proof.
  intros p t Sp. destruct (chain_real p _ _ t (sp_chain p Sp) eq_refl) as (i & f & I & M); [|left; reflexivity|].
  - intros ->. pose proof (sp_len [] Sp) as L. cbn in L. lia.
  - exists (height f t), i, f. split; [exact I|]. split; [exact M|reflexivity].
Qed.

(** [h] does not change faster than [K] between [s] and [u]. *)
Definition steady (h : Q -> Q) (K s u : Q) : Prop := forall x y, s <= x <= u -> s <= y <= u -> h x <= h y + K * Qabs (x - y).

Lemma sums_close : forall p h K w hi u N s, (forall t, exists y, cdf_real p t y) -> (forall t y, cdf_real p t y -> t <= hi -> y == massto p t) ->
  0 <= K -> 0 <= w -> steady h K s u -> u <= hi -> s + Qn N * w == u ->
  exists L U, lower_sum p h s u L /\ upper_sum p h s u U /\ U - L == 2 * K * w * (massto p u - massto p s).
Proof.
  intros p h K w hi u N s T Rep Kp Wp. revert s. induction N as [|N IH]; intros s St Uh E.
  - rewrite Qn_0 in E. assert (E' : s == u) by lra. exists 0, 0. split; [apply ls_nil; exact E'|]. split; [apply us_nil; exact E'|].
    assert (Em : massto p s == massto p u) by (unfold massto; apply Qsum_map_ext; intros e _; rewrite (upto_wd e s u E'); reflexivity). rewrite Em. ring.
  - rewrite Qn_SS in E. assert (Nw : 0 <= Qn N * w) by (apply Qmult_le_0_compat; [unfold Qn; change 0 with (inject_Z 0); rewrite <- Zle_Qle; lia|exact Wp]).
    assert (Et : s + w + Qn N * w == u) by (rewrite <- E; ring).
    destruct (IH (s + w)) as (L & U & HL & HU & Eq); [|exact Uh|exact Et|].
    { intros x y X Y. apply St; lra. }
    destruct (T s) as (ys & Ys). destruct (T (s + w)) as (yt & Yt).
    assert (B : forall x, s <= x <= s + w -> h s - K * w <= h x /\ h x <= h s + K * w).
    { intros x X. assert (A : K * Qabs (x - s) <= K * w).
      { rewrite !(Qmult_comm K). apply Qmult_le_compat_r; [|exact Kp]. apply Qabs_Qle_condition. lra. }
      assert (A' : Qabs (s - x) == Qabs (x - s)) by (rewrite Qabs_Qminus; reflexivity).
      pose proof (St x s ltac:(lra) ltac:(lra)) as S1. pose proof (St s x ltac:(lra) ltac:(lra)) as S2. rewrite A' in S2. lra. }
    exists ((h s - K * w) * (yt - ys) + L), ((h s + K * w) * (yt - ys) + U). split; [|split].
    + apply (ls_cons p h s (s + w) u (h s - K * w) ys yt L); try assumption; [lra|]. intros x X. apply (B x X).
    + apply (us_cons p h s (s + w) u (h s + K * w) ys yt U); try assumption; [lra|]. intros x X. apply (B x X).
    + rewrite (Rep s ys Ys), (Rep (s + w) yt Yt) by lra.
      setoid_replace ((h s + K * w) * (massto p (s + w) - massto p s) + U - ((h s - K * w) * (massto p (s + w) - massto p s) + L))
        with (U - L + 2 * K * w * (massto p (s + w) - massto p s)) by ring. rewrite Eq. ring.
Qed.

(** An upper bound for multiples of every [1 / N] is not positive. *)
Lemma small_zero : forall x D, (forall N, x * Qn (S N) <= D) -> x <= 0.
Proof.
  intros x D H. destruct (Qlt_le_dec 0 x) as [P|P]; [exfalso|exact P].
  set (N := Z.to_nat (Qceiling (D / x))). specialize (H N). pose proof (Qle_ceiling (D / x)) as C.
  assert (B : inject_Z (Qceiling (D / x)) <= Qn N).
  { unfold Qn. rewrite <- Zle_Qle. unfold N. lia. }
  rewrite Qn_SS in H. assert (E : D == D / x * x) by (field; lra). assert (M : D / x * x <= Qn N * x) by (apply Qmult_le_compat_r; lra). lra.
Qed.

Lemma power_steady : forall n B, 0 <= B -> exists K, 0 <= K /\ forall x y, Qabs x <= B -> Qabs y <= B -> Qabs (x ^ Z.of_nat n - y ^ Z.of_nat n) <= K * Qabs (x - y).
Proof.
  intros n B PB. assert (Pw : forall m x, Qabs x <= B -> Qabs (x ^ Z.of_nat m) <= B ^ Z.of_nat m).
  { induction m as [|m I]; intros x X; [change (x ^ Z.of_nat 0) with 1; change (B ^ Z.of_nat 0) with 1; vm_compute; discriminate|].
    rewrite !pw_S, Qabs_Qmult. specialize (I x X). apply Qle_trans with (B * Qabs (x ^ Z.of_nat m)).
    - apply Qmult_le_compat_r; [exact X|apply Qabs_nonneg].
    - rewrite !(Qmult_comm B). apply Qmult_le_compat_r; assumption. }
  assert (Pos : forall m, 0 <= B ^ Z.of_nat m).
  { intro m. eapply Qle_trans; [apply Qabs_nonneg|apply (Pw m 0)]. exact PB. }
  induction n as [|n (K & PK & H)].
  - exists 0. split; [lra|]. intros x y _ _. change (x ^ Z.of_nat 0) with 1. change (y ^ Z.of_nat 0) with 1. setoid_replace (1 - 1) with 0 by ring. rewrite Qmult_0_l. vm_compute. discriminate.
  - exists (B * K + B ^ Z.of_nat n). split; [pose proof (Qmult_le_0_compat _ _ PB PK); specialize (Pos n); lra|]. intros x y X Y. rewrite !pw_S.
    setoid_replace (x * x ^ Z.of_nat n - y * y ^ Z.of_nat n) with (x * (x ^ Z.of_nat n - y ^ Z.of_nat n) + y ^ Z.of_nat n * (x - y)) by ring.
    eapply Qle_trans; [apply Qabs_triangle|]. rewrite !Qabs_Qmult. specialize (H x y X Y). pose proof (Qabs_nonneg (x - y)) as D.
    assert (A1 : Qabs x * Qabs (x ^ Z.of_nat n - y ^ Z.of_nat n) <= B * (K * Qabs (x - y))).
    { eapply Qle_trans; [apply Qmult_le_compat_r; [exact X|apply Qabs_nonneg]|]. rewrite !(Qmult_comm B). apply Qmult_le_compat_r; assumption. }
    assert (A2 : Qabs (y ^ Z.of_nat n) * Qabs (x - y) <= B ^ Z.of_nat n * Qabs (x - y)) by (apply Qmult_le_compat_r; [apply Pw, Y|exact D]).
    lra.
Qed.

Lemma integral_unique : forall p hi s n c T T', spread_cdf p -> climbs_to p hi -> cdf_real p s 0 -> s <= dval hi ->
  integral p (deviation c n) (dval hi) T -> integral p (deviation c n) (dval hi) T' -> T == T'.
Proof.
  intros p hi s n c T T' Sp Ct Zs L J J'. set (u := dval hi) in *.
  set (B := Qabs (s - c) + Qabs (u - c)). assert (PB : 0 <= B) by (unfold B; pose proof (Qabs_nonneg (s - c)); pose proof (Qabs_nonneg (u - c)); lra).
  destruct (power_steady n B PB) as (K & PK & HK).
  assert (St : steady (deviation c n) K s u).
  { intros x y X Y. assert (In : forall z, s <= z <= u -> Qabs (z - c) <= B).
    { intros z Z. apply Qabs_Qle_condition. unfold B. pose proof (Qle_Qabs (- (s - c))) as Q1. rewrite Qabs_opp in Q1. pose proof (Qle_Qabs (u - c)). pose proof (Qabs_nonneg (s - c)). pose proof (Qabs_nonneg (u - c)). lra. }
    pose proof (HK (x - c) (y - c) (In x X) (In y Y)) as H. unfold deviation. pose proof (Qle_Qabs ((x - c) ^ Z.of_nat n - (y - c) ^ Z.of_nat n)) as A.
    assert (E : Qabs (x - c - (y - c)) == Qabs (x - y)) by (apply Qabs_wd; ring). rewrite E in H. lra. }
  assert (Cl : forall N, exists A Z, lower_sum p (deviation c n) s u A /\ upper_sum p (deviation c n) s u Z /\ (Z - A) * Qn (S N) == 2 * K * (u - s) * (massto p u - massto p s)).
  { intro N. pose proof (Qn_pos N) as NP. destruct (sums_close p (deviation c n) K ((u - s) / Qn (S N)) u u (S N) s) as (A & Z & HA & HZ & E); try assumption; try lra.
    - intro t. apply spread_real, Sp.
    - apply (spread_rep p hi Sp Ct).
    - apply Qle_shift_div_l; [exact NP|lra].
    - field. lra.
    - exists A, Z. split; [exact HA|]. split; [exact HZ|]. rewrite E. field. lra. }
  assert (H : forall N, (T - T') * Qn (S N) <= 2 * K * (u - s) * (massto p u - massto p s) /\ (T' - T) * Qn (S N) <= 2 * K * (u - s) * (massto p u - massto p s)).
  { intro N. pose proof (Qn_pos N) as NP. destruct (Cl N) as (A & Z & HA & HZ & E). destruct (J s Zs) as [J1 J2]. destruct (J' s Zs) as [J3 J4].
    specialize (J1 _ HA). specialize (J2 _ HZ). specialize (J3 _ HA). specialize (J4 _ HZ). rewrite <- E. split; apply Qmult_le_compat_r; lra. }
  pose proof (small_zero _ _ (fun N => proj1 (H N))). pose proof (small_zero _ _ (fun N => proj2 (H N))). lra.
Qed.
