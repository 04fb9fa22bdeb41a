(** C89: the divergence of numeric distributions. *)
Require Import ZArith QArith Qabs Lqa Bool List Arith Lia.
Require Import Verif.Base Verif.FloatLine Verif.FloatVal Verif.NumBase Verif.IntervalModel Verif.IntervalSpec Verif.IntervalProofs Verif.FunctionModel Verif.FunctionSpec Verif.FunctionPlf Verif.NumericModel Verif.NumericSpec Verif.NumericFit Verif.NumericProb Verif.NumericTree Verif.InfBounds Verif.EqualNum Verif.MomentProps Verif.MixedPosteriorProps Verif.MixedMoment Verif.MixedMomentProps Verif.JaccardModel Verif.JaccardProps Verif.KlModel.
Import ListNotations.
Open Scope Z_scope.

(** Some rising piece contains two doubles. *)
Definition wide (p : plf) : Prop := exists i m c, In (i, FLin m c) p /\ lower i + 1 < upper i.

Lemma fn_is_fun : forall f x y y', fn_is f x y -> fn_is f x y' -> (y == y')%Q.
Proof. intros f x y y' (v & E & H) (w & E' & H'). rewrite E in E'. injection E' as <-. rewrite <- H. exact H'. Qed.

Section One.
  Variable p : plf.
  Hypotheses (Sp : spread_cdf p) (Tp : tiling p) (Wp : wide p) (Mp : small_bounds p).
  Let C := sp_chain p Sp.
  Let G : grid := fun _ => True.
  Let Sm : smooth G p := tiling_smooth G p Sp Tp Wp.
  Let L : line_cdf p := proj1 Sm.
  Lemma val : forall i f x, In (i, f) p -> finite x -> lower i <= x < upper i -> fn_is f (dval x) (cdfv p x).
  Proof.
    intros i f x I F B. pose proof (cdfv_at p x L ltac:(unfold finite in F; lia)) as H. unfold finite in F. destruct H as [[E _]|[[E _]|[_ H]]]; [lia|lia|].
    apply plf_is_at in H. destruct H as (g & Eg & H). rewrite (chain_at p _ _ i f x C (Z.le_refl _) (Z.le_refl _) I F B) in Eg. injection Eg as <-. exact H.
  Qed.
  Lemma val_right : forall i f, In (i, f) p -> upper i < ORD_INF -> fn_is f (dval (upper i)) (cdfv p (upper i)).
  Proof.
    intros i f I U. destruct (MomentProps.chain_next p _ _ i f C I U) as (pre & j & g & post & E & Ej). pose proof Tp as T. rewrite E in T. destruct (tiling_meet _ _ _ _ _ _ T) as (y & Y1 & Y2).
    assert (Ij : In (j, g) p) by (rewrite E; apply in_or_app; right; right; left; reflexivity). destruct (chain_in _ _ _ _ _ C I) as (A1 & _). destruct (chain_in _ _ _ _ _ C Ij) as (B1 & B2 & _). destruct (chain_in _ _ _ _ _ C I) as (C1 & C2 & _).
    assert (V : fn_is g (dval (upper i)) (cdfv p (upper i))) by (apply (val j g (upper i) Ij); [unfold finite; lia|lia]).
    destruct Y1 as (v & Ev & Hv). exists v. split; [exact Ev|]. rewrite Hv. exact (fn_is_fun _ _ _ _ Y2 V).
  Qed.
  Lemma affine_diff : forall f x y u v, affine f -> fn_is f x u -> fn_is f y v -> (v - u == steepness f * (y - x))%Q.
  Proof.
    intros f x y u v A (a & Ea & Ha) (b & Eb & Hb). destruct f; cbn [affine] in A; try contradiction; cbn in Ea, Eb; injection Ea as <-; injection Eb as <-; cbn [steepness]; rewrite <- Ha, <- Hb; ring.
  Qed.
  Lemma slice_rise : forall a b, finite a -> finite b -> a < b -> (forall x, edge p x -> x <= a \/ b <= x) -> (cdfv p b - cdfv p a == density p a * (dval b - dval a))%Q.
  Proof.
    intros a b Fa Fb Lt H. destruct (chain_piece p _ _ a C) as (i & f & I & B); [unfold finite in Fa; lia|]. destruct (chain_in _ _ _ _ _ C I) as (B1 & B2 & _).
    assert (U : b <= upper i). { destruct (Z.eq_dec (upper i) ORD_INF) as [->|N]; [unfold finite in Fb; lia|]. destruct (H (upper i)); [split; [unfold finite in *; lia|exists i, f; auto]|lia|assumption]. }
    pose proof (sp_affine p Sp) as Af. unfold affines in Af. rewrite Forall_forall in Af. specialize (Af _ I). cbn [snd] in Af.
    rewrite (dens_at p Sp i f a I Fa B). apply affine_diff; [exact Af|exact (val i f a I Fa B)|].
    destruct (Z.eq_dec b (upper i)) as [->|N]; [apply (val_right i f I); unfold finite in Fb; lia|apply (val i f b I Fb); lia].
  Qed.
  Lemma val_first : forall x, finite x -> (forall y, edge p y -> x <= y) -> (cdfv p x == 0)%Q.
  Proof.
    intros x F H. destruct (sp_first p Sp) as (i & r & E). assert (I : In (i, FConst 0) p) by (rewrite E; left; reflexivity). assert (Li : lower i = - ORD_INF) by (pose proof C as C'; rewrite E in C'; destruct C' as (Ei & _); rewrite Ei; reflexivity).
    destruct (chain_in _ _ _ _ _ C I) as (B1 & B2 & _). assert (V : fn_is (FConst 0) (dval x) (cdfv p x)).
    { destruct (Z.lt_ge_cases x (upper i)) as [U|U]; [apply (val i _ x I F); unfold finite in F; lia|]. assert (Ex : x = upper i). { assert (x <= upper i); [|lia]. apply H. split; [unfold finite in *; lia|]. exists i, (FConst 0). auto. }
      rewrite Ex. apply (val_right i _ I). unfold finite in F. lia. }
    destruct V as (v & Ev & Hv). cbn in Ev. injection Ev as <-. symmetry. exact Hv.
  Qed.
  Lemma val_last : forall x, finite x -> (forall y, edge p y -> y <= x) -> (cdfv p x == 1)%Q.
  Proof.
    intros x F H. destruct (chain_piece p _ _ x C) as (i & f & I & B); [unfold finite in F; lia|]. destruct (chain_in _ _ _ _ _ C I) as (B1 & B2 & _).
    assert (U : upper i = ORD_INF). { destruct (Z.eq_dec (upper i) ORD_INF) as [E|N]; [exact E|]. exfalso. assert (upper i <= x); [|lia]. apply H. split; [unfold finite in *; lia|exists i, f; auto]. }
    pose proof (sp_rise p Sp) as R. rewrite Forall_forall in R. specialize (R _ I). cbn [snd fst] in R. pose proof (sp_affine p Sp) as Af. unfold affines in Af. rewrite Forall_forall in Af. specialize (Af _ I). cbn [snd] in Af.
    destruct (sp_proper p Sp) as (lo & hi & Fh & Pr). set (z := Z.max x hi). assert (Fz : finite z) by (unfold z, finite in *; lia). assert (Bz : lower i <= z < upper i) by (unfold z, finite in *; lia).
    pose proof (pc_right _ _ _ Pr z Fz ltac:(unfold z; lia)) as One. apply plf_is_at in One. destruct One as (g & Eg & One). rewrite (chain_at p _ _ i f z C (Z.le_refl _) (Z.le_refl _) I Fz Bz) in Eg. injection Eg as <-.
    pose proof (val i f x I F B) as V. destruct f as [|k|m k|]; cbn [affine] in Af; try contradiction; [|destruct R as (_ & _ & Fu); unfold finite in Fu; lia].
    destruct V as (v & Ev & Hv), One as (w & Ew & Hw). cbn in Ev, Ew. injection Ev as <-. injection Ew as <-. rewrite <- Hv, Hw. reflexivity.
  Qed.
  Lemma edge_small : forall x, edge p x -> Z.abs x < ORD_53.
  Proof.
    intros x (F & i & f & I & E). unfold small_bounds in Mp. rewrite Forall_forall in Mp. destruct E as [E|E].
    - destruct (chain_lower _ _ _ _ _ C I) as [El|(j & g & Ij & El)]; [unfold finite in F; lia|]. specialize (Mp _ Ij). cbn [fst] in Mp. unfold finite in F. lia.
    - specialize (Mp _ I). cbn [fst] in Mp. unfold finite in F. lia.
  Qed.
  Lemma slice_p : forall a b, a < b -> a = - ORD_INF \/ Z.abs a < ORD_53 -> Z.abs b < ORD_53 -> exists v, p_interval p (CS a b INC INC) = Ok v /\ (v == cdfv p b - cdfv p a)%Q.
  Proof.
    intros a b Lt Ma Mb. pose proof ord_facts as O. set (c := CS a b INC INC). destruct (Z.eq_dec a (- ORD_INF)) as [Ea|Na].
    - set (H := (fun x => x = - ORD_INF \/ x = ORD_INF \/ x = b) : grid). assert (Gg : gridded H) by (unfold H; constructor; [tauto|intros x y X Y; lia]). pose proof (tiling_smooth H p Sp Tp Wp) as Sh.
      assert (N : nearly H c).
      { unfold nearly, on_grid. split; [|right; unfold H, opn, c; cbn [lower upper]; tauto]. unfold wf, opn, c, moderate. cbn [lower upper left right]. destruct (Z.eqb_spec a (- ORD_INF)), (Z.eqb_spec b ORD_INF); repeat split; intros; try congruence; lia. }
      rewrite <- (opn_p H Gg p c (or_introl Sh) N). destruct (np_smooth H p (opn c) Sh N) as [E V].
      { unfold cs_isempty, opn, c, itype. cbn [lower upper left right]. destruct (Z.ltb_spec b a); [lia|]. destruct (Z.eqb_spec a b); [lia|]. destruct (Z.eqb_spec b ORD_INF); [lia|]. destruct (Z.eqb_spec a (- ORD_INF)); cbn; apply andb_false_r. }
      exists (np p (opn c)). split; [exact E|exact V].
    - assert (N : on_grid G c) by (unfold on_grid; split; [|right; split; exact I]; unfold wf, c, moderate; cbn [lower upper left right]; repeat split; intros; try congruence; lia).
      destruct (np_smooth G p c Sm N) as [E V].
      { unfold cs_isempty, c, itype. cbn [lower upper left right]. destruct (Z.ltb_spec b a); [lia|]. destruct (Z.eqb_spec a b); [lia|]. cbn. apply andb_false_r. }
      exists (np p c). split; [exact E|exact V].
  Qed.
  Lemma val_mono : forall a b, - ORD_INF <= a -> a <= b -> b <= ORD_INF -> (0 <= cdfv p a /\ cdfv p a <= cdfv p b /\ cdfv p b <= 1)%Q.
  Proof. intros a b A B D. exact (cdfv_mono p a b L A B D). Qed.
End One.

(** ** Lists of points *)
Lemma last_cons : forall (b : Z) l a, last (b :: l) a = last l b.
Proof. intros b l a. destruct l as [|c l]; [reflexivity|]. cbn [last]. revert c. induction l as [|d l IH]; intro c; [reflexivity|apply IH]. Qed.
Lemma pairs_cons : forall a b l, pairs (a :: b :: l) = (a, b) :: pairs (b :: l).
Proof. reflexivity. Qed.
Lemma rising_last : forall l a, rising_from a l -> a <= last l a.
Proof. induction l as [|b l IH]; intros a R; [cbn; lia|]. destruct R as [H R]. rewrite last_cons. specialize (IH b R). lia. Qed.
Lemma pair_gap : forall l a u v, rising_from a l -> In (u, v) (pairs (a :: l)) -> In u (a :: l) /\ In v l /\ u < v /\ forall y, In y (a :: l) -> y <= u \/ v <= y.
Proof.
  induction l as [|b l IH]; intros a u v R I; [destruct I|]. destruct R as [H R]. rewrite pairs_cons in I. destruct I as [E|I].
  - injection E as <- <-. split; [left; reflexivity|]. split; [left; reflexivity|]. split; [exact H|]. intros y [<-|[<-|Iy]]; [left; lia|right; lia|]. pose proof (rising_lt _ _ _ R Iy). right. lia.
  - destruct (IH b u v R I) as (I1 & I2 & Lt & Gp). split; [right; exact I1|]. split; [right; exact I2|]. split; [exact Lt|]. intros y [<-|Iy]; [|apply Gp; exact Iy].
    left. destruct I1 as [<-|I1]; [lia|]. pose proof (rising_lt _ _ _ R I1). lia.
Qed.
Lemma pair_around : forall l a x, rising_from a l -> a <= x -> last l a <= x \/ exists u v, In (u, v) (pairs (a :: l)) /\ u <= x < v.
Proof.
  induction l as [|b l IH]; intros a x R A; [left; exact A|]. destruct R as [H R]. rewrite last_cons, pairs_cons. destruct (Z.lt_ge_cases x b) as [B|B].
  - right. exists a, b. split; [left; reflexivity|lia].
  - destruct (IH b x R B) as [E|(u & v & I & X)]; [left; exact E|right; exists u, v; split; [right; exact I|exact X]].
Qed.

(** ** The loop *)
Section Two.
  Variables p q : plf.
  Hypotheses (Sp : spread_cdf p) (Tp : tiling p) (Wp : wide p) (Mp : small_bounds p).
  Hypotheses (Sq : spread_cdf q) (Tq : tiling q) (Wq : wide q) (Mq : small_bounds q).
  Let good (x : Z) : Prop := edge p x \/ edge q x.
  Let P (ab : Z * Z) : Q := (cdfv p (snd ab) - cdfv p (fst ab))%Q.
  Let R (ab : Z * Z) : Q := (cdfv q (snd ab) - cdfv q (fst ab))%Q.
  Let D (x : Z) : Q := (cdfv p x - cdfv q x)%Q.

  Lemma good_small : forall x, good x -> Z.abs x < ORD_53.
  Proof. intros x [E|E]; [exact (edge_small p Sp Mp x E)|exact (edge_small q Sq Mq x E)]. Qed.
  Lemma loop : forall l a acc, a = - ORD_INF \/ Z.abs a < ORD_53 -> rising_from a l -> (forall x, In x l -> Z.abs x < ORD_53) ->
    exists ts, mapM (kl_term p q) (pairs (a :: l)) = Ok ts /\ (acc <= fold_left Qplus ts acc)%Q /\ (fold_left Qplus ts acc <= acc + (cdfv p (last l a) - cdfv p a))%Q
      /\ ((fold_left Qplus ts acc == acc)%Q <-> Forall (fun ab => P ab == 0 \/ P ab == R ab)%Q (pairs (a :: l))).
  Proof.
    pose proof ord_facts as O. induction l as [|b l IH]; intros a acc A Ri S.
    - exists []. cbn [pairs tl combine mapM fold_left last]. split; [reflexivity|]. split; [lra|]. split; [lra|]. split; intros _; [constructor|reflexivity].
    - destruct Ri as [Lt Ri]. assert (B : Z.abs b < ORD_53) by (apply S; left; reflexivity). rewrite pairs_cons, last_cons. cbn [mapM].
      destruct (slice_p p Sp Tp Wp a b Lt A B) as (v & Ev & Hv). destruct (slice_p q Sq Tq Wq a b Lt A B) as (w & Ew & Hw).
      assert (Et : kl_term p q (a, b) = Ok (v * Qabs (v - w))%Q).
      { unfold kl_term, mk_cs. cbn [fst snd]. destruct (Z.ltb_spec b a); [lia|]. cbn [bind]. rewrite Ev. cbn [bind]. rewrite Ew. reflexivity. }
      rewrite Et. cbn [bind]. set (t := (v * Qabs (v - w))%Q) in *.
      pose proof (val_mono p Sp Tp Wp a b ltac:(lia) ltac:(lia) ltac:(lia)) as (V1 & V2 & V3). pose proof (val_mono q Sq Tq Wq a b ltac:(lia) ltac:(lia) ltac:(lia)) as (W1 & W2 & W3).
      assert (Vr : (0 <= v <= 1)%Q) by (rewrite Hv; lra). assert (Wr : (0 <= w <= 1)%Q) by (rewrite Hw; lra).
      assert (Ab : (0 <= Qabs (v - w) <= 1)%Q) by (split; [apply Qabs_nonneg|apply Qabs_Qle_condition; lra]).
      assert (T0 : (0 <= t)%Q) by (unfold t; apply Qmult_le_0_compat; lra). assert (T1 : (t <= v)%Q) by (unfold t; nra).
      destruct (IH b (acc + t)%Q (or_intror B) Ri (fun x Ix => S x (or_intror Ix))) as (ts & Ets & I1 & I2 & I3). rewrite Ets. cbn [bind]. exists (t :: ts). cbn [fold_left].
      split; [reflexivity|]. split; [lra|]. split; [rewrite Hv in T1; lra|].
      assert (Tz : (t == 0)%Q <-> (P (a, b) == 0 \/ P (a, b) == R (a, b))%Q).
      { unfold P, R. cbn [fst snd]. rewrite <- Hv, <- Hw. unfold t. split.
        - intro Z. apply Qmult_integral in Z. destruct Z as [Z|Z]; [left; exact Z|right]. assert (K : (Qabs (v - w) <= 0)%Q) by lra. apply Qabs_Qle_condition in K. lra.
        - intros [Z|Z]; [rewrite Z; ring|]. assert (K : (v - w == 0)%Q) by lra. rewrite K. cbn. ring. }
      split.
      + intro E. assert (t == 0)%Q by lra. constructor; [apply Tz; assumption|]. apply I3. lra.
      + intro F. inversion F as [|? ? F1 F2]; subst. apply Tz in F1. apply I3 in F2. lra.
  Qed.
  Lemma sinking : forall l a, - ORD_INF <= a -> rising_from a l -> (forall x, In x l -> x < ORD_INF) -> Forall (fun ab => P ab == 0 \/ P ab == R ab)%Q (pairs (a :: l)) ->
    forall x, In x (a :: l) -> (D (last l a) <= D x /\ D x <= D a)%Q.
  Proof.
    induction l as [|b l IH]; intros a A Ri S F x I; [destruct I as [<-|[]]; cbn [last]; lra|]. destruct Ri as [Lt Ri]. rewrite pairs_cons in F. inversion F as [|? ? F1 F2]; subst. rewrite last_cons.
    assert (Bi : b < ORD_INF) by (apply S; left; reflexivity). assert (Db : (D b <= D a)%Q).
    { unfold P, R in F1. cbn [fst snd] in F1. unfold D. pose proof (val_mono q Sq Tq Wq a b A ltac:(lia) ltac:(lia)) as (W1 & W2 & W3). destruct F1 as [F1|F1]; lra. }
    specialize (IH b ltac:(lia) Ri (fun y Iy => S y (or_intror Iy)) F2). destruct I as [<-|I]; [destruct (IH b (or_introl eq_refl)); lra|]. destruct (IH x I). lra.
  Qed.

  Lemma kl_main : exists d, num_kl p q = Ok d /\ (0 <= d <= 1)%Q /\ ((d == 0)%Q <-> forall x, finite x -> (density p x == density q x)%Q).
  Proof.
    pose proof ord_facts as O. unfold num_kl. rewrite (density_spec p (sp_affine p Sp) (sp_len p Sp)), (density_spec q (sp_affine q Sq) (sp_len q Sq)). cbn [bind].
    assert (Lw : forall r, spread_cdf r -> forall x, In x (map (fun s : cs * dens => lower (fst s)) (slopes r)) <-> x = - ORD_INF \/ edge r x).
    { intros r Sr x. pose proof (sp_chain r Sr) as C. unfold slopes. rewrite map_map. cbn [fst]. rewrite in_map_iff. split.
      - intros ([i f] & E & I). cbn [fst] in E. destruct (chain_in _ _ _ _ _ C I) as (B1 & B2 & _). destruct (Z.eq_dec x (- ORD_INF)) as [->|N]; [left; reflexivity|]. right. split; [unfold finite; lia|]. exists i, f. auto.
      - intros [->|(F & i & f & I & [E|E])].
        + destruct (sp_first r Sr) as (i & t & E). exists (i, FConst 0). rewrite E in C. destruct C as (Ei & _). split; [cbn [fst]; rewrite Ei; reflexivity|rewrite E; left; reflexivity].
        + exists (i, f). auto.
        + destruct (MomentProps.chain_next r _ _ i f C I) as (pre & j & g & post & Er & Ej); [unfold finite in F; lia|]. exists (j, g). split; [cbn [fst]; congruence|]. rewrite Er. apply in_or_app. right. right. left. reflexivity. }
    assert (Ip : forall x, In x (kl_points (slopes p) (slopes q)) <-> x = - ORD_INF \/ good x).
    { intro x. unfold kl_points. rewrite sorted_in, in_app_iff, (Lw p Sp), (Lw q Sq). unfold good. tauto. }
    assert (Ri : rising_from (- ORD_INF - 1) (kl_points (slopes p) (slopes q))).
    { unfold kl_points. apply sorted_rising. intros x Ix. rewrite <- sorted_in in Ix. apply Ip in Ix. destruct Ix as [->|Gx]; [lia|]. pose proof (good_small x Gx). lia. }
    remember (kl_points (slopes p) (slopes q)) as ks eqn:Ek. clear Ek. destruct ks as [|a l]; [exfalso; apply (Ip (- ORD_INF)); left; reflexivity|]. destruct Ri as [Ra Ri].
    assert (Ea : a = - ORD_INF). { assert (I : In (- ORD_INF) (a :: l)) by (apply Ip; left; reflexivity). destruct I as [E|I]; [exact E|]. pose proof (rising_lt _ _ _ Ri I). lia. }
    subst a. assert (Gl : forall x, In x l <-> good x).
    { intro x. split; intro H.
      - assert (I : In x (- ORD_INF :: l)) by (right; exact H). apply Ip in I. destruct I as [->|I]; [|exact I]. pose proof (rising_lt _ _ _ Ri H). lia.
      - assert (I : In x (- ORD_INF :: l)) by (apply Ip; right; exact H). destruct I as [<-|I]; [|exact I]. pose proof (good_small _ H). lia. }
    destruct (loop l (- ORD_INF) 0 (or_introl eq_refl) Ri (fun x Ix => good_small x (proj1 (Gl x) Ix))) as (ts & Ets & K1 & K2 & K3). rewrite Ets. cbn [bind]. exists (fold_left Qplus ts 0%Q). split; [reflexivity|].
    assert (Ne : exists e, In e l) by (destruct (edge_some p Sp) as [e Ee]; exists e; apply Gl; left; exact Ee).
    assert (La : In (last l (- ORD_INF)) l). { destruct l as [|b l']; [destruct Ne as [e []]|]. clear. generalize (- ORD_INF) as a. revert b. induction l' as [|c l' IH]; intros b a; [left; reflexivity|]. right. change (last (b :: c :: l') a) with (last (c :: l') a). apply IH. }
    set (z := last l (- ORD_INF)) in *. pose proof (good_small z (proj1 (Gl z) La)) as Mz. assert (Fz : finite z) by (unfold finite; lia).
    assert (Up : forall y, good y -> y <= z).
    { intros y Gy. apply Gl in Gy. clear - Gy Ri. unfold z. revert Ri Gy. generalize (- ORD_INF). revert y. induction l as [|b l IH]; intros y a Rr I; [destruct I|]. destruct Rr as [_ Rr]. rewrite last_cons. destruct I as [<-|I]; [apply rising_last; exact Rr|exact (IH y b Rr I)]. }
    assert (Z1 : (cdfv p z == 1)%Q) by (apply (val_last p Sp Tp Wp z Fz); intros y Ey; apply Up; left; exact Ey). assert (Z2 : (cdfv q z == 1)%Q) by (apply (val_last q Sq Tq Wq z Fz); intros y Ey; apply Up; right; exact Ey).
    assert (I0 : forall r, cdfv r (- ORD_INF) = 0%Q) by (intro r; unfold cdfv; rewrite Z.eqb_refl; reflexivity).
    split; [split; [exact K1|]; rewrite (I0 p) in K2; rewrite Z1 in K2; lra|]. rewrite K3. split.
    - intros F x Fx. assert (Sk : forall y, In y (- ORD_INF :: l) -> (D y == 0)%Q).
      { intros y Iy. destruct (sinking l (- ORD_INF) (Z.le_refl _) Ri ltac:(intros w Iw; apply Gl, good_small in Iw; lia) F y Iy) as [H1 H2]. fold z in H1. unfold D in *. rewrite Z1, Z2 in H1. rewrite (I0 p), (I0 q) in H2. lra. }
      destruct (pair_around l (- ORD_INF) x Ri ltac:(unfold finite in Fx; lia)) as [H|(u & v & Iuv & X)].
      + fold z in H. rewrite (dens_right p Sp x Fx), (dens_right q Sq x Fx); [reflexivity| |]; intros y Ey; [specialize (Up y (or_intror Ey))|specialize (Up y (or_introl Ey))]; lia.
      + destruct (pair_gap l _ u v Ri Iuv) as (Iu & Iv & Lt & Gp). destruct Iu as [<-|Iu].
        * rewrite (dens_left p Sp x Fx), (dens_left q Sq x Fx); [reflexivity| |]; intros y Ey; [assert (Iy : In y l) by (apply Gl; right; exact Ey)|assert (Iy : In y l) by (apply Gl; left; exact Ey)]; pose proof (rising_lt _ _ _ Ri Iy); destruct (Gp y (or_intror Iy)); lia.
        * pose proof (good_small u (proj1 (Gl u) Iu)) as Mu. pose proof (good_small v (proj1 (Gl v) Iv)) as Mv. assert (Fu : finite u) by (unfold finite; lia). assert (Fv : finite v) by (unfold finite; lia).
          assert (Gu : forall y, good y -> y <= u \/ v <= y) by (intros y Gy; apply Gp; right; apply Gl; exact Gy).
          rewrite (dens_const p Sp u v Fu Lt (fun y Ey => Gu y (or_introl Ey)) ltac:(lia) x X), (dens_const q Sq u v Fu Lt (fun y Ey => Gu y (or_intror Ey)) ltac:(lia) x X).
          pose proof (slice_rise p Sp Tp Wp u v Fu Fv Lt (fun y Ey => Gu y (or_introl Ey))) as Rp. pose proof (slice_rise q Sq Tq Wq u v Fu Fv Lt (fun y Ey => Gu y (or_intror Ey))) as Rq.
          pose proof (Sk u (or_intror Iu)) as Du. pose proof (Sk v (or_intror Iv)) as Dv. unfold D in Du, Dv. pose proof (dval_lt u v Lt) as W.
          assert (E : (density p u * (dval v - dval u) == density q u * (dval v - dval u))%Q) by (rewrite <- Rp, <- Rq; lra). apply Qmult_inj_r in E; [exact E|lra].
    - intro E. apply Forall_forall. intros [u v] Iuv. right. unfold P, R. cbn [fst snd]. destruct (pair_gap l _ u v Ri Iuv) as (Iu & Iv & Lt & Gp).
      pose proof (good_small v (proj1 (Gl v) Iv)) as Mv. assert (Fv : finite v) by (unfold finite; lia). destruct Iu as [<-|Iu].
      + rewrite (I0 p), (I0 q). rewrite (val_first p Sp Tp Wp v Fv), (val_first q Sq Tq Wq v Fv); [reflexivity| |]; intros y Ey; [assert (Iy : In y l) by (apply Gl; right; exact Ey)|assert (Iy : In y l) by (apply Gl; left; exact Ey)]; pose proof (rising_lt _ _ _ Ri Iy); destruct (Gp y (or_intror Iy)); lia.
      + pose proof (good_small u (proj1 (Gl u) Iu)) as Mu. assert (Fu : finite u) by (unfold finite; lia). assert (Gu : forall y, good y -> y <= u \/ v <= y) by (intros y Gy; apply Gp; right; apply Gl; exact Gy).
        rewrite (slice_rise p Sp Tp Wp u v Fu Fv Lt (fun y Ey => Gu y (or_introl Ey))), (slice_rise q Sq Tq Wq u v Fu Fv Lt (fun y Ey => Gu y (or_intror Ey))). rewrite (E u Fu). reflexivity.
  Qed.
End Two.

(** ** C89 *)

(** The divergence of two continuous numeric distributions is between 0 and 1, and 0 exactly if
    their densities are the same.  Partial: jumps and single values, doubles from 2^53 on. *)
Theorem C89_numeric_divergence_partial : forall p q, spread_cdf p -> tiling p -> wide p -> small_bounds p -> spread_cdf q -> tiling q -> wide q -> small_bounds q ->
  exists d, num_kl p q = Ok d /\ (0 <= d <= 1)%Q /\ ((d == 0)%Q <-> forall x, finite x -> (density p x == density q x)%Q).
Proof. intros p q Sp Tp Wp Mp Sq Tq Wq Mq. exact (kl_main p q Sp Tp Wp Mp Sq Tq Wq Mq). Qed.

Lemma res_val : forall (r : res Q) k, match r with Ok d => Qeq_bool d k | Err _ => false end = true -> exists d, r = Ok d /\ (d == k)%Q.
Proof. intros [d|e] k H; [|discriminate]. exists d. split; [reflexivity|apply Qeq_bool_iff; exact H]. Qed.
Lemma kl_there : match num_kl (uniform 0 IntervalDec.TWO) (uniform IntervalDec.ONE IntervalDec.FOUR) with Ok d => Qeq_bool d (1 # 3) | Err _ => false end = true.
Proof. vm_compute. reflexivity. Qed.
Lemma kl_back : match num_kl (uniform IntervalDec.ONE IntervalDec.FOUR) (uniform 0 IntervalDec.TWO) with Ok d => Qeq_bool d (1 # 2) | Err _ => false end = true.
Proof. vm_compute. reflexivity. Qed.
(** From [0, 2) to [1, 4): 1/2 * 1/2 + 1/2 * 1/6; back: 1/3 * 1/6 + 2/3 * 2/3.  The divergence is
    not symmetric. *)
Theorem C89_symmetry_refuted : exists p q d d', (spread_cdf p /\ tiling p /\ wide p /\ small_bounds p) /\ (spread_cdf q /\ tiling q /\ wide q /\ small_bounds q)
  /\ num_kl p q = Ok d /\ (d == 1 # 3)%Q /\ num_kl q p = Ok d' /\ (d' == 1 # 2)%Q.
Proof.
  destruct (res_val (num_kl (uniform 0 IntervalDec.TWO) (uniform IntervalDec.ONE IntervalDec.FOUR)) (1 # 3) kl_there) as (d & Ed & Vd). destruct (res_val (num_kl (uniform IntervalDec.ONE IntervalDec.FOUR) (uniform 0 IntervalDec.TWO)) (1 # 2) kl_back) as (d' & Ed' & Vd'). destruct C56_numeric_example as (Sp & Sq & Mp & Mq & _).
  assert (F : finite 0 /\ finite IntervalDec.ONE /\ finite IntervalDec.TWO /\ finite IntervalDec.FOUR) by (unfold finite; vm_compute; repeat split; reflexivity). destruct F as (F0 & F1 & F2 & F4).
  assert (L1 : 0 + 1 < IntervalDec.TWO) by (vm_compute; reflexivity). assert (L2 : IntervalDec.ONE + 1 < IntervalDec.FOUR) by (vm_compute; reflexivity).
  assert (W : forall a b, a + 1 < b -> wide (uniform a b)) by (intros a b H; exists (CS a b INC EXC); eexists; eexists; split; [right; left; reflexivity|exact H]).
  exists (uniform 0 IntervalDec.TWO), (uniform IntervalDec.ONE IntervalDec.FOUR), d, d'.
  split; [exact (conj Sp (conj (un_tiling _ _ F0 F2 ltac:(lia)) (conj (W _ _ L1) Mp)))|]. split; [exact (conj Sq (conj (un_tiling _ _ F1 F4 ltac:(lia)) (conj (W _ _ L2) Mq)))|].
  exact (conj Ed (conj Vd (conj Ed' Vd'))).
Qed.

(** For two single values the interval from the value to the next double counts again: the
    divergence is 2, not 1. *)
Theorem C89_points_refuted : exists x y d, Z.abs x < ORD_53 /\ Z.abs y < ORD_53 /\ num_kl (dirac x) (dirac y) = Ok d /\ (d == 2)%Q.
Proof.
  assert (V : match num_kl (dirac IntervalDec.ONE) (dirac IntervalDec.TWO) with Ok d => Qeq_bool d 2 | Err _ => false end = true) by (vm_compute; reflexivity).
  destruct (res_val (num_kl (dirac IntervalDec.ONE) (dirac IntervalDec.TWO)) 2 V) as (d & E & H). exists IntervalDec.ONE, IntervalDec.TWO, d. split; [vm_compute; reflexivity|]. split; [vm_compute; reflexivity|]. exact (conj E H).
Qed.

Print Assumptions C89_numeric_divergence_partial.
Print Assumptions C89_symmetry_refuted.
Print Assumptions C89_points_refuted.
