(** C89: the divergence of learnt distributions. *)
Require Import ZArith QArith Qabs Lqa Bool List Arith Lia.
Require Import Verif.Base Verif.FloatLine Verif.FloatVal Verif.NumBase Verif.IntervalModel Verif.IntervalSpec Verif.IntervalProofs Verif.FunctionModel Verif.FunctionSpec Verif.FunctionPlf Verif.NumericModel Verif.NumericSpec Verif.NumericFit Verif.NumericProb Verif.NumericTree Verif.InfBounds Verif.EqualNum Verif.MomentProps Verif.MixedPosteriorProps Verif.MixedMoment Verif.MixedMomentProps Verif.JaccardModel Verif.JaccardProps Verif.KlModel Verif.KlProps Verif.NumericClose Verif.NumericProps.
Import ListNotations.
Open Scope Z_scope.

(** Every jump is at the start of a rising piece. *)
Definition jumps_rise (p : plf) : Prop := jump_off p (fun _ => False).
(** A closed interval has the difference of the cdf, since a jump at its end is at the start of a
    rising piece, which the interval meets. *)
Lemma p_closed : forall p c, line_cdf p -> jumps_rise p -> bounded c -> lower c < upper c -> upper c < ORD_INF -> right c = INC ->
  exists v, p_interval p c = Ok v /\ (v == cdfv p (upper c) - cdfv p (lower c))%Q.
Proof.
  intros p c L J B Lt U Rc. pose proof B as (B1 & B2 & B3 & _). assert (E : cs_isempty c = false).
  { unfold cs_isempty, itype. rewrite Rc. destruct (Z.ltb_spec (upper c) (lower c)); [lia|]. destruct (Z.eqb_spec (lower c) (upper c)); [lia|]. destruct (left c); cbn; apply andb_false_r. }
  pose proof (cdfv_at p (lower c) L ltac:(lia)) as Ha. pose proof (cdfv_at p (upper c) L ltac:(lia)) as Hb.
  destruct (p_interval_cases p c _ _ L B E Ha Hb) as (q & Eq & H). exists q. split; [exact Eq|].
  destruct (rs_isdisjoint (gt0 (slopes p)) (NC c)) eqn:D; [|exact H]. unfold gt0 in D.
  destruct (gt0_away p (- ORD_INF) None (ln_chain _ L) (ln_rise _ L) c B E Logic.I D) as [Aw _].
  assert (cdfv p (lower c) == cdfv p (upper c))%Q; [|lra]. destruct (ln_first _ L) as (i0 & r0 & E0 & _).
  apply (flat_between p (ln_chain _ L) (ln_affine _ L) (ex_intro _ i0 (ex_intro _ r0 E0)) (ln_rise _ L) (ln_proper _ L) (lower c) (upper c)); try assumption; try lia.
  intros i f y y' I S0 R Hy Hy'. destruct (J i f y y' I S0 Hy Hy') as [H0|(N & j & g & Ij & Lj & Pg)]; [exact H0|]. exfalso.
  destruct (chain_in _ _ _ _ _ (ln_chain _ L) Ij) as (C1 & C2 & _). destruct (gt0_cover p (- ORD_INF) None (ln_chain _ L) (ln_rise _ L) Logic.I) as [Cv _]. destruct (Cv j g Ij Pg) as (o & Io & Lo & Uo & Lf & Rf).
  assert (X : cs_intersects o c = true).
  { unfold cs_intersects. rewrite E, Lf, Rc. destruct (Z.ltb_spec (upper o) (lower c)); [lia|]. destruct (Z.ltb_spec (upper c) (lower o)); [lia|]. cbn [orb flag_eqb]. rewrite andb_false_r. destruct (Z.eqb_spec (upper o) (lower c)); [lia|]. reflexivity. }
  unfold rs_isdisjoint, rs_intersects in D. apply negb_true_iff in D. cbn [as_list existsb] in D. assert (T : existsb (fun s => cs_intersects s c || false) (gt0_loop (slopes p) None) = true) by (apply existsb_exists; exists o; split; [exact Io|rewrite X; reflexivity]). rewrite T in D. discriminate.
Qed.

(** ** One distribution *)
Section One.
  Variable p : plf.
  Hypotheses (Sp : spread_cdf p) (L : line_cdf p) (Nj : jumps_rise p) (Mp : small_bounds p).
  Let C := sp_chain p Sp.
  Lemma lval : forall i f x, In (i, f) p -> finite x -> lower i <= x < upper i -> fn_is f (dval x) (cdfv p x).
  Proof.
    intros i f x I F B. pose proof (cdfv_at p x L ltac:(unfold finite in F; lia)) as H. unfold finite in F. destruct H as [[E _]|[[E _]|[_ H]]]; [lia|lia|].
    apply plf_is_at in H. destruct H as (g & Eg & H). rewrite (chain_at p _ _ i f x C (Z.le_refl _) (Z.le_refl _) I F B) in Eg. injection Eg as <-. exact H.
  Qed.
  Lemma lval_last : forall x, finite x -> (forall y, edge p y -> y <= x) -> (cdfv p x == 1)%Q.
  Proof.
    intros x F H. destruct (chain_piece p _ _ x C) as (i & f & I & B); [unfold finite in F; lia|]. destruct (chain_in _ _ _ _ _ C I) as (B1 & B2 & _).
    assert (U : upper i = ORD_INF). { destruct (Z.eq_dec (upper i) ORD_INF) as [E|N]; [exact E|]. exfalso. assert (upper i <= x); [|lia]. apply H. split; [unfold finite in *; lia|exists i, f; auto]. }
    pose proof (sp_rise p Sp) as R. rewrite Forall_forall in R. specialize (R _ I). cbn [snd fst] in R. pose proof (sp_affine p Sp) as Af. unfold affines in Af. rewrite Forall_forall in Af. specialize (Af _ I). cbn [snd] in Af.
    destruct (sp_proper p Sp) as (lo & hi & Fh & Pr). set (z := Z.max x hi). assert (Fz : finite z) by (unfold z, finite in *; lia). assert (Bz : lower i <= z < upper i) by (unfold z, finite in *; lia).
    pose proof (pc_right _ _ _ Pr z Fz ltac:(unfold z; lia)) as One. apply plf_is_at in One. destruct One as (g & Eg & One). rewrite (chain_at p _ _ i f z C (Z.le_refl _) (Z.le_refl _) I Fz Bz) in Eg. injection Eg as <-.
    pose proof (lval i f x I F B) as V. destruct f as [|k|m k|]; cbn [affine] in Af; try contradiction; [|destruct R as (_ & _ & Fu); unfold finite in Fu; lia].
    destruct V as (v & Ev & Hv), One as (w & Ew & Hw). cbn in Ev, Ew. injection Ev as <-. injection Ew as <-. rewrite <- Hv, Hw. reflexivity.
  Qed.
  Lemma lslice_p : forall a b, a < b -> a = - ORD_INF \/ Z.abs a < ORD_53 -> Z.abs b < ORD_53 -> exists v, p_interval p (CS a b INC INC) = Ok v /\ (v == cdfv p b - cdfv p a)%Q.
  Proof.
    intros a b Lt Ma Mb. pose proof ord_facts as O. set (c := CS a b INC INC). destruct (Z.eq_dec a (- ORD_INF)) as [Ea|Na].
    - set (H := (fun x => x = - ORD_INF \/ x = ORD_INF \/ x = b) : grid). assert (Gg : gridded H) by (unfold H; constructor; [tauto|intros x y X Y; lia]).
      assert (N : nearly H c).
      { unfold nearly, on_grid. split; [|right; unfold H, opn, c; cbn [lower upper]; tauto]. unfold wf, opn, c, moderate. cbn [lower upper left right]. destruct (Z.eqb_spec a (- ORD_INF)), (Z.eqb_spec b ORD_INF); repeat split; intros; try congruence; lia. }
      assert (K : p_interval p (opn c) = p_interval p c).
      { pose proof (line_length _ L) as Ln. apply (risen_p H Gg p (slopes p)); [apply density_spec; [apply (ln_affine _ L)|lia]| |exact N].
        apply (risen_gt0 p (- ORD_INF) ORD_INF None (ln_chain _ L) eq_refl); [lia| |exact I]. intros _ _. destruct (ln_first _ L) as (i & r & -> & _). cbn [snd]. reflexivity. }
      rewrite <- K. assert (Eo : opn c = CS a b EXC INC) by (unfold opn, c; cbn [lower upper left right]; destruct (Z.eqb_spec a (- ORD_INF)); [|lia]; destruct (Z.eqb_spec b ORD_INF); [lia|reflexivity]).
      rewrite Eo. apply (p_closed p (CS a b EXC INC) L Nj); cbn [lower upper right]; [|exact Lt|lia|reflexivity]. unfold bounded. cbn [lower upper left right]. repeat split; intros; try congruence; lia.
    - apply (p_closed p c L Nj); unfold c; cbn [lower upper right]; [|exact Lt|lia|reflexivity]. unfold bounded. cbn [lower upper left right]. repeat split; intros; try congruence; lia.
  Qed.
  Lemma lval_mono : forall a b, - ORD_INF <= a -> a <= b -> b <= ORD_INF -> (0 <= cdfv p a /\ cdfv p a <= cdfv p b /\ cdfv p b <= 1)%Q.
  Proof. intros a b A B D. exact (cdfv_mono p a b L A B D). Qed.
End One.

(** ** The loop *)
Section Two.
  Variables p q : plf.
  Hypotheses (Sp : spread_cdf p) (Lp : line_cdf p) (Np : jumps_rise p) (Mp : small_bounds p).
  Hypotheses (Sq : spread_cdf q) (Lq : line_cdf q) (Nq : jumps_rise q) (Mq : small_bounds q).
  Let good (x : Z) : Prop := edge p x \/ edge q x.
  Let P (ab : Z * Z) : Q := (cdfv p (snd ab) - cdfv p (fst ab))%Q.
  Let R (ab : Z * Z) : Q := (cdfv q (snd ab) - cdfv q (fst ab))%Q.
  Let D (x : Z) : Q := (cdfv p x - cdfv q x)%Q.
  Lemma lgood_small : forall x, good x -> Z.abs x < ORD_53.
  Proof. intros x [E|E]; [exact (edge_small p Sp Mp x E)|exact (edge_small q Sq Mq x E)]. Qed.
  Lemma lloop : forall l a acc, a = - ORD_INF \/ Z.abs a < ORD_53 -> rising_from a l -> (forall x, In x l -> Z.abs x < ORD_53) ->
    exists ts, mapM (kl_term p q) (pairs (a :: l)) = Ok ts /\ (acc <= fold_left Qplus ts acc)%Q /\ (fold_left Qplus ts acc <= acc + (cdfv p (last l a) - cdfv p a))%Q
      /\ ((fold_left Qplus ts acc == acc)%Q <-> Forall (fun ab => P ab == 0 \/ P ab == R ab)%Q (pairs (a :: l))).
  Proof.
    pose proof ord_facts as O. induction l as [|b l IH]; intros a acc A Ri S.
    - exists []. cbn [pairs tl combine mapM fold_left last]. split; [reflexivity|]. split; [lra|]. split; [lra|]. split; intros _; [constructor|reflexivity].
    - destruct Ri as [Lt Ri]. assert (B : Z.abs b < ORD_53) by (apply S; left; reflexivity). rewrite pairs_cons, last_cons. cbn [mapM].
      destruct (lslice_p p Sp Lp Np Mp a b Lt A B) as (v & Ev & Hv). destruct (lslice_p q Sq Lq Nq Mq a b Lt A B) as (w & Ew & Hw).
      assert (Et : kl_term p q (a, b) = Ok (v * Qabs (v - w))%Q).
      { unfold kl_term, mk_cs. cbn [fst snd]. destruct (Z.ltb_spec b a); [lia|]. cbn [bind]. rewrite Ev. cbn [bind]. rewrite Ew. reflexivity. }
      rewrite Et. cbn [bind]. set (t := (v * Qabs (v - w))%Q) in *.
      pose proof (lval_mono p Lp a b ltac:(lia) ltac:(lia) ltac:(lia)) as (V1 & V2 & V3). pose proof (lval_mono q Lq a b ltac:(lia) ltac:(lia) ltac:(lia)) as (W1 & W2 & W3).
      assert (Vr : (0 <= v <= 1)%Q) by (rewrite Hv; lra). assert (Wr : (0 <= w <= 1)%Q) by (rewrite Hw; lra).
      assert (Ab : (0 <= Qabs (v - w) <= 1)%Q) by (split; [apply Qabs_nonneg|apply Qabs_Qle_condition; lra]).
      assert (T0 : (0 <= t)%Q) by (unfold t; apply Qmult_le_0_compat; lra). assert (T1 : (t <= v)%Q) by (unfold t; nra).
      destruct (IH b (acc + t)%Q (or_intror B) Ri (fun x Ix => S x (or_intror Ix))) as (ts & Ets & I1 & I2 & I3). rewrite Ets. cbn [bind]. exists (t :: ts). cbn [fold_left].
      split; [reflexivity|]. split; [lra|]. split; [rewrite Hv in T1; lra|].
      assert (Tz : (t == 0)%Q <-> (P (a, b) == 0 \/ P (a, b) == R (a, b))%Q).
      { unfold P, R. cbn [fst snd]. rewrite <- Hv, <- Hw. unfold t. split.
        - intro Z. apply Qmult_integral in Z. destruct Z as [Z|Z]; [left; exact Z|right]. assert (K : (Qabs (v - w) <= 0)%Q) by lra. apply Qabs_Qle_condition in K. lra.
        - intros [Z|Z]; [rewrite Z; ring|]. assert (K : (v - w == 0)%Q) by lra. rewrite K. cbn. ring. }
      split.
      + intro E. assert (t == 0)%Q by lra. constructor; [apply Tz; assumption|]. apply I3. lra.
      + intro F. inversion F as [|? ? F1 F2]; subst. apply Tz in F1. apply I3 in F2. lra.
  Qed.
  Lemma lsinking : forall l a, - ORD_INF <= a -> rising_from a l -> (forall x, In x l -> x < ORD_INF) -> Forall (fun ab => P ab == 0 \/ P ab == R ab)%Q (pairs (a :: l)) ->
    forall x, In x (a :: l) -> (D (last l a) <= D x /\ D x <= D a)%Q.
  Proof.
    induction l as [|b l IH]; intros a A Ri S F x I; [destruct I as [<-|[]]; cbn [last]; lra|]. destruct Ri as [Lt Ri]. rewrite pairs_cons in F. inversion F as [|? ? F1 F2]; subst. rewrite last_cons.
    assert (Bi : b < ORD_INF) by (apply S; left; reflexivity). assert (Db : (D b <= D a)%Q).
    { unfold P, R in F1. cbn [fst snd] in F1. unfold D. pose proof (lval_mono q Lq a b A ltac:(lia) ltac:(lia)) as (W1 & W2 & W3). destruct F1 as [F1|F1]; lra. }
    specialize (IH b ltac:(lia) Ri (fun y Iy => S y (or_intror Iy)) F2). destruct I as [<-|I]; [destruct (IH b (or_introl eq_refl)); lra|]. destruct (IH x I). lra.
  Qed.
  Lemma lkl_main : exists d, num_kl p q = Ok d /\ (0 <= d <= 1)%Q /\ ((d == 0)%Q <-> forall x, good x -> (cdfv p x == cdfv q x)%Q).
  Proof.
    pose proof ord_facts as O. unfold num_kl. rewrite (density_spec p (sp_affine p Sp) (sp_len p Sp)), (density_spec q (sp_affine q Sq) (sp_len q Sq)). cbn [bind].
    assert (Lw : forall r, spread_cdf r -> forall x, In x (map (fun s : cs * dens => lower (fst s)) (slopes r)) <-> x = - ORD_INF \/ edge r x).
    { intros r Sr x. pose proof (sp_chain r Sr) as C. unfold slopes. rewrite map_map. cbn [fst]. rewrite in_map_iff. split.
      - intros ([i f] & E & I). cbn [fst] in E. destruct (chain_in _ _ _ _ _ C I) as (B1 & B2 & _). destruct (Z.eq_dec x (- ORD_INF)) as [->|N]; [left; reflexivity|]. right. split; [unfold finite; lia|]. exists i, f. auto.
      - intros [->|(F & i & f & I & [E|E])].
        + destruct (sp_first r Sr) as (i & t & E). exists (i, FConst 0). rewrite E in C. destruct C as (Ei & _). split; [cbn [fst]; rewrite Ei; reflexivity|rewrite E; left; reflexivity].
        + exists (i, f). auto.
        + destruct (MomentProps.chain_next r _ _ i f C I) as (pre & j & g & post & Er & Ej); [unfold finite in F; lia|]. exists (j, g). split; [cbn [fst]; congruence|]. rewrite Er. apply in_or_app. right. right. left. reflexivity. }
    assert (Ip : forall x, In x (kl_points (slopes p) (slopes q)) <-> x = - ORD_INF \/ good x).
    { intro x. unfold kl_points. rewrite sorted_in, in_app_iff, (Lw p Sp), (Lw q Sq). unfold good. tauto. }
    assert (Ri : rising_from (- ORD_INF - 1) (kl_points (slopes p) (slopes q))).
    { unfold kl_points. apply sorted_rising. intros x Ix. rewrite <- sorted_in in Ix. apply Ip in Ix. destruct Ix as [->|Gx]; [lia|]. pose proof (lgood_small x Gx). lia. }
    remember (kl_points (slopes p) (slopes q)) as ks eqn:Ek. clear Ek. destruct ks as [|a l]; [exfalso; apply (Ip (- ORD_INF)); left; reflexivity|]. destruct Ri as [Ra Ri].
    assert (Ea : a = - ORD_INF). { assert (I : In (- ORD_INF) (a :: l)) by (apply Ip; left; reflexivity). destruct I as [E|I]; [exact E|]. pose proof (rising_lt _ _ _ Ri I). lia. }
    subst a. assert (Gl : forall x, In x l <-> good x).
    { intro x. split; intro H.
      - assert (I : In x (- ORD_INF :: l)) by (right; exact H). apply Ip in I. destruct I as [->|I]; [|exact I]. pose proof (rising_lt _ _ _ Ri H). lia.
      - assert (I : In x (- ORD_INF :: l)) by (apply Ip; right; exact H). destruct I as [<-|I]; [|exact I]. pose proof (lgood_small _ H). lia. }
    destruct (lloop l (- ORD_INF) 0 (or_introl eq_refl) Ri (fun x Ix => lgood_small x (proj1 (Gl x) Ix))) as (ts & Ets & K1 & K2 & K3). rewrite Ets. cbn [bind]. exists (fold_left Qplus ts 0%Q). split; [reflexivity|].
    assert (Ne : exists e, In e l) by (destruct (edge_some p Sp) as [e Ee]; exists e; apply Gl; left; exact Ee).
    assert (La : In (last l (- ORD_INF)) l). { destruct l as [|b l']; [destruct Ne as [e []]|]. clear. generalize (- ORD_INF) as a. revert b. induction l' as [|c l' IH]; intros b a; [left; reflexivity|]. right. change (last (b :: c :: l') a) with (last (c :: l') a). apply IH. }
    set (z := last l (- ORD_INF)) in *. pose proof (lgood_small z (proj1 (Gl z) La)) as Mz. assert (Fz : finite z) by (unfold finite; lia).
    assert (Up : forall y, good y -> y <= z).
    { intros y Gy. apply Gl in Gy. clear - Gy Ri. unfold z. revert Ri Gy. generalize (- ORD_INF). revert y. induction l as [|b l IH]; intros y a Rr I; [destruct I|]. destruct Rr as [_ Rr]. rewrite last_cons. destruct I as [<-|I]; [apply rising_last; exact Rr|exact (IH y b Rr I)]. }
    assert (Z1 : (cdfv p z == 1)%Q) by (apply (lval_last p Sp Lp z Fz); intros y Ey; apply Up; left; exact Ey). assert (Z2 : (cdfv q z == 1)%Q) by (apply (lval_last q Sq Lq z Fz); intros y Ey; apply Up; right; exact Ey).
    assert (I0 : forall r, cdfv r (- ORD_INF) = 0%Q) by (intro r; unfold cdfv; rewrite Z.eqb_refl; reflexivity).
    split; [split; [exact K1|]; rewrite (I0 p) in K2; rewrite Z1 in K2; lra|]. rewrite K3. split.
    - intros F x Gx. apply Gl in Gx. destruct (lsinking l (- ORD_INF) (Z.le_refl _) Ri ltac:(intros w Iw; apply Gl, lgood_small in Iw; lia) F x (or_intror Gx)) as [H1 H2]. fold z in H1. unfold D in *. rewrite Z1, Z2 in H1. rewrite (I0 p), (I0 q) in H2. lra.
    - intro E. apply Forall_forall. intros [u v] Iuv. right. unfold P, R. cbn [fst snd]. destruct (pair_gap l _ u v Ri Iuv) as (Iu & Iv & _ & _).
      rewrite (E v (proj1 (Gl v) Iv)). destruct Iu as [<-|Iu]; [rewrite (I0 p), (I0 q); reflexivity|]. rewrite (E u (proj1 (Gl u) Iu)). reflexivity.
  Qed.
End Two.

(** ** C89 for learnt distributions *)

(** Both cdfs have the same value at [x]. *)
Definition meet (p q : plf) (x : Z) : Prop := exists y, plf_is p x y /\ plf_is q x y.
Lemma meet_cdfv : forall p q x, line_cdf p -> line_cdf q -> finite x -> (meet p q x <-> (cdfv p x == cdfv q x)%Q).
Proof.
  intros p q x Lp Lq F. assert (K : forall r, line_cdf r -> plf_is r x (cdfv r x)).
  { intros r Lr. destruct (cdfv_at r x Lr ltac:(unfold finite in F; lia)) as [[E _]|[[E _]|[_ H]]]; [unfold finite in F; lia|unfold finite in F; lia|exact H]. }
  assert (U : forall r y y', plf_is r x y -> plf_is r x y' -> (y == y')%Q).
  { intros r y y' H H'. apply plf_is_at in H. apply plf_is_at in H'. destruct H as (f & E & H), H' as (g & E' & H'). rewrite E in E'. injection E' as <-. exact (fn_is_fun f _ _ _ H H'). }
  split.
  - intros (y & Hp & Hq). rewrite (U p _ _ (K p Lp) Hp). exact (U q _ _ Hq (K q Lq)).
  - intro E. exists (cdfv q x). split; [|exact (K q Lq)]. pose proof (K p Lp) as H. apply plf_is_at in H. destruct H as (f & Ef & (v & Ev & Hv)). apply plf_is_at. exists f. split; [exact Ef|]. exists v. split; [exact Ev|]. rewrite Hv. exact E.
Qed.
Lemma fit_jumpless : forall epsilon rows u v, Forall (fun x => Z.abs x + 1 < ORD_53) rows -> In u rows -> In v rows -> u <> v ->
  exists p, fit_cdf epsilon None None rows = Ok p /\ spread_cdf p /\ line_cdf p /\ jumps_rise p /\ small_bounds p.
Proof.
  intros epsilon rows u v M Iu Iv N. destruct (fit_different epsilon rows u v M Iu Iv N) as (p & E & S & B). exists p. split; [exact E|]. split; [exact S|].
  assert (R : rows <> []) by (intros ->; destruct Iu). rewrite Forall_forall in M.
  assert (F : Forall finite rows) by (rewrite Forall_forall; intros x I; specialize (M x I); pose proof ord_facts; unfold finite; lia).
  destruct (fit_nonempty epsilon None None rows rows (fit_plain rows) R F) as [(z & A & _ & _)|(p' & ks & E' & Ft)]; [exfalso; apply N; rewrite (A u Iu), (A v Iv); reflexivity|].
  rewrite E in E'. injection E' as <-. split; [apply (fitted_line rows p ks Ft F); destruct (ft_largest _ _ _ Ft) as [Il _]; specialize (M _ Il); lia|]. split; [|exact B].
  apply (fitted_jump_off rows p ks (fun _ => False) Ft F). right. intros [].
Qed.
(** The divergence of two distributions learnt from samples, two of which differ, is between 0 and
    1, and 0 exactly if the cdfs agree at every end of their pieces.  Partial: single values,
    doubles from 2^53 on. *)
Theorem C89_learnt_partial : forall epsilon epsilon' rows rows' u v u' v',
  Forall (fun x => Z.abs x + 1 < ORD_53) rows -> In u rows -> In v rows -> u <> v ->
  Forall (fun x => Z.abs x + 1 < ORD_53) rows' -> In u' rows' -> In v' rows' -> u' <> v' ->
  exists p q d, fit_cdf epsilon None None rows = Ok p /\ fit_cdf epsilon' None None rows' = Ok q /\ num_kl p q = Ok d /\ (0 <= d <= 1)%Q
    /\ ((d == 0)%Q <-> forall x, edge p x \/ edge q x -> meet p q x).
Proof.
  intros e e' rows rows' u v u' v' M Iu Iv N M' Iu' Iv' N'. destruct (fit_jumpless e rows u v M Iu Iv N) as (p & E & Sp & Lp & Np & Bp). destruct (fit_jumpless e' rows' u' v' M' Iu' Iv' N') as (q & E' & Sq & Lq & Nq & Bq).
  destruct (lkl_main p q Sp Lp Np Bp Sq Lq Nq Bq) as (d & Ed & R & Z). exists p, q, d. split; [exact E|]. split; [exact E'|]. split; [exact Ed|]. split; [exact R|]. rewrite Z.
  assert (K : forall x, edge p x \/ edge q x -> finite x) by (intros x [H|H]; apply H). split; intros H x I; specialize (H x I); apply (meet_cdfv p q x Lp Lq (K x I)); exact H.
Qed.

(** Densities that differ need not be told apart: for [0, 3] and [0, 3 + ulp] the divergence is 0. *)
Theorem C89_learnt_zero_refuted : exists rows rows' p q d x, Forall (fun x => Z.abs x + 1 < ORD_53) rows /\ Forall (fun x => Z.abs x + 1 < ORD_53) rows' /\ NoDup rows /\ NoDup rows'
  /\ fit_cdf (1 # 100) None None rows = Ok p /\ fit_cdf (1 # 100) None None rows' = Ok q /\ num_kl p q = Ok d /\ (d == 0)%Q
  /\ finite x /\ (density q x == 0)%Q /\ ~ (density p x == 0)%Q.
Proof.
  set (T := IntervalDec.THREE). assert (V : match fit_cdf (1 # 100) None None [0; T + 1], fit_cdf (1 # 100) None None [0; T] with Ok p, Ok q => match num_kl p q with Ok d => Qeq_bool d 0 && Qeq_bool (density q (T + 1)) 0 && negb (Qeq_bool (density p (T + 1)) 0) | Err _ => false end | _, _ => false end = true) by (vm_compute; reflexivity).
  destruct (fit_cdf (1 # 100) None None [0; T + 1]) as [p|] eqn:Ep; [|discriminate]. destruct (fit_cdf (1 # 100) None None [0; T]) as [q|] eqn:Eq; [|discriminate]. destruct (num_kl p q) as [d|] eqn:Ed; [|discriminate].
  apply andb_true_iff in V. destruct V as [V V3]. apply andb_true_iff in V. destruct V as [V1 V2]. apply Qeq_bool_iff in V1, V2. apply negb_true_iff in V3.
  exists [0; T + 1], [0; T], p, q, d, (T + 1). split; [repeat constructor|]. split; [repeat constructor|]. assert (A : T <> 0 /\ T + 1 <> 0) by (split; vm_compute; discriminate). destruct A as [A1 A2].
  split; [constructor; [intros [H|[]]; congruence|constructor; [intros []|constructor]]|]. split; [constructor; [intros [H|[]]; congruence|constructor; [intros []|constructor]]|].
  split; [exact Ep|]. split; [exact Eq|]. split; [exact Ed|]. split; [exact V1|]. split; [split; vm_compute; reflexivity|]. split; [exact V2|]. intro H. apply Qeq_bool_iff in H. congruence.
Qed.

(** Learnt from 0, 0, 1, 3 (with a jump at 0) and from 1, 4: the divergence is positive. *)
Example C89_learnt_example : match fit_cdf (1 # 100) None None [0; 0; IntervalDec.ONE; IntervalDec.THREE], fit_cdf (1 # 100) None None [IntervalDec.ONE; IntervalDec.FOUR] with
  | Ok p, Ok q => match num_kl p q with Ok d => negb (Qle_bool d 0) && Qle_bool d 1 | Err _ => false end | _, _ => false end = true
  /\ Forall (fun x => Z.abs x + 1 < ORD_53) [0; 0; IntervalDec.ONE; IntervalDec.THREE].
Proof. split; [vm_compute; reflexivity|]. repeat constructor. Qed.

Print Assumptions C89_learnt_partial.
Print Assumptions C89_learnt_zero_refuted.
