(** C56: similarity of numeric distributions. *)
Require Import ZArith QArith Qminmax Lqa Bool List Arith Lia.
Require Import Verif.Base Verif.FloatLine Verif.FloatVal Verif.NumBase Verif.IntervalModel Verif.IntervalSpec Verif.IntervalProofs Verif.FunctionModel Verif.FunctionSpec Verif.NumericModel Verif.NumericSpec Verif.NumericFit Verif.NumericProb Verif.NumericClose Verif.NumericProps Verif.EqualNum Verif.MomentProps Verif.MixedMoment Verif.MixedMomentProps Verif.JaccardModel.
Require Verif.DiscreteModel Verif.DiscreteProofs2.
Import ListNotations.
Open Scope Z_scope.

(** ** Specification *)

(** The integral of a function that is constant between neighbouring doubles: the sum over the
    finite doubles of the value times the distance to the next double ([zsum] is the sum). *)
Definition area_of (g : Z -> Q) : Q := zsum (- ORD_INF + 1) ORD_INF (fun x => g x * (dval (x + 1) - dval x))%Q.
(** The area below both densities and the area below one of them. *)
Definition overlap (p q : plf) : Q := area_of (fun x => Qmin (density p x) (density q x)).
Definition cover (p q : plf) : Q := area_of (fun x => Qmax (density p x) (density q x)).
(** A finite end of a piece. *)
Definition edge (p : plf) (x : Z) : Prop := finite x /\ exists i f, In (i, f) p /\ (x = lower i \/ x = upper i).
(** The computed centre of two ends of pieces lies between them (it is not the upper one, to
    which the centre of neighbouring doubles can be rounded). *)
Definition centred (mid : Z -> Z -> Z) (p q : plf) : Prop :=
  forall a b, edge p a \/ edge q a -> edge p b \/ edge q b -> a < b -> a <= mid a b < b.

(** ** Sorted sets *)
Fixpoint rising_from (a : Z) (l : list Z) : Prop := match l with [] => True | x :: l' => a < x /\ rising_from x l' end.
Lemma rising_weak : forall l a b, a <= b -> rising_from b l -> rising_from a l.
Proof. intros [|x l] a b L H; [exact I|]. destruct H as [H1 H2]. split; [lia|exact H2]. Qed.
Lemma insert_in : forall x l y, In y (insert_new x l) <-> y = x \/ In y l.
Proof.
  intros x. induction l as [|z l IH]; intro y; cbn [insert_new In]; [intuition congruence|].
  destruct (Z.ltb_spec x z); [cbn [In]; intuition congruence|]. destruct (Z.eqb_spec x z) as [->|N]; [cbn [In]; intuition congruence|]. cbn [In]. rewrite IH. intuition congruence.
Qed.
Lemma insert_rising : forall x l a, a < x -> rising_from a l -> rising_from a (insert_new x l).
Proof.
  intro x. induction l as [|z l IH]; intros a A H; cbn [insert_new]; [split; [exact A|exact I]|]. destruct H as [H1 H2].
  destruct (Z.ltb_spec x z); [repeat split; assumption|]. destruct (Z.eqb_spec x z) as [->|N]; [split; assumption|]. split; [exact H1|]. apply IH; [lia|exact H2].
Qed.
Lemma sorted_in : forall l y, In y (sorted_set l) <-> In y l.
Proof. unfold sorted_set. induction l as [|x l IH]; intro y; cbn [fold_right In]; [tauto|]. rewrite insert_in, IH. intuition congruence. Qed.
Lemma sorted_rising : forall l a, (forall x, In x l -> a < x) -> rising_from a (sorted_set l).
Proof. unfold sorted_set. induction l as [|x l IH]; intros a H; cbn [fold_right]; [exact I|]. apply insert_rising; [apply H; left; reflexivity|]. apply IH. intros y Iy. apply H. right. exact Iy. Qed.
Lemma rising_lt : forall l a x, rising_from a l -> In x l -> a < x.
Proof. induction l as [|y l IH]; intros a x H I; [destruct I|]. destruct H as [H1 H2]. destruct I as [<-|I]; [exact H1|]. specialize (IH y x H2 I). lia. Qed.

(** ** Ends of the pieces *)
Lemma bounds_finite : forall x, is_finite x = true <-> finite x.
Proof. intro x. unfold is_finite, finite. rewrite andb_true_iff, Z.ltb_lt, Z.ltb_lt. reflexivity. Qed.
Lemma transitions_chain : forall p a b, - ORD_INF <= a -> chain a p b -> forall x, In x (transitions (slopes p)) <-> exists i f, In (i, f) p /\ x = upper i /\ x < b.
Proof.
  induction p as [|[i f] p IH]; intros a b A C x; cbn [slopes map transitions]; [split; [intros []|intros (j & g & [] & _)]|].
  destruct C as (Ei & L & C). fold (slopes p) in *. destruct p as [|[j g] p].
  - cbn [slopes map transitions]. cbn [chain] in C. split; [intros []|]. intros (k & h & [E|[]] & -> & Lt). injection E as -> ->. lia.
  - specialize (IH (upper i) b ltac:(lia) C x). destruct C as (Ej & Lj & C). cbn [slopes map fst snd] in *. fold (slopes p) in *. assert (K : cs_contiguous i j = true).
    { unfold cs_contiguous. destruct (_ && _); [reflexivity|]. rewrite Ei, Ej. cbn [lower upper left right]. destruct (Z.eqb_spec (upper i) (- ORD_INF)); [lia|]. rewrite Z.eqb_refl. reflexivity. }
    rewrite K. assert (Lm : lowermost j = upper i) by (rewrite Ej; unfold lowermost; cbn [lower left]; destruct (Z.eqb_spec (upper i) (- ORD_INF)); [lia|reflexivity]).
    rewrite Lm, in_app_iff, IH. pose proof (chain_le _ _ _ C) as Le. split.
    + intros [[<-|[]]|(k & h & Ik & E & Lt)]; [exists i, f; split; [left; reflexivity|split; [reflexivity|lia]]|exists k, h; split; [right; exact Ik|tauto]].
    + intros (k & h & [E|Ik] & -> & Lt); [injection E as -> ->; left; left; reflexivity|right; exists k, h; tauto].
Qed.
Lemma last_upper : forall p a b i0, chain a p b -> p <> [] -> match last (map fst (slopes p)) i0 with CS _ u _ _ => u end = b.
Proof.
  induction p as [|[i f] p IH]; intros a b i0 C N; [congruence|]. destruct C as (Ei & L & C). destruct p as [|s p].
  - cbn [slopes map last fst]. cbn [chain] in C. rewrite <- C. destruct i; reflexivity.
  - change (match last (map fst (slopes (s :: p))) i0 with CS _ u _ _ => u end = b). apply (IH (upper i) b i0 C). discriminate.
Qed.
Lemma chain_lower : forall p a b i f, chain a p b -> In (i, f) p -> lower i = a \/ exists j g, In (j, g) p /\ upper j = lower i.
Proof.
  induction p as [|[k h] p IH]; intros a b i f C I; [destruct I|]. destruct C as (Ek & L & C). destruct I as [E|I]; [injection E as -> ->; left; rewrite Ek; reflexivity|].
  right. destruct (IH _ _ _ _ C I) as [E|(j & g & Ij & E)]; [exists k, h; split; [left; reflexivity|congruence]|exists j, g; split; [right; exact Ij|exact E]].
Qed.
Lemma boundaries_spec : forall p x, chain (- ORD_INF) p ORD_INF -> p <> [] -> (In x (boundaries (slopes p)) <-> edge p x).
Proof.
  intros p x C N. unfold boundaries. rewrite sorted_in, filter_In, bounds_finite, !in_app_iff, (transitions_chain p _ _ (Z.le_refl _) C).
  assert (Lu : match last (map fst (slopes p)) RR with CS _ u _ _ => [u] end = [ORD_INF]).
  { pose proof (last_upper p _ _ RR C N) as H. destruct (last (map fst (slopes p)) RR). rewrite H. reflexivity. }
  rewrite Lu. unfold edge. split.
  - intros [[H|[(i & f & I & E & _)|[H|[]]]] F]; (split; [exact F|]).
    + exfalso. destruct p as [|[i f] p]; [congruence|]. cbn [slopes map firstn In fst] in H. destruct H as [H|[]]. destruct C as (Ei & _). rewrite Ei in H. cbn [lower] in H. unfold finite in F. lia.
    + exists i, f. split; [exact I|right; exact E].
    + exfalso. unfold finite in F. lia.
  - intros [F (i & f & I & E)]. split; [|exact F]. right. left. destruct E as [E|E].
    + destruct (chain_lower _ _ _ _ _ C I) as [El|(j & g & Ij & El)]; [unfold finite in F; lia|]. exists j, g. split; [exact Ij|]. unfold finite in F. lia.
    + exists i, f. split; [exact I|]. unfold finite in F. lia.
Qed.

(** ** Densities between the ends *)
Lemma eval_density : forall p x, plf_at p x <> None -> pdf_eval (slopes p) x = Ok (DFin (density p x)).
Proof.
  unfold pdf_eval, density. induction p as [|[i f] p IH]; intros x N; cbn [plf_at slopes map find fst snd] in *; [congruence|]. fold (slopes p). destruct (piece_has i x); [reflexivity|]. apply IH, N.
Qed.
Lemma chain_piece : forall p a b x, chain a p b -> a <= x < b -> exists i f, In (i, f) p /\ lower i <= x < upper i.
Proof.
  induction p as [|[i f] p IH]; intros a b x C X; [cbn in C; lia|]. destruct C as (Ei & L & C). destruct (Z.lt_ge_cases x (upper i)) as [H|H].
  - exists i, f. split; [left; reflexivity|]. rewrite Ei. cbn [lower upper]. lia.
  - destruct (IH _ _ x C ltac:(lia)) as (j & g & I & B). exists j, g. split; [right; exact I|exact B].
Qed.
Section One.
  Variable p : plf.
  Hypothesis Sp : spread_cdf p.
  Let C := sp_chain p Sp.
  Lemma dens_at : forall i f x, In (i, f) p -> finite x -> lower i <= x < upper i -> density p x = steepness f.
  Proof. intros i f x I F B. unfold density. rewrite (chain_at p _ _ i f x C (Z.le_refl _) (Z.le_refl _) I F B). reflexivity. Qed.
  Lemma at_some : forall x, finite x -> plf_at p x <> None.
  Proof. intros x F. destruct (chain_piece p _ _ x C) as (i & f & I & B); [unfold finite in F; lia|]. rewrite (chain_at p _ _ i f x C (Z.le_refl _) (Z.le_refl _) I F B). discriminate. Qed.
  Lemma dens_const : forall a b, finite a -> a < b -> (forall x, edge p x -> x <= a \/ b <= x) -> b < ORD_INF -> forall x, a <= x < b -> density p x = density p a.
  Proof.
    intros a b Fa L H Fb x X. destruct (chain_piece p _ _ a C) as (i & f & I & B); [unfold finite in Fa; lia|]. destruct (chain_in _ _ _ _ _ C I) as (B1 & B2 & _).
    assert (U : b <= upper i). { destruct (Z.eq_dec (upper i) ORD_INF) as [->|N]; [lia|]. destruct (H (upper i)); [split; [unfold finite in *; lia|exists i, f; auto]|lia|assumption]. }
    rewrite (dens_at i f x I), (dens_at i f a I); [reflexivity|exact Fa|exact B|unfold finite in *; lia|lia].
  Qed.
  Lemma dens_nonneg : forall x, finite x -> (0 <= density p x)%Q.
  Proof.
    intros x F. destruct (chain_piece p _ _ x C) as (i & f & I & B); [unfold finite in F; lia|]. rewrite (dens_at i f x I F B). pose proof (sp_rise p Sp) as R. rewrite Forall_forall in R. specialize (R _ I). cbn [snd fst] in R.
    destruct f; cbn [steepness]; lra.
  Qed.
  (** The first and the last piece are constant. *)
  Lemma dens_left : forall x, finite x -> (forall y, edge p y -> x < y) -> density p x = 0%Q.
  Proof.
    intros x F H. destruct (sp_first p Sp) as (i & r & E). assert (I : In (i, FConst 0) p) by (rewrite E; left; reflexivity). assert (Li : lower i = - ORD_INF) by (pose proof C as C'; rewrite E in C'; destruct C' as (Ei & _); rewrite Ei; reflexivity).
    assert (U : x < upper i). { destruct (Z.eq_dec (upper i) ORD_INF) as [->|N]; [unfold finite in F; lia|]. apply H. destruct (chain_in _ _ _ _ _ C I) as (B1 & B2 & _). split; [unfold finite in *; lia|]. exists i, (FConst 0). auto. }
    rewrite (dens_at i _ x I F); [reflexivity|]. unfold finite in F. lia.
  Qed.
  Lemma dens_right : forall x, finite x -> (forall y, edge p y -> y <= x) -> density p x = 0%Q.
  Proof.
    intros x F H. destruct (chain_piece p _ _ x C) as (i & f & I & B); [unfold finite in F; lia|]. rewrite (dens_at i f x I F B). destruct (chain_in _ _ _ _ _ C I) as (B1 & B2 & _).
    assert (U : upper i = ORD_INF). { destruct (Z.eq_dec (upper i) ORD_INF) as [E|N]; [exact E|]. exfalso. assert (upper i <= x); [|lia]. apply H. split; [unfold finite in *; lia|exists i, f; auto]. }
    pose proof (sp_rise p Sp) as R. rewrite Forall_forall in R. specialize (R _ I). cbn [snd fst] in R. pose proof (sp_affine p Sp) as Af. unfold affines in Af. rewrite Forall_forall in Af. specialize (Af _ I). cbn [snd] in Af.
    destruct f; cbn [steepness affine] in *; try contradiction; try reflexivity. destruct R as (_ & _ & Fu). unfold finite in Fu. lia.
  Qed.
  Lemma edge_some : exists x, edge p x.
  Proof. destruct (sp_some p Sp) as (i & m & c & I). pose proof (sp_rise p Sp) as R. rewrite Forall_forall in R. destruct (R _ I) as (_ & Fl & _). exists (lower i). split; [exact Fl|]. exists i, (FLin m c). auto. Qed.
  Lemma dens_some : exists x, finite x /\ (0 < density p x)%Q.
  Proof.
    destruct (sp_some p Sp) as (i & m & c & I). pose proof (sp_rise p Sp) as R. rewrite Forall_forall in R. destruct (R _ I) as (Pm & Fl & _). cbn [fst] in Fl. exists (lower i). split; [exact Fl|]. destruct (chain_in _ _ _ _ _ C I) as (B1 & _).
    rewrite (dens_at i _ _ I Fl ltac:(lia)). exact Pm.
  Qed.
End One.

(** ** Sums *)
Lemma zsum_nonneg : forall a b g, (forall x, a <= x < b -> (0 <= g x)%Q) -> (0 <= zsum a b g)%Q.
Proof.
  intros a b g. unfold zsum. remember (Z.to_nat (b - a)) as n eqn:E. assert (L : Z.of_nat n <= Z.max 0 (b - a)) by lia. clear E. revert L. induction n as [|n IH]; intros L H; cbn [zs]; [lra|].
  specialize (IH ltac:(lia) H). specialize (H (a + Z.of_nat n) ltac:(lia)). lra.
Qed.
Lemma zsum_ge : forall a b g x, a <= x < b -> (forall y, a <= y < b -> (0 <= g y)%Q) -> (g x <= zsum a b g)%Q.
Proof.
  intros a b g x X H. rewrite (zsum_split a x b g) by lia. rewrite (zsum_split x (x + 1) b g) by lia.
  pose proof (zsum_nonneg a x g ltac:(intros; apply H; lia)). pose proof (zsum_nonneg (x + 1) b g ltac:(intros; apply H; lia)).
  assert (E : (zsum x (x + 1) g == g x)%Q). { unfold zsum. replace (Z.to_nat (x + 1 - x)) with 1%nat by lia. cbn [zs]. rewrite Z.add_0_r. ring. } rewrite E. lra.
Qed.
Lemma zsum_le : forall a b g h, (forall x, a <= x < b -> (g x <= h x)%Q) -> (zsum a b g <= zsum a b h)%Q.
Proof.
  intros a b g h. unfold zsum. remember (Z.to_nat (b - a)) as n eqn:E. assert (L : Z.of_nat n <= Z.max 0 (b - a)) by lia. clear E. revert L. induction n as [|n IH]; intros L H; cbn [zs]; [lra|].
  specialize (IH ltac:(lia) H). specialize (H (a + Z.of_nat n) ltac:(lia)). lra.
Qed.
Lemma zsum_minus : forall a b g h, (zsum a b (fun x => h x - g x) == zsum a b h - zsum a b g)%Q.
Proof. intros a b g h. unfold zsum. induction (Z.to_nat (b - a)) as [|n IH]; cbn [zs]; [ring|]. rewrite IH. ring. Qed.
Lemma width_pos : forall x, (0 < dval (x + 1) - dval x)%Q.
Proof. intro x. pose proof (dval_lt x (x + 1) ltac:(lia)). lra. Qed.

Lemma zsum_zero_all : forall a b g, (zsum a b g == 0)%Q -> (forall x, a <= x < b -> (0 <= g x)%Q) -> forall x, a <= x < b -> (g x == 0)%Q.
Proof. intros a b g E H x X. pose proof (zsum_ge a b g x X H) as L. rewrite E in L. specialize (H x X). lra. Qed.
Lemma zsum_eq_all : forall a b g h, (zsum a b g == zsum a b h)%Q -> (forall x, a <= x < b -> (g x <= h x)%Q) -> forall x, a <= x < b -> (g x == h x)%Q.
Proof.
  intros a b g h E H x X. assert (D : (zsum a b (fun x => h x - g x) == 0)%Q) by (rewrite zsum_minus, E; ring).
  pose proof (zsum_zero_all a b _ D ltac:(intros y Y; specialize (H y Y); cbn beta; lra) x X) as R. cbn beta in R. lra.
Qed.
Lemma zsum_none : forall a g, (zsum a a g == 0)%Q.
Proof. intros a g. unfold zsum. rewrite Z.sub_diag. reflexivity. Qed.
Lemma zsum_zero : forall c d, (zsum c d (fun x => 0 * (dval (x + 1) - dval x)) == 0)%Q.
Proof. intros c d. unfold zsum. induction (Z.to_nat (d - c)) as [|n IH]; cbn [zs]; [reflexivity|rewrite IH; ring]. Qed.

(** ** The sums over the slices *)
Local Opaque zsum ORD_INF.
Definition minb (x y : Q) : Q := if Qle_bool x y then x else y.
Definition maxb (x y : Q) : Q := if Qle_bool x y then y else x.
Lemma minb_ok : forall x y, (minb x y == Qmin x y)%Q.
Proof. intros x y. unfold minb. destruct (Qle_bool x y) eqn:E; [apply Qle_bool_iff in E; rewrite Q.min_l by exact E; reflexivity|]. assert (N : ~ (x <= y)%Q) by (rewrite <- Qle_bool_iff, E; discriminate). rewrite Q.min_r by lra. reflexivity. Qed.
Lemma maxb_ok : forall x y, (maxb x y == Qmax x y)%Q.
Proof. intros x y. unfold maxb. destruct (Qle_bool x y) eqn:E; [apply Qle_bool_iff in E; rewrite Q.max_r by exact E; reflexivity|]. assert (N : ~ (x <= y)%Q) by (rewrite <- Qle_bool_iff, E; discriminate). rewrite Q.max_l by lra. reflexivity. Qed.

Section Two.
  Variables p q : plf.
  Hypotheses (Sp : spread_cdf p) (Sq : spread_cdf q).
  Variable mid : Z -> Z -> Z.
  Hypothesis Mid : centred mid p q.
  Let good (x : Z) : Prop := edge p x \/ edge q x.

  Section Sum.
    Variable G : Q -> Q -> Q.
    Let g (x : Z) : Q := (G (density p x) (density q x) * (dval (x + 1) - dval x))%Q.
    Let part (ab : Z * Z) : Q := (G (density p (fst ab)) (density q (fst ab)) * (dval (snd ab) - dval (fst ab)))%Q.
    Lemma sum_slices : forall l a acc, finite a -> rising_from a l -> (forall x, In x l -> finite x) -> (forall x, good x -> x <= a \/ In x l) ->
      exists s, fold_left dens_add (map (fun ab => DFin (part ab)) (pairs (a :: l))) (DFin acc) = DFin s /\ (s == acc + zsum a (last l a) g)%Q.
    Proof.
      induction l as [|b l IH]; intros a acc Fa R Fl H.
      - exists acc. split; [reflexivity|]. cbn [last]. rewrite zsum_none. ring.
      - destruct R as [L R]. assert (Fb : finite b) by (apply Fl; left; reflexivity). assert (H' : forall x, good x -> x <= b \/ In x l) by (intros x Gx; destruct (H x Gx) as [?|[<-|?]]; [left; lia|left; lia|right; assumption]).
        destruct (IH b (acc + part (a, b))%Q Fb R (fun x Ix => Fl x (or_intror Ix)) H') as (s & Es & Vs). exists s. split; [exact Es|]. rewrite Vs.
        assert (La : last (b :: l) a = last l b) by (destruct l as [|c l']; [reflexivity|]; cbn [last]; clear; revert c; induction l' as [|d l' IH]; intro c; [reflexivity|apply IH]). rewrite La.
        assert (B : b <= last l b). { clear - R. destruct l as [|c l]; [cbn; lia|]. assert (I : In (last (c :: l) b) (c :: l)) by (clear; revert c; induction l as [|d l IH]; intro c; [left; reflexivity|right; apply IH]). pose proof (rising_lt _ _ _ R I). lia. }
        rewrite (zsum_split a b (last l b) g) by lia. assert (E : (zsum a b g == part (a, b))%Q); [|rewrite E; ring].
        unfold part. cbn [fst snd]. rewrite <- (zsum_tele (G (density p a) (density q a)) dval a b) by lia. apply zsum_ext. intros x X. unfold g.
        assert (Ed : forall e, good e -> e <= a \/ b <= e). { intros e Ge. destruct (H e Ge) as [?|[<-|I]]; [left; assumption|right; lia|right; pose proof (rising_lt _ _ _ R I); lia]. }
        rewrite (dens_const p Sp a b Fa L (fun e Ee => Ed e (or_introl Ee)) ltac:(unfold finite in Fb; lia) x X), (dens_const q Sq a b Fa L (fun e Ee => Ed e (or_intror Ee)) ltac:(unfold finite in Fb; lia) x X). reflexivity.
    Qed.
  End Sum.

  Let part (ab : Z * Z) : dens * dens :=
    (DFin (minb (density p (fst ab)) (density q (fst ab)) * (dval (snd ab) - dval (fst ab))), DFin (maxb (density p (fst ab)) (density q (fst ab)) * (dval (snd ab) - dval (fst ab)))).
  Lemma slices_ok : forall l a, good a -> rising_from a l -> (forall x, In x l -> good x) -> (forall x, good x -> x <= a \/ In x l) ->
    mapM (slice mid (slopes p) (slopes q)) (pairs (a :: l)) = Ok (map part (pairs (a :: l))).
  Proof.
    induction l as [|b l IH]; intros a Ga R Fl H; [reflexivity|]. destruct R as [L R]. assert (Gb : good b) by (apply Fl; left; reflexivity). assert (H' : forall x, good x -> x <= b \/ In x l) by (intros x Gx; destruct (H x Gx) as [?|[<-|?]]; [left; lia|left; lia|right; assumption]).
    change (pairs (a :: b :: l)) with ((a, b) :: pairs (b :: l)). cbn [mapM map]. rewrite (IH b Gb R (fun x Ix => Fl x (or_intror Ix)) H').
    assert (E : slice mid (slopes p) (slopes q) (a, b) = Ok (part (a, b))); [|rewrite E; reflexivity].
    assert (Fa : finite a) by (destruct Ga as [[? _]|[? _]]; assumption). assert (Fb : finite b) by (destruct Gb as [[? _]|[? _]]; assumption).
    assert (Ed : forall e, good e -> e <= a \/ b <= e). { intros e Ge. destruct (H e Ge) as [?|[<-|I]]; [left; assumption|right; lia|right; pose proof (rising_lt _ _ _ R I); lia]. }
    pose proof (Mid a b Ga Gb L) as M. assert (Fm : finite (mid a b)) by (unfold finite in *; lia).
    unfold slice, part. cbn [fst snd]. cbv zeta. rewrite (eval_density p _ (at_some p Sp _ Fm)), (eval_density q _ (at_some q Sq _ Fm)). cbn [bind dens_min dens_max dens_scale].
    rewrite (dens_const p Sp a b Fa L (fun e Ee => Ed e (or_introl Ee)) ltac:(unfold finite in Fb; lia) _ M), (dens_const q Sq a b Fa L (fun e Ee => Ed e (or_intror Ee)) ltac:(unfold finite in Fb; lia) _ M). reflexivity.
  Qed.

  Lemma area_trim : forall G a b, (G 0 0 == 0)%Q -> finite a -> finite b -> a <= b -> (forall x, good x -> a <= x <= b) ->
    (zsum (- ORD_INF + 1) ORD_INF (fun x => G (density p x) (density q x) * (dval (x + 1) - dval x)) == zsum a b (fun x => G (density p x) (density q x) * (dval (x + 1) - dval x)))%Q.
  Proof.
    intros G a b G0 Fa Fb L H. unfold finite in Fa, Fb. rewrite (zsum_split (- ORD_INF + 1) a ORD_INF) by lia. rewrite (zsum_split a b ORD_INF) by lia.
    rewrite (zsum_ext (- ORD_INF + 1) a _ (fun x => 0 * (dval (x + 1) - dval x))%Q).
    2: { intros x X. rewrite (dens_left p Sp), (dens_left q Sq); [rewrite G0; reflexivity|unfold finite; lia| |unfold finite; lia|]; intros y Ey; [specialize (H y (or_intror Ey))|specialize (H y (or_introl Ey))]; lia. }
    rewrite (zsum_ext b ORD_INF _ (fun x => 0 * (dval (x + 1) - dval x))%Q).
    2: { intros x X. rewrite (dens_right p Sp), (dens_right q Sq); [rewrite G0; reflexivity|unfold finite; lia| |unfold finite; lia|]; intros y Ey; [specialize (H y (or_intror Ey))|specialize (H y (or_introl Ey))]; lia. }
    rewrite (zsum_zero (- ORD_INF + 1) a), (zsum_zero b ORD_INF). ring.
  Qed.

  Lemma cover_pos : (0 < cover p q)%Q.
  Proof.
    destruct (dens_some p Sp) as (x & F & P). unfold cover, area_of.
    apply Qlt_le_trans with (Qmax (density p x) (density q x) * (dval (x + 1) - dval x))%Q.
    - pose proof (width_pos x). pose proof (Q.le_max_l (density p x) (density q x)). apply Qmult_lt_0_compat; [lra|assumption].
    - apply (zsum_ge (- ORD_INF + 1) ORD_INF (fun x => Qmax (density p x) (density q x) * (dval (x + 1) - dval x))%Q x); [unfold finite in F; lia|].
      intros y Y. pose proof (width_pos y). pose proof (Q.le_max_l (density p y) (density q y)). pose proof (dens_nonneg p Sp y ltac:(unfold finite; lia)). apply Qmult_le_0_compat; lra.
  Qed.
  Lemma overlap_pos : forall x, finite x -> (0 <= Qmin (density p x) (density q x) * (dval (x + 1) - dval x))%Q.
  Proof. intros x F. pose proof (width_pos x). pose proof (dens_nonneg p Sp x F). pose proof (dens_nonneg q Sq x F). apply Qmult_le_0_compat; [apply Q.min_glb; assumption|lra]. Qed.
  Lemma overlap_range : (0 <= overlap p q <= cover p q)%Q.
  Proof.
    split; unfold overlap, cover, area_of.
    - apply zsum_nonneg. intros x X. apply overlap_pos. unfold finite. lia.
    - apply zsum_le. intros x X. pose proof (width_pos x). apply Qmult_le_compat_r; [|lra]. apply Qle_trans with (density p x); [apply Q.le_min_l|apply Q.le_max_l].
  Qed.
  Lemma same_area : (overlap p q == cover p q)%Q <-> forall x, finite x -> (density p x == density q x)%Q.
  Proof.
    split.
    - intros E x F. unfold overlap, cover, area_of in E. pose proof (width_pos x) as W.
      assert (D : (Qmin (density p x) (density q x) * (dval (x + 1) - dval x) == Qmax (density p x) (density q x) * (dval (x + 1) - dval x))%Q).
      { refine (zsum_eq_all _ _ _ _ E _ x _); [|unfold finite in F; lia]. intros y Y. pose proof (width_pos y). apply Qmult_le_compat_r; [|lra]. apply Qle_trans with (density p y); [apply Q.le_min_l|apply Q.le_max_l]. }
      apply Qmult_inj_r in D; [|lra].
      pose proof (Q.le_min_l (density p x) (density q x)). pose proof (Q.le_min_r (density p x) (density q x)). pose proof (Q.le_max_l (density p x) (density q x)). pose proof (Q.le_max_r (density p x) (density q x)). lra.
    - intro E. unfold overlap, cover, area_of. apply zsum_ext. intros x X. specialize (E x ltac:(unfold finite; lia)). rewrite E, Q.min_id, Q.max_id. reflexivity.
  Qed.
  Lemma no_overlap : (overlap p q == 0)%Q <-> forall x, finite x -> (density p x == 0 \/ density q x == 0)%Q.
  Proof.
    split.
    - intros E x F. unfold overlap, area_of in E. pose proof (width_pos x) as W.
      assert (Le : (Qmin (density p x) (density q x) * (dval (x + 1) - dval x) == 0)%Q).
      { refine (zsum_zero_all _ _ _ E _ x _); [|unfold finite in F; lia]. intros y Y. apply overlap_pos. unfold finite. lia. }
      apply Qmult_integral in Le. destruct Le as [Le|Le]; [|exfalso; lra].
      destruct (Q.min_spec (density p x) (density q x)) as [[_ M]|[_ M]]; rewrite M in Le; [left|right]; exact Le.
    - intro E. unfold overlap, area_of.
      rewrite (zsum_ext _ _ _ (fun x => 0 * (dval (x + 1) - dval x))%Q); [apply zsum_zero|]. intros x X. assert (F : finite x) by (unfold finite; lia). pose proof (dens_nonneg p Sp x F) as Np. pose proof (dens_nonneg q Sq x F) as Nq.
      assert (M : (Qmin (density p x) (density q x) == 0)%Q) by (destruct (E x F) as [Z|Z]; rewrite Z in *; [apply Q.min_l|apply Q.min_r]; assumption). rewrite M. reflexivity.
  Qed.

  Lemma like_density : Forall2 like_piece p q -> forall x, (density p x == density q x)%Q.
  Proof.
    intros H x. pose proof (sp_affine p Sp) as Ap. pose proof (sp_affine q Sq) as Aq. clear - H Ap Aq. unfold density. induction H as [|[i f] [j h] p q [E Fe] H IH]; [reflexivity|]. cbn [fst snd] in *. subst j. inversion Ap; inversion Aq; subst. cbn [snd plf_at] in *.
    destruct (piece_has i x); [apply like_steep; assumption|apply IH; assumption].
  Qed.
  Lemma eq_total : exists b, plf_eq p q = Ok b.
  Proof.
    pose proof (sp_affine p Sp) as Ap. pose proof (sp_affine q Sq) as Aq. clear - Ap Aq. revert q Aq. induction p as [|[i f] r IH]; intros [|[j h] t] Aq; cbn [plf_eq]; eauto. inversion Ap; inversion Aq; subst. cbn [snd] in *.
    destruct (negb (cs_eq i j)); [eauto|]. assert (T : exists b, fn_eq f h = Ok b) by (destruct f, h; cbn [affine] in *; try contradiction; cbn [fn_eq]; eauto). destruct T as [b ->]. cbn [bind]. destruct b; cbn [negb]; eauto.
  Qed.

  Lemma jaccard_value : small_bounds p -> small_bounds q -> exists j, num_jaccard mid p q = Ok (Some j) /\ (j == overlap p q / cover p q)%Q.
  Proof.
    intros Mp Mq. pose proof cover_pos as CP. unfold num_jaccard. destruct eq_total as [[|] Ee]; rewrite Ee; cbn [bind].
    - exists 1%Q. split; [reflexivity|]. pose proof (chain_eq p q _ (Z.le_refl _) (sp_chain p Sp) (sp_chain q Sq) Mp Mq Ee) as Lk.
      assert (E : (overlap p q == cover p q)%Q) by (apply same_area; intros x _; apply like_density, Lk). rewrite E. field. lra.
    - rewrite (density_spec p (sp_affine p Sp) (sp_len p Sp)), (density_spec q (sp_affine q Sq) (sp_len q Sq)). cbn [bind].
      assert (Np : p <> []) by (intro X; pose proof (sp_len p Sp) as L; rewrite X in L; cbn in L; lia). assert (Nq : q <> []) by (intro X; pose proof (sp_len q Sq) as L; rewrite X in L; cbn in L; lia).
      assert (In_good : forall x, In x (sorted_set (boundaries (slopes p) ++ boundaries (slopes q))) <-> good x).
      { intro x. rewrite sorted_in, in_app_iff, (boundaries_spec p x (sp_chain p Sp) Np), (boundaries_spec q x (sp_chain q Sq) Nq). reflexivity. }
      assert (Ri : rising_from (- ORD_INF) (sorted_set (boundaries (slopes p) ++ boundaries (slopes q)))).
      { apply sorted_rising. intros x Ix. rewrite <- sorted_in in Ix. apply In_good in Ix. destruct Ix as [[F _]|[F _]]; unfold finite in F; lia. }
      remember (sorted_set (boundaries (slopes p) ++ boundaries (slopes q))) as l eqn:El. clear El. destruct l as [|a l].
      { exfalso. destruct (edge_some p Sp) as [x Ex]. apply (In_good x). left. exact Ex. }
      destruct Ri as [_ Ri]. assert (Ga : good a) by (apply In_good; left; reflexivity). assert (Gl : forall x, In x l -> good x) by (intros x Ix; apply In_good; right; exact Ix).
      assert (Fg : forall x, good x -> finite x) by (intros x [[F _]|[F _]]; exact F). assert (Al : forall x, good x -> x <= a \/ In x l) by (intros x Gx; apply In_good in Gx; destruct Gx as [<-|Ix]; [left; lia|right; exact Ix]).
      rewrite (slices_ok l a Ga Ri Gl Al). cbn [bind]. rewrite !map_map. unfold part. cbn [fst snd].
      destruct (sum_slices minb l a 0 (Fg _ Ga) Ri (fun x Ix => Fg x (Gl x Ix)) Al) as (i & Ei & Vi). destruct (sum_slices maxb l a 0 (Fg _ Ga) Ri (fun x Ix => Fg x (Gl x Ix)) Al) as (u & Eu & Vu).
      rewrite Ei, Eu. assert (LL : In (last l a) (a :: l)) by (clear; revert a; induction l as [|b l IH]; intro a; [left; reflexivity|]; right; specialize (IH b); destruct l as [|c l]; [left; reflexivity|]; change (last (b :: c :: l) a) with (last (c :: l) a); assert (E : last (c :: l) a = last (c :: l) b) by (clear; revert c; induction l as [|d l IH]; intro c; [reflexivity|apply IH]); rewrite E; exact IH).
      assert (Rg : forall x, good x -> a <= x <= last l a).
      { intros x Gx. assert (Ix : In x (a :: l)) by (apply In_good; exact Gx). clear - Ix Ri. revert x a Ri Ix. induction l as [|b l IH]; intros x a R I; [destruct I as [<-|[]]; cbn; lia|]. destruct R as [L R].
        assert (La : last (b :: l) a = last l b) by (destruct l as [|c l']; [reflexivity|]; cbn [last]; clear; revert c; induction l' as [|d l' IH]; intro c; [reflexivity|apply IH]). rewrite La.
        destruct I as [<-|I]; [specialize (IH b b R (or_introl eq_refl)); lia|specialize (IH x b R I); lia]. }
      assert (Ll : a <= last l a) by (apply Rg in Ga; lia). assert (Fl : finite (last l a)) by (apply Fg, In_good, LL).
      assert (Oi : (i == overlap p q)%Q).
      { rewrite Vi, <- (area_trim minb a (last l a) (Qeq_refl _) (Fg _ Ga) Fl Ll Rg). unfold overlap, area_of. rewrite Qplus_0_l. apply zsum_ext. intros x X. rewrite minb_ok. reflexivity. }
      assert (Ou : (u == cover p q)%Q).
      { rewrite Vu, <- (area_trim maxb a (last l a) (Qeq_refl _) (Fg _ Ga) Fl Ll Rg). unfold cover, area_of. rewrite Qplus_0_l. apply zsum_ext. intros x X. rewrite maxb_ok. reflexivity. }
      destruct (Qeq_bool u 0) eqn:Eq; [apply Qeq_bool_iff in Eq; rewrite Eq in Ou; lra|]. exists (i / u)%Q. split; [reflexivity|]. apply Qdiv_comp; assumption.
  Qed.
End Two.
Lemma overlap_sym : forall p q, (overlap p q == overlap q p)%Q.
Proof. intros p q. unfold overlap, area_of. apply zsum_ext. intros x _. rewrite Q.min_comm. reflexivity. Qed.
Lemma cover_sym : forall p q, (cover p q == cover q p)%Q.
Proof. intros p q. unfold cover, area_of. apply zsum_ext. intros x _. rewrite Q.max_comm. reflexivity. Qed.

(** ** C56 *)
Local Opaque overlap cover.

(** The similarity of two numeric distributions with densities is the area below both densities
    over the area below either: between 0 and 1, 1 exactly for equal densities and 0 exactly for
    densities that are nowhere both positive.  Partial: point masses (C56_points_refuted), pieces
    between neighbouring doubles and doubles from 2^53 on. *)
Theorem C56_numeric_partial : forall mid p q, spread_cdf p -> spread_cdf q -> small_bounds p -> small_bounds q -> centred mid p q ->
  exists j, num_jaccard mid p q = Ok (Some j) /\ (j == overlap p q / cover p q)%Q /\ (0 <= j <= 1)%Q
    /\ ((j == 1)%Q <-> forall x, finite x -> (density p x == density q x)%Q)
    /\ ((j == 0)%Q <-> forall x, finite x -> (density p x == 0 \/ density q x == 0)%Q).
Proof.
  intros mid p q Sp Sq Mp Mq Mid. destruct (jaccard_value p q Sp Sq mid Mid Mp Mq) as (j & Ej & Vj). pose proof (cover_pos p q Sp) as CP. pose proof (overlap_range p q Sp Sq) as [O1 O2].
  assert (J : (j * cover p q == overlap p q)%Q) by (rewrite Vj; field; lra). exists j. split; [exact Ej|]. split; [exact Vj|]. split; [split; nra|]. split.
  - rewrite <- (same_area p q). split; intro E; [rewrite E in J; lra|]. rewrite E in J. nra.
  - rewrite <- (no_overlap p q Sp Sq). split; intro E; [rewrite E in J; lra|]. rewrite E in J. nra.
Qed.
Theorem C56_numeric_symmetric_partial : forall mid p q, spread_cdf p -> spread_cdf q -> small_bounds p -> small_bounds q -> centred mid p q ->
  exists j j', num_jaccard mid p q = Ok (Some j) /\ num_jaccard mid q p = Ok (Some j') /\ (j == j')%Q.
Proof.
  intros mid p q Sp Sq Mp Mq Mid. destruct (jaccard_value p q Sp Sq mid Mid Mp Mq) as (j & Ej & Vj). assert (Mid' : centred mid q p) by (intros a b A B L; exact (Mid a b (proj1 (or_comm _ _) A) (proj1 (or_comm _ _) B) L)).
  destruct (jaccard_value q p Sq Sp mid Mid' Mq Mp) as (j' & Ej' & Vj'). exists j, j'. split; [exact Ej|]. split; [exact Ej'|]. rewrite Vj, Vj'. apply Qdiv_comp; [apply overlap_sym|apply cover_sym].
Qed.

(** ** Single values *)

(** The centre is computed as a double: that of neighbouring doubles is the even one of them. *)
Definition rounded (mid : Z -> Z -> Z) : Prop :=
  (forall a, mid a (a + 1) = if Z.even a then a else a + 1) /\ (forall a b, a + 1 < b -> a <= mid a b < b).

Definition dirac_density (x : Z) : pdf_fn := [(CS (- ORD_INF) x EXC EXC, DFin 0); (CS x (x + 1) INC EXC, DInf); (CS (x + 1) ORD_INF INC EXC, DFin 0)].
Lemma ords : 0 < ORD_53 /\ ORD_53 + 1 < ORD_INF.
Proof. Local Transparent ORD_INF. vm_compute. split; reflexivity. Qed.
Local Opaque ORD_INF ORD_53.
Lemma dirac_eval : forall x m, Z.abs x < ORD_53 -> finite m -> pdf_eval (dirac_density x) m = Ok (if m =? x then DInf else DFin 0).
Proof.
  intros x m X M. pose proof ords as O. set (p := [(CS (- ORD_INF) x EXC EXC, FConst 0); (CS x (x + 1) INC EXC, FConst 1); (CS (x + 1) ORD_INF INC EXC, FConst 0)] : plf).
  assert (C : chain (- ORD_INF) p ORD_INF).
  { unfold p, chain. cbn [upper]. rewrite Z.eqb_refl. destruct (Z.eqb_spec x (- ORD_INF)); [lia|]. destruct (Z.eqb_spec (x + 1) (- ORD_INF)); [lia|]. repeat split; lia. }
  assert (T : forall f, plf_at p m = Some f -> pdf_eval (dirac_density x) m = Ok (match f with FConst 0 => DFin 0 | _ => DInf end)).
  { intros f. unfold p, pdf_eval, dirac_density. cbn [find fst plf_at]. destruct (piece_has _ m); [intro E; injection E as <-; reflexivity|]. destruct (piece_has _ m); [intro E; injection E as <-; reflexivity|]. destruct (piece_has _ m); [intro E; injection E as <-; reflexivity|discriminate]. }
  unfold finite in M. destruct (Z.eqb_spec m x) as [->|N].
  - rewrite (T (FConst 1)); [reflexivity|]. apply (chain_at p _ _ (CS x (x + 1) INC EXC) _ x C); try lia; [right; left; reflexivity|exact M|cbn [lower upper]; lia].
  - rewrite (T (FConst 0)); [reflexivity|]. destruct (Z.lt_ge_cases m x).
    + apply (chain_at p _ _ (CS (- ORD_INF) x EXC EXC) _ m C); try lia; [left; reflexivity|exact M|cbn [lower upper]; lia].
    + apply (chain_at p _ _ (CS (x + 1) ORD_INF INC EXC) _ m C); try lia; [right; right; left; reflexivity|exact M|cbn [lower upper]; lia].
Qed.
Lemma dirac_bounds : forall x, Z.abs x < ORD_53 -> boundaries (dirac_density x) = [x; x + 1].
Proof.
  intros x X. pose proof ords as O. unfold boundaries, dirac_density. cbn [map firstn fst lower last transitions].
  assert (K : forall a b c d f, a <> - ORD_INF -> cs_contiguous (CS c a f EXC) (CS a b INC d) = true).
  { intros a b c d f N. unfold cs_contiguous. destruct (_ && _); [reflexivity|]. cbn [lower upper left right]. rewrite Z.eqb_refl. reflexivity. }
  rewrite !K by lia. unfold lowermost. cbn [left lower app filter]. unfold is_finite.
  assert (B1 : (- ORD_INF <? - ORD_INF) = false) by lia. assert (B2 : (ORD_INF <? ORD_INF) = false) by lia. assert (B3 : (- ORD_INF <? x) = true) by lia. assert (B4 : (x <? ORD_INF) = true) by lia. assert (B5 : (- ORD_INF <? x + 1) = true) by lia. assert (B6 : (x + 1 <? ORD_INF) = true) by lia.
  rewrite B1, B2, B3, B4, B5, B6, ?andb_false_r. cbn [andb]. unfold sorted_set. cbn [fold_right insert_new]. assert (B7 : (x <? x + 1) = true) by lia. rewrite B7. reflexivity.
Qed.
Lemma dirac_differ : forall x y, Z.abs x < ORD_53 -> Z.abs y < ORD_53 -> x <> y -> plf_eq (dirac x) (dirac y) = Ok false.
Proof.
  intros x y X Y N. pose proof ords as O. destruct (plf_eq (dirac x) (dirac y)) as [[|]|] eqn:E; [|reflexivity|].
  - exfalso. assert (L : Forall2 like_piece (dirac x) (dirac y)).
    { apply (chain_eq _ _ (- ORD_INF) (Z.le_refl _)); [apply dirac_chain; unfold finite; lia|apply dirac_chain; unfold finite; lia| | |exact E]; unfold small_bounds, dirac; (apply Forall_cons; [cbn [fst upper]; left; assumption|apply Forall_cons; [right; reflexivity|apply Forall_nil]]). }
    unfold dirac in L. inversion L as [|? ? ? ? [H _] _]; subst. cbn [fst] in H. injection H as H. exact (N H).
  - exfalso. unfold dirac in E. cbn [plf_eq fn_eq bind] in E. repeat (destruct (negb _); [discriminate E|]); cbn [bind] in E; discriminate E.
Qed.

(** Two different single values have similarity 0 when the ordinal of one of the doubles is even.
    If both are odd (0.3 and 0.9, for instance) the centre of neighbouring doubles misses the
    value, both sums are 0 and the similarity is NaN. *)
Theorem C56_points_refuted : forall mid, rounded mid -> forall x y, Z.abs x < ORD_53 -> Z.abs y < ORD_53 -> x + 2 < y ->
  num_jaccard mid (dirac x) (dirac y) = Ok (if Z.even x || Z.even y then Some 0%Q else None).
Proof.
  intros mid [M1 M2] x y X Y L. pose proof ords as O. unfold num_jaccard. rewrite (dirac_differ x y X Y) by lia. cbn [bind]. rewrite (dirac_pdf x X), (dirac_pdf y Y). cbn [bind]. fold (dirac_density x) (dirac_density y).
  rewrite (dirac_bounds x X), (dirac_bounds y Y). cbn [app].
  assert (Ss : sorted_set [x; x + 1; y; y + 1] = [x; x + 1; y; y + 1]).
  { unfold sorted_set. cbn [fold_right insert_new]. assert (B1 : (y <? y + 1) = true) by lia. rewrite B1. cbn [insert_new]. assert (B2 : (x + 1 <? y) = true) by lia. rewrite B2. cbn [insert_new]. assert (B3 : (x <? x + 1) = true) by lia. rewrite B3. reflexivity. }
  rewrite Ss. unfold pairs. cbn [tl combine mapM]. unfold slice. cbn [fst snd]. cbv zeta.
  pose proof (M2 (x + 1) y ltac:(lia)) as Mm. pose proof (M1 x) as Mx. pose proof (M1 y) as My. set (mx := mid x (x + 1)) in *. set (my := mid y (y + 1)) in *. set (m := mid (x + 1) y) in *.
  assert (Bx : x <= mx <= x + 1) by (rewrite Mx; destruct (Z.even x); lia). assert (By : y <= my <= y + 1) by (rewrite My; destruct (Z.even y); lia).
  rewrite !(dirac_eval x) by (assumption || (unfold finite; lia)). rewrite !(dirac_eval y) by (assumption || (unfold finite; lia)). cbn [bind].
  assert (B1 : (m =? x) = false) by lia. assert (B2 : (m =? y) = false) by lia. assert (B3 : (mx =? y) = false) by lia. assert (B4 : (my =? x) = false) by lia.
  assert (B5 : (mx =? x) = Z.even x) by (rewrite Mx; destruct (Z.even x); lia). assert (B6 : (my =? y) = Z.even y) by (rewrite My; destruct (Z.even y); lia).
  rewrite B1, B2, B3, B4, B5, B6. clear. generalize (dval (x + 1) - dval x)%Q, (dval y - dval (x + 1))%Q, (dval (y + 1) - dval y)%Q. intros a b c.
  destruct (Z.even x), (Z.even y); reflexivity.
Qed.

(** The densities of [uniform 0 2] and [uniform 1 4] have 1/3 of 5/3 in common. *)
Definition centre (a b : Z) : Z := (a + b) / 2.
Example C56_numeric_example : let p := uniform 0 IntervalDec.TWO in let q := uniform IntervalDec.ONE IntervalDec.FOUR in
  spread_cdf p /\ spread_cdf q /\ small_bounds p /\ small_bounds q /\ centred centre p q
  /\ match num_jaccard centre p q with Ok (Some j) => Qeq_bool j (1 # 5) | _ => false end = true
  /\ rounded (fun a b => if b =? a + 1 then if Z.even a then a else a + 1 else (a + b) / 2).
Proof.
  cbv zeta. assert (F : finite 0 /\ finite IntervalDec.ONE /\ finite IntervalDec.TWO /\ finite IntervalDec.FOUR) by (unfold finite; vm_compute; repeat split; reflexivity).
  destruct F as (F0 & F1 & F2 & F4). assert (M : Z.abs 0 < ORD_53 /\ Z.abs IntervalDec.ONE < ORD_53 /\ Z.abs IntervalDec.TWO < ORD_53 /\ Z.abs IntervalDec.FOUR < ORD_53) by (vm_compute; repeat split; reflexivity).
  destruct M as (M0 & M1 & M2 & M4).
  split; [apply un_spread; [assumption|assumption|vm_compute; reflexivity]|]. split; [apply un_spread; [assumption|assumption|vm_compute; reflexivity]|].
  split; [unfold small_bounds, uniform; (apply Forall_cons; [cbn [fst upper]; left; assumption|apply Forall_cons; [cbn [fst upper]; left; assumption|apply Forall_cons; [right; reflexivity|apply Forall_nil]]])|]. split; [unfold small_bounds, uniform; (apply Forall_cons; [cbn [fst upper]; left; assumption|apply Forall_cons; [cbn [fst upper]; left; assumption|apply Forall_cons; [right; reflexivity|apply Forall_nil]]])|].
  split; [intros a b _ _ L; unfold centre; split; [apply Z.div_le_lower_bound; lia|apply Z.div_lt_upper_bound; lia]|].
  split; [vm_compute; reflexivity|]. split.
  - intro a. rewrite Z.eqb_refl. reflexivity.
  - intros a b L. destruct (Z.eqb_spec b (a + 1)); [lia|]. split; [apply Z.div_le_lower_bound; lia|apply Z.div_lt_upper_bound; lia].
Qed.

(** ** Learnt distributions *)

(** Distributions fitted to samples, two of them different, have densities, so the similarity of
    two of them is the area below both densities over the area below one of them. *)
Lemma fit_different : forall epsilon rows u v, Forall (fun x => Z.abs x + 1 < ORD_53) rows -> In u rows -> In v rows -> u <> v ->
  exists p, fit_cdf epsilon None None rows = Ok p /\ spread_cdf p /\ small_bounds p.
Proof.
  intros epsilon rows u v M Iu Iv N. assert (R : rows <> []) by (intros ->; destruct Iu). destruct (C81_fitted epsilon rows R M) as (p & E & _ & B). exists p. split; [exact E|]. split; [|exact B].
  assert (F : Forall finite rows) by (rewrite Forall_forall in M |- *; intros x I; specialize (M x I); pose proof ords; unfold finite; lia).
  destruct (fit_nonempty epsilon None None rows rows (fit_plain rows) R F) as [(z & A & _ & _)|(p' & ks & E' & Ft)]; [exfalso; apply N; rewrite (A u Iu), (A v Iv); reflexivity|].
  rewrite E in E'. injection E' as <-. exact (fitted_spread rows p ks Ft F).
Qed.
Theorem C56_learnt_partial : forall mid epsilon epsilon' rows rows' u v u' v',
  Forall (fun x => Z.abs x + 1 < ORD_53) rows -> In u rows -> In v rows -> u <> v ->
  Forall (fun x => Z.abs x + 1 < ORD_53) rows' -> In u' rows' -> In v' rows' -> u' <> v' ->
  exists p q, fit_cdf epsilon None None rows = Ok p /\ fit_cdf epsilon' None None rows' = Ok q /\
    (centred mid p q -> exists j, num_jaccard mid p q = Ok (Some j) /\ (j == overlap p q / cover p q)%Q /\ (0 <= j <= 1)%Q
      /\ ((j == 1)%Q <-> forall x, finite x -> (density p x == density q x)%Q)
      /\ ((j == 0)%Q <-> forall x, finite x -> (density p x == 0 \/ density q x == 0)%Q)).
Proof.
  intros mid e e' rows rows' u v u' v' M Iu Iv N M' Iu' Iv' N'. destruct (fit_different e rows u v M Iu Iv N) as (p & E & S & B). destruct (fit_different e' rows' u' v' M' Iu' Iv' N') as (q & E' & S' & B').
  exists p, q. split; [exact E|]. split; [exact E'|]. intro Mid. exact (C56_numeric_partial mid p q S S' B B' Mid).
Qed.
Example C56_learnt_example : Forall (fun x => Z.abs x + 1 < ORD_53) [0; IntervalDec.ONE; IntervalDec.TWO] /\ (forall p q, centred centre p q)
  /\ match fit_cdf (1 # 100) None None [0; IntervalDec.ONE; IntervalDec.TWO], fit_cdf (1 # 100) None None [IntervalDec.ONE; IntervalDec.FOUR] with
     | Ok p, Ok q => match num_jaccard centre p q with Ok (Some j) => negb (Qle_bool j 0) && negb (Qle_bool 1 j) | _ => false end | _, _ => false end = true.
Proof.
  split; [repeat constructor|]. split; [intros p q a b _ _ L; unfold centre; split; [apply Z.div_le_lower_bound; lia|apply Z.div_lt_upper_bound; lia]|]. vm_compute. reflexivity.
Qed.

(** ** Integer distributions *)

(** integer.py:471-478 compares the probabilities position by position, whatever the integers
    are: two distributions without a common integer can have similarity 1. *)
Definition int_jaccard (a b : DiscreteModel.idist) : res Q := DiscreteModel.jaccard (DiscreteModel.iparams a) (DiscreteModel.iparams b).
Theorem C56_integer_ranges_refuted : exists a b j, DiscreteProofs2.iwf a /\ DiscreteProofs2.iwf b
  /\ (forall z, ~ (DiscreteModel.lmin a <= z <= DiscreteModel.lmax a /\ DiscreteModel.lmin b <= z <= DiscreteModel.lmax b))
  /\ int_jaccard a b = Ok j /\ (j == 1)%Q.
Proof.
  exists (DiscreteModel.IDist 0 1 [1 # 2; 1 # 2]%Q), (DiscreteModel.IDist 5 6 [1 # 2; 1 # 2]%Q). eexists. cbn [DiscreteModel.lmin DiscreteModel.lmax].
  split; [split; vm_compute; [discriminate|reflexivity]|]. split; [split; vm_compute; [discriminate|reflexivity]|]. split; [lia|]. split; [vm_compute; reflexivity|reflexivity].
Qed.

Print Assumptions C56_numeric_partial.
Print Assumptions C56_numeric_symmetric_partial.
Print Assumptions C56_points_refuted.
Print Assumptions C56_integer_ranges_refuted.
Print Assumptions C56_learnt_partial.
