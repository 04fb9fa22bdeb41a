(** Proofs about [close_gaps]. *)
Require Import QArith Qabs Qround ZArith Bool List Permutation Sorted Lia Lqa.
Require Import Verif.Base Verif.FloatLine Verif.FloatVal Verif.NumBase Verif.IntervalModel Verif.IntervalSpec Verif.IntervalProofs Verif.FunctionModel Verif.FunctionSpec Verif.FunctionPlf
  Verif.NumericModel Verif.NumericSpec Verif.NumericFit Verif.NumericProb Verif.NumericMerge Verif.NumericMix Verif.NumericClose Verif.NumericTree Verif.NumericProps Verif.GapModel.
Import ListNotations.
Open Scope Z_scope.

(** The share of the interval between [l] and [u] that lies below [x]. *)
Definition covered (l u x : Z) : Q :=
  if x <? l then 0%Q else if x <? u then ((dval x - dval l) / (dval u - dval l))%Q else 1%Q.

Lemma covered_range : forall l u x, l < u -> (0 <= covered l u x <= 1)%Q.
Proof.
  intros l u x L. unfold covered. pose proof (dval_lt _ _ L). destruct (Z.ltb_spec x l); [lra|]. destruct (Z.ltb_spec x u) as [B|B]; [|lra].
  pose proof (dval_le l x ltac:(lia)). pose proof (dval_lt x u B). split.
  - apply Qle_shift_div_l; lra.
  - apply Qle_shift_div_r; lra.
Qed.
Lemma covered_mono : forall l u x y, l < u -> x <= y -> (covered l u x <= covered l u y)%Q.
Proof.
  intros l u x y L XY. pose proof (covered_range l u y L) as R. pose proof (covered_range l u x L) as R'. unfold covered in *. destruct (Z.ltb_spec x l); [lra|]. destruct (Z.ltb_spec y l); [lia|]. destruct (Z.ltb_spec y u); [|lra]. destruct (Z.ltb_spec x u); [|lia].
  pose proof (dval_le x y XY). pose proof (dval_lt _ _ L). apply Qmult_le_compat_r; [lra|]. apply Qlt_le_weak, Qinv_lt_0_compat. lra.
Qed.

(** A chain of pieces which has the values of a distribution function. *)
Lemma shape_proper : forall r (S : Z -> Q) lo hi, (forall x, finite x -> plf_is r x (S x)) -> (forall x, x < lo -> (S x == 0)%Q) -> (forall x, hi <= x -> (S x == 1)%Q) ->
  (forall x, (0 <= S x <= 1)%Q) -> (forall x y, x <= y -> (S x <= S y)%Q) -> proper_cdf r lo hi.
Proof.
  intros r S lo hi V L R B M. constructor.
  - intros x F H. apply (plf_is_wd _ _ _ _ (L x H)). apply V, F.
  - intros x F H. apply (plf_is_wd _ _ _ _ (R x H)). apply V, F.
  - intros x F. exists (S x). split; [apply V, F|apply B].
  - intros x x' y y' F F' H Y Y'. rewrite <- (plf_is_fun _ _ _ _ (V x F) Y), <- (plf_is_fun _ _ _ _ (V x' F') Y'). apply M, H.
Qed.

Lemma line_share : forall l u x (m c h : Q), l < u -> (m * (dval u - dval l) == h)%Q -> l <= x < u -> (m * dval x + c == (m * dval l + c) + h * covered l u x)%Q.
Proof.
  intros l u x m c h L Hm X. unfold covered. destruct (Z.ltb_spec x l); [lia|]. destruct (Z.ltb_spec x u); [|lia]. pose proof (dval_lt _ _ L). rewrite <- Hm. field. lra.
Qed.
Lemma rise_of : forall l u (m h : Q), l < u -> (m * (dval u - dval l) == h)%Q -> (0 < h)%Q -> (0 < m)%Q.
Proof.
  intros l u m h L Hm H. pose proof (dval_lt _ _ L). destruct (Qlt_le_dec 0 m) as [K|K]; [exact K|]. exfalso.
  assert (m * (dval u - dval l) <= 0 * (dval u - dval l))%Q by (apply Qmult_le_compat_r; lra). lra.
Qed.

(** ** The gaps as continuous cdfs *)
Section OneGap.
  Variables l u : Z.
  Variables m c v : Q.
  Hypothesis Fl : finite l.
  Hypothesis Fu : finite u.
  Hypothesis L : l < u.
  Hypothesis Hm : (m * (dval u - dval l) == 1)%Q.
  Hypothesis Hc : (m * dval l + c == 0)%Q.
  Hypothesis Hv : (v == 1)%Q.
  Definition ramp : plf := [(CS (- ORD_INF) l EXC EXC, FConst 0); (CS l u INC EXC, FLin m c); (CS u ORD_INF INC EXC, FConst v)].
  Lemma ramp_chain : chain (- ORD_INF) ramp ORD_INF.
  Proof. unfold finite in *. unfold ramp, chain. cbn [upper]. destruct (Z.eqb_spec l (- ORD_INF)); [lia|]. destruct (Z.eqb_spec u (- ORD_INF)); [lia|]. rewrite Z.eqb_refl. repeat split; lia. Qed.
  Lemma ramp_at : forall x, finite x -> plf_at ramp x = Some (if x <? l then FConst 0 else if x <? u then FLin m c else FConst v).
  Proof.
    intros x F. pose proof F as F'. unfold finite in F', Fl, Fu. destruct (Z.ltb_spec x l); [|destruct (Z.ltb_spec x u)].
    - apply (chain_at _ _ _ (CS (- ORD_INF) l EXC EXC) (FConst 0) x ramp_chain); try assumption; cbn [lower upper]; try lia. left. reflexivity.
    - eapply (chain_at _ _ _ (CS l u INC EXC) _ x ramp_chain); try assumption; cbn [lower upper]; try lia. right. left. reflexivity.
    - apply (chain_at _ _ _ (CS u ORD_INF INC EXC) (FConst v) x ramp_chain); try assumption; cbn [lower upper]; try lia. right. right. left. reflexivity.
  Qed.
  Lemma ramp_is : forall x, finite x -> plf_is ramp x (covered l u x).
  Proof.
    intros x F. apply (plf_is_of _ _ _ _ (ramp_at x F)). destruct (Z.ltb_spec x l) as [A|A]; [|destruct (Z.ltb_spec x u) as [B|B]].
    - exists 0%Q. split; [reflexivity|]. unfold covered. destruct (Z.ltb_spec x l); [reflexivity|lia].
    - eexists. split; [reflexivity|]. rewrite (line_share l u x m c 1 L Hm) by lia. rewrite Hc. ring.
    - exists v. split; [reflexivity|]. unfold covered. destruct (Z.ltb_spec x l); [lia|]. destruct (Z.ltb_spec x u); [lia|exact Hv].
  Qed.
  Lemma ramp_end : (m * dval u + c == 1)%Q.
  Proof. setoid_replace (m * dval u + c)%Q with (m * (dval u - dval l) + (m * dval l + c))%Q by ring. rewrite Hm, Hc. ring. Qed.
  Lemma ramp_tiling : tiling ramp.
  Proof.
    pose proof ramp_end as E. unfold finite in *. unfold ramp, tiling. cbn [lower upper]. split; [lia|]. split; [reflexivity|]. split.
    - exists 0%Q. split; eexists; (split; [reflexivity|]); cbn beta; [reflexivity|exact Hc].
    - split; [lia|]. split; [reflexivity|]. split; [|lia]. exists 1%Q. split; eexists; (split; [reflexivity|]); cbn beta; [exact E|exact Hv].
  Qed.
  Lemma ramp_spread : spread_cdf ramp.
  Proof.
    constructor.
    - exact ramp_chain.
    - unfold ramp. repeat (apply Forall_cons || apply Forall_nil); cbn; exact I.
    - cbn. lia.
    - eexists. eexists. reflexivity.
    - unfold ramp. repeat (apply Forall_cons || apply Forall_nil); cbn [fst snd lower upper]; try exact I. split; [|split; assumption]. apply (rise_of l u m 1 L Hm). reflexivity.
    - exists (CS l u INC EXC), m, c. right. left. reflexivity.
    - exists l, u. split; [exact Fu|]. apply (shape_proper ramp (covered l u)); [exact ramp_is| | | |].
      + intros x X. unfold covered. destruct (Z.ltb_spec x l); [reflexivity|lia].
      + intros x X. unfold covered. destruct (Z.ltb_spec x l); [lia|]. destruct (Z.ltb_spec x u); [lia|reflexivity].
      + intro x. apply covered_range, L.
      + intros x y. apply covered_mono, L.
  Qed.
  Lemma ramp_density : forall x, finite x -> (density ramp x == if (l <=? x) && (x <? u) then 1 / (dval u - dval l) else 0)%Q.
  Proof.
    intros x F. unfold density. rewrite (ramp_at x F). pose proof (dval_lt _ _ L). destruct (Z.ltb_spec x l), (Z.leb_spec l x); try lia; cbn [andb]; try reflexivity. destruct (Z.ltb_spec x u); cbn [steepness]; [|reflexivity].
    rewrite <- Hm. field. lra.
  Qed.
End OneGap.

Section TwoGaps.
  Variables l u l' u' : Z.
  Variables m c v m' c' v' : Q.
  Hypothesis Fl : finite l.
  Hypothesis Fu' : finite u'.
  Hypothesis L : l < u.
  Hypothesis LL : u < l'.
  Hypothesis L' : l' < u'.
  Hypothesis Hm : (m * (dval u - dval l) == 1 / 2)%Q.
  Hypothesis Hc : (m * dval l + c == 0)%Q.
  Hypothesis Hv : (v == 1 / 2)%Q.
  Hypothesis Hm' : (m' * (dval u' - dval l') == 1 / 2)%Q.
  Hypothesis Hc' : (m' * dval l' + c' == 1 / 2)%Q.
  Hypothesis Hv' : (v' == 1)%Q.
  Definition ramps : plf := [(CS (- ORD_INF) l EXC EXC, FConst 0); (CS l u INC EXC, FLin m c); (CS u l' INC EXC, FConst v); (CS l' u' INC EXC, FLin m' c'); (CS u' ORD_INF INC EXC, FConst v')].
  Lemma ramps_chain : chain (- ORD_INF) ramps ORD_INF.
  Proof.
    unfold finite in *. unfold ramps, chain. cbn [upper]. destruct (Z.eqb_spec l (- ORD_INF)); [lia|]. destruct (Z.eqb_spec u (- ORD_INF)); [lia|]. destruct (Z.eqb_spec l' (- ORD_INF)); [lia|]. destruct (Z.eqb_spec u' (- ORD_INF)); [lia|].
    rewrite Z.eqb_refl. repeat split; lia.
  Qed.
  Lemma ramps_at : forall x, finite x -> plf_at ramps x = Some (if x <? l then FConst 0 else if x <? u then FLin m c else if x <? l' then FConst v else if x <? u' then FLin m' c' else FConst v').
  Proof.
    intros x F. pose proof F as F'. unfold finite in F', Fl, Fu'. destruct (Z.ltb_spec x l); [|destruct (Z.ltb_spec x u); [|destruct (Z.ltb_spec x l'); [|destruct (Z.ltb_spec x u')]]].
    - apply (chain_at _ _ _ (CS (- ORD_INF) l EXC EXC) (FConst 0) x ramps_chain); try assumption; cbn [lower upper]; try lia. left. reflexivity.
    - eapply (chain_at _ _ _ (CS l u INC EXC) _ x ramps_chain); try assumption; cbn [lower upper]; try lia. right. left. reflexivity.
    - eapply (chain_at _ _ _ (CS u l' INC EXC) _ x ramps_chain); try assumption; cbn [lower upper]; try lia. right. right. left. reflexivity.
    - eapply (chain_at _ _ _ (CS l' u' INC EXC) _ x ramps_chain); try assumption; cbn [lower upper]; try lia. right. right. right. left. reflexivity.
    - apply (chain_at _ _ _ (CS u' ORD_INF INC EXC) (FConst v') x ramps_chain); try assumption; cbn [lower upper]; try lia. right. right. right. right. left. reflexivity.
  Qed.
  Definition half_each (x : Z) : Q := ((1 # 2) * covered l u x + (1 # 2) * covered l' u' x)%Q.
  Lemma ramps_is : forall x, finite x -> plf_is ramps x (half_each x).
  Proof.
    intros x F. apply (plf_is_of _ _ _ _ (ramps_at x F)). unfold half_each. destruct (Z.ltb_spec x l) as [A|A]; [|destruct (Z.ltb_spec x u) as [B|B]; [|destruct (Z.ltb_spec x l') as [C|C]; [|destruct (Z.ltb_spec x u') as [D|D]]]]; (eexists; split; [reflexivity|]); cbn beta.
    - unfold covered. destruct (Z.ltb_spec x l); [|lia]. destruct (Z.ltb_spec x l'); [reflexivity|lia].
    - rewrite (line_share l u x m c (1 / 2) L Hm) by lia. rewrite Hc. unfold covered at 3. destruct (Z.ltb_spec x l'); [field|lia].
    - rewrite Hv. unfold covered. destruct (Z.ltb_spec x l); [lia|]. destruct (Z.ltb_spec x u); [lia|]. destruct (Z.ltb_spec x l'); [reflexivity|lia].
    - rewrite (line_share l' u' x m' c' (1 / 2) L' Hm') by lia. rewrite Hc'. unfold covered at 2. destruct (Z.ltb_spec x l); [lia|]. destruct (Z.ltb_spec x u); [lia|]. field.
    - rewrite Hv'. unfold covered. destruct (Z.ltb_spec x l); [lia|]. destruct (Z.ltb_spec x u); [lia|]. destruct (Z.ltb_spec x l'); [lia|]. destruct (Z.ltb_spec x u'); [lia|reflexivity].
  Qed.
  Lemma ramps_tiling : tiling ramps.
  Proof.
    assert (E : (m * dval u + c == 1 / 2)%Q) by (setoid_replace (m * dval u + c)%Q with (m * (dval u - dval l) + (m * dval l + c))%Q by ring; rewrite Hm, Hc; reflexivity).
    assert (E' : (m' * dval u' + c' == 1)%Q) by (setoid_replace (m' * dval u' + c')%Q with (m' * (dval u' - dval l') + (m' * dval l' + c'))%Q by ring; rewrite Hm', Hc'; reflexivity).
    unfold finite in *. unfold ramps, tiling. cbn [lower upper]. split; [lia|]. split; [reflexivity|]. split.
    { exists 0%Q. split; eexists; (split; [reflexivity|]); cbn beta; [reflexivity|exact Hc]. }
    split; [lia|]. split; [reflexivity|]. split.
    { exists (1 / 2)%Q. split; eexists; (split; [reflexivity|]); cbn beta; [exact E|exact Hv]. }
    split; [lia|]. split; [reflexivity|]. split.
    { exists (1 / 2)%Q. split; eexists; (split; [reflexivity|]); cbn beta; [exact Hv|exact Hc']. }
    split; [lia|]. split; [reflexivity|]. split; [|lia]. exists 1%Q. split; eexists; (split; [reflexivity|]); cbn beta; [exact E'|exact Hv'].
  Qed.
  Lemma ramps_spread : spread_cdf ramps.
  Proof.
    assert (Fs : finite u /\ finite l') by (unfold finite in *; lia). constructor.
    - exact ramps_chain.
    - unfold ramps. repeat (apply Forall_cons || apply Forall_nil); cbn; exact I.
    - cbn. lia.
    - eexists. eexists. reflexivity.
    - unfold ramps. repeat (apply Forall_cons || apply Forall_nil); cbn [fst snd lower upper]; try exact I; (split; [|split; tauto]); [apply (rise_of l u m (1 / 2) L Hm)|apply (rise_of l' u' m' (1 / 2) L' Hm')]; reflexivity.
    - exists (CS l u INC EXC), m, c. right. left. reflexivity.
    - exists l, u'. split; [exact Fu'|]. apply (shape_proper ramps half_each); [exact ramps_is| | | |]; unfold half_each.
      + intros x X. unfold covered. destruct (Z.ltb_spec x l); [|lia]. destruct (Z.ltb_spec x l'); [reflexivity|lia].
      + intros x X. unfold covered. destruct (Z.ltb_spec x l); [lia|]. destruct (Z.ltb_spec x u); [lia|]. destruct (Z.ltb_spec x l'); [lia|]. destruct (Z.ltb_spec x u'); [lia|reflexivity].
      + intro x. pose proof (covered_range l u x L). pose proof (covered_range l' u' x L'). lra.
      + intros x y X. pose proof (covered_mono l u x y L X). pose proof (covered_mono l' u' x y L' X). lra.
  Qed.
  Lemma ramps_density : forall x, finite x ->
    (density ramps x == (if (l <=? x) && (x <? u) then 1 / 2 / (dval u - dval l) else 0) + (if (l' <=? x) && (x <? u') then 1 / 2 / (dval u' - dval l') else 0))%Q.
  Proof.
    intros x F. unfold density. rewrite (ramps_at x F). pose proof (dval_lt _ _ L). pose proof (dval_lt _ _ L').
    destruct (Z.ltb_spec x l), (Z.leb_spec l x), (Z.ltb_spec x u), (Z.ltb_spec x l'), (Z.leb_spec l' x), (Z.ltb_spec x u'); try lia; cbn [andb steepness]; try lra.
    - rewrite <- Hm. field. lra.
    - rewrite <- Hm'. field. lra.
  Qed.
End TwoGaps.

(** ** Fitted distributions *)
Lemma chain_right_open : forall p a b i f, chain a p b -> In (i, f) p -> right i = EXC.
Proof.
  induction p as [|[j g] p IH]; intros a b i f C If; [destruct If|]. destruct C as (E & _ & C). destruct If as [If|If]; [|exact (IH _ _ _ _ C If)]. injection If as -> ->. rewrite E. reflexivity.
Qed.
Lemma fitted_ends : forall data p ks, fitted data p ks -> Z.abs (last ks 0) < ORD_53 ->
  upper (fst (hd (RR, FUndef) p)) = hd 0 ks /\ upper (fst (nth (length p - 2) p (RR, FUndef))) = last ks 0 + 1 /\ Nat.eqb (length p) 2 = false
  /\ (forall i m c, In (i, FLin m c) p -> upper i <= last ks 0 + 1) /\ (exists i m c, In (i, FLin m c) p /\ upper i = last ks 0 + 1).
Proof.
  intros data p ks F M. assert (Pe : plus_eps (last ks 0) = last ks 0 + 1) by (unfold plus_eps, adds_one; destruct (Z.ltb_spec (Z.abs (last ks 0)) ORD_53); lia).
  pose proof (ft_chain _ _ _ F) as Ch. pose proof (ft_affine _ _ _ F) as A. destruct (ft_wide _ _ _ F) as (iw & fw & Iw & Sw & _ & Uw).
  destruct (ft_seams _ _ _ F) as (i & r0 & j & h & k & Ep & T & Ah & Hh & Ui & Uj & Lk & _). rewrite Pe in *.
  split; [rewrite Ep; exact Ui|]. split.
  { rewrite Ep. cbn [length]. rewrite app_length. cbn [length]. replace (S (length r0 + 2) - 2)%nat with (S (length r0)) by lia. cbn [nth]. rewrite app_nth2 by lia. rewrite Nat.sub_diag. exact Uj. }
  split; [rewrite Ep; cbn [length]; rewrite app_length; cbn [length]; apply Nat.eqb_neq; lia|]. split.
  - intros i' m c I. rewrite Ep in Ch, I. replace ((i, FConst 0) :: r0 ++ [(j, h); (k, FConst 1)]) with (((i, FConst 0) :: r0 ++ [(j, h)]) ++ [(k, FConst 1)]) in Ch, I by (cbn [app]; rewrite <- app_assoc; reflexivity).
    apply chain_app_inv in Ch. destruct Ch as (u & Ch & Cl). apply in_app_or in I. destruct I as [I|[I|[]]]; [|discriminate I]. destruct (chain_in _ _ _ _ _ Ch I) as (_ & H & _).
    assert (u = last ks 0 + 1); [|lia]. rewrite <- Lk. destruct Cl as (Cl & _). rewrite Cl. cbn [lower]. destruct (u =? - ORD_INF); reflexivity.
  - unfold affines in A. rewrite Forall_forall in A. specialize (A _ Iw). cbn in A. destruct fw as [|v|m c|? ? ?]; try contradiction; [cbn in Sw; lra|]. exists iw, m, c. auto.
Qed.

Lemma fitted_between : forall data p ks x, fitted data p ks -> Forall finite data -> Z.abs (last ks 0) < ORD_53 -> hd 0 ks <= x <= last ks 0 -> (0 < density p x)%Q.
Proof.
  intros data p ks x Ft Fi Mm (Le & La). pose proof ord_facts as O. unfold density. pose proof (ft_least _ _ _ Ft) as [Il _]. pose proof (ft_largest _ _ _ Ft) as [Im _].
  assert (Fx : finite x) by (rewrite Forall_forall in Fi; pose proof (Fi _ Il); pose proof (Fi _ Im); unfold finite in *; lia).
  destruct (Z.eq_dec x (last ks 0%Z)) as [->|Ne].
  - destruct (ft_wide _ _ _ Ft) as (i & f & If & Sf & Lo & Up). rewrite (chain_at p (- ORD_INF) ORD_INF i f); [exact Sf|apply (ft_chain _ _ _ Ft)|lia|lia|exact If|exact Fx|].
    rewrite Up. unfold plus_eps, adds_one. destruct (Z.ltb_spec (Z.abs (last ks 0%Z)) ORD_53); lia.
  - destruct (pc_range _ _ _ (ft_proper _ _ _ Ft) x Fx) as (y & Y & _). apply plf_is_at in Y. destruct Y as (f & Ff & _). rewrite Ff.
    destruct (plf_at_in p x f Fx Ff) as (i & If & Mi). destruct (ft_pieces _ _ _ Ft i f If) as [(_ & _ & U)|[[Sf _]|(_ & _ & U)]]; [|exact Sf|].
    * exfalso. pose proof (chain_right_open _ _ _ i f (ft_chain _ _ _ Ft) If) as Ri. destruct Mi as (_ & _ & Mi). rewrite Ri in Mi. lia.
    * exfalso. destruct Mi as (_ & Mi & _). destruct (left i); lia.
Qed.
Lemma fitted_nonneg : forall data p ks x, fitted data p ks -> Forall finite data -> finite x -> (0 <= density p x)%Q.
Proof.
  intros data p ks x Ft Fi Fx. unfold density. destruct (plf_at p x) as [f|] eqn:E; [|lra]. destruct (plf_at_in p x f Fx E) as (i & I & _).
  destruct (ft_pieces _ _ _ Ft i f I) as [(-> & _)|[[S _]|(-> & _)]]; cbn [steepness]; lra.
Qed.
Lemma fitted_start : forall data p ks x, fitted data p ks -> finite x -> x < hd 0 ks -> plf_is p x 0 /\ (lost p x == 0)%Q.
Proof.
  intros data p ks x Ft Fx L. split; [apply (pc_left _ _ _ (ft_proper _ _ _ Ft)); assumption|]. destruct (fitted_lost _ _ _ Ft) as (h & _ & E). rewrite E.
  assert (hd 0 ks <= last ks 0). { pose proof (ft_largest _ _ _ Ft) as [_ H]. apply H. exact (proj1 (ft_least _ _ _ Ft)). }
  destruct (Z.leb_spec (hd 0 ks) x); [lia|]. destruct (Z.leb_spec (plus_eps (last ks 0)) x) as [P|P]; [|reflexivity]. unfold plus_eps in P. destruct (adds_one (last ks 0)); lia.
Qed.

(** ** Merging with the cdf of the gaps *)
Definition share (n : nat) : Q := (1 / (2 * Qn n))%Q.
Lemma share_pos : forall n, (0 < n)%nat -> (0 < share n <= 1 # 2)%Q.
Proof.
  intros n P. pose proof (Qn_pos n P) as H. assert (1 <= Qn n)%Q by (apply (Qn_le 1 n); lia). unfold share. split.
  - apply Qlt_shift_div_l; lra.
  - apply Qle_shift_div_r; lra.
Qed.

Lemma closing : forall data p ks U n a b (ud : Z -> Q), fitted data p ks -> Forall finite data -> Z.abs (last ks 0) < ORD_53 -> (0 < n)%nat ->
  spread_cdf U -> tiling U -> (forall x, finite x -> (density U x == ud x)%Q) -> finite a -> finite b ->
  a <= hd 0 ks -> last ks 0 + 1 <= b -> (last ks 0 + 1 = b \/ exists i m c, In (i, FLin m c) U /\ upper i = b) -> (forall i m c, In (i, FLin m c) U -> upper i <= b) ->
  (forall x, finite x -> x < a -> plf_is U x 0) ->
  (forall x, finite x -> a <= x < b -> x < hd 0 ks \/ last ks 0 < x -> (tiny < share n * ud x)%Q) ->
  (forall x, hd 0 ks <= x <= last ks 0 -> (ud x == 0)%Q) ->
  (forall x, finite x -> x < a \/ b <= x -> (ud x == 0)%Q) ->
  (forall x, finite x -> hd 0 ks <= x <= last ks 0 -> (tiny < (1 - share n) * density p x)%Q) ->
  exists q, merge_cdf [p; U] [(1 - share n)%Q; share n] = Ok q
    /\ (forall x, finite x -> (density q x == (1 - share n) * density p x + share n * ud x)%Q)
    /\ (forall x, a <= x < b -> (0 < density q x)%Q)
    /\ (forall x, finite x -> x < a -> plf_is q x 0) /\ (forall x, finite x -> b <= x -> plf_is q x 1)
    /\ (forall x y z, finite x -> x < b -> plf_is p x y -> plf_is U x z -> plf_is q x ((1 - share n) * (y - lost p x) + share n * z)).
Proof.
  intros data p ks U n a b ud Ft Fi Mm Pn SU TU DU Fa Fb La Lb Eb Ub U0 Gap Mid Out Pd. pose proof (share_pos n Pn) as (W0 & W1). set (w := share n) in *. clearbody w.
  pose proof (fitted_spread data p ks Ft Fi) as Sp. destruct (fitted_ends data p ks Ft Mm) as (_ & _ & _ & Up & (iw & mw & cw & Iw & Uw)).
  assert (Mx : forall x, (mixture [(1 - w)%Q; w] (map (fun p0 => density p0 x) [p; U]) == (1 - w) * density p x + w * density U x)%Q) by (intro x; unfold mixture; cbn [map combine Qsum fst snd]; lra).
  assert (P0 : forall x, finite x -> ~ (hd 0 ks <= x <= last ks 0) -> (density p x == 0)%Q).
  { intros x Fx N. unfold density. destruct (plf_at p x) as [f|] eqn:E; [|reflexivity]. destruct (plf_at_in p x f Fx E) as (i & I & Mi).
    destruct (ft_pieces _ _ _ Ft i f I) as [(-> & _)|[[S Lk]|(-> & _)]]; try reflexivity. exfalso. apply N. split.
    - pose proof (ft_inc _ _ _ Ft) as Inc. assert (hd 0 ks <= lower i) by (pose proof (ft_least _ _ _ Ft) as [_ H]; apply H; apply (ft_data _ _ _ Ft); exact Lk). destruct Mi as (_ & Mi & _). destruct (left i); lia.
    - pose proof (ft_affine _ _ _ Ft) as A. unfold affines in A. rewrite Forall_forall in A. specialize (A _ I). cbn in A. destruct f as [|v|m c|? ? ?]; try contradiction; [cbn in S; lra|]. pose proof (Up _ _ _ I) as Ui. pose proof (chain_right_open _ _ _ i _ (ft_chain _ _ _ Ft) I) as Ri. destruct Mi as (_ & _ & Mi). rewrite Ri in Mi. lia. }
  assert (G : grained [p; U] [(1 - w)%Q; w]).
  { intros x Fx. rewrite Mx, (DU x Fx). destruct (Z_le_dec (hd 0 ks) x) as [A|A]; [destruct (Z_le_dec x (last ks 0)) as [B|B]|].
    - right. rewrite (Mid x (conj A B)). pose proof (Pd x Fx (conj A B)). unfold tiny in *. lra.
    - rewrite (P0 x Fx ltac:(lia)). destruct (Z_lt_dec x b) as [C|C]; [right; pose proof (Gap x Fx ltac:(lia) ltac:(lia)); unfold tiny in *; lra|left; rewrite (Out x Fx ltac:(lia)); ring].
    - rewrite (P0 x Fx ltac:(lia)). destruct (Z_lt_dec x a) as [C|C]; [left; rewrite (Out x Fx ltac:(lia)); ring|]. assert (hd 0 ks <= last ks 0) by (pose proof (ft_largest _ _ _ Ft) as [_ H]; apply H; exact (proj1 (ft_least _ _ _ Ft))).
      right. pose proof (Gap x Fx ltac:(lia) ltac:(lia)). unfold tiny in *. lra. }
  assert (C : Forall component [p; U]) by (constructor; [right; exact Sp|constructor; [right; exact SU|constructor]]).
  assert (Nn : Forall (fun v => 0 <= v)%Q [(1 - w)%Q; w]) by (constructor; [lra|constructor; [lra|constructor]]).
  assert (S1 : (Qabs (Qsum [(1 - w)%Q; w] - 1) <= tiny)%Q). { assert (E : (Qsum [(1 - w)%Q; w] - 1 == 0)%Q) by (cbn [Qsum]; lra). rewrite E. vm_compute. discriminate. }
  destruct (merge_general [p; U] [(1 - w)%Q; w] eq_refl C Nn S1 G) as (q & la & E & M & V & A). exists q. split; [exact E|].
  pose proof (dws_of [p; U] _ C Nn) as O. pose proof (merge_finish _ _ _ la q O M) as (Fex & Fall).
  assert (Ela : la = b).
  { assert (Np : forall r y, spread_cdf r -> finishes r y -> exists i m c, In (i, FLin m c) r /\ upper i = y).
    { intros r y Sr [->|H]; [exfalso; pose proof (sp_len _ Sr) as Q; cbn in Q; lia|exact H]. }
    assert (La1 : la <= b).
    { destruct Fex as (r & v & I & _ & Fr). destruct I as [I|[I|[]]]; injection I as <- _.
      - destruct (Np _ _ Sp Fr) as (i & m & c & I & <-). pose proof (Up _ _ _ I). lia.
      - destruct (Np _ _ SU Fr) as (i & m & c & I & <-). exact (Ub _ _ _ I). }
    assert (La2 : b <= la); [|lia]. destruct Eb as [<-|(i & m & c & I & <-)].
    - apply (Fall p (1 - w)%Q); [left; reflexivity|lra|]. right. exists iw, mw, cw. auto.
    - apply (Fall U w); [right; left; reflexivity|lra|]. right. exists i, m, c. auto. }
  subst la.
  assert (D : forall x, finite x -> (density q x == (1 - w) * density p x + w * ud x)%Q).
  { intros x Fx. rewrite (ma_dens _ _ _ _ M x Fx). destruct (Z.ltb_spec x b) as [X|X].
    - destruct (values_ex [p; U] x C Fx) as (ys & Y & _). destruct (events_value [p; U] [(1 - w)%Q; w] x ys eq_refl O C Fx Y) as (_ & De & _). rewrite De, Mx, (DU x Fx). reflexivity.
    - rewrite (P0 x Fx ltac:(lia)), (Out x Fx ltac:(lia)). ring. }
  assert (Val : forall x y z, finite x -> x < b -> plf_is p x y -> plf_is U x z -> plf_is q x ((1 - w) * (y - lost p x) + w * z)).
  { intros x y z Fx X Y Z. refine (plf_is_wd q x _ _ _ (V x [y; z] Fx X _)); [|repeat constructor; assumption]. unfold mixture. cbn [map combine Qsum fst snd].
    assert (LU : (lost U x == 0)%Q) by (apply seamless_lost; right; auto). rewrite LU. ring. }
  split; [exact D|]. split; [|split; [|split; [exact A|exact Val]]].
  - intros x X. assert (Fx : finite x) by (unfold finite in *; lia). rewrite (D x Fx). pose proof (fitted_nonneg _ _ _ x Ft Fi Fx) as N0.
    destruct (Z_le_dec (hd 0 ks) x) as [H1|H1]; [destruct (Z_le_dec x (last ks 0)) as [H2|H2]|].
    + rewrite (Mid x (conj H1 H2)). pose proof (Pd x Fx (conj H1 H2)). unfold tiny in *. lra.
    + rewrite (P0 x Fx ltac:(lia)). pose proof (Gap x Fx X ltac:(lia)). unfold tiny in *. lra.
    + rewrite (P0 x Fx ltac:(lia)). pose proof (Gap x Fx X ltac:(lia)). unfold tiny in *. lra.
  - intros x Fx X. destruct (fitted_start _ _ _ x Ft Fx ltac:(lia)) as (Y & L0). refine (plf_is_wd q x _ _ _ (Val x 0%Q 0%Q Fx ltac:(pose proof (ft_largest _ _ _ Ft) as [_ H]; specialize (H _ (proj1 (ft_least _ _ _ Ft))); lia) Y (U0 x Fx X))). rewrite L0. ring.
Qed.

(** ** The cdf of the gaps *)
Lemma closed_full : forall l u, l < u -> cs_isempty (CS l u INC INC) = false.
Proof.
  intros l u L. unfold cs_isempty. cbn [lower upper]. destruct (Z.ltb_spec u l); [reflexivity|]. destruct (Z.eqb_spec l u); [lia|]. apply andb_false_r.
Qed.
Lemma mk_closed : forall l u, l <= u -> mk_cs l u INC INC = Ok (CS l u INC INC).
Proof. intros l u L. unfold mk_cs. destruct (Z.ltb_spec u l); [lia|reflexivity]. Qed.
Lemma cs_eq_closed : forall l u l' u', l < u -> l' < u' -> cs_eq (CS l u INC INC) (CS l' u' INC INC) = (l =? l') && (u =? u').
Proof. intros l u l' u' A B. unfold cs_eq. rewrite (closed_full l u A), (closed_full l' u' B). cbn [andb]. rewrite orb_false_r. reflexivity. Qed.
Lemma bridge_line : forall l u y s, l < u -> (0 < s)%Q -> exists m c, lin_from_points (dval l, y) (dval u, (y + s)%Q) = Ok (FLin m c) /\ (m * (dval u - dval l) == s)%Q /\ (m * dval l + c == y)%Q.
Proof.
  intros l u y s L P. pose proof (dval_lt _ _ L) as D. unfold lin_from_points.
  destruct (Qeq_bool (dval l) (dval u)) eqn:E; [apply Qeq_bool_iff in E; lra|]. destruct (Qeq_bool (y + s) y) eqn:E'; [apply Qeq_bool_iff in E'; lra|].
  eexists. eexists. split; [reflexivity|]. split; [field; lra|ring].
Qed.

Lemma one_gap : forall l u, finite l -> finite u -> l < u -> exists m c v,
  gap_cdf (Some (CS l u INC INC)) None = Ok [(CS (- ORD_INF) l INC INC, FConst 0); (CS l u INC INC, FLin m c); (CS u ORD_INF INC INC, FConst v)]
  /\ gap_cdf None (Some (CS l u INC INC)) = Ok [(CS (- ORD_INF) l INC INC, FConst 0); (CS l u INC INC, FLin m c); (CS u ORD_INF INC INC, FConst v)]
  /\ (m * (dval u - dval l) == 1)%Q /\ (m * dval l + c == 0)%Q /\ (v == 1)%Q.
Proof.
  intros l u (F1 & F2) (F3 & F4) L. destruct (bridge_line l u 0 (1 / Qn 1) L ltac:(reflexivity)) as (m & c & E & Hm & Hc).
  assert (Hm' : (m * (dval u - dval l) == 1)%Q) by (rewrite Hm; reflexivity).
  exists m, c, (m * dval u + c)%Q. 
  assert (Go : forall gap gap', gap_ends gap ++ gap_ends gap' = [l; u] -> some_gaps gap gap' = [CS l u INC INC] ->
    gap_cdf gap gap' = Ok [(CS (- ORD_INF) l INC INC, FConst 0); (CS l u INC INC, FLin m c); (CS u ORD_INF INC INC, FConst (m * dval u + c)%Q)]).
  { intros gap gap' Ee Eg. unfold gap_cdf. rewrite app_assoc, Ee, Eg. cbn [app closed_pairs].
    rewrite (mk_closed (- ORD_INF) l), (mk_closed l u), (mk_closed u ORD_INF) by lia. cbn [bind tl gap_functions existsb length fn_eval lower upper].
    rewrite (cs_eq_closed l u l u L L), !Z.eqb_refl. cbn [andb orb]. rewrite E. cbn [bind fn_eval]. rewrite (cs_eq_closed u ORD_INF l u F4 L).
    destruct (Z.eqb_spec u l); [lia|]. reflexivity. }
  split; [apply Go; [unfold gap_ends; rewrite (closed_full l u L); reflexivity|reflexivity]|]. split; [apply Go; [unfold gap_ends; rewrite (closed_full l u L); reflexivity|reflexivity]|].
  split; [exact Hm'|]. split; [exact Hc|]. setoid_replace (m * dval u + c)%Q with (m * (dval u - dval l) + (m * dval l + c))%Q by ring. rewrite Hm', Hc. ring.
Qed.

Lemma two_gaps : forall l u l' u', finite l -> finite u' -> l < u -> u < l' -> l' < u' -> exists m c v m' c' v',
  gap_cdf (Some (CS l u INC INC)) (Some (CS l' u' INC INC)) =
    Ok [(CS (- ORD_INF) l INC INC, FConst 0); (CS l u INC INC, FLin m c); (CS u l' INC INC, FConst v); (CS l' u' INC INC, FLin m' c'); (CS u' ORD_INF INC INC, FConst v')]
  /\ (m * (dval u - dval l) == 1 / 2)%Q /\ (m * dval l + c == 0)%Q /\ (v == 1 / 2)%Q
  /\ (m' * (dval u' - dval l') == 1 / 2)%Q /\ (m' * dval l' + c' == 1 / 2)%Q /\ (v' == 1)%Q.
Proof.
  intros l u l' u' (F1 & F2) (F3 & F4) L M L'. destruct (bridge_line l u 0 (1 / Qn 2) L ltac:(reflexivity)) as (m & c & E & Hm & Hc).
  assert (Hm1 : (m * (dval u - dval l) == 1 / 2)%Q) by (rewrite Hm; reflexivity).
  assert (Hv : (m * dval u + c == 1 / 2)%Q) by (setoid_replace (m * dval u + c)%Q with (m * (dval u - dval l) + (m * dval l + c))%Q by ring; rewrite Hm1, Hc; ring).
  destruct (bridge_line l' u' (m * dval u + c) (1 / Qn 2) L' ltac:(reflexivity)) as (m' & c' & E' & Hm' & Hc').
  assert (Hm2 : (m' * (dval u' - dval l') == 1 / 2)%Q) by (rewrite Hm'; reflexivity). rewrite Hv in Hc'.
  exists m, c, (m * dval u + c)%Q, m', c', (m' * dval u' + c')%Q. split.
  - unfold gap_cdf, gap_ends. rewrite (closed_full l u L), (closed_full l' u' L'). cbn [app closed_pairs lower upper].
    rewrite (mk_closed (- ORD_INF) l), (mk_closed l u), (mk_closed u l'), (mk_closed l' u'), (mk_closed u' ORD_INF) by lia. cbn [bind tl gap_functions some_gaps app existsb length fn_eval lower upper].
    rewrite (cs_eq_closed l u l u L L), !Z.eqb_refl. cbn [andb orb]. rewrite E. cbn [bind fn_eval].
    rewrite (cs_eq_closed u l' l u M L), (cs_eq_closed u l' l' u' M L'). destruct (Z.eqb_spec u l); [lia|]. destruct (Z.eqb_spec u l'); [lia|]. cbn [andb orb bind fn_eval].
    rewrite (cs_eq_closed l' u' l u L' L), (cs_eq_closed l' u' l' u' L' L'), !Z.eqb_refl. destruct (Z.eqb_spec l' l); [lia|]. cbn [andb orb]. rewrite E'. cbn [bind fn_eval].
    rewrite (cs_eq_closed u' ORD_INF l u F4 L), (cs_eq_closed u' ORD_INF l' u' F4 L'). destruct (Z.eqb_spec u' l); [lia|]. destruct (Z.eqb_spec u' l'); [lia|]. reflexivity.
  - split; [exact Hm1|]. split; [exact Hc|]. split; [exact Hv|]. split; [exact Hm2|]. split; [exact Hc'|].
    setoid_replace (m' * dval u' + c')%Q with (m' * (dval u' - dval l') + (m' * dval l' + c'))%Q by ring. rewrite Hm2, Hc'. reflexivity.
Qed.

Lemma in_ramp : forall l u m c v i m' c', In (i, FLin m' c') (ramp l u m c v) -> i = CS l u INC EXC.
Proof. intros l u m c v i m' c' I. unfold ramp in I. destruct I as [I|[I|[I|[]]]]; try discriminate I. injection I as <- _ _. reflexivity. Qed.
Lemma in_ramps : forall l u l' u' m c v m' c' v' i m'' c'', In (i, FLin m'' c'') (ramps l u l' u' m c v m' c' v') -> i = CS l u INC EXC \/ i = CS l' u' INC EXC.
Proof. intros until c''. intro I. unfold ramps in I. destruct I as [I|[I|[I|[I|[I|[]]]]]]; try discriminate I; injection I as <- _ _; auto. Qed.

Section Closed.
  Variables (data : list Z) (p : plf) (ks : list Z) (n : nat).
  Hypothesis Ft : fitted data p ks.
  Hypothesis Fi : Forall finite data.
  Hypothesis Mm : Z.abs (last ks 0) < ORD_53.
  Hypothesis Pn : (0 < n)%nat.
  Hypothesis Pd : forall x, hd 0 ks <= x <= last ks 0 -> (tiny < (1 - share n) * density p x)%Q.

  Definition closed_as (r : res plf) (a b : Z) (ud uc : Z -> Q) : Prop :=
    exists q, r = Ok q
    /\ (forall x, finite x -> (density q x == (1 - share n) * density p x + share n * ud x)%Q)
    /\ (forall x, a <= x < b -> (0 < density q x)%Q)
    /\ (forall x, finite x -> x < a -> plf_is q x 0) /\ (forall x, finite x -> b <= x -> plf_is q x 1)
    /\ (forall x y, finite x -> x < b -> plf_is p x y -> plf_is q x ((1 - share n) * (y - lost p x) + share n * uc x)).

  Lemma bounds_fit : finite (hd 0 ks) /\ finite (last ks 0 + 1) /\ hd 0 ks <= last ks 0.
  Proof.
    pose proof ord_facts. pose proof (ft_least _ _ _ Ft) as [Il Ll]. pose proof (ft_largest _ _ _ Ft) as [Im _]. rewrite Forall_forall in Fi. split; [exact (Fi _ Il)|]. split; [unfold finite; lia|exact (Ll _ Im)].
  Qed.
  Definition unif (l u x : Z) : Q := if (l <=? x) && (x <? u) then (1 / (dval u - dval l))%Q else 0%Q.

  Lemma close_one : forall l u m c v a b, finite l -> finite u -> l < u -> (m * (dval u - dval l) == 1)%Q -> (m * dval l + c == 0)%Q -> (v == 1)%Q ->
    (tiny < share n * unif l u l)%Q ->
    (l = a /\ u = hd 0 ks /\ b = last ks 0 + 1) \/ (a = hd 0 ks /\ l = last ks 0 + 1 /\ u = b) ->
    closed_as (merge_cdf [p; [(CS (- ORD_INF) l INC INC, FConst 0); (CS l u INC INC, FLin m c); (CS u ORD_INF INC INC, FConst v)]] [(1 - share n)%Q; share n]) a b (unif l u) (covered l u).
  Proof.
    intros l u m c v a b Fl Fu L Hm Hc Hv Ps Sh. destruct bounds_fit as (B1 & B2 & B3). set (U := ramp l u m c v).
    assert (E0 : merge_cdf [p; [(CS (- ORD_INF) l INC INC, FConst 0); (CS l u INC INC, FLin m c); (CS u ORD_INF INC INC, FConst v)]] [(1 - share n)%Q; share n] = merge_cdf [p; U] [(1 - share n)%Q; share n]) by reflexivity.
    unfold closed_as. rewrite E0. clear E0.
    assert (Const : forall x, l <= x < u -> (unif l u x == unif l u l)%Q). { intros x X. unfold unif. destruct (Z.leb_spec l x), (Z.ltb_spec x u), (Z.leb_spec l l), (Z.ltb_spec l u); try lia. reflexivity. }
    assert (Zero : forall x, x < l \/ u <= x -> (unif l u x == 0)%Q). { intros x X. unfold unif. destruct (Z.leb_spec l x), (Z.ltb_spec x u); try lia; reflexivity. }
    destruct (closing data p ks U n a b (unif l u) Ft Fi Mm Pn (ramp_spread l u m c v Fl Fu L Hm Hc Hv) (ramp_tiling l u m c v Fl Fu L Hm Hc Hv) (ramp_density l u m c v Fl Fu L Hm)) as (q & Eq & D & Ph & Z0 & Z1 & Val).
    - destruct Sh as [(-> & _)|(-> & _)]; assumption.
    - destruct Sh as [(_ & _ & ->)|(_ & _ & <-)]; assumption.
    - destruct Sh as [(-> & -> & _)|(-> & _)]; lia.
    - destruct Sh as [(_ & _ & ->)|(_ & <- & <-)]; lia.
    - destruct Sh as [(_ & _ & ->)|(_ & _ & <-)]; [left; reflexivity|right]. exists (CS l u INC EXC), m, c. split; [right; left; reflexivity|reflexivity].
    - intros i m' c' I. rewrite (in_ramp _ _ _ _ _ _ _ _ I). cbn [upper]. destruct Sh as [(_ & -> & ->)|(_ & _ & <-)]; lia.
    - intros x Fx X. apply (plf_is_wd _ _ (covered l u x)); [|apply (ramp_is l u m c v Fl Fu L Hm Hc Hv x Fx)]. unfold covered. destruct (Z.ltb_spec x l); [reflexivity|destruct Sh as [(-> & _)|(-> & -> & _)]; lia].
    - intros x Fx X Y. rewrite Const; [exact Ps|]. destruct Sh as [(-> & -> & ->)|(-> & -> & ->)]; lia.
    - intros x X. apply Zero. destruct Sh as [(-> & -> & ->)|(-> & -> & ->)]; lia.
    - intros x _ X. apply Zero. destruct Sh as [(-> & -> & ->)|(-> & -> & ->)]; lia.
    - intros x _ X. apply Pd, X.
    - exists q. split; [exact Eq|]. split; [exact D|]. split; [exact Ph|]. split; [exact Z0|]. split; [exact Z1|]. intros x y Fx X Y. apply (Val x y (covered l u x) Fx X Y). exact (ramp_is l u m c v Fl Fu L Hm Hc Hv x Fx).
  Qed.

  Lemma close_two : forall l u l' u' m c v m' c' v', finite l -> finite u' -> l < u -> u < l' -> l' < u' ->
    (m * (dval u - dval l) == 1 / 2)%Q -> (m * dval l + c == 0)%Q -> (v == 1 / 2)%Q -> (m' * (dval u' - dval l') == 1 / 2)%Q -> (m' * dval l' + c' == 1 / 2)%Q -> (v' == 1)%Q ->
    (tiny < share n * ((1 # 2) * unif l u l))%Q -> (tiny < share n * ((1 # 2) * unif l' u' l'))%Q -> u = hd 0 ks -> l' = last ks 0 + 1 ->
    closed_as (merge_cdf [p; [(CS (- ORD_INF) l INC INC, FConst 0); (CS l u INC INC, FLin m c); (CS u l' INC INC, FConst v); (CS l' u' INC INC, FLin m' c'); (CS u' ORD_INF INC INC, FConst v')]] [(1 - share n)%Q; share n])
      l u' (fun x => (1 # 2) * unif l u x + (1 # 2) * unif l' u' x)%Q (fun x => (1 # 2) * covered l u x + (1 # 2) * covered l' u' x)%Q.
  Proof.
    intros l u l' u' m c v m' c' v' Fl Fu' L LL L' Hm Hc Hv Hm' Hc' Hv' Ps Ps' Eu El'. destruct bounds_fit as (B1 & B2 & B3). set (U := ramps l u l' u' m c v m' c' v').
    match goal with |- closed_as ?t _ _ _ _ => assert (E0 : t = merge_cdf [p; U] [(1 - share n)%Q; share n]) by reflexivity end. unfold closed_as. rewrite E0. clear E0.
    assert (Const : forall l u x, l <= x < u -> (unif l u x == unif l u l)%Q). { clear. intros l u x X. unfold unif. destruct (Z.leb_spec l x), (Z.ltb_spec x u), (Z.leb_spec l l), (Z.ltb_spec l u); try lia. reflexivity. }
    assert (Zero : forall l u x, x < l \/ u <= x -> (unif l u x == 0)%Q). { clear. intros l u x X. unfold unif. destruct (Z.leb_spec l x), (Z.ltb_spec x u); try lia; reflexivity. }
    assert (Dens : forall x, finite x -> (density U x == (1 # 2) * unif l u x + (1 # 2) * unif l' u' x)%Q).
    { intros x Fx. unfold U. rewrite (ramps_density l u l' u' m c v m' c' v' Fl Fu' L LL L' Hm Hm' x Fx). pose proof (dval_lt _ _ L). pose proof (dval_lt _ _ L'). unfold unif.
      destruct ((l <=? x) && (x <? u)), ((l' <=? x) && (x <? u')); field; lra. }
    destruct (closing data p ks U n l u' _ Ft Fi Mm Pn (ramps_spread l u l' u' m c v m' c' v' Fl Fu' L LL L' Hm Hc Hv Hm' Hc' Hv') (ramps_tiling l u l' u' m c v m' c' v' Fl Fu' L LL L' Hm Hc Hv Hm' Hc' Hv') Dens) as (q & Eq & D & Ph & Z0 & Z1 & Val).
    - exact Fl.
    - exact Fu'.
    - lia.
    - lia.
    - right. exists (CS l' u' INC EXC), m', c'. split; [right; right; right; left; reflexivity|reflexivity].
    - intros i m'' c'' I. destruct (in_ramps _ _ _ _ _ _ _ _ _ _ _ _ _ I) as [-> | ->]; cbn [upper]; lia.
    - intros x Fx X. apply (plf_is_wd _ _ (half_each l u l' u' x)); [|apply (ramps_is l u l' u' m c v m' c' v' Fl Fu' L LL L' Hm Hc Hv Hm' Hc' Hv' x Fx)]. unfold half_each, covered. destruct (Z.ltb_spec x l); [|lia]. destruct (Z.ltb_spec x l'); [|lia]. reflexivity.
    - intros x Fx X [Y|Y].
      + rewrite (Const l u x ltac:(lia)), (Zero l' u' x ltac:(lia)), Qmult_0_r, Qplus_0_r. exact Ps.
      + rewrite (Const l' u' x ltac:(lia)), (Zero l u x ltac:(lia)), Qmult_0_r, Qplus_0_l. exact Ps'.
    - intros x X. rewrite (Zero l u x ltac:(lia)), (Zero l' u' x ltac:(lia)). reflexivity.
    - intros x _ X. rewrite (Zero l u x ltac:(lia)), (Zero l' u' x ltac:(lia)). reflexivity.
    - intros x _ X. apply Pd, X.
    - exists q. split; [exact Eq|]. split; [exact D|]. split; [exact Ph|]. split; [exact Z0|]. split; [exact Z1|]. intros x y Fx X Y. apply (Val x y (half_each l u l' u' x) Fx X Y). exact (ramps_is l u l' u' m c v m' c' v' Fl Fu' L LL L' Hm Hc Hv Hm' Hc' Hv' x Fx).
  Qed.
End Closed.

(** ** Distributions in one point *)
Ltac dz := repeat (match goal with
  | |- context [?a <? ?b] => first [rewrite (proj2 (Z.ltb_lt a b)) by lia | rewrite (proj2 (Z.ltb_ge a b)) by lia]
  | |- context [?a <=? ?b] => first [rewrite (proj2 (Z.leb_le a b)) by lia | rewrite (proj2 (Z.leb_gt a b)) by lia]
  | |- context [?a =? ?b] => first [rewrite (proj2 (Z.eqb_eq a b)) by lia | rewrite (proj2 (Z.eqb_neq a b)) by lia]
  | |- context [?a && false] => rewrite (andb_false_r a)
  end; cbn [andb orb negb]).
Lemma step_up : forall x, Z.abs x < ORD_53 -> plus_eps x = x + 1.
Proof. intros x H. unfold plus_eps, adds_one. destruct (Z.ltb_spec (Z.abs x) ORD_53); lia. Qed.
Lemma step_down : forall x, Z.abs x < ORD_53 -> minus_eps x = x - 1.
Proof. intros x H. unfold minus_eps, subs_one, adds_one. rewrite Z.abs_opp. destruct (Z.ltb_spec (Z.abs x) ORD_53); lia. Qed.
Lemma step_inf : plus_eps (- ORD_INF) = - ORD_INF /\ minus_eps ORD_INF = ORD_INF.
Proof. split; reflexivity. Qed.

Lemma zero_overwrite : forall a b f, Z.abs a < ORD_53 -> Z.abs b < ORD_53 -> a < b ->
  plf_overwrite_at [(RR, FConst 0)] (CS a b INC EXC) f = Ok [(CS (- ORD_INF) a EXC EXC, FConst 0); (CS a b INC EXC, f); (CS b ORD_INF INC EXC, FConst 0)].
Proof.
  intros a b f A B L. pose proof ord_facts as O. destruct step_inf as (S1 & S2). pose proof (step_up a A) as U1. pose proof (step_up b B) as U2. pose proof (step_down a A) as D1. pose proof (step_down b B) as D2.
  unfold plf_overwrite_at. unfold cs_boundaries, set_left, set_right. cbn [length Nat.mul Nat.add left right].
  cbn [ow_loop].
  assert (I1 : cs_intersection_lr RR (CS a b INC EXC) (Some INC) (Some EXC) = Ok (CS a b INC EXC)).
  { unfold cs_intersection_lr, cs_intersects, cs_isempty, RR, mk_cs, set_left, set_right, itype. cbn [lower upper left right flag_val isclosed flag_eqb]. rewrite U1. rewrite Z.max_r, Z.min_r by lia. dz. cbn [bind lower upper left right andb orb negb]. dz. reflexivity. }
  rewrite I1. cbn [bind].
  assert (E1 : cs_difference RR (CS a b INC EXC) = Ok (NR [CS (- ORD_INF) a EXC EXC; CS b ORD_INF INC EXC])).
  { unfold cs_difference, cs_contains_interval, cs_isempty, lowermost, uppermost, RR, mk_cs, itype. cbn [lower upper left right flag_val flag_eqb flag_flip]. rewrite ?S1, ?S2, ?U1, ?D2. dz. cbn [bind]. reflexivity. }
  rewrite E1. cbn [bind].
  set (lo := CS (- ORD_INF) a EXC EXC). set (hi := CS b ORD_INF INC EXC).
  assert (Ne1 : cs_isempty lo = false). { unfold cs_isempty, lo, itype. cbn [lower upper left right flag_val]. rewrite S1. dz. reflexivity. }
  assert (Ne2 : cs_isempty hi = false). { unfold cs_isempty, hi, itype. cbn [lower upper left right flag_val]. rewrite U2. dz. reflexivity. }
  assert (Df : cs_difference hi lo = Ok (NC hi)).
  { unfold cs_difference. rewrite Ne1. unfold cs_contains_interval. rewrite Ne1, Ne2. unfold cs_intersects. rewrite Ne1. unfold lowermost, uppermost, lo, hi. cbn [lower upper left right flag_eqb]. rewrite ?S1, ?S2, ?D1. dz. reflexivity. }
  assert (Sm : ns_simplify (NR [lo; hi]) = Ok (NR [lo; hi])).
  { cbn [ns_simplify]. unfold rs_simplify. cbn [length Nat.pow Nat.mul Nat.add disjoin_loop subtract_all]. rewrite Df. cbn [bind as_list app disjoin_loop subtract_all]. rewrite Ne1, Ne2. cbn [negb bind sort_by insert_by].
    cbn [upper lo hi]. dz. cbn [merge_loop]. unfold cs_contiguous. cbn [lower upper left right lo hi]. dz. reflexivity. }
  rewrite Sm. cbn [bind ns_isempty].
  assert (Ne3 : rs_isempty [lo; hi] = false). { unfold rs_isempty. cbn [forallb existsb]. rewrite ?Ne1, ?Ne2. reflexivity. }
  rewrite Ne3.
  assert (I2 : cs_intersection_lr hi (CS a b INC EXC) (Some INC) (Some EXC) = Ok EMPTY).
  { unfold cs_intersection_lr, cs_intersects, cs_isempty, hi, itype, isclosed. cbn [lower upper left right flag_val flag_eqb]. rewrite U1. dz. reflexivity. }
  rewrite I2. cbn [bind].
  assert (D3 : cs_difference hi EMPTY = Ok (NC hi)) by (unfold cs_difference; replace (cs_isempty EMPTY) with true by reflexivity; reflexivity).
  rewrite D3. cbn [bind ns_simplify ns_isempty]. rewrite Ne2. cbn [bind fst snd].
  unfold lowermost, uppermost, lo, hi. cbn [left right lower upper]. rewrite S1, D2. dz. reflexivity.
Qed.

Lemma point_spread : forall a b, Z.abs a < ORD_53 -> Z.abs b < ORD_53 -> a + 1 < b ->
  (dval b - dval a <= (100000001 # 100000000) * (dval (b - 1) - dval a))%Q ->
  exists z m c v, (do pdf <- plf_overwrite_at [(RR, FConst 0)] (CS a b INC EXC) (FConst (1 / (dval (b - 1) - dval a))); pdf_to_cdf pdf) = Ok ((CS (- ORD_INF) a EXC EXC, FConst z) :: tl (ramp a b m c v))
    /\ (z == 0)%Q /\ (m * (dval b - dval a) == 1)%Q /\ (m * dval a + c == 0)%Q /\ (v == 1)%Q.
Proof.
  intros a b A B L R. pose proof ord_facts as O. rewrite (zero_overwrite a b _ A B) by lia. cbn [bind].
  assert (D : (dval a < dval (b - 1))%Q) by (apply dval_lt; lia). assert (D' : (dval (b - 1) < dval b)%Q) by (apply dval_lt; lia).
  set (h := (1 / (dval (b - 1) - dval a))%Q).
  assert (Hh : (h * (dval (b - 1) - dval a) == 1)%Q) by (unfold h; field; lra). assert (Ph : (0 < h)%Q) by (unfold h; apply Qlt_shift_div_l; lra). clearbody h.
  unfold pdf_to_cdf, plf_rectify. cbn [mapM fn_rectify fst snd bind integrate]. replace (Qz 0) with true by reflexivity.
  assert (Qz h = false) as -> by (unfold Qz; destruct (Qeq_bool h 0) eqn:E; [apply Qeq_bool_iff in E; lra|reflexivity]).
  unfold isinf. cbn [lower upper]. dz. cbn [bind last snd].
  set (v := (h * dval b + (0 - h * dval a))%Q).
  assert (Hv : (v == h * (dval b - dval a))%Q) by (unfold v; ring).
  assert (Pv : (0 < v)%Q) by (rewrite Hv; apply Qmult_lt_0_compat; lra).
  assert (Bv : (v <= 100000001 # 100000000)%Q).
  { rewrite Hv. apply Qle_trans with (h * ((100000001 # 100000000) * (dval (b - 1) - dval a)))%Q.
    - rewrite !(Qmult_comm h). apply Qmult_le_compat_r; lra.
    - setoid_replace (h * ((100000001 # 100000000) * (dval (b - 1) - dval a)))%Q with ((100000001 # 100000000) * (h * (dval (b - 1) - dval a)))%Q by ring. rewrite Hh. lra. }
  clearbody v. unfold Qltb. destruct (Qltb_spec (1 - v) (- (1 # 100000000))) as [X|_]; [lra|].
  assert (Qz v = false) as -> by (unfold Qz; destruct (Qeq_bool v 0) eqn:E; [apply Qeq_bool_iff in E; lra|reflexivity]).
  unfold plf_stretch. cbn [map fst snd fn_stretch].
  exists (0 * (1 / v))%Q, (h * (1 / v))%Q, ((0 - h * dval a) * (1 / v))%Q, (v * (1 / v))%Q. split; [|split; [|split; [|split]]].
  - reflexivity.
  - ring.
  - setoid_replace (h * (1 / v) * (dval b - dval a))%Q with (h * (dval b - dval a) * (1 / v))%Q by ring. rewrite <- Hv. field. lra.
  - ring.
  - field. lra.
Qed.

Lemma point_values : forall a b z m c v, finite a -> finite b -> a < b -> (z == 0)%Q -> (m * (dval b - dval a) == 1)%Q -> (m * dval a + c == 0)%Q -> (v == 1)%Q ->
  let q := (CS (- ORD_INF) a EXC EXC, FConst z) :: tl (ramp a b m c v) in
  forall x, finite x -> plf_is q x (covered a b x) /\ (density q x == unif a b x)%Q.
Proof.
  intros a b z m c v Fa Fb L Hz Hm Hc Hv q x Fx. pose proof (ramp_is a b m c v Fa Fb L Hm Hc Hv x Fx) as V. pose proof (ramp_density a b m c v Fa Fb L Hm x Fx) as D.
  pose proof (ramp_at a b m c v Fa Fb L x Fx) as At.
  assert (Ch : chain (- ORD_INF) q ORD_INF) by exact (ramp_chain a b m c v Fa Fb L).
  destruct (Z.ltb_spec x a) as [X|X].
  - assert (At' : plf_at q x = Some (FConst z)) by (unfold finite in *; apply (chain_at q (- ORD_INF) ORD_INF (CS (- ORD_INF) a EXC EXC) (FConst z) x Ch); try exact Fx; cbn [lower upper]; try lia; left; reflexivity).
    split; [apply (plf_is_of _ _ _ _ At'); eexists; split; [reflexivity|]; cbn beta; unfold covered; destruct (Z.ltb_spec x a); [exact Hz|lia]|].
    unfold density. rewrite At'. unfold unif. destruct (Z.leb_spec a x); [lia|]. reflexivity.
  - assert (At' : plf_at q x = plf_at (ramp a b m c v) x).
    { rewrite At. unfold finite in *. destruct (Z.ltb_spec x b).
      - apply (chain_at q (- ORD_INF) ORD_INF (CS a b INC EXC) _ x Ch); try exact Fx; cbn [lower upper]; try lia. right. left. reflexivity.
      - apply (chain_at q (- ORD_INF) ORD_INF (CS b ORD_INF INC EXC) _ x Ch); try exact Fx; cbn [lower upper]; try lia. right. right. left. reflexivity. }
    split; [|unfold density in *; rewrite At'; exact D]. apply plf_is_at in V. destruct V as (f & Ff & Hf). rewrite <- At' in Ff. exact (plf_is_of _ _ _ _ Ff Hf).
Qed.
