(** Fitting a quantile distribution yields a proper cumulative distribution function. *)
Require Import ZArith QArith Qabs Lqa Bool List Arith Lia Sorted Permutation.
Require Import Verif.Base Verif.FloatLine Verif.FloatVal Verif.IntervalModel Verif.IntervalSpec Verif.IntervalProofs
  Verif.RealSetProofs Verif.IntervalMore Verif.NumBase Verif.UtilModel Verif.FunctionModel Verif.FunctionSpec
  Verif.FunctionProofs Verif.FunctionPlf Verif.FunctionInt Verif.NumericModel Verif.NumericSpec Verif.NumericReg.
Import ListNotations.
Open Scope Z_scope.

(** ** Compressing the sorted samples *)

Definition cnt (l : list Z) (x : Z) : nat := length (filter (fun d => d <=? x) l).

Lemma cnt_app : forall a b x, cnt (a ++ b) x = (cnt a x + cnt b x)%nat.
Proof. intros. unfold cnt. rewrite filter_app, app_length. reflexivity. Qed.

Lemma cnt_all : forall l x, Forall (fun d => d <= x) l -> cnt l x = length l.
Proof.
  intros l x H. unfold cnt. induction H as [|d l Hd H IH]; [reflexivity|]. cbn [filter]. destruct (Z.leb_spec d x); [|lia].
  cbn [length]. lia.
Qed.

Lemma cnt_none : forall l x, Forall (fun d => x < d) l -> cnt l x = O.
Proof. intros l x H. unfold cnt. induction H as [|d l Hd H IH]; [reflexivity|]. cbn [filter]. destruct (Z.leb_spec d x); [lia|exact IH]. Qed.

Lemma cnt_perm : forall a b x, Permutation a b -> cnt a x = cnt b x.
Proof.
  intros a b x P. unfold cnt. induction P; cbn [filter]; [reflexivity| | |congruence];
    repeat destruct (_ <=? x); cbn [length]; lia.
Qed.

Definition xs_inc {B} (l : list (Z * B)) : Prop := StronglySorted Z.lt (map fst l).

(** The entries written so far stand for the samples read so far. *)
Record comp_inv (seen : list Z) (acc : list (Z * nat)) : Prop := {
  ci_desc : StronglySorted Z.gt (map fst acc);
  ci_in : forall x, In x (map fst acc) <-> In x seen;
  ci_cnt : forall x c, In (x, c) acc -> c = cnt seen x
}.

Lemma SS_snoc : forall {A} (R : A -> A -> Prop) l x, StronglySorted R l -> (forall y, In y l -> R y x) -> StronglySorted R (l ++ [x]).
Proof.
  intros A R l x S. induction S as [|a l S IH F]; intros H; cbn; [constructor; constructor|]. constructor.
  - apply IH. intros; apply H; right; assumption.
  - apply Forall_app. split; [exact F|]. constructor; [apply H; left; reflexivity|constructor].
Qed.

Lemma SS_rev : forall {A} (R R' : A -> A -> Prop) l, (forall x y, R x y -> R' y x) -> StronglySorted R l -> StronglySorted R' (rev l).
Proof.
  intros A R R' l H S. induction S as [|a l S IH F]; cbn; [constructor|]. apply SS_snoc; [exact IH|].
  intros y I. apply H. rewrite Forall_forall in F. apply F. apply in_rev. exact I.
Qed.

Lemma compress_spec : forall l seen acc, comp_inv seen acc -> StronglySorted Z.le (seen ++ l) ->
  exists r, compress (length seen) l acc = r /\ xs_inc r
    /\ (forall x, In x (map fst r) <-> In x (seen ++ l)) /\ (forall x c, In (x, c) r -> c = cnt (seen ++ l) x).
Proof.
  induction l as [|x l IH]; intros seen acc [D I C] So.
  - exists (rev acc). rewrite app_nil_r in *. split; [reflexivity|]. split; [|split].
    + unfold xs_inc. rewrite map_rev. apply (SS_rev Z.gt); [intros; lia|exact D].
    + intro x. rewrite map_rev, <- in_rev. apply I.
    + intros x c K. apply C. apply in_rev. exact K.
  - assert (Le : forall y, In y seen -> y <= x).
    { intros y Iy. clear -So Iy. induction seen as [|z seen IHs]; [destruct Iy|]. cbn in So. inversion So as [|? ? S' F]; subst.
      destruct Iy as [->|Iy]; [|apply IHs; assumption]. rewrite Forall_forall in F. apply F. apply in_or_app. right. left. reflexivity. }
    replace (seen ++ x :: l) with ((seen ++ [x]) ++ l) in * by (rewrite <- app_assoc; reflexivity).
    assert (Len : S (length seen) = length (seen ++ [x])) by (rewrite app_length; cbn; lia).
    cbn [compress]. destruct acc as [|[y c] acc].
    + assert (Es : seen = []) by (destruct seen as [|z seen]; [reflexivity|]; destruct (proj2 (I z) (or_introl eq_refl))).
      subst seen. apply (IH [x] [(x, 1%nat)]); [|exact So]. split.
      * constructor; constructor.
      * intro z. cbn. tauto.
      * intros z k [E|[]]. injection E as <- <-. unfold cnt. cbn [filter]. rewrite Z.leb_refl. reflexivity.
    + destruct (Z.eqb_spec x y) as [->|N].
      * rewrite Len. apply IH; [|exact So]. split.
        -- exact D.
        -- intro z. cbn [map fst] in *. rewrite in_app_iff. specialize (I z). cbn in *. tauto.
        -- intros z k K. rewrite cnt_app. destruct K as [E|K].
           ++ injection E as <- <-. rewrite (C y c) by (left; reflexivity). unfold cnt at 3. cbn [filter]. rewrite Z.leb_refl. cbn. lia.
           ++ rewrite (C z k) by (right; exact K). cbn [map fst] in D. inversion D as [|? ? _ F]; subst. rewrite Forall_forall in F.
              assert (z < y) by (assert (y > z); [|lia]; apply F; apply in_map_iff; exists (z, k); auto).
              rewrite (cnt_none [y]) by (constructor; [assumption|constructor]). lia.
      * assert (Ly : y < x) by (assert (y <= x); [|lia]; apply Le; apply I; left; reflexivity).
        assert (All : forall z, In z (map fst ((y, c) :: acc)) -> z < x).
        { intros z Iz. cbn [map fst] in *. destruct Iz as [->|Iz]; [exact Ly|]. inversion D as [|? ? _ F]; subst. rewrite Forall_forall in F.
          specialize (F z Iz). lia. }
        rewrite Len. apply IH; [|exact So]. split.
        -- cbn [map fst]. constructor; [exact D|]. apply Forall_forall. intros z Iz. specialize (All z Iz). lia.
        -- intro z. rewrite in_app_iff. specialize (I z). cbn [map fst In] in *. tauto.
        -- intros z k K. rewrite cnt_app. destruct K as [E|K].
           ++ injection E as <- <-. rewrite cnt_all; [rewrite app_length; unfold cnt; cbn [filter]; rewrite Z.leb_refl; reflexivity|].
              apply Forall_forall. exact Le.
           ++ rewrite (C z k) by exact K. rewrite (cnt_none [x]); [lia|]. constructor; [|constructor]. apply All. apply in_map_iff. exists (z, k). auto.
Qed.

(** The support points before regression. *)
Lemma quantile_points_spec : forall data, let pts := quantile_points data in
  xs_inc pts /\ (forall x, In x (map fst pts) <-> In x data) /\ (forall x y, In (x, y) pts -> y = quantile data x).
Proof.
  intros data. unfold quantile_points. cbv zeta.
  pose proof (sort_perm (fun x : Z => x) data) as P. pose proof (sort_id_sorted data) as S.
  set (s := sort_by (fun x => x) data) in *. clearbody s.
  destruct (compress_spec s [] []) as (r & E & I & M & C); [|exact S|].
  { split; [constructor|intro; cbn; tauto|intros ? ? []]. }
  cbn [length app] in *. rewrite E. split; [|split].
  - unfold xs_inc in *. rewrite map_map. cbn [fst]. exact I.
  - intro x. rewrite map_map. cbn [fst]. rewrite M. split; intro H; [apply (Permutation_in _ (Permutation_sym P))|apply (Permutation_in _ P)]; exact H.
  - intros x y H. apply in_map_iff in H. destruct H as ([x' c] & H & K). cbn [fst snd] in H. injection H as <- <-.
    rewrite (C x' c K). unfold quantile, count_le. rewrite (cnt_perm _ _ x' (Permutation_sym P)). reflexivity.
Qed.

(** ** Quantiles *)
Lemma Qn_S : forall k, (Qn (S k) - 1 == Qn k)%Q.
Proof. intro k. unfold Qn. rewrite Nat2Z.inj_succ. unfold Z.succ. rewrite inject_Z_plus. change (inject_Z 1) with 1%Q. ring. Qed.
Lemma Qn_le : forall a b, (a <= b)%nat -> (Qn a <= Qn b)%Q.
Proof. intros a b H. unfold Qn. rewrite <- Zle_Qle. lia. Qed.
Lemma Qn_lt : forall a b, (a < b)%nat -> (Qn a < Qn b)%Q.
Proof. intros a b H. unfold Qn. rewrite <- Zlt_Qlt. lia. Qed.

Lemma cnt_mono : forall l x y, x <= y -> (cnt l x <= cnt l y)%nat.
Proof.
  intros l x y H. unfold cnt. induction l as [|d l IH]; [reflexivity|]. cbn [filter].
  destruct (Z.leb_spec d x), (Z.leb_spec d y); cbn [length]; lia.
Qed.
Lemma cnt_strict : forall l x y, x < y -> In y l -> (cnt l x < cnt l y)%nat.
Proof.
  intros l x y H. unfold cnt. induction l as [|d l IH]; intro I; [destruct I|]. cbn [filter]. destruct I as [->|I].
  - destruct (Z.leb_spec y x); [lia|]. destruct (Z.leb_spec y y); [|lia]. cbn [length].
    pose proof (cnt_mono l x y ltac:(lia)). unfold cnt in *. lia.
  - specialize (IH I). destruct (Z.leb_spec d x), (Z.leb_spec d y); cbn [length]; lia.
Qed.
Lemma cnt_le_length : forall l x, (cnt l x <= length l)%nat.
Proof. intros l x. unfold cnt. induction l as [|d l IH]; [reflexivity|]. cbn [filter]. destruct (d <=? x); cbn [length]; lia. Qed.
Lemma cnt_pos : forall l x, In x l -> (1 <= cnt l x)%nat.
Proof.
  intros l x I. unfold cnt. induction l as [|d l IH]; [destruct I|]. cbn [filter]. destruct I as [->|I].
  - rewrite Z.leb_refl. cbn. lia.
  - specialize (IH I). destruct (d <=? x); cbn; lia.
Qed.

Lemma quantile_range : forall data x, In x data -> (2 <= length data)%nat -> (0 <= quantile data x <= 1)%Q.
Proof.
  intros data x I L. unfold quantile, count_le. pose proof (cnt_pos data x I). pose proof (cnt_le_length data x). unfold cnt in *.
  assert (P : (0 < Qn (length data) - 1)%Q) by (pose proof (Qn_lt 1 (length data) ltac:(lia)); change (Qn 1) with 1%Q in *; lra).
  pose proof (Qn_le 1 _ H) as A. pose proof (Qn_le _ _ H0) as B. change (Qn 1) with 1%Q in A. split.
  - apply Qle_shift_div_l; [exact P|]. lra.
  - apply Qle_shift_div_r; [exact P|]. lra.
Qed.
Lemma quantile_strict : forall data x y, In y data -> x < y -> (2 <= length data)%nat -> (quantile data x < quantile data y)%Q.
Proof.
  intros data x y I L Ln. unfold quantile, count_le. pose proof (cnt_strict data x y L I) as C. unfold cnt in *.
  assert (P : (0 < Qn (length data) - 1)%Q) by (pose proof (Qn_lt 1 (length data) ltac:(lia)); change (Qn 1) with 1%Q in *; lra).
  pose proof (Qn_lt _ _ C). apply Qlt_shift_div_l; [exact P|]. unfold Qdiv. rewrite <- Qmult_assoc, (Qmult_comm (/ _)), Qmult_inv_r by lra. lra.
Qed.
Lemma quantile_last : forall data x, largest x data -> (2 <= length data)%nat -> (quantile data x == 1)%Q.
Proof.
  intros data x [I M] L. unfold quantile, count_le. fold (cnt data x). rewrite cnt_all by (apply Forall_forall; exact M).
  assert (P : (0 < Qn (length data) - 1)%Q) by (pose proof (Qn_lt 1 (length data) ltac:(lia)); change (Qn 1) with 1%Q in *; lra).
  field. lra.
Qed.

(** ** The piecewise function through the support points *)

Lemma chain_halfopen : forall p a b, chain a p b -> - ORD_INF <= a -> b <= ORD_INF -> Forall halfopen (ivs p).
Proof.
  induction p as [|[i f] p IH]; intros a b C A B; [constructor|]. destruct C as (E & L & C). cbn [ivs map fst].
  assert (upper i <= b).
  { clear -C. revert C. generalize (upper i). induction p as [|[j g] p IH]; intros u C; cbn in C; [lia|]. destruct C as (_ & L & C). specialize (IH _ C). lia. }
  constructor; [|apply (IH (upper i) b); [exact C|lia|exact B]].
  rewrite E. unfold halfopen. cbn [lower upper left right]. repeat split; lia.
Qed.

Lemma chain_le : forall p a b, chain a p b -> a <= b.
Proof. induction p as [|[i f] p IH]; intros a b C; cbn in C; [lia|]. destruct C as (_ & L & C). specialize (IH _ _ C). lia. Qed.

Lemma chain_app : forall p q a b c, chain a p b -> chain b q c -> chain a (p ++ q) c.
Proof.
  induction p as [|[i f] p IH]; intros q a b c C D; cbn in *; [subst; exact D|]. destruct C as (E & L & C). repeat split; try assumption.
  eapply IH; eassumption.
Qed.

Lemma chain_app_inv : forall p q a c, chain a (p ++ q) c -> exists b, chain a p b /\ chain b q c.
Proof.
  induction p as [|[i f] p IH]; intros q a c C; cbn in *; [exists a; auto|]. destruct C as (E & L & C).
  destruct (IH _ _ _ C) as (b & C1 & C2). exists b. auto.
Qed.

Lemma chain_head : forall i f p a b x, chain a ((i, f) :: p) b -> - ORD_INF <= a -> b <= ORD_INF -> finite x -> a <= x < upper i ->
  plf_at ((i, f) :: p) x = Some f.
Proof.
  intros i f p a b x C A B F L. pose proof (chain_halfopen _ _ _ C A B) as H. inversion H; subst. destruct C as (E & _).
  apply plf_at_head; try assumption. rewrite E. cbn [lower upper]. lia.
Qed.
Lemma chain_tail : forall i f p a b x, chain a ((i, f) :: p) b -> - ORD_INF <= a -> b <= ORD_INF -> finite x -> upper i <= x ->
  plf_at ((i, f) :: p) x = plf_at p x.
Proof.
  intros i f p a b x C A B F L. pose proof (chain_halfopen _ _ _ C A B) as H. inversion H; subst. apply plf_at_tail; assumption.
Qed.
Lemma plf_is_of : forall p x f y, plf_at p x = Some f -> fn_is f (dval x) y -> plf_is p x y.
Proof. intros. apply plf_is_at. eauto. Qed.
Lemma plf_is_ext : forall p q x y, plf_at p x = plf_at q x -> plf_is p x y <-> plf_is q x y.
Proof. intros p q x y E. rewrite !plf_is_at, E. reflexivity. Qed.
Lemma plf_is_wd : forall p x y y', (y == y')%Q -> plf_is p x y -> plf_is p x y'.
Proof. intros p x y y' E H. apply plf_is_at in H. destruct H as (f & A & H). apply plf_is_at. exists f. split; [exact A|].
  apply (fn_is_wd f (dval x) _ y); [reflexivity|exact E|exact H]. Qed.
Lemma plf_is_fun : forall p x y y', plf_is p x y -> plf_is p x y' -> (y == y')%Q.
Proof. intros p x y y' (v & E & H) (w & E' & H'). rewrite E in E'. injection E' as <-. rewrite <- H. exact H'. Qed.

(** The straight line through two points. *)
Lemma line_value : forall f x1 x2 y1 y2 x, affine f -> (x1 < x2)%Q -> fn_is f x1 y1 -> fn_is f x2 y2 -> fn_is f x (interpolate x1 y1 x2 y2 x).
Proof.
  intros f x1 x2 y1 y2 x A L (v1 & E1 & H1) (v2 & E2 & H2). unfold fn_is, interpolate.
  destruct f as [|v|m c|? ? ?]; cbn in A; try contradiction; cbn [fn_eval] in *; injection E1 as <-; injection E2 as <-;
    eexists; (split; [reflexivity|]); rewrite <- H1, <- H2; field; lra.
Qed.

Definition ys_inc (pts : list (Z * Q)) : Prop := StronglySorted Qlt (map snd pts).

Lemma last_snd : forall (p q : Z * Q) l d, last (p :: q :: l) d = last (q :: l) d.
Proof. reflexivity. Qed.

Lemma last_dflt : forall {A} (l : list A) a d e, last (a :: l) d = last (a :: l) e.
Proof. intros A l. induction l as [|b l IH]; intros a d e; [reflexivity|]. change (last (b :: l) d = last (b :: l) e). apply IH. Qed.

Lemma plus_eps_cases : forall x, plus_eps x = x + 1 \/ plus_eps x = x.
Proof. intro x. unfold plus_eps. destruct (adds_one x); auto. Qed.
Lemma plus_eps_inf : forall x, finite x -> plus_eps x < ORD_INF.
Proof.
  intros x [A B]. unfold plus_eps, adds_one. pose proof ord_facts as O. unfold finite in *.
  destruct (Z.ltb_spec (Z.abs x) ORD_53); [unfold ORD_53, ORD_INF in *; lia|].
  destruct (Z.ltb_spec (Z.abs x) ORD_54); [|lia]. destruct (_ || _); unfold ORD_54, ORD_INF in *; lia.
Qed.

Lemma close_right_cons : forall s t p, close_right (s :: t :: p) = do r <- close_right (t :: p); Ok (s :: r).
Proof. intros [i f] t p. reflexivity. Qed.

Lemma line_rises : forall f x1 x2 y1 y2, affine f -> (x1 < x2)%Q -> (y1 < y2)%Q -> fn_is f x1 y1 -> fn_is f x2 y2 -> (0 < steepness f)%Q.
Proof.
  intros f x1 x2 y1 y2 A X Y (v1 & E1 & H1) (v2 & E2 & H2). destruct f as [|v|m c|? ? ?]; cbn in A; try contradiction; cbn [fn_eval steepness] in *;
    injection E1 as <-; injection E2 as <-; [lra|]. destruct (Qlt_le_dec 0 m) as [P|P]; [exact P|]. exfalso.
  assert (0 <= (- m) * (x2 - x1))%Q by (apply Qmult_le_0_compat; lra). lra.
Qed.

Lemma fit_pieces : forall rest p q, xs_inc (p :: q :: rest) -> Forall (fun s => finite (fst s)) (p :: q :: rest) ->
  (snd (last (p :: q :: rest) p) == 1)%Q ->
  exists i f ps r, linear_pieces (p :: q :: rest) = Ok ((i, f) :: ps) /\ close_right ((i, f) :: ps) = Ok r
    /\ lower i = fst p /\ chain (fst p) r ORD_INF /\ affines r
    /\ (forall s t x, consecutive s t (p :: q :: rest) -> fst s <= x <= fst t ->
          plf_is r x (interpolate (dval (fst s)) (snd s) (dval (fst t)) (snd t) (dval x)))
    /\ (forall x, finite x -> fst (last (p :: q :: rest) p) <= x -> plf_is r x 1)
    /\ (ys_inc (p :: q :: rest) -> forall j g, In (j, g) r -> ((0 < steepness g)%Q /\ In (lower j) (map fst (p :: q :: rest)))
          \/ (g = FConst 1 /\ upper j = ORD_INF /\ fst (last (p :: q :: rest) p) <= lower j))
    /\ (ys_inc (p :: q :: rest) -> exists j g, In (j, g) r /\ (0 < steepness g)%Q /\ lower j < fst (last (p :: q :: rest) p)
          /\ upper j = plus_eps (fst (last (p :: q :: rest) p)))
    /\ (2 <= length r)%nat.
Proof.
  induction rest as [|z rest IH]; intros p q I F L1.
  - unfold xs_inc in I. cbn [map fst] in I. inversion I as [|? ? _ Fp]; subst. inversion Fp as [|? ? Lpq _]; subst.
    inversion F as [|? ? Fp' F']; subst. inversion F' as [|? ? Fq _]; subst. cbn [last] in L1.
    cbn [linear_pieces]. pose proof (dval_lt _ _ Lpq) as Ld.
    destruct (from_points_spec (dval (fst p)) (snd p) (dval (fst q)) (snd q)) as (f & -> & A & H1 & H2); [lra|].
    cbn [bind]. unfold mk_cs. destruct (Z.ltb_spec (fst q) (fst p)); [lia|]. cbn [bind].
    exists (CS (fst p) (fst q) INC EXC), f, []. cbn [close_right lower upper].
    pose proof (plus_eps_cases (fst q)) as Pc. pose proof (plus_eps_inf _ Fq) as Pi. unfold mk_cs. set (u := plus_eps (fst q)) in *.
    destruct (Z.ltb_spec u (fst p)); [lia|]. cbn [bind]. destruct (Z.ltb_spec ORD_INF u); [lia|]. cbn [bind].
    assert (Ep : (fst p =? - ORD_INF) = false) by (unfold finite in *; lia). assert (Eu : (u =? - ORD_INF) = false) by (unfold finite in *; lia).
    set (r := [(CS (fst p) u INC EXC, f); (CS u ORD_INF INC EXC, FConst 1)]).
    assert (C : chain (fst p) r ORD_INF) by (unfold r; cbn [chain upper]; rewrite Ep, Eu; unfold finite in *; repeat split; lia).
    exists r. split; [reflexivity|]. split; [reflexivity|]. split; [reflexivity|]. split; [exact C|].
    split; [unfold r; repeat constructor; exact A|]. 
    assert (At1 : forall x, finite x -> fst q <= x -> plf_is r x 1).
    { intros x Fx Lx. destruct (Z_lt_ge_dec x u) as [Lu|Gu].
      - assert (x = fst q) by lia. subst x. apply (plf_is_of _ _ f); [apply (chain_head _ _ _ _ _ _ C); cbn [upper]; try assumption; unfold finite in *; lia|].
        apply (fn_is_wd f (dval (fst q)) _ (snd q)); [reflexivity|exact L1|exact H2].
      - apply (plf_is_of _ _ (FConst 1)); [|eexists; split; [reflexivity|reflexivity]]. unfold r.
        rewrite (chain_tail _ _ _ _ _ _ C) by (cbn [upper]; try assumption; unfold finite in *; lia).
        destruct C as (_ & _ & C). cbn [upper] in C. apply (chain_head _ _ _ _ _ _ C); cbn [upper]; try assumption; unfold finite in *; lia. }
    assert (Rise : ys_inc [p; q] -> (0 < steepness f)%Q).
    { intro Y. apply (line_rises f (dval (fst p)) (dval (fst q)) (snd p) (snd q)); try assumption.
      unfold ys_inc in Y. cbn [map] in Y. inversion Y as [|? ? _ Fy]; subst. inversion Fy; assumption. }
    split; [|split; [exact At1|split; [|split; [|unfold r; cbn; lia]]]].
    2: { intros Y j g [J|[J|[]]]; injection J as <- <-; [left; split; [apply Rise, Y|left; reflexivity]|right]. cbn [last upper lower]. repeat split; lia. }
    2: { intro Y. exists (CS (fst p) u INC EXC), f. split; [left; reflexivity|]. split; [apply Rise, Y|]. split; [exact Lpq|reflexivity]. }
    intros s t x (l1 & l2 & E) Lx.
    assert (s = p /\ t = q) as [-> ->].
    { destruct l1 as [|a [|b l1]]; cbn in E; [injection E as <- <- _; auto|discriminate|destruct l1; discriminate]. }
    assert (Fx : finite x) by (unfold finite in *; lia).
    destruct (Z.eq_dec x (fst q)) as [->|N].
    + apply (plf_is_wd _ _ 1); [|apply At1; [exact Fq|lia]]. unfold interpolate. rewrite <- L1. field. lra.
    + apply (plf_is_of _ _ f); [apply (chain_head _ _ _ _ _ _ C); cbn [upper]; try assumption; unfold finite in *; lia|].
      apply line_value; assumption.
  - unfold xs_inc in I. cbn [map fst] in I. inversion I as [|? ? Iq Fp]; subst. inversion Fp as [|? ? Lpq Fp2]; subst.
    inversion F as [|? ? Fp' F']; subst. inversion F' as [|? ? Fq F'']; subst.
    destruct (IH q z) as (i & f & ps & r & E1 & E2 & Li & C & A & V & V1 & V2 & V3 & V4); [exact Iq|exact F'|rewrite (last_dflt _ q q p); exact L1|].
    pose proof (dval_lt _ _ Lpq) as Ld.
    destruct (from_points_spec (dval (fst p)) (snd p) (dval (fst q)) (snd q)) as (g & Eg & Ag & H1 & H2); [lra|].
    exists (CS (fst p) (fst q) INC EXC), g, ((i, f) :: ps), ((CS (fst p) (fst q) INC EXC, g) :: r).
    assert (Elp : linear_pieces (p :: q :: z :: rest) =
      do f <- lin_from_points (dval (fst p), snd p) (dval (fst q), snd q);
      do i <- mk_cs (fst p) (fst q) INC EXC; do r <- linear_pieces (q :: z :: rest); Ok ((i, f) :: r)) by reflexivity.
    rewrite Elp, Eg. cbn [bind]. unfold mk_cs. destruct (Z.ltb_spec (fst q) (fst p)); [lia|]. cbn [bind]. rewrite E1. cbn [bind].
    split; [reflexivity|]. split; [rewrite close_right_cons, E2; reflexivity|]. split; [reflexivity|].
    assert (Ep : (fst p =? - ORD_INF) = false) by (unfold finite in *; lia).
    assert (C' : chain (fst p) ((CS (fst p) (fst q) INC EXC, g) :: r) ORD_INF) by (cbn [chain upper]; rewrite Ep; repeat split; try lia; exact C).
    split; [exact C'|]. split; [constructor; assumption|].
    assert (Lq : fst q <= fst (last (z :: rest) p)).
    { clear -Iq. assert (K : In (last (z :: rest) p) (z :: rest)).
      { clear. revert z. induction rest as [|w rest IHr]; intro y; [left; reflexivity|]. rewrite last_snd. right. apply IHr. }
      cbn [map fst] in Iq. inversion Iq as [|? ? _ Fq]; subst. rewrite Forall_forall in Fq.
      assert (fst q < fst (last (z :: rest) p)); [|lia]. apply Fq. apply (in_map fst) in K. exact K. }
    split.
    + intros s t x (l1 & l2 & E) Lx. destruct l1 as [|a l1].
      * cbn in E. injection E as <- <- _. assert (Fx : finite x) by (unfold finite in *; lia).
        destruct (Z.eq_dec x (fst q)) as [->|N].
        -- rewrite (plf_is_ext _ r) by (apply (chain_tail _ _ _ _ _ _ C'); cbn [upper]; try assumption; unfold finite in *; lia).
           apply (plf_is_wd _ _ (interpolate (dval (fst q)) (snd q) (dval (fst z)) (snd z) (dval (fst q)))).
           ++ inversion Iq as [|? ? _ Fz]; subst. inversion Fz as [|? ? Lz _]; subst. pose proof (dval_lt _ _ Lz). unfold interpolate. field. split; lra.
           ++ apply V; [exists [], rest; reflexivity|]. inversion Iq as [|? ? _ Fz]; subst. inversion Fz as [|? ? Lz _]; subst. lia.
        -- apply (plf_is_of _ _ g); [apply (chain_head _ _ _ _ _ _ C'); cbn [upper]; try assumption; unfold finite in *; lia|].
           apply line_value; assumption.
      * cbn in E. injection E as <- E. 
        assert (Ks : In s (q :: z :: rest)) by (rewrite E; apply in_or_app; right; left; reflexivity).
        assert (Kt : In t (q :: z :: rest)) by (rewrite E; apply in_or_app; right; right; left; reflexivity).
        assert (Ls : fst q <= fst s).
        { destruct Ks as [->|Ks]; [lia|]. inversion Iq as [|? ? _ Fz]; subst. rewrite Forall_forall in Fz. specialize (Fz (fst s)).
          assert (fst q < fst s); [|lia]. apply Fz. apply (in_map fst) in Ks. exact Ks. }
        rewrite Forall_forall in F'. pose proof (F' s Ks). pose proof (F' t Kt).
        rewrite (plf_is_ext _ r) by (apply (chain_tail _ _ _ _ _ _ C'); cbn [upper]; unfold finite in *; lia).
        apply V; [exists l1, l2; exact E|exact Lx].
    + split.
      { intros x Fx Lx. rewrite !last_snd in Lx.
      pose proof (last_dflt rest z p q) as Ll.
      rewrite (plf_is_ext _ r) by (apply (chain_tail _ _ _ _ _ _ C'); cbn [upper]; try assumption; unfold finite in *; lia).
      apply V1; [exact Fx|]. rewrite last_snd, <- Ll. exact Lx. }
      assert (Yq : ys_inc (p :: q :: z :: rest) -> ys_inc (q :: z :: rest)) by (intro Y; unfold ys_inc in *; cbn [map] in *; inversion Y; assumption).
      assert (Ell : last (p :: q :: z :: rest) p = last (q :: z :: rest) q) by (apply (last_dflt (z :: rest) q p q)).
      rewrite Ell. split; [|split; [|cbn [length]; lia]].
      * intros Y j h [J|J].
        -- injection J as <- <-. left. split; [|left; reflexivity]. apply (line_rises g (dval (fst p)) (dval (fst q)) (snd p) (snd q)); try assumption.
           unfold ys_inc in Y. cbn [map] in Y. inversion Y as [|? ? _ Fy]; subst. inversion Fy; assumption.
        -- destruct (V2 (Yq Y) j h J) as [[P1 P2]|P]; [left; split; [exact P1|right; exact P2]|right; exact P].
      * intro Y. destruct (V3 (Yq Y)) as (j & h & J & P). exists j, h. split; [right; exact J|exact P].
Qed.

(** The pieces meet where the next one begins; only behind the last support point the
    line is continued by one double beyond the value 1. *)
Definition seams (p : plf) (start last : Z) (v : Q) : Prop :=
  exists i r0 j h k, p = (i, FConst 0) :: r0 ++ [(j, h); (k, FConst 1)] /\ tiling (r0 ++ [(j, h)]) /\ affine h
    /\ fn_is h (dval last) 1 /\ upper i = start /\ upper j = plus_eps last /\ lower k = plus_eps last
    /\ exists i1 f1 r1, r0 ++ [(j, h)] = (i1, f1) :: r1 /\ fn_is f1 (dval start) v.

Lemma fit_seams : forall rest p q, xs_inc (p :: q :: rest) -> Forall (fun s => finite (fst s)) (p :: q :: rest) ->
  (snd (last (p :: q :: rest) p) == 1)%Q ->
  forall ps r, linear_pieces (p :: q :: rest) = Ok ps -> close_right ps = Ok r ->
  exists r0 j h k, r = r0 ++ [(j, h); (k, FConst 1)] /\ tiling (r0 ++ [(j, h)]) /\ affine h
    /\ fn_is h (dval (fst (last (p :: q :: rest) p))) 1 /\ upper j = plus_eps (fst (last (p :: q :: rest) p)) /\ lower k = plus_eps (fst (last (p :: q :: rest) p))
    /\ exists i1 f1 r1, r0 ++ [(j, h)] = (i1, f1) :: r1 /\ fn_is f1 (dval (fst p)) (snd p) /\ lower i1 = fst p.
Proof.
  induction rest as [|z rest IH]; intros p q I F L1 ps r E1 E2;
    unfold xs_inc in I; cbn [map fst] in I; destruct (StronglySorted_inv I) as (Iq & Fp); pose proof (Forall_inv Fp) as Lpq;
    pose proof (Forall_inv (Forall_inv_tail F)) as Fq; pose proof (dval_lt _ _ Lpq) as Ld;
    destruct (from_points_spec (dval (fst p)) (snd p) (dval (fst q)) (snd q)) as (g & Eg & Ag & H1 & H2); [lra| |lra|].
  - cbn [linear_pieces] in E1. rewrite Eg in E1. cbn [bind] in E1. unfold mk_cs in E1. destruct (Z.ltb_spec (fst q) (fst p)); [lia|]. cbn [bind] in E1. injection E1 as <-.
    cbn [close_right lower upper] in E2. unfold mk_cs in E2. pose proof (plus_eps_cases (fst q)) as Pc. pose proof (plus_eps_inf _ Fq) as Pi.
    destruct (Z.ltb_spec (plus_eps (fst q)) (fst p)); [lia|]. cbn [bind] in E2. destruct (Z.ltb_spec ORD_INF (plus_eps (fst q))); [lia|]. cbn [bind] in E2. injection E2 as <-.
    cbn [last] in *. eexists [], _, g, _. cbn [app]. split; [reflexivity|]. cbn [tiling lower upper]. split; [lia|]. split; [exact Ag|].
    split; [apply (fn_is_wd g (dval (fst q)) (dval (fst q)) (snd q)); [reflexivity|exact L1|exact H2]|]. split; [reflexivity|]. split; [reflexivity|]. eexists _, g, []. split; [reflexivity|]. split; [exact H1|reflexivity].
  - assert (Elp : linear_pieces (p :: q :: z :: rest) =
      do f <- lin_from_points (dval (fst p), snd p) (dval (fst q), snd q);
      do i <- mk_cs (fst p) (fst q) INC EXC; do r <- linear_pieces (q :: z :: rest); Ok ((i, f) :: r)) by reflexivity.
    rewrite Elp, Eg in E1. cbn [bind] in E1. unfold mk_cs in E1. destruct (Z.ltb_spec (fst q) (fst p)); [lia|]. cbn [bind] in E1.
    destruct (linear_pieces (q :: z :: rest)) as [ps'|] eqn:Ez; [|discriminate E1]. cbn [bind] in E1. injection E1 as <-.
    assert (Np : exists s ps'', ps' = s :: ps'').
    { destruct ps' as [|s ps'']; [|eauto]. exfalso. change (linear_pieces (q :: z :: rest)) with
       (do f <- lin_from_points (dval (fst q), snd q) (dval (fst z), snd z);
        do i <- mk_cs (fst q) (fst z) INC EXC; do r <- linear_pieces (z :: rest); Ok ((i, f) :: r)) in Ez.
      destruct (lin_from_points _ _); [|discriminate Ez]. cbn [bind] in Ez. destruct (mk_cs _ _ _ _); [|discriminate Ez]. cbn [bind] in Ez.
      destruct (linear_pieces (z :: rest)); discriminate Ez. }
    destruct Np as (s & ps'' & ->). rewrite close_right_cons in E2. destruct (close_right (s :: ps'')) as [r'|] eqn:Ec; [|discriminate E2]. cbn [bind] in E2. injection E2 as <-.
    destruct (IH q z Iq (Forall_inv_tail F)) with (ps := s :: ps'') (r := r') as (r0 & j & h & k & -> & T & Ah & Hh & U & K & i1 & f1 & r1 & Er & Hf & Hl); try assumption.
    { rewrite (last_dflt _ q q p). exact L1. }
    assert (Ell : last (p :: q :: z :: rest) p = last (q :: z :: rest) q) by (apply (last_dflt (z :: rest) q p q)). rewrite Ell.
    exists ((CS (fst p) (fst q) INC EXC, g) :: r0), j, h, k. split; [reflexivity|]. split.
    + cbn [app]. rewrite Er in *. cbn [tiling lower upper]. split; [lia|]. split; [symmetry; exact Hl|]. split; [exists (snd q); split; [exact H2|exact Hf]|exact T].
    + split; [exact Ah|]. split; [exact Hh|]. split; [exact U|]. split; [exact K|]. eexists _, g, (r0 ++ [(j, h)]). split; [reflexivity|]. split; [exact H1|reflexivity].
Qed.

(** ** The fitted function *)

Lemma SS_inv_app : forall {A} (R : A -> A -> Prop) l1 l2 x y, StronglySorted R (l1 ++ l2) -> In x l1 -> In y l2 -> R x y.
Proof.
  intros A R l1 l2 x y. induction l1 as [|a l1 IH]; intros So I J; [destruct I|]. cbn in So. inversion So as [|? ? S' F]; subst.
  destruct I as [->|I]; [|apply IH; assumption]. rewrite Forall_forall in F. apply F. apply in_or_app. right. exact J.
Qed.

Lemma consecutive_gap : forall (l : list (Z * Q)) s t e, xs_inc l -> consecutive s t l -> In e l -> fst e <= fst s \/ fst t <= fst e.
Proof.
  intros l s t e So (l1 & l2 & ->) I. unfold xs_inc in So. rewrite map_app in So. apply in_app_or in I. destruct I as [I|[->|[->|I]]].
  - left. assert (fst e < fst s); [|lia]. apply (SS_inv_app _ _ _ _ _ So); [apply in_map; exact I|left; reflexivity].
  - left. lia.
  - right. lia.
  - right. replace (l1 ++ s :: t :: l2) with ((l1 ++ [s; t]) ++ l2) in So by (rewrite <- app_assoc; reflexivity).
    rewrite <- map_app in So. replace (l1 ++ s :: t :: l2) with ((l1 ++ [s; t]) ++ l2) in So by (rewrite <- app_assoc; reflexivity).
    rewrite map_app in So. assert (fst t < fst e); [|lia].
    apply (SS_inv_app _ _ _ _ _ So); [apply in_map, in_or_app; right; right; left; reflexivity|apply in_map; exact I].
Qed.
Lemma consecutive_lt : forall (l : list (Z * Q)) s t, xs_inc l -> consecutive s t l -> fst s < fst t /\ In s l /\ In t l.
Proof.
  intros l s t So (l1 & l2 & ->). split; [|split; apply in_or_app; right; [left; reflexivity|right; left; reflexivity]].
  unfold xs_inc in So. replace (l1 ++ s :: t :: l2) with ((l1 ++ [s]) ++ t :: l2) in So by (rewrite <- app_assoc; reflexivity).
  rewrite map_app in So. apply (SS_inv_app _ _ _ _ _ So); [apply in_map, in_or_app; right; left; reflexivity|left; reflexivity].
Qed.

Lemma locate : forall rest (p : Z * Q) x, fst p <= x < fst (last (p :: rest) p) ->
  exists s t, consecutive s t (p :: rest) /\ fst s <= x < fst t.
Proof.
  induction rest as [|q rest IH]; intros p x L; [cbn in L; lia|]. rewrite last_snd, (last_dflt rest q p q) in L.
  destruct (Z_lt_ge_dec x (fst q)) as [Lx|Gx].
  - exists p, q. split; [exists [], rest; reflexivity|lia].
  - destruct (IH q x ltac:(lia)) as (s & t & (l1 & l2 & E) & H). exists s, t. split; [|exact H]. exists (p :: l1), l2. cbn. rewrite E. reflexivity.
Qed.

Lemma interpolate_between : forall x1 y1 x2 y2 x, (x1 < x2 -> x1 <= x <= x2 -> y1 <= y2 -> y1 <= interpolate x1 y1 x2 y2 x <= y2)%Q.
Proof.
  intros x1 y1 x2 y2 x L [A B] Y. unfold interpolate.
  assert (0 <= (x - x1) / (x2 - x1) <= 1)%Q.
  { split; [apply Qle_shift_div_l; lra|apply Qle_shift_div_r; lra]. }
  generalize dependent ((x - x1) / (x2 - x1))%Q. intros q [Q0 Q1]. split; nra.
Qed.
Lemma interpolate_mono : forall x1 y1 x2 y2 x x', (x1 < x2 -> x <= x' -> y1 <= y2 -> interpolate x1 y1 x2 y2 x <= interpolate x1 y1 x2 y2 x')%Q.
Proof.
  intros x1 y1 x2 y2 x x' L A Y. unfold interpolate.
  assert ((x - x1) / (x2 - x1) <= (x' - x1) / (x2 - x1))%Q.
  { unfold Qdiv. apply Qmult_le_compat_r; [lra|]. apply Qinv_le_0_compat. lra. }
  generalize dependent ((x - x1) / (x2 - x1))%Q. generalize ((x' - x1) / (x2 - x1))%Q. intros; nra.
Qed.

(** A function that is 0 to the left of the first point, interpolates between the points
    and is 1 from the last point on is a proper cdf. *)
Lemma knots_proper : forall p q rest F, let l := p :: q :: rest in
  xs_inc l -> Forall (fun s => finite (fst s)) l -> Forall (fun s => (0 <= snd s <= 1)%Q) l ->
  (forall s t, In s l -> In t l -> fst s <= fst t -> (snd s <= snd t)%Q) ->
  (forall x, finite x -> x < fst p -> plf_is F x 0) ->
  (forall s t x, consecutive s t l -> fst s <= x <= fst t ->
     plf_is F x (interpolate (dval (fst s)) (snd s) (dval (fst t)) (snd t) (dval x))) ->
  (forall x, finite x -> fst (last l p) <= x -> plf_is F x 1) ->
  proper_cdf F (fst p) (fst (last l p)).
Proof.
  intros p q rest F l I Fi R M V0 V V1.
  rewrite Forall_forall in R.
  assert (Loc : forall x, fst p <= x < fst (last l p) -> exists s t, consecutive s t l /\ fst s <= x < fst t /\ In s l /\ In t l
     /\ (dval (fst s) < dval (fst t))%Q /\ (dval (fst s) <= dval x <= dval (fst t))%Q /\ (snd s <= snd t)%Q).
  { intros x L. destruct (locate (q :: rest) p x L) as (s & t & C & B). exists s, t. destruct (consecutive_lt _ _ _ I C) as (Lt & Is & It).
    repeat split; try assumption; try lia; [apply dval_lt; exact Lt|apply dval_le; lia|apply dval_le; lia|apply M; try assumption; lia]. }
  split; [exact V0|exact V1| |].
  - intros x Fx. destruct (Z_lt_ge_dec x (fst p)) as [L|G]; [exists 0%Q; split; [apply V0; assumption|lra]|].
    destruct (Z_lt_ge_dec x (fst (last l p))) as [L|G']; [|exists 1%Q; split; [apply V1; [exact Fx|lia]|lra]].
    destruct (Loc x ltac:(lia)) as (s & t & C & B & Is & It & D & Dx & Y).
    eexists. split; [apply (V s t); [exact C|lia]|].
    pose proof (interpolate_between _ (snd s) _ (snd t) (dval x) D Dx Y). pose proof (R s Is). pose proof (R t It). lra.
  - intros x x' y y' Fx Fx' L H H'.
    destruct (Z_lt_ge_dec x (fst p)) as [L0|G0].
    { pose proof (plf_is_fun _ _ _ _ H (V0 x Fx L0)) as E. rewrite E.
      destruct (Z_lt_ge_dec x' (fst p)) as [L0'|G0']; [rewrite (plf_is_fun _ _ _ _ H' (V0 x' Fx' L0')); lra|].
      destruct (Z_lt_ge_dec x' (fst (last l p))) as [L'|G']; [|rewrite (plf_is_fun _ _ _ _ H' (V1 x' Fx' ltac:(lia))); lra].
      destruct (Loc x' ltac:(lia)) as (s & t & C & B & Is & It & D & Dx & Y).
      pose proof (plf_is_fun _ _ _ _ H' (V s t x' C ltac:(lia))) as E'. rewrite E'.
      pose proof (interpolate_between _ (snd s) _ (snd t) (dval x') D Dx Y). pose proof (R s Is). lra. }
    destruct (Z_lt_ge_dec x (fst (last l p))) as [L1|G1].
    2: { rewrite (plf_is_fun _ _ _ _ H (V1 x Fx ltac:(lia))), (plf_is_fun _ _ _ _ H' (V1 x' Fx' ltac:(lia))). lra. }
    destruct (Loc x ltac:(lia)) as (s & t & C & B & Is & It & D & Dx & Y).
    pose proof (plf_is_fun _ _ _ _ H (V s t x C ltac:(lia))) as E. rewrite E.
    pose proof (interpolate_between _ (snd s) _ (snd t) (dval x) D Dx Y) as Bx.
    destruct (Z_lt_ge_dec x' (fst (last l p))) as [L'|G'].
    2: { rewrite (plf_is_fun _ _ _ _ H' (V1 x' Fx' ltac:(lia))). pose proof (R t It). lra. }
    destruct (Z_lt_ge_dec x' (fst t)) as [Lt|Gt].
    + pose proof (plf_is_fun _ _ _ _ H' (V s t x' C ltac:(lia))) as E'. rewrite E'. apply interpolate_mono; [exact D|apply dval_le; exact L|exact Y].
    + destruct (Loc x' ltac:(lia)) as (s' & t' & C' & B' & Is' & It' & D' & Dx' & Y').
      pose proof (plf_is_fun _ _ _ _ H' (V s' t' x' C' ltac:(lia))) as E'. rewrite E'.
      pose proof (interpolate_between _ (snd s') _ (snd t') (dval x') D' Dx' Y').
      destruct (consecutive_gap _ _ _ t I C' It) as [K|K]; [|lia]. pose proof (M t s' It Is' K). lra.
Qed.

Lemma dirac_proper : forall x, finite x -> proper_cdf (dirac x) x x.
Proof.
  intros x Fx. assert (C : chain (- ORD_INF) (dirac x) ORD_INF).
  { unfold dirac. cbn [chain upper]. rewrite Z.eqb_refl. assert ((x =? - ORD_INF) = false) as -> by (unfold finite in *; lia).
    unfold finite in *. repeat split; lia. }
  assert (V0 : forall y, finite y -> y < x -> plf_is (dirac x) y 0).
  { intros y Fy L. apply (plf_is_of _ _ (FConst 0)); [|eexists; split; reflexivity].
    apply (chain_head _ _ _ _ _ _ C); cbn [upper]; try assumption; unfold finite in *; lia. }
  assert (V1 : forall y, finite y -> x <= y -> plf_is (dirac x) y 1).
  { intros y Fy L. apply (plf_is_of _ _ (FConst 1)); [|eexists; split; reflexivity]. unfold dirac.
    rewrite (chain_tail _ _ _ _ _ _ C) by (cbn [upper]; try assumption; unfold finite in *; lia).
    destruct C as (_ & _ & C). cbn [upper] in C. apply (chain_head _ _ _ _ _ _ C); cbn [upper]; try assumption; unfold finite in *; lia. }
  split; [exact V0|exact V1| |].
  - intros y Fy. destruct (Z_lt_ge_dec y x); [exists 0%Q; split; [apply V0; assumption|lra]|exists 1%Q; split; [apply V1; [assumption|lia]|lra]].
  - intros y y' v v' Fy Fy' L H H'. destruct (Z_lt_ge_dec y x) as [A|A].
    + rewrite (plf_is_fun _ _ _ _ H (V0 y Fy A)). destruct (Z_lt_ge_dec y' x) as [B|B].
      * rewrite (plf_is_fun _ _ _ _ H' (V0 y' Fy' B)). lra.
      * rewrite (plf_is_fun _ _ _ _ H' (V1 y' Fy' ltac:(lia))). lra.
    + rewrite (plf_is_fun _ _ _ _ H (V1 y Fy ltac:(lia))), (plf_is_fun _ _ _ _ H' (V1 y' Fy' ltac:(lia))). lra.
Qed.

Lemma nthZ_sorted : forall pts idx, xs_inc pts -> ascends idx -> (forall k, In k idx -> (k < length pts)%nat) -> xs_inc (map (nthZ pts) idx).
Proof.
  intros pts idx I A. unfold xs_inc, ascends in *. induction A as [|k idx A IH F]; intros B; [constructor|]. cbn [map]. constructor.
  - apply IH. intros; apply B; right; assumption.
  - apply Forall_forall. intros z K. rewrite map_map in K. apply in_map_iff in K. destruct K as (k' & <- & K).
    rewrite Forall_forall in F. specialize (F k' K). pose proof (B k' (or_intror K)) as B'.
    assert (G : forall (l : list (Z * Q)) i j d, StronglySorted Z.lt (map fst l) -> (i < j)%nat -> (j < length l)%nat -> fst (nth i l d) < fst (nth j l d)).
    { clear. induction l as [|e l IH]; intros i j d So L Lj; cbn [length] in *; [lia|]. cbn [map] in So. inversion So as [|? ? S' F]; subst.
      destruct j as [|j]; [lia|]. destruct i as [|i]; cbn [nth]; [|apply IH; [assumption|lia|lia]].
      rewrite Forall_forall in F. apply F. apply in_map. apply nth_In. lia. }
    apply G; assumption.
Qed.

Lemma SS_least : forall (l : list (Z * Q)) p, xs_inc (p :: l) -> least (fst p) (map fst (p :: l)).
Proof.
  intros l p I. unfold xs_inc in I. cbn [map] in *. inversion I as [|? ? _ F]; subst. split; [left; reflexivity|].
  intros y [<-|K]; [lia|]. rewrite Forall_forall in F. specialize (F y K). lia.
Qed.
Lemma SS_largest : forall (l : list (Z * Q)) p, xs_inc (p :: l) -> largest (fst (last (p :: l) p)) (map fst (p :: l)).
Proof.
  induction l as [|q l IH]; intros p I; [split; [left; reflexivity|intros y [<-|[]]; reflexivity]|].
  unfold xs_inc in I. cbn [map] in I. inversion I as [|? ? Iq F]; subst. destruct (IH q Iq) as [A B]. rewrite last_snd, (last_dflt l q p q).
  split; [right; exact A|]. intros y [<-|K]; [|apply B; exact K].
  rewrite Forall_forall in F. specialize (F _ A). lia.
Qed.

Lemma last_map : forall {A B} (f : A -> B) l d, last (map f l) (f d) = f (last l d).
Proof. intros A B f l d. induction l as [|a [|b l] IH]; [reflexivity|reflexivity|]. cbn [map] in *. exact IH. Qed.

Lemma nth_last : forall {A} (l : list A) d e, l <> [] -> nth (length l - 1) l e = last l d.
Proof.
  intros A. induction l as [|x [|y l] IH]; intros d e N; [contradiction|reflexivity|].
  transitivity (nth (length (y :: l) - 1) (y :: l) e); [|apply IH; discriminate].
  cbn [length]. replace (S (S (length l)) - 1)%nat with (S (length l)) by lia. replace (S (length l) - 1)%nat with (length l) by lia. reflexivity.
Qed.

(** The knots of a fitted function. *)
Record fitted (data : list Z) (p : plf) (knots : list Z) : Prop := {
  ft_chain : chain (- ORD_INF) p ORD_INF;
  ft_affine : affines p;
  ft_first : exists i r, p = (i, FConst 0) :: r /\ (2 <= length r)%nat;
  ft_inc : StronglySorted Z.lt knots;
  ft_len : (2 <= length knots)%nat;
  ft_data : forall k, In k knots -> In k data;
  ft_least : least (hd 0 knots) data;
  ft_largest : largest (last knots 0) data;
  ft_line : forall a b x, consecutive a b knots -> a <= x <= b ->
    plf_is p x (interpolate (dval a) (quantile data a) (dval b) (quantile data b) (dval x));
  ft_proper : proper_cdf p (hd 0 knots) (last knots 0);
  ft_pieces : forall i f, In (i, f) p -> (f = FConst 0 /\ lower i = - ORD_INF /\ upper i = hd 0 knots)
    \/ ((0 < steepness f)%Q /\ In (lower i) knots) \/ (f = FConst 1 /\ upper i = ORD_INF /\ last knots 0 <= lower i);
  ft_wide : exists i f, In (i, f) p /\ (0 < steepness f)%Q /\ lower i < last knots 0 /\ upper i = plus_eps (last knots 0);
  ft_seams : seams p (hd 0 knots) (last knots 0) (quantile data (hd 0 knots))
}.

Lemma fit_nonempty : forall epsilon lm rm rows data, fit_samples lm rm rows = Ok data -> data <> [] -> Forall finite data ->
  (exists x, (forall y, In y data -> y = x) /\ In x data /\ fit_cdf epsilon lm rm rows = Ok (dirac x))
  \/ exists p knots, fit_cdf epsilon lm rm rows = Ok p /\ fitted data p knots.
Proof.
  intros epsilon lm rm rows data E N Fi. unfold fit_cdf. rewrite E. cbn [bind].
  destruct (quantile_points_spec data) as (I & M & C). cbv zeta. set (pts := quantile_points data) in *. clearbody pts.
  destruct pts as [|a pts].
  { exfalso. destruct data as [|d data]; [contradiction|]. exact (proj2 (M d) (or_introl eq_refl)). }
  destruct pts as [|b pts].
  { left. exists (fst a). split; [|split; [apply M; left; reflexivity|reflexivity]].
    intros y K. apply M in K. destruct K as [K|[]]. symmetry. exact K. }
  right. set (P := a :: b :: pts) in *.
  assert (Lab : fst a < fst b) by (unfold xs_inc, P in I; cbn [map] in I; inversion I as [|? ? _ F]; subst; inversion F; assumption).
  assert (Ln : (2 <= length data)%nat).
  { assert (Ia : In (fst a) data) by (apply M; left; reflexivity). assert (Ib : In (fst b) data) by (apply M; right; left; reflexivity).
    destruct data as [|d [|d' data]]; [contradiction| |cbn; lia]. destruct Ia as [Ia|[]], Ib as [Ib|[]]. lia. }
  destruct (regress_spec (fun i => dval (fst (nthZ P i))) (fun i => snd (nthZ P i)) (length P) (epsilon * epsilon) (-1)) as (idx & -> & Ai & H0 & Hl & Hb & Hn);
    [unfold P; cbn; lia|]. cbn [bind].
  pose proof (nthZ_sorted P idx I Ai Hb) as Is. set (sel := map (nthZ P) idx) in *.
  assert (Sub : forall s, In s sel -> In s P).
  { intros s K. unfold sel in K. apply in_map_iff in K. destruct K as (k & <- & K). unfold nthZ. apply nth_In. apply Hb. exact K. }
  assert (Hd : exists q rest, sel = a :: q :: rest).
  { destruct idx as [|i [|j idx]]; cbn in Hn; [lia|lia|]. cbn in H0. subst i. unfold sel. cbn [map]. unfold nthZ at 1, P at 1. cbn [nth]. eauto. }
  destruct Hd as (q & rest & Hsel).
  assert (Lst : last sel a = last P a).
  { change (last (map (nthZ P) idx) (nthZ P 0) = last P (nthZ P 0)). rewrite last_map. 
    transitivity (nthZ P (length P - 1)).
    - f_equal. rewrite <- Hl. destruct idx; [cbn in Hn; lia|apply last_dflt].
    - unfold nthZ. apply nth_last. discriminate. }
  assert (Yq : forall s, In s sel -> snd s = quantile data (fst s)) by (intros [x y] K; apply C; apply Sub; exact K).
  assert (Dq : forall s, In s sel -> In (fst s) data) by (intros s K; apply M; apply in_map; apply Sub; exact K).
  assert (Fsel : Forall (fun s => finite (fst s)) sel) by (apply Forall_forall; intros s K; rewrite Forall_forall in Fi; apply Fi, Dq, K).
  assert (Large : largest (fst (last P a)) data).
  { destruct (SS_largest (b :: pts) a I) as [A B]. split; [apply M; exact A|]. intros y K. apply B. apply M. exact K. }
  assert (Least : least (fst a) data).
  { destruct (SS_least (b :: pts) a I) as [A B]. split; [apply M; exact A|]. intros y K. apply B. apply M. exact K. }
  assert (Il : In (last sel a) sel).
  { rewrite Hsel. generalize a at 1 3 as z. generalize (q :: rest) as l. clear. induction l as [|w l IHr]; intro z; [left; reflexivity|]. rewrite last_snd. right. apply IHr. }
  assert (L1 : (snd (last sel a) == 1)%Q) by (rewrite (Yq _ Il); apply quantile_last; [rewrite Lst; exact Large|exact Ln]).
  rewrite Hsel in *. 
  destruct (fit_pieces rest a q Is Fsel L1) as (i & f & ps & r & E1 & E2 & Li & Ch & Af & V & V1 & V2 & V3 & V4).
  rewrite E1. cbn [bind]. rewrite E2. cbn [bind].
  assert (Fa : finite (fst a)) by (inversion Fsel; assumption).
  rewrite Li. set (p := (CS (- ORD_INF) (fst a) EXC EXC, FConst 0) :: r).
  assert (Ch' : chain (- ORD_INF) p ORD_INF).
  { unfold p. cbn [chain upper]. rewrite Z.eqb_refl. unfold finite in *. repeat split; try lia. exact Ch. }
  assert (Tail : forall x v, finite x -> fst a <= x -> plf_is r x v -> plf_is p x v).
  { intros x v Fx L H. rewrite (plf_is_ext _ r); [exact H|]. apply (chain_tail _ _ _ _ _ _ Ch'); cbn [upper]; try assumption; unfold finite in *; lia. }
  assert (Kn : forall s t x, consecutive s t (a :: q :: rest) -> fst s <= x <= fst t ->
     plf_is p x (interpolate (dval (fst s)) (snd s) (dval (fst t)) (snd t) (dval x))).
  { intros s t x K L. destruct (consecutive_lt _ _ _ Is K) as (_ & Js & Jt). rewrite Forall_forall in Fsel. pose proof (Fsel s Js). pose proof (Fsel t Jt).
    apply Tail; [unfold finite in *; lia| |apply V; assumption]. destruct (SS_least _ _ Is) as [_ B]. 
    specialize (B (fst s) (in_map fst _ _ Js)). lia. }
  exists p, (map fst (a :: q :: rest)). split; [reflexivity|].
  assert (La : last (map fst (a :: q :: rest)) 0 = fst (last (a :: q :: rest) a)).
  { rewrite <- (last_map fst). cbn [map]. apply last_dflt. }
  assert (Ys : ys_inc (a :: q :: rest)).
  { assert (G : forall l, xs_inc l -> (forall s, In s l -> In s (a :: q :: rest)) -> ys_inc l).
    { clear -Yq Dq Ln. intros l I. unfold xs_inc, ys_inc in *. induction l as [|s l IH]; intros H; [constructor|]. cbn [map] in *. inversion I as [|? ? I' F']; subst.
      constructor; [apply IH; [exact I'|intros; apply H; right; assumption]|]. apply Forall_forall. intros y K. apply in_map_iff in K. destruct K as (t & <- & K).
      rewrite (Yq s), (Yq t) by (apply H; [left; reflexivity] || apply H; right; exact K). apply quantile_strict; [apply Dq, H; right; exact K| |exact Ln].
      rewrite Forall_forall in F'. apply F'. apply in_map. exact K. }
    apply G; [exact Is|auto]. }
  assert (Pr : proper_cdf p (fst a) (fst (last (a :: q :: rest) a))).
  { apply knots_proper; try assumption.
    - apply Forall_forall. intros s K. rewrite (Yq s K). apply quantile_range; [apply Dq; exact K|exact Ln].
    - intros s t Js Jt L. rewrite (Yq s Js), (Yq t Jt). destruct (Z.eq_dec (fst s) (fst t)) as [->|N']; [lra|].
      apply Qlt_le_weak. apply quantile_strict; [apply Dq; exact Jt|lia|exact Ln].
    - intros x Fx L. apply (plf_is_of _ _ (FConst 0)); [|eexists; split; reflexivity].
      apply (chain_head _ _ _ _ _ _ Ch'); cbn [upper]; try assumption; unfold finite in *; lia.
    - intros x Fx L. destruct (SS_least _ _ Is) as [_ B]. specialize (B _ (in_map fst _ _ Il)).
      apply Tail; [exact Fx|lia|]. apply V1; assumption. }
  split.
  - exact Ch'.
  - constructor; [exact Logic.I|exact Af].
  - unfold p. eauto.
  - exact Is.
  - cbn. lia.
  - intros k K. apply in_map_iff in K. destruct K as (s & <- & K). apply Dq. exact K.
  - exact Least.
  - rewrite La, Lst. exact Large.
  - intros x1 x2 x (l1 & l2 & El) L.
    assert (G : exists s t, consecutive s t (a :: q :: rest) /\ fst s = x1 /\ fst t = x2).
    { clear -El. revert El. generalize (a :: q :: rest) as l. intro l. revert l. induction l1 as [|z l1 IH]; intros l El.
      - destruct l as [|s [|t l]]; cbn in El; try discriminate. injection El as <- <- _. exists s, t. split; [exists [], l; reflexivity|auto].
      - destruct l as [|s l]; cbn in El; [discriminate|]. injection El as _ El. destruct (IH l El) as (s' & t' & (m1 & m2 & ->) & H).
        exists s', t'. split; [exists (s :: m1), m2; reflexivity|exact H]. }
    destruct G as (s & t & K & <- & <-). destruct (consecutive_lt _ _ _ Is K) as (_ & Js & Jt).
    rewrite <- (Yq s Js), <- (Yq t Jt). apply Kn; assumption.
  - rewrite La. exact Pr.
  - intros j g [J|J]; [left; injection J as <- <-; repeat split; reflexivity|right]. rewrite La. apply (V2 Ys j g J).
  - rewrite La. destruct (V3 Ys) as (j & g & J & K). exists j, g. split; [right; exact J|exact K].
  - rewrite La. destruct (fit_seams rest a q Is Fsel L1 _ _ E1 E2) as (r0 & j & h & k & Er & T & Ah & Hh & U & K & i1 & f1 & r1 & Er1 & Hf & _).
    unfold p. rewrite Er. eexists _, r0, j, h, k. split; [reflexivity|]. split; [exact T|]. split; [exact Ah|]. split; [exact Hh|]. split; [reflexivity|]. split; [exact U|]. split; [exact K|].
    exists i1, f1, r1. split; [exact Er1|]. cbn [map hd]. apply (fn_is_wd f1 (dval (fst a)) (dval (fst a)) (snd a)); [reflexivity| |exact Hf]. rewrite (Yq a) by (left; reflexivity). reflexivity.
Qed.
