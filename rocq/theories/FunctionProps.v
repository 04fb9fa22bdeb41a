(** Properties C16-C20 and C64-C67: function arithmetic, piecewise functions.
    The vocabulary is in [FunctionSpec.v]; x-positions are doubles (ordinals
    with value [dval]), function values are exact rationals. *)
Require Import ZArith QArith Qabs Bool List Lia Lqa.
Require Import Verif.Base Verif.FloatLine Verif.FloatVal Verif.IntervalModel Verif.IntervalSpec Verif.IntervalDec Verif.NumBase.
Require Import Verif.IntervalProofs Verif.FunctionModel Verif.FunctionSpec Verif.FunctionProofs Verif.FunctionPlf Verif.FunctionInt Verif.FunctionPlf2.
Import ListNotations.
Open Scope Q_scope.

(** * C16: elementary function arithmetic *)

Theorem C16_add_pointwise : forall f g h x a b, op_add f g = Ok h -> fn_is f x a -> fn_is g x b -> fn_is h x (a + b).
Proof. exact op_add_spec. Qed.
Theorem C16_mul_pointwise : forall f g h x a b, op_mul f g = Ok h -> fn_is f x a -> fn_is g x b -> fn_is h x (a * b).
Proof. exact op_mul_spec. Qed.
(** For constant and linear operands neither operation ever raises. *)
Theorem C16_add_total : forall f g, affine f -> affine g -> exists h, op_add f g = Ok h /\ affine h.
Proof. exact op_add_affine. Qed.
Theorem C16_mul_total : forall f g, affine f -> affine g -> exists h, op_mul f g = Ok h.
Proof. exact op_mul_affine_ok. Qed.
(** Negation is multiplication with -1. *)
Theorem C16_negate : forall f h x a, op_mul f (FConst (- (1))) = Ok h -> fn_is f x a -> fn_is h x (- a).
Proof.
  intros f h x a E H. apply (fn_is_wd h x x (a * - (1))); [reflexivity|ring|].
  apply (op_mul_spec _ _ _ _ _ _ E H). exists (- (1)). split; reflexivity.
Qed.
(** When both orders are accepted, they give the same function. *)
Theorem C16_commutative : forall f g h k x a b, fn_is f x a -> fn_is g x b ->
  (op_add f g = Ok h -> op_add g f = Ok k -> exists y, fn_is h x y /\ fn_is k x y)
  /\ (op_mul f g = Ok h -> op_mul g f = Ok k -> exists y, fn_is h x y /\ fn_is k x y).
Proof.
  intros f g h k x a b F G. split; intros E1 E2.
  - exists (a + b). split; [exact (op_add_spec _ _ _ _ _ _ E1 F G)|].
    apply (fn_is_wd k x x (b + a)); [reflexivity|ring|exact (op_add_spec _ _ _ _ _ _ E2 G F)].
  - exists (a * b). split; [exact (op_mul_spec _ _ _ _ _ _ E1 F G)|].
    apply (fn_is_wd k x x (b * a)); [reflexivity|ring|exact (op_mul_spec _ _ _ _ _ _ E2 G F)].
Qed.
(** Whether an operation raises depends on the order of the operands. *)
Theorem C16_quadratic_order_refuted : exists f g, (exists h, op_add f g = Ok h) /\ exists e, op_add g f = Err e.
Proof. exists (FQuad 1 0 0), (FLin 1 0). split; eexists; vm_compute; reflexivity. Qed.
Theorem C16_undefined_order_refuted : exists f g, (exists h, op_add f g = Ok h) /\ exists e, op_add g f = Err e.
Proof. exists FUndef, (FLin 1 0). split; eexists; vm_compute; reflexivity. Qed.
(** [f += g] can raise although [f + g] is fine: the sum simplified to another class. *)
Theorem C16_inplace_refuted : exists f g, affine f /\ affine g /\ (exists h, op_add f g = Ok h) /\ exists e, op_iadd f g = Err e.
Proof. exists (FLin 1 0), (FLin (- (1)) 0). split; [exact I|]. split; [exact I|]. split; eexists; vm_compute; reflexivity. Qed.
Theorem C16_quadratic_product_refuted : exists f e, op_mul f f = Err e /\ forall x, exists y, fn_is f x y.
Proof. exists (FQuad 1 0 0). eexists. split; [vm_compute; reflexivity|]. intro x. eexists. eexists. split; reflexivity. Qed.
(** Equality of function objects implies equal values. *)
Theorem C16_eq_sound : forall f g, fn_eq f g = Ok true -> forall x y, fn_is f x y <-> fn_is g x y.
Proof. intros f g E. exact (fn_eq_sound f g true E eq_refl). Qed.
Example C16_example : exists h, op_add (FLin 2 1) (FLin (- (2)) 3) = Ok h /\ fn_is h 7 4
  /\ exists k, op_mul (FLin 2 1) (FLin 1 3) = Ok k /\ fn_is k 2 25.
Proof. eexists. split; [vm_compute; reflexivity|]. split; [eexists; split; reflexivity|]. eexists. split; [vm_compute; reflexivity|]. eexists; split; reflexivity. Qed.
Print Assumptions C16_add_pointwise.
Print Assumptions C16_mul_pointwise.
Print Assumptions C16_add_total.
Print Assumptions C16_mul_total.
Print Assumptions C16_negate.
Print Assumptions C16_commutative.
Print Assumptions C16_quadratic_order_refuted.
Print Assumptions C16_undefined_order_refuted.
Print Assumptions C16_inplace_refuted.
Print Assumptions C16_quadratic_product_refuted.
Print Assumptions C16_eq_sound.

(** * C17: interpolation, root, inversion, crossings *)

Theorem C17_from_points : forall x1 y1 x2 y2, ~ x1 == x2 ->
  exists f, lin_from_points (x1, y1) (x2, y2) = Ok f /\ affine f /\ fn_is f x1 y1 /\ fn_is f x2 y2.
Proof. exact from_points_spec. Qed.
Theorem C17_from_points_raises : forall x1 y1 x2 y2, x1 == x2 -> lin_from_points (x1, y1) (x2, y2) = Err ValueError.
Proof. exact from_points_err. Qed.
Theorem C17_root : forall m c, ~ m == 0 -> exists r, lin_root m c = Some r /\ forall x, fn_is (FLin m c) x 0 <-> x == r.
Proof. intros m c N. destruct (root_some m c N) as [r E]. exists r. split; [exact E|exact (root_spec m c r E)]. Qed.
Theorem C17_invert : forall m c, ~ m == 0 -> exists g, lin_invert m c = Some g /\
  forall x y, fn_is (FLin m c) x y <-> fn_is g y x.
Proof. intros m c N. destruct (invert_some m c N) as [g E]. exists g. split; [exact E|exact (invert_spec m c g E)]. Qed.
Theorem C17_quadratic_from_points : forall x0 x1 y0 y1 z0 z1, ~ x0 == y0 -> ~ y0 == z0 -> ~ x0 == z0 ->
  exists f, quad_from_points (x0, x1) (y0, y1) (z0, z1) = Ok (Some f) /\ fn_is f x0 x1 /\ fn_is f y0 y1 /\ fn_is f z0 z1.
Proof. exact quad_points_spec. Qed.
(** The reported crossing is the set of points where the functions agree. *)
Theorem C17_intersection : forall f g c, fn_intersection f g = Ok c -> forall x,
  (exists y, fn_is f x y /\ fn_is g x y) <->
  match c with XAll => True | XNone => False | XPoint r => x == r end.
Proof. exact intersection_fn_spec. Qed.
(** ... but [intersects] denies that identical lines meet. *)
Theorem C17_intersects_refuted : exists f, fn_intersects f f = Ok false /\ forall x, exists y, fn_is f x y.
Proof. exists (FLin 1 0). split; [vm_compute; reflexivity|]. intro x. eexists. eexists. split; reflexivity. Qed.
(** The derivative gives the exact first-order expansion. *)
Theorem C17_derivative : forall f f', fn_differentiate f = Ok f' ->
  exists k, forall x h y d, fn_is f x y -> fn_is f' x d -> fn_is f (x + h) (y + h * d + k * (h * h)).
Proof. exact differentiate_spec. Qed.
Print Assumptions C17_from_points.
Print Assumptions C17_from_points_raises.
Print Assumptions C17_root.
Print Assumptions C17_invert.
Print Assumptions C17_quadratic_from_points.
Print Assumptions C17_intersection.
Print Assumptions C17_intersects_refuted.
Print Assumptions C17_derivative.
(** The vertex of a parabola is its extremum. *)
Theorem C17_argvertex : forall a b r, quad_argvertex a b = Ok (Some r) ->
  forall c x y v, fn_is (FQuad a b c) x y -> fn_is (FQuad a b c) r v -> (0 < a -> v <= y) /\ (a < 0 -> y <= v).
Proof. exact argvertex_spec. Qed.
Print Assumptions C17_argvertex.
Example C17_example : exists f, lin_from_points (0, 1) (2, 5) = Ok f /\ fn_is f 1 3 /\ quad_argvertex 1 2 = Ok (Some (- (2) / (2 * 1))).
Proof. eexists. split; [vm_compute; reflexivity|]. split; [eexists; split; [reflexivity|vm_compute; reflexivity]|vm_compute; reflexivity]. Qed.

(** A three-piece continuous example: 0, then x, then 1. *)
Definition ramp : plf :=
  [(CS (- ORD_INF) 0 EXC EXC, FConst 0); (CS 0 ONE INC EXC, FLin 1 0); (CS ONE ORD_INF INC EXC, FConst 1)].

Lemma ramp_wf : Forall wf (ivs ramp).
Proof. cbn [ramp ivs map fst]. repeat (apply Forall_cons || apply Forall_nil); wf_dec. Qed.
Lemma ramp_halfopen : Forall halfopen (ivs ramp).
Proof.
  cbn [ramp ivs map fst]. repeat (apply Forall_cons || apply Forall_nil); unfold halfopen; cbn [lower upper left right];
    (repeat split; try reflexivity; vm_compute; congruence).
Qed.
Lemma ramp_affines : affines ramp.
Proof. unfold affines, ramp. repeat (apply Forall_cons || apply Forall_nil); exact I. Qed.
Lemma ramp_ascending : ascending (ivs ramp).
Proof.
  cbn [ramp ivs map fst]. assert (0 < ONE)%Z by reflexivity.
  repeat (apply FOP_cons || apply FOP_nil || apply Forall_cons || apply Forall_nil);
    intros x y (_ & _ & X) (_ & Y & _); cbn [lower upper left right] in *; lia.
Qed.
Lemma ramp_pieces : pieces ramp.
Proof.
  split; [exact ramp_wf|]. split; [|exact ramp_ascending].
  cbn [ramp ivs map fst]. repeat (apply Forall_cons || apply Forall_nil).
  - exists (-1)%Z. mem_dec.
  - exists HALF. mem_dec.
  - exists TWO. mem_dec.
Qed.
Lemma ramp_tiling : tiling ramp.
Proof.
  cbn [tiling ramp lower upper]. split; [reflexivity|]. split; [reflexivity|]. split.
  - exists 0. split; eexists; (split; [reflexivity|]); vm_compute; reflexivity.
  - split; [reflexivity|]. split; [reflexivity|]. split; [|reflexivity].
    exists 1. split; eexists; (split; [reflexivity|]); vm_compute; reflexivity.
Qed.
Lemma ramp_half : plf_is ramp HALF (1 # 2).
Proof. eexists. split; [vm_compute; reflexivity|]. reflexivity. Qed.
Lemma ramp_two : plf_is ramp TWO 1.
Proof. eexists. split; [vm_compute; reflexivity|]. reflexivity. Qed.

(** * C18: piecewise functions and constant / linear functions *)

Theorem C18_add_function : forall p g r x a b, plf_add_fn p g = Ok r -> plf_is p x a -> fn_is g (dval x) b ->
  plf_is r x (a + b).
Proof. exact plf_add_fn_spec. Qed.
Theorem C18_mul_function : forall p g r x a b, plf_mul_fn p g = Ok r -> plf_is p x a -> fn_is g (dval x) b ->
  plf_is r x (a * b).
Proof. exact plf_mul_fn_spec. Qed.
Theorem C18_add_function_total : forall p g, affines p -> affine g -> exists r, plf_add_fn p g = Ok r /\ ivs r = ivs p.
Proof.
  intros p g A B. destruct (plf_add_fn_ok p g A B) as (r & E & _). exists r. split; [exact E|exact (plf_map_ivs _ _ _ E)].
Qed.
Theorem C18_mul_function_total : forall p g, affines p -> affine g -> exists r, plf_mul_fn p g = Ok r /\ ivs r = ivs p.
Proof. intros p g A B. destruct (plf_mul_fn_ok p g A B) as (r & E). exists r. split; [exact E|exact (plf_map_ivs _ _ _ E)]. Qed.
Theorem C18_stretch : forall p alpha x y, affines p -> plf_is p x y -> plf_is (plf_stretch p alpha) x (y * alpha).
Proof. exact plf_stretch_spec. Qed.
(** The addition of two piecewise functions whose domains differ fails: one is
    an interval, the other has a gap ... *)
Theorem C18_gap_refuted : exists p q mid, pieces p /\ pieces q /\ affines p /\ affines q
  /\ (exists x a b, plf_is p x a /\ plf_is q x b) /\ plf_add mid p q = Err TypeError.
Proof.
  exists [(CS 0 TWO INC EXC, FConst 1)], [(CS 0 HALF INC EXC, FConst 1); (CS ONE TWO INC EXC, FConst 1)], (fun a b => (a + b) / 2)%Z.
  split; [|split; [|split; [|split; [|split]]]].
  - split; [|split]; cbn [ivs map fst]; repeat (apply Forall_cons || apply Forall_nil || apply FOP_cons || apply FOP_nil); [wf_dec|].
    exists HALF. mem_dec.
  - assert (HALF < ONE)%Z by reflexivity.
    split; [|split]; cbn [ivs map fst]; repeat (apply Forall_cons || apply Forall_nil || apply FOP_cons || apply FOP_nil); try wf_dec.
    + exists 1%Z. mem_dec.
    + exists ONE. mem_dec.
    + intros x y (_ & _ & X) (_ & Y & _); cbn [lower upper left right] in *; lia.
  - repeat (apply Forall_cons || apply Forall_nil); exact I.
  - repeat (apply Forall_cons || apply Forall_nil); exact I.
  - exists ONE, 1, 1. split; eexists; (split; [vm_compute; reflexivity|reflexivity]).
  - vm_compute. reflexivity.
Qed.
(** ... and also when both are intervals: the undefined part lies next to a
    linear piece, and [Undefined.__eq__] raises in [simplify]. *)
Theorem C18_undefined_refuted : exists p q mid, pieces p /\ pieces q /\ affines p /\ affines q
  /\ (exists x a b, plf_is p x a /\ plf_is q x b) /\ plf_add mid p q = Err TypeError.
Proof.
  exists [(CS 0 TWO INC EXC, FLin 1 0)], [(CS 0 ONE INC EXC, FLin 1 0)], (fun a b => (a + b) / 2)%Z.
  split; [|split; [|split; [|split; [|split]]]].
  - split; [|split]; cbn [ivs map fst]; repeat (apply Forall_cons || apply Forall_nil || apply FOP_cons || apply FOP_nil); [wf_dec|].
    exists HALF. mem_dec.
  - split; [|split]; cbn [ivs map fst]; repeat (apply Forall_cons || apply Forall_nil || apply FOP_cons || apply FOP_nil); [wf_dec|].
    exists HALF. mem_dec.
  - repeat (apply Forall_cons || apply Forall_nil); exact I.
  - repeat (apply Forall_cons || apply Forall_nil); exact I.
  - exists HALF, (1 # 2), (1 # 2). split; eexists; (split; [vm_compute; reflexivity|reflexivity]).
  - vm_compute. reflexivity.
Qed.
Example C18_example : exists r, plf_add_fn ramp (FLin 2 1) = Ok r /\ plf_is r HALF (5 # 2).
Proof.
  destruct (plf_add_fn_ok ramp (FLin 2 1) ramp_affines I) as (r & E & _). exists r. split; [exact E|].
  apply (plf_is_at r HALF (5 # 2)). destruct (proj1 (plf_is_at _ _ _) (C18_add_function ramp (FLin 2 1) r HALF (1 # 2) 2 E ramp_half
    ltac:(eexists; split; [reflexivity|vm_compute; reflexivity]))) as (f & A & B).
  exists f. split; [exact A|]. apply (fn_is_wd _ _ _ _ _ (Qeq_refl _) (ltac:(reflexivity) : (1 # 2) + 2 == 5 # 2) B).
Qed.
Print Assumptions C18_add_function.
Print Assumptions C18_mul_function.
Print Assumptions C18_add_function_total.
Print Assumptions C18_mul_function_total.
Print Assumptions C18_stretch.
Print Assumptions C18_gap_refuted.
Print Assumptions C18_undefined_refuted.

(** * C19: mirror and shift *)

Theorem C19_xmirror : forall p r, Forall wf (ivs p) -> ascending (ivs p) -> plf_xmirror p = Ok r ->
  forall x y, finite x -> plf_is r x y <-> plf_is p (- x) y.
Proof. exact plf_xmirror_spec. Qed.
Theorem C19_xmirror_total : forall p, affines p -> exists r, plf_xmirror p = Ok r.
Proof. exact plf_xmirror_ok. Qed.
(** [sub] is the subtraction of doubles; it is exact at the bounds involved. *)
Theorem C19_xshift : forall sub delta p r, plf_xshift sub p delta = Ok r -> Forall wf (ivs p) ->
  Forall (fun i => exact_at sub delta (lower i) /\ exact_at sub delta (upper i)) (ivs p) ->
  forall x x' y, finite x -> finite x' -> dval x' == dval x + dval delta -> plf_is r x y <-> plf_is p x' y.
Proof. exact plf_xshift_spec. Qed.
(** The shift moves the integral along. *)
Theorem C19_xshift_integral : forall sub delta p r a b a' b', plf_xshift sub p delta = Ok r -> Forall halfopen (ivs p) -> affines p ->
  Forall (fun i => exact_at sub delta (lower i) /\ exact_at sub delta (upper i)) (ivs p) ->
  finite a -> finite b -> finite a' -> finite b' -> (a < b)%Z ->
  dval a' == dval a + dval delta -> dval b' == dval b + dval delta ->
  exists v w, plf_integrate r (CS a b INC EXC) = Ok v /\ plf_integrate p (CS a' b' INC EXC) = Ok w /\ v == w.
Proof.
  intros sub delta p r a b a' b' E H A X Fa Fb Fa' Fb' L Ha Hb.
  destruct (shift_areas sub delta p r a b a' b' E H A X Fa Fb Fa' Fb' Ha Hb) as (S & H' & A').
  assert (L' : (a' < b')%Z) by (apply dval_lt_iff; rewrite Ha, Hb; apply dval_lt_iff in L; lra).
  destruct (plf_integrate_spec r a b H' A' Fa Fb L) as (v & Ev & Hv).
  destruct (plf_integrate_spec p a' b' H A Fa' Fb' L') as (w & Ew & Hw).
  exists v, w. split; [exact Ev|]. split; [exact Ew|]. rewrite Hv, Hw. exact S.
Qed.
(** Mirroring does not preserve the total integral exactly: the ends of the
    mirrored pieces move by one double each. *)
Theorem C19_xmirror_integral_refuted : exists p r v w, pieces p /\ affines p /\ plf_xmirror p = Ok r
  /\ plf_integrate p RR = Ok v /\ plf_integrate r RR = Ok w /\ ~ v == w.
Proof.
  exists [(CS ONE TWO INC EXC, FConst 1)]. eexists. eexists. eexists.
  split; [|split; [|split; [vm_compute; reflexivity|split; [vm_compute; reflexivity|split; [vm_compute; reflexivity|vm_compute; discriminate]]]]].
  - split; [|split]; cbn [ivs map fst]; repeat (apply Forall_cons || apply Forall_nil || apply FOP_cons || apply FOP_nil); [wf_dec|].
    exists ONE. mem_dec.
  - repeat (apply Forall_cons || apply Forall_nil); exact I.
Qed.
Example C19_example : exists r, plf_xmirror ramp = Ok r /\ plf_is r (- HALF) (1 # 2).
Proof.
  destruct (plf_xmirror_ok ramp ramp_affines) as [r E]. exists r. split; [exact E|].
  apply (C19_xmirror ramp r ramp_wf ramp_ascending E (- HALF) (1 # 2)); [unfold finite; vm_compute; auto|]. exact ramp_half.
Qed.
(** An exact subtraction exists for the bounds 0 and 1 and the shift 1. *)
Example C19_exact_example : exists sub, sub ONE ONE = 0%Z /\ sub 0%Z ONE = (- ONE)%Z
  /\ Forall (fun i => exact_at sub ONE (lower i) /\ exact_at sub ONE (upper i)) (ivs ramp).
Proof.
  exists (fun b d => if (b =? 0)%Z then (- d)%Z else 0%Z). split; [reflexivity|]. split; [reflexivity|].
  cbn [ramp ivs map fst]. repeat (apply Forall_cons || apply Forall_nil); cbn [lower upper];
    (split; intro F; [try (unfold finite in F; lia)|try (unfold finite in F; lia)]);
    (split; [unfold finite; vm_compute; auto|vm_compute; reflexivity]).
Qed.
Print Assumptions C19_xmirror.
Print Assumptions C19_xmirror_total.
Print Assumptions C19_xshift.
Print Assumptions C19_xshift_integral.
Print Assumptions C19_xmirror_integral_refuted.

(** * C20: integration *)

Theorem C20_integral_additive : forall p a b c, Forall halfopen (ivs p) -> affines p -> finite a -> finite b -> finite c ->
  (a < b)%Z -> (b < c)%Z ->
  exists u v w, plf_integrate p (CS a c INC EXC) = Ok u /\ plf_integrate p (CS a b INC EXC) = Ok v
    /\ plf_integrate p (CS b c INC EXC) = Ok w /\ u == v + w.
Proof.
  intros p a b c H A Fa Fb Fc L1 L2.
  destruct (plf_integrate_spec p a c H A Fa Fc ltac:(lia)) as (u & Eu & Hu).
  destruct (plf_integrate_spec p a b H A Fa Fb L1) as (v & Ev & Hv).
  destruct (plf_integrate_spec p b c H A Fb Fc L2) as (w & Ew & Hw).
  exists u, v, w. split; [exact Eu|]. split; [exact Ev|]. split; [exact Ew|]. rewrite Hu, Hv, Hw. apply areas_add; assumption.
Qed.
(** On one piece the integral is the area of the trapezoid. *)
Theorem C20_trapezoid : forall f x1 x2 y1 y2, affine f -> finite x1 -> finite x2 ->
  (x1 <= x2)%Z -> fn_is f (dval x1) y1 -> fn_is f (dval x2) y2 ->
  exists v, fn_integrate f x1 x2 = Ok v /\ v == (y1 + y2) / 2 * (dval x2 - dval x1).
Proof. exact integrate_trapezoid. Qed.
Theorem C20_order_raises : forall f x1 x2, affine f -> (x2 < x1)%Z -> fn_integrate f x1 x2 = Err ValueError.
Proof. exact integrate_order. Qed.
(** Integrating the derivative of a continuous function. *)
Theorem C20_fundamental : forall p p' a b ya yb, plf_differentiate p = Ok p' -> Forall halfopen (ivs p) -> affines p -> tiling p ->
  finite a -> finite b -> (a < b)%Z -> plf_is p a ya -> plf_is p b yb ->
  exists v, plf_integrate p' (CS a b INC EXC) = Ok v /\ v == yb - ya.
Proof.
  intros p p' a b ya yb E H A T Fa Fb L Ha Hb.
  assert (A' : affines p').
  { pose proof (plf_map_spec _ _ _ E) as F. clear -F A. induction F as [|s t p p' [_ Es] F IH]; [constructor|].
    inversion A; subst. constructor; [|apply IH; assumption]. destruct (snd s); cbn in *; try contradiction; injection Es as <-; exact I. }
  assert (H' : Forall halfopen (ivs p')) by (rewrite (plf_map_ivs _ _ _ E); exact H).
  destruct (plf_integrate_spec p' a b H' A' Fa Fb L) as (v & Ev & Hv). exists v. split; [exact Ev|]. rewrite Hv.
  exact (fundamental p p' E H A T a b ya yb Fa Fb L Ha Hb).
Qed.
Example C20_example : exists p' v, plf_differentiate ramp = Ok p' /\ plf_integrate p' (CS HALF TWO INC EXC) = Ok v /\ v == 1 # 2.
Proof.
  destruct (plf_map_ok fn_differentiate ramp) as [p' E].
  { unfold ramp. repeat (apply Forall_cons || apply Forall_nil); cbn [snd fn_differentiate]; eauto. }
  destruct (C20_fundamental ramp p' HALF TWO (1 # 2) 1 E ramp_halfopen ramp_affines ramp_tiling) as (v & Ev & Hv);
    [unfold finite; vm_compute; auto|unfold finite; vm_compute; auto|reflexivity|exact ramp_half|exact ramp_two|].
  exists p', v. split; [exact E|]. split; [exact Ev|]. rewrite Hv. reflexivity.
Qed.
Print Assumptions C20_integral_additive.
Print Assumptions C20_trapezoid.
Print Assumptions C20_order_raises.
Print Assumptions C20_fundamental.

(** * C64: cropping and splitting *)

Theorem C64_crop : forall p c, Forall wf (ivs p) -> wf c -> exists r, plf_crop p c = Ok r
  /\ (forall x y, finite x -> cs_mem x c -> plf_is r x y <-> plf_is p x y)
  /\ (forall x, finite x -> in_dom r x <-> in_dom p x /\ cs_mem x c).
Proof.
  intros p c W Wc. destruct (plf_crop_ok p c W Wc) as [r E]. exists r. split; [exact E|exact (plf_crop_spec p c r W Wc E)].
Qed.
Theorem C64_split : forall p s l u, Forall wf (ivs p) -> ascending (ivs p) -> finite s -> plf_split p s = Ok (l, u) ->
  (forall x y, finite x -> (x < s)%Z -> plf_is l x y <-> plf_is p x y)
  /\ (forall x y, finite x -> (s <= x)%Z -> plf_is u x y <-> plf_is p x y)
  /\ (forall x, finite x -> in_dom l x <-> in_dom p x /\ (x < s)%Z)
  /\ (forall x, finite x -> in_dom u x <-> in_dom p x /\ (s <= x)%Z).
Proof. exact plf_split_spec. Qed.
(** Splitting raises exactly outside the domain. *)
Theorem C64_split_raises : forall p s, finite s -> plf_split p s = Err ValueError <-> ~ in_dom p s.
Proof.
  intros p s F. induction p as [|[i f] p IH]; cbn [plf_split].
  - split; [|reflexivity]. intros _ (j & [] & _).
  - unfold in_dom in *. cbn [ivs map fst]. rewrite RealSetProofs.rs_mem_cons. pose proof (contains_value_spec i s F) as C.
    destruct (cs_contains_value i s).
    + split; [discriminate|]. intro N. exfalso. apply N. left. apply C. reflexivity.
    + destruct (plf_split p s) as [[l u]|e] eqn:E; cbn [bind].
      * split; [discriminate|]. intro N. exfalso. assert (K : ~ rs_mem s (ivs p)) by tauto. apply IH in K. discriminate.
      * split.
        -- intros [= ->] [H|H]; [apply C in H; discriminate|]. apply (proj1 IH eq_refl). exact H.
        -- intro N. assert (K : ~ rs_mem s (ivs p)) by tauto. apply IH in K. exact K.
Qed.
Example C64_example : exists l u, plf_split ramp HALF = Ok (l, u) /\ length l = 2%nat /\ length u = 2%nat.
Proof. eexists. eexists. split; [vm_compute; reflexivity|]. split; reflexivity. Qed.
Print Assumptions C64_crop.
Print Assumptions C64_split.
Print Assumptions C64_split_raises.

(** * C65: interpolation through a list of points *)

Theorem C65_from_points : forall pts, (2 <= length pts)%nat -> increasing pts -> Forall (fun p => (Z.abs (fst p) < ORD_53)%Z) pts ->
  exists r, plf_from_points pts = Ok r /\
    forall x1 y1 x2 y2, consecutive (x1, y1) (x2, y2) pts -> forall x, (x1 <= x <= x2)%Z ->
      plf_is r x (interpolate (dval x1) y1 (dval x2) y2 (dval x)).
Proof.
  intros pts L I F. destruct (from_points_plf pts L I F) as (r & E & _ & _ & _ & H). exists r. split; [exact E|exact H].
Qed.
(** Nothing is defined to the left of the first point. *)
Theorem C65_from_points_domain : forall pts r x, (2 <= length pts)%nat -> increasing pts -> Forall (fun p => (Z.abs (fst p) < ORD_53)%Z) pts ->
  plf_from_points pts = Ok r -> in_dom r x -> exists p, nth_error pts 0 = Some p /\ (fst p <= x)%Z.
Proof.
  intros pts r x L I F E D. destruct (from_points_plf pts L I F) as (r' & E' & _ & _ & H & _).
  rewrite E in E'. injection E' as <-. exact (H x D).
Qed.
Example C65_example : increasing [(0%Z, 0); (ONE, 1); (TWO, 0)] /\ consecutive (ONE, 1) (TWO, 0) [(0%Z, 0); (ONE, 1); (TWO, 0)].
Proof. split; [cbn; repeat split|]. exists [(0%Z, 0)], []. reflexivity. Qed.
Print Assumptions C65_from_points.
Print Assumptions C65_from_points_domain.

(** * C66: simplification *)

Theorem C66_simplify : forall p, pieces p -> affines p ->
  exists r, plf_simplify p = Ok r /\ same_values r p /\ pieces r /\ simplified r.
Proof.
  intros p P A. destruct (plf_simplify_ok p P A) as [r E]. exists r. split; [exact E|exact (plf_simplify_spec p r P E)].
Qed.
(** Any outcome of [simplify], for any pieces, has the same values. *)
Theorem C66_simplify_sound : forall p r, pieces p -> plf_simplify p = Ok r -> same_values r p.
Proof. intros p r P E. apply (plf_simplify_spec p r P E). Qed.
(** But it writes to the intervals of its receiver: afterwards the integral of
    the receiver counts the merged part twice. *)
Theorem C66_receiver_refuted : exists p p' v w, pieces p /\ affines p /\ plf_simplify_receiver p = Ok p'
  /\ plf_integrate p RR = Ok v /\ plf_integrate p' RR = Ok w /\ ~ v == w.
Proof.
  exists [(CS 0 ONE INC EXC, FConst 1); (CS ONE TWO INC EXC, FConst 1)]. eexists. eexists. eexists.
  split; [|split; [|split; [vm_compute; reflexivity|split; [vm_compute; reflexivity|split; [vm_compute; reflexivity|vm_compute; discriminate]]]]].
  - split; [|split]; cbn [ivs map fst]; repeat (apply Forall_cons || apply Forall_nil || apply FOP_cons || apply FOP_nil); try wf_dec.
    + exists HALF. mem_dec.
    + exists ONE. mem_dec.
    + intros x y (_ & _ & X) (_ & Y & _); cbn [lower upper left right] in *; lia.
  - repeat (apply Forall_cons || apply Forall_nil); exact I.
Qed.
Example C66_example : exists r, plf_simplify ramp = Ok r /\ same_values r ramp.
Proof. destruct (C66_simplify ramp ramp_pieces ramp_affines) as (r & E & V & _). eauto. Qed.
Print Assumptions C66_simplify.
Print Assumptions C66_simplify_sound.
Print Assumptions C66_receiver_refuted.

(** * C67: equality of piecewise functions *)

(** Two functions with the same number of pieces that compare equal have the
    same values. *)
Theorem C67_eq_partial : forall p q, length p = length q -> Forall wf (ivs p) -> Forall wf (ivs q) ->
  plf_eq p q = Ok true -> forall x y, finite x ->
  Forall2 (fun i j => forall z, cs_mem z i <-> cs_mem z j) (ivs p) (ivs q) -> plf_is p x y <-> plf_is q x y.
Proof.
  induction p as [|[i f] p IH]; intros [|[j g] q] L Wp Wq E x y F S; try discriminate; [tauto|].
  cbn [plf_eq] in E. destruct (cs_eq i j); cbn [negb] in E; [|discriminate].
  destruct (fn_eq f g) as [e|] eqn:Ee; cbn [bind] in E; [|discriminate]. destruct e; [|discriminate].
  cbn [ivs map fst] in *. inversion Wp; inversion Wq; inversion S; subst.
  specialize (IH q ltac:(cbn in L; lia) H2 H6 E x y F H12).
  rewrite !plf_is_at in *. rewrite !plf_at_cons by exact F.
  pose proof (contains_value_spec i x F) as C1. pose proof (contains_value_spec j x F) as C2. specialize (H10 x).
  destruct (cs_contains_value i x), (cs_contains_value j x); try (exfalso; assert (false = true) by tauto; discriminate); [|exact IH].
  pose proof (fn_eq_sound f g true Ee eq_refl (dval x) y) as K.
  split; intros (h & [= <-] & H); eexists; (split; [reflexivity|]); tauto.
Qed.
(** Without the length condition it is false: only the common prefix is compared. *)
Theorem C67_eq_refuted : exists p q x a, plf_eq p q = Ok true /\ plf_is p x a /\ forall b, ~ plf_is q x b.
Proof.
  exists ramp, [(CS (- ORD_INF) 0 EXC EXC, FConst 0)], HALF, (1 # 2). split; [vm_compute; reflexivity|]. split; [exact ramp_half|].
  intros b (v & E & _). vm_compute in E. discriminate.
Qed.
Print Assumptions C67_eq_partial.
Print Assumptions C67_eq_refuted.

(** * C71: rectification *)

(** A function of constant and linear pieces on bounded intervals is rectified without
    error.  The intervals stay as they are, and each piece becomes the constant which is the
    mean of its values at the least and at the greatest double of its interval. *)
Theorem C71_rectify : forall p, Forall wf (ivs p) -> affines p ->
  Forall (fun i => cs_isempty i = false /\ - ORD_INF < lower i /\ upper i < ORD_INF)%Z (ivs p) ->
  exists r, plf_rectify p = Ok r
    /\ Forall2 (fun s t => fst t = fst s /\ exists v, snd t = FConst v /\
         forall lo hi a b, cs_mem lo (fst s) -> (forall x, cs_mem x (fst s) -> (lo <= x)%Z) ->
           cs_mem hi (fst s) -> (forall x, cs_mem x (fst s) -> (x <= hi)%Z) ->
           fn_is (snd s) (dval lo) a -> fn_is (snd s) (dval hi) b -> v == (a + b) / 2) p r.
Proof.
  unfold plf_rectify. induction p as [|[i f] p IH]; intros W A B; [exists []; split; [reflexivity|constructor]|].
  cbn [ivs map fst] in *. inversion W as [|? ? W1 W2]; subst. inversion A as [|? ? A1 A2]; subst. inversion B as [|? ? (E1 & B1 & B2) B3]; subst.
  destruct (IH W2 A2 B3) as (r & E & H). cbn [mapM fst snd].
  destruct (lowermost_spec i W1 E1 B1) as [L1 L2]. destruct (uppermost_spec i W1 E1 B2) as [U1 U2].
  assert (F : exists v, fn_rectify i f = Ok (FConst v) /\ forall a b, fn_is f (dval (lowermost i)) a -> fn_is f (dval (uppermost i)) b -> v == (a + b) / 2).
  { destruct f as [|v|m c|? ? ?]; cbn in A1; try contradiction; cbn [fn_rectify].
    - exists v. split; [reflexivity|]. intros a b (x & Ex & Hx) (y & Ey & Hy). cbn [fn_eval] in *. injection Ex as <-. injection Ey as <-. rewrite <- Hx, <- Hy. field.
    - assert (isinf (lower i) || isinf (upper i) = false) as ->.
      { unfold isinf. destruct W1 as (W0 & _ & _ & Wl & Wu & _). apply orb_false_intro; apply Z.leb_gt; lia. }
      eexists. split; [reflexivity|]. intros a b (x & Ex & Hx) (y & Ey & Hy). cbn [fn_eval] in *. injection Ex as <-. injection Ey as <-. rewrite <- Hx, <- Hy. field. }
  destruct F as (v & -> & Hv). cbn [bind]. rewrite E. cbn [bind]. eexists. split; [reflexivity|]. constructor; [|exact H].
  cbn [fst snd]. split; [reflexivity|]. exists v. split; [reflexivity|]. intros lo hi a b M1 M2 M3 M4 Ha Hb.
  assert (lo = lowermost i) as -> by (pose proof (M2 _ L1); pose proof (L2 _ M1); lia).
  assert (hi = uppermost i) as -> by (pose proof (M4 _ U1); pose proof (U2 _ M3); lia).
  apply Hv; assumption.
Qed.
(** A linear function on an unbounded interval: an error if it is not constant, and an
    undefined result (0 * inf) if it is. *)
Theorem C71_rectify_unbounded : forall m c,
  plf_rectify [(CS 0 ORD_INF INC EXC, FLin m c)] = if Qeq_bool m 0 then Ok [(CS 0 ORD_INF INC EXC, FUndef)] else Err ValueError.
Proof. intros m c. unfold plf_rectify. cbn [mapM fst snd fn_rectify]. unfold Qz. change (isinf (lower (CS 0 ORD_INF INC EXC)) || isinf (upper (CS 0 ORD_INF INC EXC))) with true. cbv iota.
  destruct (Qeq_bool m 0); reflexivity. Qed.
Example C71_example : exists r, plf_rectify [(CS 0 TWO INC INC, FLin 1 0)] = Ok r /\ plf_is r ONE 1.
Proof. eexists. split; [vm_compute; reflexivity|]. eexists. split; [vm_compute; reflexivity|vm_compute; reflexivity]. Qed.
Print Assumptions C71_rectify.
Print Assumptions C71_rectify_unbounded.
