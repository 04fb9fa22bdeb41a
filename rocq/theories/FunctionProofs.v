(** Proofs about elementary functions (FunctionModel, first half). *)
Require Import ZArith QArith Qabs Bool List Lia Lqa Qfield.
Require Import Verif.Base Verif.FloatLine Verif.FloatVal Verif.IntervalModel Verif.NumBase Verif.FunctionModel Verif.FunctionSpec.
Import ListNotations.
Open Scope Q_scope.

(** [f(x)] is the number [y]. *)

Lemma Qz_spec : forall x, reflect (x == 0) (Qz x).
Proof. intro x. apply Qeqb_spec. Qed.

Ltac qz := repeat match goal with
  | |- context [Qz ?x] => destruct (Qz_spec x)
  | H : context [Qz ?x] |- _ => destruct (Qz_spec x)
  | |- context [Qeq_bool ?x ?y] => destruct (Qeqb_spec x y)
  | H : context [Qeq_bool ?x ?y] |- _ => destruct (Qeqb_spec x y)
  end.

Lemma simplify_eval : forall f x y, fn_is f x y <-> fn_is (fn_simplify f) x y.
Proof.
  intros f x y. unfold fn_is. destruct f as [|v|m c|a b c]; cbn [fn_simplify]; try tauto.
  - qz; [|tauto]. cbn [fn_eval]. split; intros (v & [= <-] & H); eexists; (split; [reflexivity|]).
    + rewrite <- H. rewrite q. ring.
    + rewrite <- H. rewrite q. ring.
  - destruct (Qz_spec a); [|tauto]. destruct (Qz_spec b); cbn [fn_eval];
      split; intros (v & [= <-] & H); eexists; (split; [reflexivity|]); rewrite <- H, ?q, ?q0; ring.
Qed.

Lemma lift_op_inv : forall r h, lift_op r = Ok h -> exists h', r = Ok (Some h') /\ h = fn_simplify h'.
Proof.
  intros r h H. unfold lift_op in H. destruct r as [[h'|]|]; cbn in H; try discriminate.
  injection H as <-. eauto.
Qed.

Lemma fn_add_spec : forall f g h x a b, fn_add f g = Ok (Some h) -> fn_is f x a -> fn_is g x b -> fn_is h x (a + b).
Proof.
  intros f g h x a b E (va & Ea & Ha) (vb & Eb & Hb). unfold fn_is.
  destruct f, g; cbn [fn_add fn_eval] in *; try discriminate;
    injection E as <-; injection Ea as <-; injection Eb as <-; cbn [fn_eval];
    eexists; (split; [reflexivity|]); rewrite <- Ha, <- Hb; ring.
Qed.

Lemma fn_mul_spec : forall f g h x a b, fn_mul f g = Ok (Some h) -> fn_is f x a -> fn_is g x b -> fn_is h x (a * b).
Proof.
  intros f g h x a b E (va & Ea & Ha) (vb & Eb & Hb).
  assert (K : forall u w : fn, Ok (Some u) = Ok (Some w) -> u = w) by congruence.
  destruct f, g; cbn [fn_mul fn_eval] in *; try discriminate;
    apply K in E; subst h; injection Ea as <-; injection Eb as <-.
  1: { unfold fn_is. cbn [fn_eval]. eexists. split; [reflexivity|]. rewrite <- Ha, <- Hb.
       destruct (Qz_spec v) as [H|H]; cbn [orb]; [rewrite H; ring|].
       destruct (Qz_spec v0) as [H0|H0]; cbn [orb]; [rewrite H0; ring|reflexivity]. }
  all: match goal with
       | |- fn_is (fn_simplify ?h) _ _ => apply (proj1 (simplify_eval h _ _))
       | |- _ => idtac
       end.
  all: unfold fn_is; cbn [fn_eval].
  all: eexists; (split; [reflexivity|]); rewrite <- Ha, <- Hb; ring.
Qed.

Lemma op_add_spec : forall f g h x a b, op_add f g = Ok h -> fn_is f x a -> fn_is g x b -> fn_is h x (a + b).
Proof.
  intros f g h x a b E Ha Hb. apply lift_op_inv in E. destruct E as (h' & E & ->).
  apply (proj1 (simplify_eval h' _ _)). exact (fn_add_spec f g h' x a b E Ha Hb).
Qed.

Lemma op_mul_spec : forall f g h x a b, op_mul f g = Ok h -> fn_is f x a -> fn_is g x b -> fn_is h x (a * b).
Proof.
  intros f g h x a b E Ha Hb. apply lift_op_inv in E. destruct E as (h' & E & ->).
  apply (proj1 (simplify_eval h' _ _)). exact (fn_mul_spec f g h' x a b E Ha Hb).
Qed.

(** A constant or linear function. *)

Lemma fn_is_eval : forall f x, affine f -> exists y, fn_is f x y.
Proof. intros [|v|m c|a b c] x H; cbn in H; try contradiction; eexists; eexists; (split; [reflexivity|reflexivity]). Qed.

Lemma fn_is_unique : forall f x y z, fn_is f x y -> fn_is f x z -> y == z.
Proof. intros f x y z (v & E & H) (w & E' & H'). rewrite E in E'. injection E' as <-. rewrite <- H. exact H'. Qed.

Lemma fn_is_wd : forall f x x' y y', x == x' -> y == y' -> fn_is f x y -> fn_is f x' y'.
Proof.
  intros f x x' y y' Hx Hy (v & E & H). unfold fn_is. destruct f; cbn [fn_eval] in *; try discriminate;
    injection E as <-; eexists; (split; [reflexivity|]); rewrite <- Hy, <- H, ?Hx; reflexivity.
Qed.

Lemma op_add_affine : forall f g, affine f -> affine g -> exists h, op_add f g = Ok h /\ affine h.
Proof.
  intros [|v|m c|a b c] [|v'|m' c'|a' b' c']; cbn [affine]; try contradiction; intros _ _; unfold op_add, lift_op;
    cbn [fn_add bind]; eexists; (split; [reflexivity|]); cbn [fn_simplify]; repeat (destruct (Qz _)); exact I.
Qed.

Lemma op_mul_const_affine : forall f v, affine f -> exists h, op_mul f (FConst v) = Ok h /\ affine h.
Proof.
  intros [|w|m c|a b c] v; cbn [affine]; try contradiction; intros _; unfold op_mul, lift_op;
    cbn [fn_mul bind]; eexists; (split; [reflexivity|]); cbn [fn_simplify]; repeat (destruct (Qz _)); exact I.
Qed.

Lemma op_mul_affine_ok : forall f g, affine f -> affine g -> exists h, op_mul f g = Ok h.
Proof.
  intros [|v|m c|a b c] [|v'|m' c'|a' b' c']; cbn [affine]; try contradiction; intros _ _; unfold op_mul, lift_op;
    cbn [fn_mul bind]; eexists; reflexivity.
Qed.

Lemma fn_eq_sound : forall f g b, fn_eq f g = Ok b -> b = true ->
  forall x y, fn_is f x y <-> fn_is g x y.
Proof.
  intros f g b E -> x y. unfold fn_is. destruct f, g; cbn [fn_eq] in E; try discriminate; try tauto;
    injection E as E; repeat (apply andb_prop in E; destruct E as [E ?]);
    repeat match goal with
    | H : Qz _ = true |- _ => apply Qeq_bool_iff in H
    | H : Qeq_bool _ _ = true |- _ => apply Qeq_bool_iff in H
    end; cbn [fn_eval]; split; intros (w & [= <-] & H'); eexists; (split; [reflexivity|]); rewrite <- H'; clear H';
    repeat match goal with H : _ == _ |- _ => rewrite H; clear H end; try reflexivity; ring.
Qed.

(** ** Interpolation, root, inversion *)

Lemma from_points_spec : forall x1 y1 x2 y2, ~ x1 == x2 ->
  exists f, lin_from_points (x1, y1) (x2, y2) = Ok f /\ affine f /\ fn_is f x1 y1 /\ fn_is f x2 y2.
Proof.
  intros x1 y1 x2 y2 N. unfold lin_from_points. destruct (Qeqb_spec x1 x2) as [E|_]; [contradiction|].
  assert (N' : ~ x2 - x1 == 0) by (intro H; apply N; lra).
  destruct (Qeqb_spec y2 y1) as [E|E]; eexists; (split; [reflexivity|]); (split; [exact I|]); unfold fn_is; cbn [fn_eval].
  - split; eexists; (split; [reflexivity|]); [exact E|reflexivity].
  - split; eexists; (split; [reflexivity|]).
    + ring.
    + field. exact N'.
Qed.

Lemma from_points_err : forall x1 y1 x2 y2, x1 == x2 -> lin_from_points (x1, y1) (x2, y2) = Err ValueError.
Proof. intros x1 y1 x2 y2 E. unfold lin_from_points. destruct (Qeqb_spec x1 x2); [reflexivity|contradiction]. Qed.

Lemma root_spec : forall m c r, lin_root m c = Some r -> forall x, fn_is (FLin m c) x 0 <-> x == r.
Proof.
  intros m c r H x. unfold lin_root in H. destruct (Qz_spec m) as [|N]; [discriminate|]. injection H as <-.
  unfold fn_is. cbn [fn_eval]. split.
  - intros (v & [= <-] & H). assert (K : x == (m * x + c - c) / m) by (field; exact N). rewrite K, H. field. exact N.
  - intro H. eexists. split; [reflexivity|]. rewrite H. field. exact N.
Qed.

Lemma root_some : forall m c, ~ m == 0 -> exists r, lin_root m c = Some r.
Proof. intros m c N. unfold lin_root. destruct (Qz_spec m); [contradiction|]. eauto. Qed.

Lemma invert_spec : forall m c g, lin_invert m c = Some g ->
  forall x y, fn_is (FLin m c) x y <-> fn_is g y x.
Proof.
  intros m c g H x y. unfold lin_invert in H. destruct (Qz_spec m) as [|N]; [discriminate|]. injection H as <-.
  unfold fn_is. cbn [fn_eval]. split; intros (v & [= <-] & H); eexists; (split; [reflexivity|]); rewrite <- H; field; exact N.
Qed.

Lemma invert_some : forall m c, ~ m == 0 -> exists g, lin_invert m c = Some g.
Proof. intros m c N. unfold lin_invert. destruct (Qz_spec m); [contradiction|]. eauto. Qed.

Lemma quad_points_spec : forall x0 x1 y0 y1 z0 z1, ~ x0 == y0 -> ~ y0 == z0 -> ~ x0 == z0 ->
  exists f, quad_from_points (x0, x1) (y0, y1) (z0, z1) = Ok (Some f)
    /\ fn_is f x0 x1 /\ fn_is f y0 y1 /\ fn_is f z0 z1.
Proof.
  intros x0 x1 y0 y1 z0 z1 N1 N2 N3. unfold quad_from_points, pt_eq. cbn [fst snd].
  destruct (Qeqb_spec x0 y0); [contradiction|]. destruct (Qeqb_spec y0 z0); [contradiction|].
  destruct (Qeqb_spec x0 z0); [contradiction|]. cbn [andb orb].
  assert (M1 : ~ x0 - y0 == 0) by (intro H; apply N1; lra).
  assert (M2 : ~ y0 - z0 == 0) by (intro H; apply N2; lra).
  assert (M3 : ~ x0 - z0 == 0) by (intro H; apply N3; lra).
  destruct (Qz_spec ((x0 - y0) * (x0 - z0) * (y0 - z0))) as [Z|NZ].
  { exfalso. apply Qmult_integral in Z. destruct Z as [Z|Z]; [|contradiction].
    apply Qmult_integral in Z. destruct Z; contradiction. }
  eexists. split; [reflexivity|]. unfold fn_is. cbn [fn_eval].
  repeat split; eexists; (split; [reflexivity|]); field; auto.
Qed.

(** The derivative: the first-order coefficient of the exact expansion. *)
Lemma differentiate_spec : forall f f', fn_differentiate f = Ok f' ->
  exists k, forall x h y d, fn_is f x y -> fn_is f' x d -> fn_is f (x + h) (y + h * d + k * (h * h)).
Proof.
  intros f f' E. destruct f as [|v|m c|a b c]; cbn [fn_differentiate] in E; try discriminate; injection E as <-.
  - exists 0. intros x h y d (w & [= <-] & H) (w' & [= <-] & H'). eexists. split; [reflexivity|]. rewrite <- H, <- H'. ring.
  - exists 0. intros x h y d (w & [= <-] & H) (w' & [= <-] & H'). eexists. split; [reflexivity|]. rewrite <- H, <- H'. ring.
  - exists a. intros x h y d (w & [= <-] & H) (w' & [= <-] & H'). eexists. split; [reflexivity|]. rewrite <- H, <- H'. ring.
Qed.

Lemma argvertex_spec : forall a b r, quad_argvertex a b = Ok (Some r) ->
  forall c x y v, fn_is (FQuad a b c) x y -> fn_is (FQuad a b c) r v ->
  (0 < a -> v <= y) /\ (a < 0 -> y <= v).
Proof.
  intros a b r E c x y v (w & [= <-] & H) (w' & [= <-] & H').
  unfold quad_argvertex in E. cbn [fn_simplify] in E. destruct (Qz_spec (2 * a)) as [|N]; [discriminate|].
  injection E as E. unfold lin_root in E. destruct (Qz_spec (2 * a)); [discriminate|]. injection E as <-.
  assert (Na : ~ a == 0) by (intro K; apply N; rewrite K; ring).
  assert (D : y - v == a * ((x - - b / (2 * a)) * (x - - b / (2 * a)))).
  { rewrite <- H, <- H'. field. exact Na. }
  set (t := x - - b / (2 * a)) in *. clearbody t.
  assert (S : 0 <= t * t) by nra. split; intro; nra.
Qed.

(** ** Crossings *)
Lemma intersection_fn_spec : forall f g c, fn_intersection f g = Ok c -> forall x,
  ((exists y, fn_is f x y /\ fn_is g x y) <->
   match c with XAll => True | XNone => False | XPoint x0 => x == x0 end).
Proof.
  intros f g c E x.
  assert (K : forall f g, affine f -> affine g -> ((exists y, fn_is f x y /\ fn_is g x y) <->
     match fn_eval f x, fn_eval g x with Some a, Some b => a == b | _, _ => False end)).
  { clear. intros f g Hf Hg. split.
    - intros (y & (a & -> & Ha) & (b & -> & Hb)). rewrite Ha, Hb. reflexivity.
    - destruct (fn_eval f x) as [a|] eqn:Ea; [|contradiction]. destruct (fn_eval g x) as [b|] eqn:Eb; [|contradiction].
      intro H. exists b. split; eexists; (split; [eassumption|]); [exact H|reflexivity]. }
  assert (P : forall m c v, ~ m == 0 -> (m * x + c == v <-> x == (c - v) / - m)).
  { clear. intros m c v N. split; intro H.
    - rewrite <- H. field. exact N.
    - rewrite H. field. exact N. }
  destruct f as [|a|m b|? ? ?], g as [|a'|m' b'|? ? ?]; cbn [fn_intersection] in E; try discriminate;
    injection E as <-; rewrite K by exact I; cbn [fn_eval].
  - destruct (Qeqb_spec a a'); tauto.
  - destruct (Qz_spec m') as [Z|N].
    + destruct (Qeqb_spec b' a) as [H|H].
      * split; [trivial|]. intros _. rewrite Z, H. ring.
      * split; [|contradiction]. intro H'. apply H. rewrite H', Z. ring.
    + rewrite <- (P m' b' a N). split; intro H; symmetry; exact H.
  - destruct (Qz_spec m) as [Z|N].
    + destruct (Qeqb_spec b a') as [H|H].
      * split; [trivial|]. intros _. rewrite Z, H. ring.
      * split; [|contradiction]. intro H'. apply H. rewrite <- H', Z. ring.
    + apply P. exact N.
  - destruct (Qeqb_spec m m') as [Z|N].
    + destruct (Qeqb_spec b b') as [H|H].
      * split; [trivial|]. intros _. rewrite Z, H. reflexivity.
      * split; [|contradiction]. intro H'. apply H. rewrite Z in H'. lra.
    + assert (N' : ~ m' - m == 0) by (intro K'; apply N; lra). split; intro H.
      * assert (b - b' == (m' - m) * x) by lra. rewrite H0. field. exact N'.
      * rewrite H. field. exact N'.
Qed.

(** ** Integrals of elementary functions *)
Lemma isinf_finite : forall x, isinf x = false <-> IntervalSpec.finite x.
Proof. intro x. unfold isinf, IntervalSpec.finite. rewrite Z.leb_gt. lia. Qed.

(** Between finite doubles the integral of a constant or linear function is
    the signed area of the trapezoid under it. *)
Lemma integrate_trapezoid : forall f x1 x2 y1 y2, affine f -> IntervalSpec.finite x1 -> IntervalSpec.finite x2 ->
  (x1 <= x2)%Z -> fn_is f (dval x1) y1 -> fn_is f (dval x2) y2 ->
  exists v, fn_integrate f x1 x2 = Ok v /\ v == (y1 + y2) / 2 * (dval x2 - dval x1).
Proof.
  intros f x1 x2 y1 y2 A F1 F2 L (v1 & E1 & H1) (v2 & E2 & H2).
  apply isinf_finite in F1. apply isinf_finite in F2.
  destruct f as [|v|m c|? ? ?]; cbn in A; try contradiction; cbn [fn_integrate fn_eval] in *;
    (destruct (Z.ltb_spec x2 x1); [lia|]); rewrite F1, F2; cbn [orb]; injection E1 as <-; injection E2 as <-.
  - destruct (Qz_spec v) as [Z|N]; eexists; (split; [reflexivity|]); rewrite <- H1, <- H2; [rewrite Z|]; field.
  - destruct (Z.eqb_spec x2 x1) as [->|N]; eexists; (split; [reflexivity|]); rewrite <- H1, <- H2; field.
Qed.

Lemma integrate_order : forall f x1 x2, affine f -> (x2 < x1)%Z -> fn_integrate f x1 x2 = Err ValueError.
Proof.
  intros [|v|m c|? ? ?] x1 x2 A L; cbn in A; try contradiction; cbn [fn_integrate];
    (destruct (Z.ltb_spec x2 x1); [reflexivity|lia]).
Qed.
