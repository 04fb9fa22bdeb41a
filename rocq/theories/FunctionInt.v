(** Proofs about the integral of piecewise functions. *)
Require Import ZArith QArith Qabs Bool List Lia Lqa.
Require Import Verif.Base Verif.FloatLine Verif.FloatVal Verif.IntervalModel Verif.IntervalSpec Verif.NumBase.
Require Import Verif.IntervalProofs Verif.FunctionModel Verif.FunctionSpec Verif.FunctionProofs Verif.FunctionPlf.
Import ListNotations.
Open Scope Z_scope.

Definition prim (f : fn) (x : Q) : Q :=
  match f with
  | FConst v => v * x
  | FLin m c => (1 # 2) * m * (x * x) + c * x
  | _ => 0
  end.

(** The area of [f] over the common part of [a,b) and [l,u). *)
Definition area (f : fn) (a b l u : Z) : Q :=
  if Z.max a l <? Z.min b u then (prim f (dval (Z.min b u)) - prim f (dval (Z.max a l)))%Q else 0.

Definition piece_int (i : cs) (f : fn) (c : cs) : res Q :=
  do x <- cs_intersection c i;
  if cs_isempty x then Ok 0%Q else fn_integrate f (lower x) (upper x).

Lemma prim_integrate : forall f x y, affine f -> finite x -> finite y -> x <= y ->
  exists v, fn_integrate f x y = Ok v /\ (v == prim f (dval y) - prim f (dval x))%Q.
Proof.
  intros f x y A F1 F2 L. apply isinf_finite in F1. apply isinf_finite in F2.
  destruct f as [|v|m c|? ? ?]; cbn in A; try contradiction; cbn [fn_integrate prim];
    (destruct (Z.ltb_spec y x); [lia|]); rewrite F1, F2; cbn [orb].
  - destruct (Qz_spec v) as [Z|N]; eexists; (split; [reflexivity|]); [rewrite Z|]; ring.
  - destruct (Z.eqb_spec y x) as [->|N]; eexists; (split; [reflexivity|]); ring.
Qed.

Lemma half_intersect : forall a b l u, finite a -> finite b -> a < b ->
  - ORD_INF <= l -> l <= u -> u <= ORD_INF -> l < ORD_INF -> - ORD_INF < u ->
  let i := CS l u (if l =? - ORD_INF then EXC else INC) EXC in
  if Z.max a l <? Z.min b u then cs_intersection (CS a b INC EXC) i = Ok (CS (Z.max a l) (Z.min b u) INC EXC)
  else exists x, cs_intersection (CS a b INC EXC) i = Ok x /\ cs_isempty x = true.
Proof.
  intros a b l u Fa Fb L H1 H2 H3 H4 H5 i. unfold finite in *. subst i.
  assert (P : plus_eps (- ORD_INF) = - ORD_INF) by reflexivity.
  assert (Em : cs_isempty (CS l u (if l =? - ORD_INF then EXC else INC) EXC) = (u <=? l)).
  { unfold cs_isempty, isclosed, itype. cbn [lower upper left right flag_val].
    destruct (Z.eqb_spec l (- ORD_INF)) as [->|N].
    - rewrite P. cbn [flag_val]. destruct (Z.ltb_spec u (- ORD_INF)); [lia|]. destruct (Z.eqb_spec (- ORD_INF) u); [lia|].
      rewrite andb_true_r. reflexivity.
    - cbn [flag_val]. destruct (Z.ltb_spec u l); [lia|]. destruct (Z.eqb_spec l u); [|rewrite andb_false_r]; symmetry.
      + apply Z.leb_le. lia.
      + apply Z.leb_gt. lia. }
  unfold cs_intersection, cs_intersection_lr.
  destruct (Z.ltb_spec (Z.max a l) (Z.min b u)) as [C|C].
  - assert (I : cs_intersects (CS a b INC EXC) (CS l u (if l =? - ORD_INF then EXC else INC) EXC) = true).
    { unfold cs_intersects. rewrite Em. cbn [lower upper left right flag_eqb].
      destruct (Z.leb_spec u l); [lia|]. destruct (Z.ltb_spec b l); [lia|]. destruct (Z.ltb_spec u a); [lia|]. cbn [orb].
      destruct (Z.eqb_spec a u); [lia|]. destruct (Z.eqb_spec b l); [lia|]. reflexivity. }
    rewrite I. cbn [negb]. unfold mk_cs. cbn [lower upper left right]. destruct (Z.ltb_spec (Z.min b u) (Z.max a l)); [lia|].
    cbn [bind lower upper set_left set_right]. f_equal.
    assert (El : (if l =? a then flag_max INC (if l =? - ORD_INF then EXC else INC) else if l <? a then INC else if l =? - ORD_INF then EXC else INC) = INC).
    { destruct (Z.eqb_spec l a); [|destruct (Z.ltb_spec l a); [reflexivity|]]; (destruct (Z.eqb_spec l (- ORD_INF)); [lia|reflexivity]). }
    rewrite El. destruct (u =? b); [reflexivity|]. destruct (b <? u); reflexivity.
  - assert (I : cs_intersects (CS a b INC EXC) (CS l u (if l =? - ORD_INF then EXC else INC) EXC) = false).
    { unfold cs_intersects. rewrite Em. cbn [lower upper left right flag_eqb orb andb].
      destruct (Z.leb_spec u l); [reflexivity|]. destruct (Z.ltb_spec b l); [reflexivity|]. destruct (Z.ltb_spec u a); [reflexivity|].
      cbn [orb]. destruct (Z.eqb_spec a u); [reflexivity|]. cbn [andb]. destruct (Z.eqb_spec b l); [reflexivity|]. lia. }
    rewrite I. cbn [negb]. exists EMPTY. split; reflexivity.
Qed.

Lemma half_not_empty : forall x y, x < y -> cs_isempty (CS x y INC EXC) = false.
Proof.
  intros x y L. unfold cs_isempty, isclosed, itype. cbn [lower upper left right flag_val].
  destruct (Z.ltb_spec y x); [lia|]. destruct (Z.eqb_spec x y); [lia|]. apply andb_false_r.
Qed.

Lemma halfopen_form : forall i, halfopen i -> i = CS (lower i) (upper i) (if lower i =? - ORD_INF then EXC else INC) EXC.
Proof. intros [l u fl fr] (_ & _ & _ & _ & _ & A & B). cbn in *. rewrite A at 1. rewrite B. reflexivity. Qed.

Lemma piece_int_spec : forall i f a b, halfopen i -> affine f -> finite a -> finite b -> a < b ->
  exists v, piece_int i f (CS a b INC EXC) = Ok v /\ (v == area f a b (lower i) (upper i))%Q.
Proof.
  intros i f a b Hi A Fa Fb L. rewrite (halfopen_form i Hi). destruct Hi as (H1 & H2 & H3 & H4 & H5 & _).
  cbn [lower upper]. set (l := lower i) in *. set (u := upper i) in *. clearbody l u.
  pose proof (half_intersect a b l u Fa Fb L H1 H2 H3 H4 H5) as K. cbv zeta in K. unfold piece_int, area.
  destruct (Z.ltb_spec (Z.max a l) (Z.min b u)) as [C|C].
  - rewrite K. cbn [bind lower upper]. rewrite half_not_empty by exact C. apply prim_integrate; [exact A|unfold finite in *; lia..].
  - destruct K as (x & -> & E). cbn [bind]. rewrite E. exists 0%Q. split; reflexivity.
Qed.

Lemma plf_integrate_cons : forall i f p c, plf_integrate ((i, f) :: p) c =
  (do a <- piece_int i f c; do b <- plf_integrate p c; Ok (a + b)%Q).
Proof.
  intros. cbn [plf_integrate]. unfold piece_int. destruct (cs_intersection c i); reflexivity.
Qed.

Definition areas (p : plf) (a b : Z) : Q := Qsum (map (fun s : cs * fn => area (snd s) a b (lower (fst s)) (upper (fst s))) p).

Lemma plf_integrate_spec : forall p a b, Forall halfopen (ivs p) -> affines p -> finite a -> finite b -> a < b ->
  exists v, plf_integrate p (CS a b INC EXC) = Ok v /\ (v == areas p a b)%Q.
Proof.
  induction p as [|[i f] p IH]; intros a b H A Fa Fb L.
  - exists 0%Q. split; reflexivity.
  - rewrite plf_integrate_cons. inversion H; subst. inversion A; subst. cbn [fst snd] in *.
    destruct (piece_int_spec i f a b) as (v & -> & Ev); [assumption..|]. destruct (IH a b) as (w & -> & Ew); [assumption..|].
    cbn [bind]. eexists. split; [reflexivity|]. unfold areas in *. cbn [map Qsum fst snd]. rewrite Ev, Ew. reflexivity.
Qed.

Lemma area_add : forall f a b c l u, a < b -> b < c -> l <= u -> (area f a c l u == area f a b l u + area f b c l u)%Q.
Proof.
  intros f a b c l u H1 H2 H. unfold area.
  destruct (Z.ltb_spec (Z.max a l) (Z.min c u)), (Z.ltb_spec (Z.max a l) (Z.min b u)), (Z.ltb_spec (Z.max b l) (Z.min c u));
    try lia; try ring.
  - replace (Z.min b u) with (Z.max b l) by lia. ring.
  - replace (Z.min b u) with (Z.min c u) by lia. ring.
  - replace (Z.max b l) with (Z.max a l) by lia. ring.
Qed.

Lemma areas_add : forall p a b c, Forall halfopen (ivs p) -> a < b -> b < c -> (areas p a c == areas p a b + areas p b c)%Q.
Proof.
  induction p as [|[i f] p IH]; intros a b c H L1 L2; [reflexivity|]. inversion H; subst. unfold areas in *. cbn [map Qsum fst snd].
  rewrite (IH a b c) by assumption. rewrite (area_add f a b c) by (try assumption; apply H2). ring.
Qed.

(** ** The fundamental theorem *)

Lemma areas_tail : forall p a b c, Forall (fun i => c <= lower i) (ivs p) -> a <= c -> (areas p a b == areas p c b)%Q.
Proof.
  induction p as [|[i f] p IH]; intros a b c H L; [reflexivity|]. inversion H; subst. unfold areas in *. cbn [map Qsum fst snd] in *.
  rewrite (IH a b c) by assumption. unfold area. replace (Z.max a (lower i)) with (Z.max c (lower i)) by lia. reflexivity.
Qed.

Lemma areas_zero : forall p a b, Forall (fun i => b <= lower i) (ivs p) -> (areas p a b == 0)%Q.
Proof.
  induction p as [|[i f] p IH]; intros a b H; [reflexivity|]. inversion H; subst. unfold areas in *. cbn [map Qsum fst snd] in *.
  rewrite (IH a b) by assumption. unfold area. destruct (Z.ltb_spec (Z.max a (lower i)) (Z.min b (upper i))); [lia|]. ring.
Qed.

Lemma tiling_lower : forall p i f, tiling ((i, f) :: p) -> Forall (fun j => upper i <= lower j) (ivs p).
Proof.
  induction p as [|[j g] p IH]; intros i f H; [constructor|]. destruct H as (L & E & _ & T). cbn [ivs map fst].
  constructor; [cbn; lia|]. pose proof (IH j g T) as K. assert (Lj : lower j < upper j) by (destruct p as [|[]]; [exact T|apply T]).
  apply (Forall_impl _ (P := fun k => upper j <= lower k)); [|exact K]. cbn. intros. lia.
Qed.

Lemma deriv_area : forall f f' a b ya yb, affine f -> fn_differentiate f = Ok f' -> fn_is f a ya -> fn_is f b yb ->
  (prim f' b - prim f' a == yb - ya)%Q.
Proof.
  intros [|v|m c|qa qb qc] f' a b ya yb A E (va & Ea & Ha) (vb & Eb & Hb); cbn in A; try contradiction;
    cbn [fn_differentiate] in E; injection E as <-; cbn [fn_eval] in *; injection Ea as <-; injection Eb as <-;
    cbn [prim]; rewrite <- Ha, <- Hb; ring.
Qed.

Lemma halfopen_mem : forall i x, halfopen i -> finite x -> cs_mem x i <-> lower i <= x < upper i.
Proof.
  intros i x (H1 & H2 & H3 & H4 & H5 & H6 & H7) F. unfold cs_mem. rewrite H6, H7. unfold finite in *.
  destruct (Z.eqb_spec (lower i) (- ORD_INF)); lia.
Qed.

Lemma plf_at_head : forall i f p x, halfopen i -> finite x -> lower i <= x < upper i -> plf_at ((i, f) :: p) x = Some f.
Proof.
  intros i f p x H F L. rewrite plf_at_cons by exact F.
  rewrite (proj2 (contains_value_spec i x F)); [reflexivity|]. apply halfopen_mem; assumption.
Qed.

Lemma plf_at_tail : forall i f p x, halfopen i -> finite x -> upper i <= x -> plf_at ((i, f) :: p) x = plf_at p x.
Proof.
  intros i f p x H F L. rewrite plf_at_cons by exact F.
  destruct (cs_contains_value i x) eqn:E; [|reflexivity]. apply contains_value_spec in E; [|exact F].
  apply (halfopen_mem i x H F) in E. lia.
Qed.

Lemma fundamental : forall p p', plf_differentiate p = Ok p' -> Forall halfopen (ivs p) -> affines p -> tiling p ->
  forall a b ya yb, finite a -> finite b -> a < b -> plf_is p a ya -> plf_is p b yb -> (areas p' a b == yb - ya)%Q.
Proof.
  intros p p' E. apply plf_map_spec in E. induction E as [|[i f] [j g] p p' [Ei Eg] E IH]; intros H A T a b ya yb Fa Fb L Ha Hb.
  - destruct Ha as (v & D & _). discriminate.
  - cbn [fst snd] in Ei, Eg. subst j. inversion H as [|? ? Hi H']; subst. inversion A as [|? ? Af A']; subst. cbn [fst snd] in *.
    assert (Iv : ivs p' = ivs p).
    { clear -E. unfold ivs. induction E as [|s t p r [K _] H IH]; cbn; [reflexivity|]. rewrite K, IH. reflexivity. }
    pose proof (tiling_lower p i f T) as TL.
    assert (Li : lower i < upper i) by (destruct p as [|[]]; [exact T|apply T]).
    apply plf_is_at in Ha. destruct Ha as (fa & Efa & Ha). apply plf_is_at in Hb. destruct Hb as (fb & Efb & Hb).
    assert (La : lower i <= a).
    { apply plf_at_in in Efa; [|exact Fa]. destruct Efa as (k & Ik & Mk).
      destruct Ik as [[= <- <-]|Ik]; [apply (halfopen_mem i a Hi Fa) in Mk; lia|].
      rewrite Forall_forall in TL, H'. assert (Ik' : In k (ivs p)) by (apply in_map_iff; exists (k, fa); auto).
      apply (halfopen_mem k a (H' k Ik') Fa) in Mk. specialize (TL k Ik'). lia. }
    unfold areas. cbn [map Qsum fst snd]. fold (areas p' a b).
    destruct (Z_lt_ge_dec a (upper i)) as [Ca|Ca].
    + rewrite plf_at_head in Efa by (try assumption; lia). injection Efa as <-.
      destruct (Z_le_gt_dec b (upper i)) as [Cb|Cb].
      * rewrite (areas_zero p' a b) by (rewrite Iv; apply (Forall_impl _ (P := fun k => upper i <= lower k)); [cbn; intros; lia|exact TL]).
        unfold area. replace (Z.max a (lower i)) with a by lia. replace (Z.min b (upper i)) with b by lia.
        destruct (Z.ltb_spec a b); [|lia].
        assert (Hfb : fn_is f (dval b) yb).
        { destruct (Z.eq_dec b (upper i)) as [->|N].
          - rewrite plf_at_tail in Efb by (try assumption; lia). destruct p as [|[k h] p]; [discriminate|].
            destruct T as (_ & Eu & (y & Yf & Yg) & T'). inversion H' as [|? ? Hk H'']; subst. cbn [fst] in Hk.
            assert (Lk : lower k < upper k) by (destruct p as [|[]]; [exact T'|apply T']).
            rewrite plf_at_head in Efb by (try assumption; lia). injection Efb as <-.
            pose proof (fn_is_unique _ _ _ _ Hb Yg) as U. apply (fn_is_wd f (dval (upper i)) _ y yb); [reflexivity|symmetry; exact U|exact Yf].
          - rewrite plf_at_head in Efb by (try assumption; lia). injection Efb as <-. exact Hb. }
        rewrite (deriv_area f g (dval a) (dval b) ya yb Af Eg Ha Hfb). ring.
      * rewrite plf_at_tail in Efb by (try assumption; lia). destruct p as [|[k h] p]; [discriminate|].
        destruct T as (_ & Eu & (y & Yf & Yg) & T').
        assert (Lk : lower k < upper k) by (destruct p as [|[]]; [exact T'|apply T']).
        assert (Fu : finite (upper i)) by (unfold finite in *; lia).
        assert (K : (areas p' (upper i) b == yb - y)%Q).
        { apply IH; try assumption; try lia.
          - apply plf_is_at. exists h. split; [|exact Yg]. inversion H'; subst. apply plf_at_head; try assumption. lia.
          - apply plf_is_at. exists fb. auto. }
        rewrite (areas_tail p' a b (upper i)) by (rewrite ?Iv; try assumption; lia). rewrite K.
        unfold area. replace (Z.max a (lower i)) with a by lia. replace (Z.min b (upper i)) with (upper i) by lia.
        destruct (Z.ltb_spec a (upper i)); [|lia]. rewrite (deriv_area f g (dval a) (dval (upper i)) ya y Af Eg Ha Yf). ring.
    + rewrite plf_at_tail in Efa by (try assumption; lia). rewrite plf_at_tail in Efb by (try assumption; lia).
      unfold area. destruct (Z.ltb_spec (Z.max a (lower i)) (Z.min b (upper i))); [lia|].
      assert (K : (areas p' a b == yb - ya)%Q).
      { apply IH; try assumption; [destruct p as [|[]]; [exact I|apply T]|apply plf_is_at; eauto..]. }
      rewrite K. ring.
Qed.
