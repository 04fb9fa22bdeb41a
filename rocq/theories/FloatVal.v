(** The rational value of a double given by its ordinal (FloatLine). *)
Require Import ZArith QArith Bool Lia Lqa.
Require Import Verif.FloatLine Verif.IntervalSpec.
Open Scope Z_scope.

(** 2^52, the number of doubles per binade. *)
Definition BIN : Z := 4503599627370496.

(** The value of a non-negative double times 2^1074: a subnormal is its
    significand, otherwise the significand with its hidden bit, shifted. *)
Definition sval (z : Z) : Z :=
  let e := z / BIN in
  let m := z mod BIN in
  if e =? 0 then m else (BIN + m) * 2 ^ (e - 1).

Definition SCALE : positive := Pos.pow 2 1074.

(** IEEE-754 binary64: the value of the double with ordinal [z]. *)
Definition dval (z : Z) : Q :=
  Qmake (if z <? 0 then - sval (- z) else sval z) SCALE.

Lemma sval_step : forall z, 0 <= z -> sval z < sval (z + 1).
Proof.
  intros z Hz. unfold sval.
  assert (HB : 0 < BIN) by (unfold BIN; lia).
  pose proof (Z.div_mod z BIN ltac:(lia)) as E.
  pose proof (Z.mod_pos_bound z BIN HB) as M.
  pose proof (Z.div_pos z BIN Hz HB) as P.
  set (e := z / BIN) in *. set (m := z mod BIN) in *. clearbody e m.
  destruct (Z.eq_dec (m + 1) BIN) as [Em|Nm].
  - assert (D : (z + 1) / BIN = e + 1) by (symmetry; apply Z.div_unique with (r := 0); lia).
    assert (R : (z + 1) mod BIN = 0) by (symmetry; apply Z.mod_unique with (q := e + 1); lia).
    rewrite D, R. destruct (Z.eqb_spec (e + 1) 0); [lia|].
    replace (e + 1 - 1) with e by lia.
    destruct (Z.eqb_spec e 0) as [->|Ne].
    + change (2 ^ 0) with 1. lia.
    + replace e with (Z.succ (e - 1)) at 2 by lia. rewrite Z.pow_succ_r by lia.
      assert (0 < 2 ^ (e - 1)) by (apply Z.pow_pos_nonneg; lia). nia.
  - assert (D : (z + 1) / BIN = e) by (symmetry; apply Z.div_unique with (r := m + 1); lia).
    assert (R : (z + 1) mod BIN = m + 1) by (symmetry; apply Z.mod_unique with (q := e); lia).
    rewrite D, R. destruct (Z.eqb_spec e 0) as [->|Ne]; [lia|].
    assert (0 < 2 ^ (e - 1)) by (apply Z.pow_pos_nonneg; lia). nia.
Qed.

Lemma sval_mono : forall n z, 0 <= z -> sval z < sval (z + 1 + Z.of_nat n).
Proof.
  induction n as [|n IH]; intros z Hz.
  - rewrite Nat2Z.inj_0, Z.add_0_r. apply sval_step. exact Hz.
  - specialize (IH z Hz). rewrite Nat2Z.inj_succ.
    pose proof (sval_step (z + 1 + Z.of_nat n) ltac:(lia)).
    replace (z + 1 + Z.succ (Z.of_nat n)) with (z + 1 + Z.of_nat n + 1) by lia. lia.
Qed.

Lemma sval_lt : forall a b, 0 <= a -> a < b -> sval a < sval b.
Proof.
  intros a b Ha H. pose proof (sval_mono (Z.to_nat (b - a - 1)) a Ha) as K.
  rewrite Z2Nat.id in K by lia. replace (a + 1 + (b - a - 1)) with b in K by lia. exact K.
Qed.

Lemma sval_0 : sval 0 = 0.
Proof. reflexivity. Qed.

Lemma dval_num_lt : forall a b, a < b ->
  (if a <? 0 then - sval (- a) else sval a) < (if b <? 0 then - sval (- b) else sval b).
Proof.
  intros a b H. destruct (Z.ltb_spec a 0), (Z.ltb_spec b 0).
  - pose proof (sval_lt (- b) (- a) ltac:(lia) ltac:(lia)). lia.
  - pose proof (sval_lt 0 (- a) ltac:(lia) ltac:(lia)). rewrite sval_0 in *.
    destruct (Z.eq_dec b 0) as [->|N]; [rewrite sval_0; lia|].
    pose proof (sval_lt 0 b ltac:(lia) ltac:(lia)). rewrite sval_0 in *. lia.
  - lia.
  - apply sval_lt; lia.
Qed.

Lemma Qmake_lt : forall a b p, a < b -> (Qmake a p < Qmake b p)%Q.
Proof. intros a b p H. unfold Qlt. cbn [Qnum Qden]. nia. Qed.

Lemma dval_lt : forall a b, a < b -> (dval a < dval b)%Q.
Proof. intros a b H. apply Qmake_lt. apply dval_num_lt. exact H. Qed.

Lemma dval_le : forall a b, a <= b -> (dval a <= dval b)%Q.
Proof.
  intros a b H. destruct (Z.eq_dec a b) as [->|N]; [apply Qle_refl|].
  apply Qlt_le_weak, dval_lt. lia.
Qed.

Lemma dval_lt_iff : forall a b, (dval a < dval b)%Q <-> a < b.
Proof.
  intros a b. split; [|apply dval_lt]. intro H. destruct (Z.le_gt_cases b a) as [L|L]; [|exact L].
  pose proof (dval_le b a L). exfalso. apply (Qlt_not_le _ _ H). assumption.
Qed.

Lemma dval_le_iff : forall a b, (dval a <= dval b)%Q <-> a <= b.
Proof.
  intros a b. split; [|apply dval_le]. intro H. destruct (Z.le_gt_cases a b) as [L|L]; [exact L|].
  pose proof (dval_lt b a L). exfalso. apply (Qlt_not_le _ _ H0). assumption.
Qed.

Lemma dval_inj : forall a b, (dval a == dval b)%Q -> a = b.
Proof.
  intros a b H. assert (dval a <= dval b)%Q by (rewrite H; apply Qle_refl).
  assert (dval b <= dval a)%Q by (rewrite H; apply Qle_refl).
  pose proof (proj1 (dval_le_iff _ _) H0). pose proof (proj1 (dval_le_iff _ _) H1). lia.
Qed.

Lemma dval_opp : forall a, (dval (- a) == - dval a)%Q.
Proof.
  intro a. unfold dval, Qeq, Qopp. cbn [Qnum Qden].
  destruct (Z.ltb_spec a 0), (Z.ltb_spec (- a) 0); try lia.
  - f_equal. rewrite Z.opp_involutive. reflexivity.
  - f_equal. assert (a = 0) by lia. subst a. reflexivity.
Qed.

Lemma dval_0 : (dval 0 == 0)%Q.
Proof. reflexivity. Qed.

Global Opaque dval.
