(** Exact rational arithmetic used instead of floating point from here on:
    finite sums and their laws. *)
Require Import QArith Qabs Lqa List Permutation Setoid Morphisms Lia.
Import ListNotations.
Open Scope Q_scope.

Fixpoint Qsum (l : list Q) : Q :=
  match l with [] => 0 | x :: l' => x + Qsum l' end.

(** Equality of rational vectors, componentwise. *)
Definition Qleq (l l' : list Q) : Prop := Forall2 Qeq l l'.

Lemma Qltb_spec : forall x y, reflect (x < y) (negb (Qle_bool y x)).
Proof.
  intros. destruct (Qle_bool y x) eqn:E; constructor.
  - apply Qle_bool_iff in E. lra.
  - apply Qnot_le_lt. intro H. apply Qle_bool_iff in H. congruence.
Qed.
Lemma Qleb_spec : forall x y, reflect (x <= y) (Qle_bool x y).
Proof.
  intros. destruct (Qle_bool x y) eqn:E; constructor.
  - apply Qle_bool_iff. exact E.
  - intro H. apply Qle_bool_iff in H. congruence.
Qed.
Lemma Qeqb_spec : forall x y, reflect (x == y) (Qeq_bool x y).
Proof.
  intros. destruct (Qeq_bool x y) eqn:E; constructor.
  - apply Qeq_bool_iff. exact E.
  - intro H. apply Qeq_bool_iff in H. congruence.
Qed.
Definition Qltb (x y : Q) : bool := negb (Qle_bool y x).

Lemma Qsum_app : forall a b, Qsum (a ++ b) == Qsum a + Qsum b.
Proof. induction a as [|x a IH]; intro b; cbn; [lra|]. rewrite IH. lra. Qed.

Lemma Qsum_perm : forall a b, Permutation a b -> Qsum a == Qsum b.
Proof. intros a b P. induction P; cbn; try lra. Qed.

Lemma Qsum_nonneg : forall l, Forall (fun x => 0 <= x) l -> 0 <= Qsum l.
Proof. intros l H. induction H; cbn; lra. Qed.

Lemma Qsum_map_ext : forall A (f g : A -> Q) l, (forall x, In x l -> f x == g x) -> Qsum (map f l) == Qsum (map g l).
Proof.
  intros A f g l. induction l as [|x l IH]; intro H; cbn; [lra|].
  rewrite (H x) by (left; reflexivity). rewrite IH by (intros; apply H; right; assumption). lra.
Qed.

Lemma Qsum_map_plus : forall A (f g : A -> Q) l, Qsum (map (fun x => f x + g x) l) == Qsum (map f l) + Qsum (map g l).
Proof. intros. induction l as [|x l IH]; cbn; [lra|]. rewrite IH. lra. Qed.

Lemma Qsum_map_minus : forall A (f g : A -> Q) l, Qsum (map (fun x => f x - g x) l) == Qsum (map f l) - Qsum (map g l).
Proof. intros. induction l as [|x l IH]; cbn; [lra|]. rewrite IH. lra. Qed.

Lemma Qsum_map_scale : forall A (c : Q) (f : A -> Q) l, Qsum (map (fun x => c * f x) l) == c * Qsum (map f l).
Proof. intros. induction l as [|x l IH]; cbn; [lra|]. rewrite IH. lra. Qed.

Lemma Qsum_map_scale_r : forall A (c : Q) (f : A -> Q) l, Qsum (map (fun x => f x * c) l) == Qsum (map f l) * c.
Proof. intros. induction l as [|x l IH]; cbn; [lra|]. rewrite IH. lra. Qed.

Lemma Qsum_map_div : forall A (c : Q) (f : A -> Q) l, Qsum (map (fun x => f x / c) l) == Qsum (map f l) / c.
Proof. intros. unfold Qdiv. apply Qsum_map_scale_r. Qed.

Lemma Qsum_map_le : forall A (f g : A -> Q) l, (forall x, In x l -> f x <= g x) -> Qsum (map f l) <= Qsum (map g l).
Proof.
  intros A f g l. induction l as [|x l IH]; intro H; cbn; [lra|].
  pose proof (H x (or_introl eq_refl)). assert (Qsum (map f l) <= Qsum (map g l)); [|lra].
  apply IH. intros; apply H; right; assumption.
Qed.

Lemma Qsum_map_zero : forall A (f : A -> Q) l, (forall x, In x l -> f x == 0) -> Qsum (map f l) == 0.
Proof.
  intros A f l. induction l as [|x l IH]; intro H; cbn; [lra|].
  rewrite (H x) by (left; reflexivity). rewrite IH by (intros; apply H; right; assumption). lra.
Qed.

Lemma Qsum_map_nonneg : forall A (f : A -> Q) l, (forall x, In x l -> 0 <= f x) -> 0 <= Qsum (map f l).
Proof. intros A f l H. apply Qsum_nonneg. apply Forall_forall. intros y Iy. apply in_map_iff in Iy. destruct Iy as (x & <- & I). auto. Qed.

Lemma Qsum_ge_in : forall l x, Forall (fun y => 0 <= y) l -> In x l -> x <= Qsum l.
Proof.
  intros l x H. induction H as [|y l Hy H IH]; intros []; cbn.
  - subst. pose proof (Qsum_nonneg _ H). lra.
  - specialize (IH H0). lra.
Qed.

Lemma Qsum_zero_all : forall l, Forall (fun y => 0 <= y) l -> Qsum l == 0 -> forall x, In x l -> x == 0.
Proof.
  intros l H Z x I. pose proof (Qsum_ge_in l x H I). rewrite Forall_forall in H. specialize (H x I). lra.
Qed.

Lemma Qsum_pos : forall l x, Forall (fun y => 0 <= y) l -> In x l -> 0 < x -> 0 < Qsum l.
Proof. intros l x H I P. pose proof (Qsum_ge_in l x H I). lra. Qed.

Lemma Qsum_pos_ex : forall l, 0 < Qsum l -> exists x, In x l /\ 0 < x.
Proof.
  induction l as [|x l IH]; cbn; intro H; [lra|].
  destruct (Qlt_le_dec 0 x) as [P|N]; [exists x; auto|]. destruct IH as (y & I & Y); [lra|]. exists y; auto.
Qed.

(** Sum over a filtered list as a sum of indicator-weighted terms. *)
Lemma Qsum_filter : forall A (p : A -> bool) (f : A -> Q) l,
  Qsum (map f (filter p l)) == Qsum (map (fun x => if p x then f x else 0) l).
Proof. intros. induction l as [|x l IH]; cbn; [lra|]. destruct (p x); cbn; rewrite IH; lra. Qed.

Lemma Qsum_filter_split : forall A (p : A -> bool) (f : A -> Q) l,
  Qsum (map f l) == Qsum (map f (filter p l)) + Qsum (map f (filter (fun x => negb (p x)) l)).
Proof. intros. induction l as [|x l IH]; cbn; [lra|]. destruct (p x); cbn; rewrite IH; lra. Qed.

(** Exchange of summation. *)
Lemma Qsum_exchange : forall A B (f : A -> B -> Q) l m,
  Qsum (map (fun x => Qsum (map (f x) m)) l) == Qsum (map (fun y => Qsum (map (fun x => f x y) l)) m).
Proof.
  intros. induction l as [|x l IH]; cbn.
  - symmetry. apply Qsum_map_zero. intros; lra.
  - rewrite IH. rewrite <- Qsum_map_plus. lra.
Qed.

Lemma Qsum_leq : forall a b, Qleq a b -> Qsum a == Qsum b.
Proof. intros a b H. induction H; cbn; lra. Qed.

Lemma Qsum_const : forall A (c : Q) (l : list A), Qsum (map (fun _ => c) l) == inject_Z (Z.of_nat (length l)) * c.
Proof.
  intros. induction l as [|x l IH]; cbn [map Qsum length]; [unfold inject_Z; cbn [Z.of_nat]; ring|].
  rewrite IH, Nat2Z.inj_succ. unfold Z.succ. rewrite inject_Z_plus. change (inject_Z 1) with 1. lra.
Qed.

Definition Qn (n : nat) : Q := inject_Z (Z.of_nat n).
Lemma Qn_S : forall n, Qn (S n) == Qn n + 1.
Proof. intro n. unfold Qn. rewrite Nat2Z.inj_succ. unfold Z.succ. rewrite inject_Z_plus. reflexivity. Qed.
Lemma Qn_plus : forall n m, Qn (n + m) == Qn n + Qn m.
Proof. intros. unfold Qn. rewrite Nat2Z.inj_add, inject_Z_plus. reflexivity. Qed.
Lemma Qn_nonneg : forall n, 0 <= Qn n.
Proof. intro n. unfold Qn. change 0 with (inject_Z 0). rewrite <- Zle_Qle. lia. Qed.
Lemma Qn_pos : forall n, (0 < n)%nat -> 0 < Qn n.
Proof. intros n H. unfold Qn. change 0 with (inject_Z 0). rewrite <- Zlt_Qlt. lia. Qed.
Lemma Qn_le : forall n m, (n <= m)%nat -> Qn n <= Qn m.
Proof. intros. unfold Qn. rewrite <- Zle_Qle. lia. Qed.
Lemma Qn_lt : forall n m, (n < m)%nat <-> Qn n < Qn m.
Proof. intros. unfold Qn. rewrite <- Zlt_Qlt. split; lia. Qed.
Lemma Qn_inj : forall n m, Qn n == Qn m -> n = m.
Proof. intros n m H. unfold Qn in H. apply (proj1 (inject_Z_injective _ _)) in H. lia. Qed.

Lemma Qdiv_nonneg : forall a b, 0 <= a -> 0 < b -> 0 <= a / b.
Proof. intros a b A B. apply Qle_shift_div_l; [exact B|]. rewrite Qmult_0_l. exact A. Qed.
Lemma Qdiv_pos : forall a b, 0 < a -> 0 < b -> 0 < a / b.
Proof. intros a b A B. apply Qlt_shift_div_l; [exact B|]. rewrite Qmult_0_l. exact A. Qed.
Lemma Qdiv_le_1 : forall a b, a <= b -> 0 < b -> a / b <= 1.
Proof. intros a b A B. apply Qle_shift_div_r; [exact B|]. rewrite Qmult_1_l. exact A. Qed.
Lemma Qdiv_same : forall a, ~ a == 0 -> a / a == 1.
Proof. intros a H. field. exact H. Qed.

Global Instance Qdiv_comp' : Proper (Qeq ==> Qeq ==> Qeq) Qdiv := Qdiv_comp.
