(** Boolean deciders of the specification predicates, used only to show that
    concrete intervals meet the hypotheses of the theorems. *)
Require Import ZArith Bool List Lia.
Require Import Verif.Base Verif.FloatLine Verif.IntervalModel Verif.IntervalSpec.
Require Import Verif.IntervalProofs Verif.RealSetProofs Verif.RealSetOps Verif.RealSetMore Verif.IntervalExact.
Import ListNotations.
Open Scope Z_scope.

(** Ordinals of some doubles. *)
Definition HALF : Z := 4602678819172646912.
Definition ONE : Z := 4607182418800017408.
Definition TWO : Z := 4611686018427387904.
Definition THREE : Z := 4613937818241073152.
Definition FOUR : Z := 4616189618054758400.
Definition FIVE : Z := 4617315517961601024.
Definition SIX : Z := 4618441417868443648.

Definition moderateb (x : Z) : bool := (Z.abs x <? ORD_53) || (Z.abs x =? ORD_INF).
Definition wfb (s : cs) : bool :=
  (lower s <=? upper s) && moderateb (lower s) && moderateb (upper s)
  && (lower s <? ORD_INF) && (- ORD_INF <? upper s)
  && (negb (lower s =? - ORD_INF) || flag_eqb (left s) EXC)
  && (negb (upper s =? ORD_INF) || flag_eqb (right s) EXC).
Definition spacedb (bs : list Z) : bool :=
  forallb (fun x => forallb (fun y => (x =? y) || (2 <=? Z.abs (x - y))) bs) bs.

Lemma moderateb_ok : forall x, moderateb x = true -> moderate x.
Proof. intros x H. unfold moderateb in H. unfold moderate. apply orb_prop in H. lia. Qed.

Lemma wfb_ok : forall s, wfb s = true -> wf s.
Proof.
  intros s H. unfold wfb in H. repeat (apply andb_prop in H; destruct H as [H ?]).
  assert (forall f, flag_eqb f EXC = true -> f = EXC) as F by (intros []; cbn; congruence).
  unfold wf. repeat match goal with |- _ /\ _ => split end; try lia; try (apply moderateb_ok; assumption).
  - intro Q. rewrite Q in *. rewrite Z.eqb_refl in *. auto.
  - intro Q. rewrite Q in *. rewrite Z.eqb_refl in *. auto.
Qed.

Lemma wfb_all : forall l, forallb wfb l = true -> Forall wf l.
Proof. intros l H. rewrite forallb_forall in H. apply Forall_forall. intros s I. apply wfb_ok, H, I. Qed.

Lemma spacedb_ok : forall bs, spacedb bs = true -> spaced bs.
Proof.
  intros bs H x y Ix Iy. unfold spacedb in H. rewrite forallb_forall in H. specialize (H x Ix).
  rewrite forallb_forall in H. specialize (H y Iy). apply orb_prop in H. lia.
Qed.

Ltac wf_dec := first [apply wfb_ok; vm_compute; reflexivity | apply wfb_all; vm_compute; reflexivity].
Ltac spaced_dec := apply spacedb_ok; vm_compute; reflexivity.
Ltac mem_dec := unfold cs_mem, valid, finite, disjoint in *; cbn [lower upper left right] in *;
  unfold FLT_MIN, ORD_INF, ORD_53, ORD_54, HALF, ONE, TWO, THREE, FOUR, FIVE, SIX in *; lia.
