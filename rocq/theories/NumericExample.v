(** The uniform distribution on [0, 1), used to show that hypotheses can be met. *)
Require Import ZArith QArith Qabs Lqa Bool List Arith Lia Sorted.
Require Import Verif.Base Verif.FloatLine Verif.FloatVal Verif.IntervalModel Verif.IntervalSpec Verif.IntervalProofs Verif.IntervalDec
  Verif.NumBase Verif.FunctionModel Verif.FunctionSpec Verif.FunctionProofs Verif.NumericModel Verif.NumericSpec
  Verif.NumericFit Verif.NumericProb.
Import ListNotations.
Open Scope Z_scope.

Definition unit_cdf : plf :=
  [(CS (- ORD_INF) 0 EXC EXC, FConst 0); (CS 0 ONE INC EXC, FLin 1 0); (CS ONE ORD_INF INC EXC, FConst 1)].
Lemma one_facts : 0 < ONE /\ ONE < ORD_INF /\ (dval ONE == 1)%Q /\ (dval 0 == 0)%Q.
Proof. repeat split; vm_compute; reflexivity. Qed.
Lemma unit_chain : chain (- ORD_INF) unit_cdf ORD_INF.
Proof.
  pose proof one_facts as (O1 & O2 & _). unfold unit_cdf, chain. cbn [upper]. destruct (Z.eqb_spec 0 (- ORD_INF)); [lia|].
  destruct (Z.eqb_spec ONE (- ORD_INF)); [lia|]. rewrite Z.eqb_refl. repeat split; lia.
Qed.
Lemma unit_at : forall x, finite x -> plf_at unit_cdf x = Some (if 0 <=? x then if x <? ONE then FLin 1 0 else FConst 1 else FConst 0).
Proof.
  intros x F. pose proof one_facts as (O1 & O2 & _). pose proof F as F'. unfold finite in F'.
  destruct (Z.leb_spec 0 x); [destruct (Z.ltb_spec x ONE)|].
  - apply (chain_at _ _ _ (CS 0 ONE INC EXC) (FLin 1 0) x unit_chain); try assumption; cbn [lower upper]; try lia. right. left. reflexivity.
  - apply (chain_at _ _ _ (CS ONE ORD_INF INC EXC) (FConst 1) x unit_chain); try assumption; cbn [lower upper]; try lia. right. right. left. reflexivity.
  - apply (chain_at _ _ _ (CS (- ORD_INF) 0 EXC EXC) (FConst 0) x unit_chain); try assumption; cbn [lower upper]; try lia. left. reflexivity.
Qed.
Lemma unit_density : forall x, finite x -> density unit_cdf x = (if 0 <=? x then if x <? ONE then 1 else 0 else 0)%Q.
Proof. intros x F. unfold density. rewrite (unit_at x F). destruct (0 <=? x); [destruct (x <? ONE)|]; reflexivity. Qed.
Lemma unit_tiling : tiling unit_cdf.
Proof.
  pose proof one_facts as (O1 & O2 & D1 & D0). unfold unit_cdf, tiling. cbn [lower upper]. repeat split; try lia.
  - exists 0%Q. split; eexists; (split; [reflexivity|]); cbn beta; lra.
  - exists 1%Q. split; eexists; (split; [reflexivity|]); cbn beta; lra.
Qed.
Lemma unit_proper : proper_cdf unit_cdf 0 ONE.
Proof.
  pose proof one_facts as (O1 & O2 & D1 & D0).
  assert (V : forall x, finite x -> plf_is unit_cdf x (if 0 <=? x then if x <? ONE then dval x else 1 else 0)%Q).
  { intros x F. apply (plf_is_of _ _ _ _ (unit_at x F)).
    destruct (0 <=? x); [destruct (x <? ONE)|]; eexists; (split; [reflexivity|]); cbn beta; lra. }
  assert (R : forall x, 0 <= x -> x < ONE -> (0 <= dval x < 1)%Q).
  { intros x A B. apply dval_le in A. apply dval_lt in B. lra. }
  constructor.
  - intros x F L. specialize (V x F). destruct (Z.leb_spec 0 x); [lia|exact V].
  - intros x F L. specialize (V x F). destruct (Z.leb_spec 0 x); [|lia]. destruct (Z.ltb_spec x ONE); [lia|exact V].
  - intros x F. eexists. split; [exact (V x F)|]. destruct (Z.leb_spec 0 x); [destruct (Z.ltb_spec x ONE)|]; try lra.
    specialize (R x ltac:(lia) ltac:(lia)). lra.
  - intros x x' y y' F F' L Y Y'. rewrite (plf_is_fun _ _ _ _ Y (V x F)), (plf_is_fun _ _ _ _ Y' (V x' F')).
    destruct (Z.leb_spec 0 x), (Z.leb_spec 0 x'); try lia; try lra.
    + destruct (Z.ltb_spec x ONE), (Z.ltb_spec x' ONE); try lia; try lra; [apply dval_le; lia|pose proof (R x ltac:(lia) ltac:(lia)); lra].
    + destruct (Z.ltb_spec x' ONE); [|lra]. pose proof (R x' ltac:(lia) ltac:(lia)). lra.
Qed.
Lemma unit_spread : spread_cdf unit_cdf.
Proof.
  pose proof one_facts as (O1 & O2 & _). constructor.
  - exact unit_chain.
  - unfold unit_cdf. repeat (apply Forall_cons || apply Forall_nil); cbn; exact I.
  - cbn. lia.
  - eexists. eexists. reflexivity.
  - unfold unit_cdf. repeat (apply Forall_cons || apply Forall_nil); cbn [fst snd lower upper]; try exact I. unfold finite. repeat split; try lia.
  - exists (CS 0 ONE INC EXC), 1%Q, 0%Q. right. left. reflexivity.
  - exists 0, ONE. split; [unfold finite; lia|exact unit_proper].
Qed.
Lemma dirac_density : forall a x, finite a -> finite x -> density (dirac a) x = 0%Q.
Proof.
  intros a x Fa F. unfold density. destruct (plf_at (dirac a) x) as [f|] eqn:E; [|reflexivity].
  unfold dirac, plf_at in E. repeat match type of E with context [if ?b then _ else _] => destruct b end; try discriminate E; injection E as <-; reflexivity.
Qed.
