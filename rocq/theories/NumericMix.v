(** Merged distributions are mixtures of their components. *)
Require Import ZArith QArith Qabs Lqa Bool List Arith Lia Sorted Permutation.
Require Import Verif.Base Verif.FloatLine Verif.FloatVal Verif.IntervalModel Verif.IntervalSpec Verif.IntervalProofs
  Verif.NumBase Verif.UtilModel Verif.FunctionModel Verif.FunctionSpec
  Verif.FunctionProofs Verif.FunctionPlf Verif.FunctionInt Verif.RealSetAlias Verif.NumericModel Verif.NumericSpec Verif.NumericFit Verif.NumericProb Verif.NumericMerge.
Import ListNotations.
Open Scope Z_scope.

Local Ltac ifs := repeat match goal with |- context [(?a <=? ?b)%Z] => destruct (a <=? b)%Z end.

(** ** One component *)

(** What a piece contributes. *)
Definition contrib (x : Z) (s : cs * fn) : Q :=
  ((if (lower (fst s) <=? x)%Z then slope (snd s) * (dval x - dval (lower (fst s))) else 0)
   - (if (upper (fst s) <=? x)%Z then slope (snd s) * (dval x - dval (upper (fst s))) else 0))%Q.
Definition dcontrib (x : Z) (s : cs * fn) : Q :=
  ((if (lower (fst s) <=? x)%Z then slope (snd s) else 0) - (if (upper (fst s) <=? x)%Z then slope (snd s) else 0))%Q.

Lemma contrib_after : forall p a b x, chain a p b -> x < a ->
  (Qsum (map (contrib x) p) == 0)%Q /\ (Qsum (map (dcontrib x) p) == 0)%Q /\ (steps p x == 0)%Q.
Proof.
  induction p as [|[i f] p IH]; intros a b x C L; [cbn; repeat split; lra|]. destruct C as (E & Lt & C).
  destruct (IH (upper i) b x C) as (H1 & H2 & H3); [lia|]. cbn [map Qsum].
  assert (Lx : (lower i <=? x) = false) by (rewrite E; cbn; apply Z.leb_gt; lia).
  assert (Ux : (upper i <=? x) = false) by (apply Z.leb_gt; lia).
  repeat split.
  - rewrite H1. unfold contrib. cbn [fst snd]. rewrite Lx, Ux. lra.
  - rewrite H2. unfold dcontrib. cbn [fst snd]. rewrite Lx, Ux. lra.
  - destruct p as [|[j g] p]; [reflexivity|]. cbn [steps] in *. rewrite Ux. rewrite H3. lra.
Qed.

Lemma contrib_value : forall p i f a b x h, chain a ((i, f) :: p) b -> - ORD_INF <= a -> b <= ORD_INF -> finite x -> a <= x < b ->
  plf_at ((i, f) :: p) x = Some h ->
  (Qsum (map (contrib x) ((i, f) :: p)) == height h (dval x) - steps ((i, f) :: p) x - height f (dval a))%Q
  /\ (Qsum (map (dcontrib x) ((i, f) :: p)) == steepness h)%Q.
Proof.
  induction p as [|[j g] p IH]; intros i f a b x h C A B Fx L At.
  - destruct C as (E & Lt & C). cbn in C. subst b.
    assert (At' : plf_at [(i, f)] x = Some f) by (eapply (chain_head i f [] a (upper i)); try eassumption; try lia; cbn; auto).
    rewrite At' in At. injection At as <-. cbn [map Qsum steps]. unfold contrib, dcontrib. cbn [fst snd].
    assert (Lx : (lower i <=? x) = true) by (rewrite E; cbn; apply Z.leb_le; lia).
    assert (Ux : (upper i <=? x) = false) by (apply Z.leb_gt; lia).
    rewrite Lx, Ux. assert (lower i = a) as -> by (rewrite E; reflexivity). unfold height, steepness, slope. destruct f; split; lra.
  - assert (C0 := C). destruct C as (E & Lt & C).
    assert (Lx : (lower i <=? x) = true) by (rewrite E; cbn; apply Z.leb_le; lia).
    assert (La : lower i = a) by (rewrite E; reflexivity).
    destruct (Z_lt_dec x (upper i)) as [Lu|Lu].
    + rewrite (chain_head i f _ a b x C0 A B Fx) in At by lia. injection At as <-.
      destruct (contrib_after _ _ _ x C Lu) as (H1 & H2 & H3).
      assert (Ux : (upper i <=? x) = false) by (apply Z.leb_gt; lia).
      assert (S0 : (steps ((i, f) :: (j, g) :: p) x == 0)%Q) by (cbn [steps] in *; rewrite Ux, H3; lra).
      rewrite S0. cbn [map Qsum] in *. rewrite H1, H2. unfold contrib, dcontrib. cbn [fst snd]. rewrite Lx, Ux, La.
      unfold height, steepness, slope. destruct f; split; lra.
    + rewrite (chain_tail i f _ a b x C0 A B Fx) in At by lia.
      destruct (IH j g (upper i) b x h C) as (H1 & H2); [lia|exact B|exact Fx|lia|exact At|].
      assert (Ux : (upper i <=? x) = true) by (apply Z.leb_le; lia).
      assert (S0 : (steps ((i, f) :: (j, g) :: p) x == height g (dval (upper i)) - height f (dval (upper i)) + steps ((j, g) :: p) x)%Q)
        by (cbn [steps]; rewrite Ux; lra).
      rewrite S0. change (map (contrib x) ((i, f) :: (j, g) :: p)) with (contrib x (i, f) :: map (contrib x) ((j, g) :: p)).
      change (map (dcontrib x) ((i, f) :: (j, g) :: p)) with (dcontrib x (i, f) :: map (dcontrib x) ((j, g) :: p)). cbn [Qsum]. rewrite H1, H2.
      unfold contrib, dcontrib. cbn [fst snd]. rewrite Lx, Ux, La.
      unfold height, steepness, slope. destruct f; split; lra.
Qed.


Lemma spread_total : forall p x, spread_cdf p -> finite x -> exists h y, plf_at p x = Some h /\ affine h /\ plf_is p x y /\ (y == height h (dval x))%Q.
Proof.
  intros p x S F. destruct (sp_proper p S) as (lo & hi & _ & P). destruct (pc_range p lo hi P x F) as (y & I & _).
  pose proof I as I'. apply plf_is_at in I'. destruct I' as (h & At & V). exists h, y.
  assert (A : affine h).
  { pose proof (sp_affine p S) as Sa. unfold affines in Sa. rewrite Forall_forall in Sa.
    destruct (plf_at_in p x h F At) as (i & Ii & _).
    exact (Sa _ Ii). }
  repeat split; try assumption. apply (fn_is_unique h (dval x)); [exact V|]. pose proof (fn_lin h (dval x) A) as L.
  replace (height h (dval x)) with (lin h (dval x)); [exact L|]. unfold lin, height. destruct h; reflexivity.
Qed.

Lemma spread_contrib : forall p x y, spread_cdf p -> finite x -> plf_is p x y ->
  (Qsum (map (contrib x) p) == y - lost p x)%Q /\ (Qsum (map (dcontrib x) p) == density p x)%Q.
Proof.
  intros p x y S F H. destruct (spread_total p x S F) as (h & y' & At & A & I & E). rewrite (plf_is_fun _ _ _ _ H I), E.
  destruct (sp_first p S) as (i & r & ->). destruct F as (F1 & F2).
  destruct (contrib_value r i (FConst 0) (- ORD_INF) ORD_INF x h (sp_chain _ S)) as (H1 & H2); unfold finite; try lia; try assumption.
  split.
  - rewrite H1. assert (lost ((i, FConst 0) :: r) x = steps ((i, FConst 0) :: r) x) as ->.
    { pose proof (sp_len _ S) as L. destruct r as [|a [|b r]]; cbn in L; try lia. reflexivity. }
    unfold height at 2. cbn [steepness]. lra.
  - rewrite H2. unfold density. rewrite At. reflexivity.
Qed.

Lemma point_contrib : forall p x y, point_cdf p -> finite x -> plf_is p x y ->
  exists x0, finite x0 /\ p = dirac x0 /\ (y == if x0 <=? x then 1 else 0)%Q /\ (Qsum (map (contrib x) p) == 0)%Q /\ (Qsum (map (dcontrib x) p) == 0)%Q
    /\ (density p x == 0)%Q.
Proof.
  intros p x y (x0 & F0 & ->) F H. exists x0. split; [exact F0|]. split; [reflexivity|]. change [_; _] with (dirac x0) in *.
  pose proof (dirac_proper x0 F0) as P. split.
  - apply (plf_is_fun (dirac x0) x); [exact H|]. destruct (Z.leb_spec x0 x) as [L|L]; [apply (pc_right _ _ _ P)|apply (pc_left _ _ _ P)]; assumption.
  - unfold dirac, contrib, dcontrib. cbn [map Qsum fst snd slope lower upper]. split; [ifs; lra|]. split; [ifs; lra|].
    unfold density, dirac, plf_at. destruct (piece_has _ _); [cbn; lra|]. destruct (piece_has _ _); cbn; lra.
Qed.

(** ** The events of all components *)
Definition dws_ok (dws : list (plf * Q)) : Prop := Forall (fun dw : plf * Q => component (fst dw) /\ (0 <= snd dw)%Q) dws.

Lemma pieces_cons : forall b p w dws, pieces_of b ((p, w) :: dws) =
  (if Qltb 0 w then map (fun s : cs * fn => (b (fst s), (KFn (snd s), w))) (filter (fun s : cs * fn => negb (is_const (snd s))) p) else []) ++ pieces_of b dws.
Proof. reflexivity. Qed.

Lemma eval1_at : forall x a d j, eval1 x (a, (d, j)) = if a <=? x then (d * (dval x - dval a) + j)%Q else 0%Q.
Proof. reflexivity. Qed.
Lemma edens1_at : forall x a d j, edens1 x (a, (d, j)) = if a <=? x then d else 0%Q.
Proof. reflexivity. Qed.
Lemma low_ev_fn : forall a f w, low_ev (a, (KFn f, w)) = (a, ((slope f * w)%Q, 0%Q)).
Proof. reflexivity. Qed.
Lemma up_ev_fn : forall a f w, up_ev (a, (KFn f, w)) = (a, ((- (slope f * w))%Q, 0%Q)).
Proof. reflexivity. Qed.

Lemma one_component : forall w x p,
  let lo := map (fun s : cs * fn => (lower (fst s), (KFn (snd s), w))) (filter (fun s : cs * fn => negb (is_const (snd s))) p) in
  let up := map (fun s : cs * fn => (upper (fst s), (KFn (snd s), w))) (filter (fun s : cs * fn => negb (is_const (snd s))) p) in
  (eval (map low_ev lo) x + eval (map up_ev up) x == w * Qsum (map (contrib x) p))%Q
  /\ (edens (map low_ev lo) x + edens (map up_ev up) x == w * Qsum (map (dcontrib x) p))%Q
  /\ (dsl (map low_ev lo) + dsl (map up_ev up) == 0)%Q.
Proof.
  intros w x. induction p as [|[i f] p IH]; cbn zeta in *; [unfold eval, edens, dsl; cbn; repeat split; lra|].
  destruct IH as (H1 & H2 & H3). cbn [filter snd]. destruct (is_const f) eqn:C; cbn [negb].
  - cbn [map Qsum]. rewrite H1, H2. assert (slope f = 0%Q) by (destruct f; cbn in C; congruence || reflexivity).
    unfold contrib at 2, dcontrib at 2. cbn [fst snd]. rewrite H. repeat split; [| |exact H3].
    + ifs; lra.
    + ifs; lra.
  - unfold eval, edens, dsl in *. cbn [map Qsum fst snd]. rewrite low_ev_fn, up_ev_fn, !eval1_at, !edens1_at. cbn [fst snd].
    unfold contrib at 1, dcontrib at 1. cbn [fst snd].
    repeat split.
    + rewrite Qmult_plus_distr_r, <- H1. generalize (Qsum (map (eval1 x) (map low_ev (map (fun s : cs * fn => (lower (fst s), (KFn (snd s), w))) (filter (fun s : cs * fn => negb (is_const (snd s))) p))))), (Qsum (map (eval1 x) (map up_ev (map (fun s : cs * fn => (upper (fst s), (KFn (snd s), w))) (filter (fun s : cs * fn => negb (is_const (snd s))) p))))). intros. ifs; ring.
    + rewrite Qmult_plus_distr_r, <- H2. generalize (Qsum (map (edens1 x) (map low_ev (map (fun s : cs * fn => (lower (fst s), (KFn (snd s), w))) (filter (fun s : cs * fn => negb (is_const (snd s))) p))))), (Qsum (map (edens1 x) (map up_ev (map (fun s : cs * fn => (upper (fst s), (KFn (snd s), w))) (filter (fun s : cs * fn => negb (is_const (snd s))) p))))). intros. ifs; ring.
    + lra.
Qed.

Lemma sum4 : forall a b c d s t, (a + b == s -> c + d == t -> (a + c) + (b + d) == s + t)%Q.
Proof. intros. lra. Qed.
Lemma pieces_eval : forall dws x, Forall (fun dw : plf * Q => (0 <= snd dw)%Q) dws ->
  (eval (map low_ev (pieces_of lower dws)) x + eval (map up_ev (pieces_of upper dws)) x == Qsum (map (fun dw : plf * Q => snd dw * Qsum (map (contrib x) (fst dw)))%Q dws))%Q
  /\ (edens (map low_ev (pieces_of lower dws)) x + edens (map up_ev (pieces_of upper dws)) x == Qsum (map (fun dw : plf * Q => snd dw * Qsum (map (dcontrib x) (fst dw)))%Q dws))%Q
  /\ (dsl (map low_ev (pieces_of lower dws)) + dsl (map up_ev (pieces_of upper dws)) == 0)%Q.
Proof.
  induction dws as [|[p w] dws IH]; intros x F.
  - unfold eval, edens, dsl. cbn. repeat split; lra.
  - destruct (IH x (Forall_inv_tail F)) as (H1 & H2 & H3). rewrite !pieces_cons, !map_app, !eval_app, !edens_app, !dsl_app. cbn [map Qsum fst snd].
    pose proof (one_component w x p) as O. cbn zeta in O. destruct O as (O1 & O2 & O3). pose proof (Forall_inv F) as W. cbn in W.
    unfold Qltb. destruct (Qltb_spec 0 w) as [Wp|Wp].
    + split; [exact (sum4 _ _ _ _ _ _ O1 H1)|]. split; [exact (sum4 _ _ _ _ _ _ O2 H2)|]. rewrite (sum4 _ _ _ _ _ _ O3 H3). lra.
    + assert (w == 0)%Q by lra. rewrite H. clear O1 O2 O3. cbn [map].
      pose proof (Qeq_refl 0) as Z0. assert (Zs : forall q, (0 + 0 == 0 * q)%Q) by (intro; lra).
      split; [exact (sum4 0 0 _ _ _ _ (Zs _) H1)|]. split; [exact (sum4 0 0 _ _ _ _ (Zs _) H2)|].
      rewrite (sum4 0 0 _ _ 0 _ (Zs 0%Q) H3). lra.
Qed.

(** Jumps. *)
Definition jeval (js : list (Z * Q)) (x : Z) : Q := Qsum (map (fun j : Z * Q => if fst j <=? x then snd j else 0)%Q js).
Lemma jump_add_eval : forall x0 w x js, (jeval (jump_add x0 w js) x == jeval js x + (if x0 <=? x then w else 0))%Q.
Proof.
  intros x0 w x. unfold jeval. induction js as [|[y v] js IH]; cbn [jump_add]; [cbn; lra|]. destruct (Z.eqb_spec y x0) as [->|N]; cbn [map Qsum fst snd].
  - ifs; lra.
  - rewrite IH. lra.
Qed.
Definition jval (x : Z) (dw : plf * Q) : Q := match fst dw with [(i, _); _] => (if upper i <=? x then snd dw else 0)%Q | _ => 0%Q end.
Lemma jumps_eval : forall dws x js, (jeval (fold_left (fun js dw => match fst dw with [(i, _); _] => jump_add (upper i) (snd dw) js | _ => js end) dws js) x
  == jeval js x + Qsum (map (jval x) dws))%Q.
Proof.
  induction dws as [|[p w] dws IH]; intros x js; cbn [fold_left map Qsum fst snd]; [lra|]. rewrite IH. unfold jval at 2. cbn [fst snd].
  destruct p as [|[i f] [|s [|t p]]]; try lra. rewrite jump_add_eval. lra.
Qed.
Lemma jump_add_ok : forall (P : Z -> Prop) x w js, P x -> (0 <= w)%Q -> Forall (fun j : Z * Q => P (fst j) /\ (0 <= snd j)%Q) js ->
  Forall (fun j : Z * Q => P (fst j) /\ (0 <= snd j)%Q) (jump_add x w js).
Proof.
  intros P x w js Px W F. induction F as [|[y v] js (H1 & H2) F IH]; cbn [jump_add]; [repeat constructor; assumption|].
  cbn [fst snd] in *. destruct (y =? x); constructor; cbn [fst snd]; auto. split; [exact H1|lra].
Qed.
Lemma jumps_ok : forall dws js, dws_ok dws -> Forall (fun j : Z * Q => finite (fst j) /\ (0 <= snd j)%Q) js ->
  Forall (fun j : Z * Q => finite (fst j) /\ (0 <= snd j)%Q) (fold_left (fun js dw => match fst dw with [(i, _); _] => jump_add (upper i) (snd dw) js | _ => js end) dws js).
Proof.
  induction dws as [|[p w] dws IH]; intros js O F; cbn [fold_left fst snd]; [exact F|]. apply IH; [exact (Forall_inv_tail O)|].
  destruct (Forall_inv O) as ([(x0 & F0 & E)|S] & W); cbn [fst snd] in *.
  - subst p. cbn [upper]. apply (jump_add_ok finite); assumption.
  - pose proof (sp_len p S) as L. destruct p as [|[i f] [|s [|t p]]]; cbn in L; try lia. exact F.
Qed.
Lemma jumps_none : forall dws js, Forall (fun dw : plf * Q => length (fst dw) <> 2%nat) dws ->
  fold_left (fun js dw => match fst dw with [(i, _); _] => jump_add (upper i) (snd dw) js | _ => js end) dws js = js.
Proof.
  induction dws as [|[p w] dws IH]; intros js F; cbn [fold_left fst snd]; [reflexivity|]. rewrite IH by exact (Forall_inv_tail F).
  pose proof (Forall_inv F) as L. cbn in L. destruct p as [|[i f] [|s [|t p]]]; cbn in L; try reflexivity. congruence.
Qed.

Definition jump_entries (dws : list (plf * Q)) : list entry :=
  map (fun j : Z * Q => (fst j, (KJump, snd j))) (filter (fun j : Z * Q => Qltb 0 (snd j)) (jumps dws)).

Lemma jump_entries_eval : forall dws x, dws_ok dws ->
  (eval (map low_ev (jump_entries dws)) x == Qsum (map (jval x) dws))%Q
  /\ (edens (map low_ev (jump_entries dws)) x == 0)%Q /\ (dsl (map low_ev (jump_entries dws)) == 0)%Q.
Proof.
  intros dws x O. pose proof (jumps_eval dws x []) as J. fold (jumps dws) in J. unfold jeval at 2 in J. cbn [map Qsum] in J.
  assert (Q : forall js, Forall (fun j : Z * Q => finite (fst j) /\ (0 <= snd j)%Q) js ->
    let l := map (fun j : Z * Q => (fst j, (KJump, snd j))) (filter (fun j : Z * Q => Qltb 0 (snd j)) js) in
    (eval (map low_ev l) x == jeval js x)%Q /\ (edens (map low_ev l) x == 0)%Q /\ (dsl (map low_ev l) == 0)%Q).
  { intros js F. cbn zeta. induction F as [|[y v] js (_ & V) F IH]; [unfold eval, jeval, edens, dsl; cbn; repeat split; lra|].
    destruct IH as (H1 & H2 & H3). cbn [snd filter] in *. unfold jeval in *. cbn [map Qsum fst snd]. unfold Qltb. destruct (Qltb_spec 0 v) as [Vp|Vp].
    - unfold eval, edens, dsl in *. cbn [map Qsum]. rewrite H1, H2, H3. unfold eval1, edens1, low_ev. cbn [fst snd]. ifs; repeat split; lra.
    - rewrite H1, H2, H3. ifs; repeat split; lra. }
  destruct (Q (jumps dws)) as (H1 & H2 & H3); [apply jumps_ok; [exact O|constructor]|]. unfold jump_entries. rewrite H1, J. split; [lra|]. split; assumption.
Qed.

Definition events (dws : list (plf * Q)) : list ev := map low_ev (lower_events dws) ++ map up_ev (upper_events dws).

Lemma events_perm : forall dws, Permutation (events dws) ((map low_ev (pieces_of lower dws) ++ map low_ev (jump_entries dws)) ++ map up_ev (pieces_of upper dws)).
Proof.
  intros dws. unfold events. apply Permutation_app.
  - rewrite <- map_app. apply Permutation_map. symmetry. apply sort_t_perm.
  - apply Permutation_map. symmetry. apply sort_t_perm.
Qed.

Lemma combine_sum : forall (f : plf -> Q) (ds : list plf) ws, length ds = length ws ->
  (Qsum (map (fun dw : plf * Q => snd dw * f (fst dw))%Q (combine ds ws)) == mixture ws (map f ds))%Q.
Proof.
  intros f. unfold mixture. induction ds as [|p ds IH]; intros [|w ws] L; cbn in L; try discriminate; cbn [combine map Qsum fst snd]; [lra|].
  rewrite IH by lia. lra.
Qed.

(** The events add up to the mixture, less the lost steps. *)
Lemma events_value : forall ds ws x ys, length ds = length ws -> dws_ok (combine ds ws) -> Forall component ds -> finite x -> Forall2 (fun p y => plf_is p x y) ds ys ->
  (eval (events (combine ds ws)) x == mixture ws ys - mixture ws (map (fun p => lost p x) ds))%Q
  /\ (edens (events (combine ds ws)) x == mixture ws (map (fun p => density p x) ds))%Q
  /\ (dsl (events (combine ds ws)) == 0)%Q.
Proof.
  intros ds ws x ys L O Cs F Ys. set (dws := combine ds ws) in *. pose proof (events_perm dws) as P.
  assert (Nn : Forall (fun dw : plf * Q => (0 <= snd dw)%Q) dws) by (eapply Forall_impl; [|exact O]; cbn; tauto).
  destruct (pieces_eval dws x Nn) as (H1 & H2 & H3). destruct (jump_entries_eval dws x O) as (J1 & J2 & J3).
  split; [|split].
  - rewrite (eval_perm _ _ x P), !eval_app, J1.
    assert (A : (eval (map low_ev (pieces_of lower dws)) x + Qsum (map (jval x) dws) + eval (map up_ev (pieces_of upper dws)) x
             == Qsum (map (fun dw : plf * Q => snd dw * Qsum (map (contrib x) (fst dw)))%Q dws) + Qsum (map (jval x) dws))%Q) by lra.
    rewrite A. clear - L Cs Ys F dws. subst dws. unfold mixture. revert ws L. induction Ys as [|p y ds ys Hy Ys IH]; intros [|w ws] L; cbn in L; try discriminate; cbn [combine map Qsum fst snd]; [lra|].
    specialize (IH (Forall_inv_tail Cs) ws ltac:(lia)). cbn in IH.
    assert (C : (w * Qsum (map (contrib x) p) + jval x (p, w) == w * y - w * lost p x)%Q).
    { destruct (Forall_inv Cs) as [Pt|S].
      - destruct (point_contrib p x y Pt F Hy) as (x0 & F0 & -> & E & C1 & _). rewrite C1, E. unfold jval, lost, dirac. cbn [fst snd upper]. destruct (x0 <=? x); lra.
      - destruct (spread_contrib p x y S F Hy) as (C1 & _). rewrite C1. unfold jval. cbn [fst snd].
        pose proof (sp_len p S) as Lp. destruct p as [|[i f] [|s [|t p]]]; cbn in Lp; try lia. lra. }
    lra.
  - rewrite (edens_perm _ _ x P), !edens_app, J2.
    assert (A : (edens (map low_ev (pieces_of lower dws)) x + 0 + edens (map up_ev (pieces_of upper dws)) x
             == Qsum (map (fun dw : plf * Q => snd dw * Qsum (map (dcontrib x) (fst dw)))%Q dws))%Q) by lra.
    rewrite A. etransitivity; [exact (combine_sum (fun p => Qsum (map (dcontrib x) p)) ds ws L)|]. clear - L Cs Ys F. unfold mixture.
    revert ws L. induction Ys as [|p y ds ys Hy Ys IH]; intros [|w ws] L; cbn in L; try discriminate; cbn [combine map Qsum fst snd]; [lra|].
    specialize (IH (Forall_inv_tail Cs) ws ltac:(lia)). cbn in IH. rewrite IH.
    assert (C : (Qsum (map (dcontrib x) p) == density p x)%Q).
    { destruct (Forall_inv Cs) as [Pt|S].
      - destruct (point_contrib p x y Pt F Hy) as (x0 & F0 & E0 & E & _ & C1 & D). rewrite C1, D. reflexivity.
      - destruct (spread_contrib p x y S F Hy) as (_ & C1). exact C1. }
    rewrite C. reflexivity.
  - assert (A : (dsl (events dws) == dsl ((map low_ev (pieces_of lower dws) ++ map low_ev (jump_entries dws)) ++ map up_ev (pieces_of upper dws)))%Q)
      by (unfold dsl; apply Qsum_perm, Permutation_map; exact P).
    rewrite A, !dsl_app, J3. lra.
Qed.

Lemma component_value : forall p x, component p -> finite x -> exists y, plf_is p x y /\ (0 <= y <= 1)%Q.
Proof.
  intros p x [(x0 & F0 & ->)|S] F.
  - exact (pc_range _ _ _ (dirac_proper x0 F0) x F).
  - destruct (sp_proper p S) as (lo & hi & _ & P). exact (pc_range _ _ _ P x F).
Qed.
Lemma values_ex : forall ds x, Forall component ds -> finite x -> exists ys, Forall2 (fun p y => plf_is p x y) ds ys /\ Forall (fun y => 0 <= y <= 1)%Q ys.
Proof.
  intros ds x C F. induction C as [|p ds Cp C (ys & H & R)]; [exists []; split; constructor|].
  destruct (component_value p x Cp F) as (y & Hy & Ry). exists (y :: ys). split; constructor; assumption.
Qed.

Lemma insert_sorted : forall (e : entry) l, StronglySorted by_pos l -> StronglySorted by_pos (insert_by fst e l).
Proof.
  intros e l S. induction S as [|a l S IH F]; cbn [insert_by]; [repeat constructor|].
  destruct (Z.leb_spec (fst e) (fst a)) as [L|L].
  - constructor; [constructor; assumption|]. constructor; [exact L|]. eapply Forall_impl; [|exact F]. unfold by_pos. intros; lia.
  - constructor; [exact IH|]. rewrite Forall_forall in *. intros z Iz.
    assert (P : In z (e :: l)).
    { clear - Iz. induction l as [|w l IH]; cbn in *; [tauto|]. destruct (_ <=? _); cbn in *; tauto. }
    destruct P as [<-|P]; [unfold by_pos; lia|auto].
Qed.
Lemma sort_entries : forall l : list entry, StronglySorted by_pos (sort_by fst l).
Proof. induction l; cbn; [constructor|apply insert_sorted; assumption]. Qed.

Lemma in_pieces : forall b dws e, In e (pieces_of b dws) ->
  exists p w i f, In (p, w) dws /\ (0 < w)%Q /\ In (i, f) p /\ is_const f = false /\ e = (b i, (KFn f, w)).
Proof.
  intros b dws e I. unfold pieces_of in I. apply in_flat_map in I. destruct I as ([p w] & Id & I). cbn [fst snd] in I.
  unfold Qltb in I. destruct (Qltb_spec 0 w) as [W|W]; [|destruct I]. apply in_map_iff in I. destruct I as ([i f] & <- & I).
  apply filter_In in I. destruct I as (I & C). apply negb_true_iff in C. exists p, w, i, f. auto.
Qed.
Lemma in_pieces_conv : forall b dws p w i f, In (p, w) dws -> (0 < w)%Q -> In (i, f) p -> is_const f = false -> In (b i, (KFn f, w)) (pieces_of b dws).
Proof.
  intros b dws p w i f Id W I C. unfold pieces_of. apply in_flat_map. exists (p, w). split; [exact Id|]. cbn [fst snd]. unfold Qltb.
  destruct (Qltb_spec 0 w) as [_|N]; [|contradiction]. apply in_map_iff. exists (i, f). split; [reflexivity|]. apply filter_In. split; [exact I|]. cbn [snd]. rewrite C. reflexivity.
Qed.

Lemma component_piece : forall p i f, component p -> In (i, f) p -> is_const f = false -> (0 < slope f)%Q /\ finite (lower i) /\ finite (upper i) /\ lower i < upper i.
Proof.
  intros p i f [(x0 & F0 & ->)|S] I C.
  - destruct I as [E|[E|[]]]; injection E as <- <-; discriminate.
  - pose proof (sp_affine p S) as A. unfold affines in A. rewrite Forall_forall in A. specialize (A _ I).
    pose proof (sp_rise p S) as R. rewrite Forall_forall in R. specialize (R _ I). cbn [fst snd] in *.
    destruct f as [|v|m c|? ? ?]; try contradiction; try discriminate. destruct R as (R1 & R2 & R3). cbn [slope].
    repeat split; try assumption; try apply R2; try apply R3. destruct (chain_in _ _ _ _ _ (sp_chain p S) I) as (L & _). lia.
Qed.

Lemma lower_ok : forall dws, dws_ok dws -> Forall good_low (lower_events dws).
Proof.
  intros dws O. eapply Permutation_Forall; [apply sort_t_perm|]. apply Forall_app. split; apply Forall_forall; intros e I.
  - destruct (in_pieces _ _ _ I) as (p & w & i & f & Id & W & Ii & C & ->). unfold dws_ok in O. rewrite Forall_forall in O. destruct (O _ Id) as (Cp & _). cbn [fst] in Cp.
    destruct (component_piece p i f Cp Ii C) as (S & F & _ & _). repeat split; try assumption; apply F.
  - apply in_map_iff in I. destruct I as ([y v] & <- & I). apply filter_In in I. destruct I as (I & V). cbn [fst snd] in *.
    pose proof (jumps_ok dws [] O (Forall_nil _)) as J. rewrite Forall_forall in J. destruct (J _ I) as (F & _). cbn [fst] in F.
    unfold Qltb in V. destruct (Qltb_spec 0 v) as [Vp|]; [|discriminate]. repeat split; try assumption; apply F.
Qed.
Lemma upper_ok : forall dws, dws_ok dws -> Forall good_up (upper_events dws).
Proof.
  intros dws O. eapply Permutation_Forall; [apply sort_t_perm|]. apply Forall_forall; intros e I.
  destruct (in_pieces _ _ _ I) as (p & w & i & f & Id & W & Ii & C & ->). unfold dws_ok in O. rewrite Forall_forall in O. destruct (O _ Id) as (Cp & _). cbn [fst] in Cp.
  destruct (component_piece p i f Cp Ii C) as (S & _ & F & _). repeat split; try assumption; apply F.
Qed.
Lemma ends_ok : forall dws, dws_ok dws -> ends (lower_events dws) (upper_events dws).
Proof.
  intros dws O e f I K. unfold lower_events in I. apply (Permutation_in e (Permutation_sym (sort_t_perm fst _))) in I. apply in_app_or in I. destruct I as [I|I].
  - destruct (in_pieces _ _ _ I) as (p & w & i & g & Id & W & Ii & C & ->). unfold dws_ok in O. rewrite Forall_forall in O. destruct (O _ Id) as (Cp & _). cbn [fst] in Cp.
    destruct (component_piece p i g Cp Ii C) as (_ & _ & _ & L). exists (upper i, (KFn g, w)). split; [|exact L].
    apply (Permutation_in _ (sort_t_perm fst _)). eapply in_pieces_conv; eassumption.
  - apply in_map_iff in I. destruct I as (j & <- & _). discriminate.
Qed.
Lemma no_steps_ok : forall dws, Forall (fun dw : plf * Q => length (fst dw) <> 2%nat) dws -> no_step (lower_events dws).
Proof.
  intros dws N. unfold lower_events, jumps. rewrite (jumps_none dws [] N). cbn [filter map]. rewrite app_nil_r. unfold no_step.
  eapply Permutation_Forall; [apply sort_t_perm|]. apply Forall_forall. intros e I. destruct (in_pieces _ _ _ I) as (p & w & i & f & _ & _ & _ & _ & ->). discriminate.
Qed.

Lemma jump_add_pos : forall x w js, (0 < w)%Q -> Forall (fun j : Z * Q => (0 <= snd j)%Q) js -> exists j, In j (jump_add x w js) /\ (0 < snd j)%Q.
Proof.
  intros x w js W F. induction F as [|[y v] js V F (j & I & J)]; cbn [jump_add]; [exists (x, w); split; [left; reflexivity|exact W]|].
  destruct (y =? x); [exists (y, (v + w)%Q); split; [left; reflexivity|cbn in *; lra]|exists j; split; [right; exact I|exact J]].
Qed.
Lemma jump_add_keeps : forall x w js, (0 <= w)%Q -> (exists j, In j js /\ (0 < snd j)%Q) -> exists j, In j (jump_add x w js) /\ (0 < snd j)%Q.
Proof.
  intros x w js W. induction js as [|[y v] js IH]; intros (j & I & J); [destruct I|]. cbn [jump_add]. destruct I as [<-|I].
  - destruct (y =? x); eexists; (split; [left; reflexivity|]); cbn in *; lra.
  - destruct (y =? x); [exists j; split; [right; exact I|exact J]|]. destruct IH as (k & Ik & K); [eauto|]. exists k. split; [right; exact Ik|exact K].
Qed.
Lemma jumps_some : forall dws js, dws_ok dws -> Forall (fun j : Z * Q => finite (fst j) /\ (0 <= snd j)%Q) js ->
  (exists j, In j js /\ (0 < snd j)%Q) \/ (exists p w, In (p, w) dws /\ (0 < w)%Q /\ point_cdf p) ->
  exists j, In j (fold_left (fun js dw => match fst dw with [(i, _); _] => jump_add (upper i) (snd dw) js | _ => js end) dws js) /\ (0 < snd j)%Q.
Proof.
  induction dws as [|[p w] dws IH]; intros js O F H.
  - destruct H as [H|(p & w & [] & _)]. exact H.
  - pose proof (jumps_ok [(p, w)] js) as Jk. cbn [fold_left] in *. pose proof (Forall_inv O) as (Cp & W). cbn [fst snd] in *.
    assert (O1 : dws_ok [(p, w)]) by (constructor; [split; assumption|constructor]). specialize (Jk O1 F).
    apply IH; [exact (Forall_inv_tail O)|exact Jk|].
    destruct H as [H|(p' & w' & [E|I] & W' & Pt)].
    + left. destruct p as [|[i f] [|s [|t p]]]; try exact H. apply jump_add_keeps; assumption.
    + injection E as -> ->. left. destruct Pt as (x0 & _ & ->). apply jump_add_pos; [exact W'|]. eapply Forall_impl; [|exact F]. cbn. tauto.
    + right. eauto.
Qed.

Lemma events_some : forall dws, dws_ok dws -> (exists p w, In (p, w) dws /\ (0 < w)%Q) -> lower_events dws <> [] \/ upper_events dws <> [].
Proof.
  intros dws O (p & w & I & W). left. intro N.
  assert (X : exists e, In e (lower_events dws)); [|rewrite N in X; destruct X as (e & [])].
  unfold dws_ok in O. pose proof O as O'. rewrite Forall_forall in O'. destruct (O' _ I) as (Cp & _). cbn [fst] in Cp. destruct Cp as [Pt|S].
  - destruct (jumps_some dws [] O (Forall_nil _)) as (j & Ij & J); [right; eauto|]. exists (fst j, (KJump, snd j)).
    apply (Permutation_in _ (sort_t_perm fst _)). apply in_or_app. right. apply in_map_iff. exists j. split; [reflexivity|]. apply filter_In. split; [exact Ij|].
    unfold Qltb. destruct (Qltb_spec 0 (snd j)); [reflexivity|contradiction].
  - destruct (sp_some p S) as (i & m & c & Ii). exists (lower i, (KFn (FLin m c), w)). apply (Permutation_in _ (sort_t_perm fst _)). apply in_or_app. left.
    eapply in_pieces_conv; try eassumption. reflexivity.
Qed.

Lemma combine_pos : forall (ds : list plf) ws, length ds = length ws -> Forall (fun w => 0 <= w)%Q ws -> (0 < Qsum ws)%Q -> exists p w, In (p, w) (combine ds ws) /\ (0 < w)%Q.
Proof.
  induction ds as [|p ds IH]; intros [|w ws] L N P; cbn [length combine Qsum In] in *; try discriminate.
  destruct (Qlt_le_dec 0 w) as [W|W]; [exists p, w; auto|].
  destruct (IH ws) as (p' & w' & I & W'); [lia|exact (Forall_inv_tail N)|lra|]. exists p', w'. auto.
Qed.

Theorem merge_events : forall ds ws, length ds = length ws -> Forall component ds -> Forall (fun w => 0 <= w)%Q ws ->
  (Qabs (Qsum ws - 1) <= tiny)%Q -> grained ds ws ->
  exists q last, merge_cdf ds ws = Ok q /\ merged_as (events (combine ds ws)) (Forall (fun p : plf => length p <> 2%nat) ds) last q.
Proof.
  intros ds ws L C N S G. unfold merge_cdf.
  assert (T : Qltb tiny (Qabs (Qsum ws - 1)) = false). { unfold Qltb. destruct (Qltb_spec tiny (Qabs (Qsum ws - 1))); [lra|reflexivity]. }
  rewrite T. set (dws := combine ds ws).
  assert (O : dws_ok dws).
  { unfold dws_ok. apply Forall_forall. intros [p w] I. pose proof (in_combine_l _ _ _ _ I) as I1. pose proof (in_combine_r _ _ _ _ I) as I2.
    rewrite Forall_forall in C, N. cbn [fst snd]. split; [exact (C _ I1)|exact (N _ I2)]. }
  assert (Ps : (0 < Qsum ws)%Q). { apply Qabs_Qle_condition in S. unfold tiny in S. lra. }
  assert (NE := events_some dws O (combine_pos ds ws L N Ps)).
  assert (Nj : Forall (fun p : plf => length p <> 2%nat) ds -> no_step (lower_events dws)).
  { intro H. apply no_steps_ok. apply Forall_forall. intros [p w] I. pose proof (in_combine_l _ _ _ _ I) as I1. rewrite Forall_forall in H. exact (H _ I1). }
  assert (Gr : grain (events dws)).
  { intros x F. destruct (values_ex ds x C F) as (ys & Y & _). destruct (events_value ds ws x ys L O C F Y) as (_ & D & _). fold dws in D. rewrite D. exact (G x F). }
  pose proof (init_state (events dws) (Forall (fun p : plf => length p <> 2%nat) ds) (lower_events dws) (upper_events dws) (Permutation_refl _) (lower_ok dws O) (upper_ok dws O) NE Nj) as St.
  destruct (sweep_spec (length (lower_events dws) + length (upper_events dws)) _ _ _ _ _ _ _ _ _ _ _ _ (Nat.le_refl _) Gr St (ends_ok dws O) (lower_ok dws O) (upper_ok dws O) (sort_entries _) (sort_entries _)) as (out & E & Fi).
  destruct (finish _ _ _ Fi) as (p & last & E2 & M). exists p, last. split; [|exact M].
  cbn zeta. rewrite E. cbn [bind]. rewrite E2. cbn [bind]. rewrite rev_involutive. reflexivity.
Qed.
