(** Proofs about piecewise functions: evaluation, pointwise operations,
    mirroring, shifting, cropping, splitting, interpolation. *)
Require Import ZArith QArith Qabs Bool List Lia Lqa.
Require Import Verif.Base Verif.FloatLine Verif.FloatVal Verif.IntervalModel Verif.IntervalSpec Verif.NumBase.
Require Import Verif.IntervalProofs Verif.IntervalDiff Verif.RealSetProofs Verif.RealSetOps Verif.IntervalMore.
Require Import Verif.RealSetMore Verif.IntervalMore2 Verif.IntervalExact.
Require Import Verif.FunctionModel Verif.FunctionSpec Verif.FunctionProofs.
Import ListNotations.
Open Scope Z_scope.

Lemma piece_has_finite : forall i x, finite x -> piece_has i x = cs_contains_value i x.
Proof.
  intros i x F. unfold piece_has, finite in *. destruct (Z.eqb_spec x (- ORD_INF)); [lia|].
  destruct (Z.eqb_spec x ORD_INF); [lia|]. cbn [andb]. rewrite !orb_false_r. reflexivity.
Qed.

Lemma plf_at_cons : forall i f p x, finite x ->
  plf_at ((i, f) :: p) x = if cs_contains_value i x then Some f else plf_at p x.
Proof. intros. cbn [plf_at]. rewrite piece_has_finite by assumption. reflexivity. Qed.

Lemma plf_at_none : forall p x, finite x -> plf_at p x = None <-> ~ in_dom p x.
Proof.
  intros p x F. induction p as [|[i f] p IH].
  - split; [|reflexivity]. intros _ H. destruct (rs_mem_nil _ H).
  - rewrite plf_at_cons by assumption. unfold in_dom in *. cbn [ivs map fst]. rewrite rs_mem_cons.
    pose proof (contains_value_spec i x F) as C. destruct (cs_contains_value i x).
    + split; [discriminate|]. intro H. exfalso. apply H. left. apply C. reflexivity.
    + rewrite IH. split; intro H; [intros [H'|H']; [apply C in H'; discriminate|contradiction]|tauto].
Qed.

Lemma plf_at_in : forall p x f, finite x -> plf_at p x = Some f -> exists i, In (i, f) p /\ cs_mem x i.
Proof.
  induction p as [|[i g] p IH]; intros x f F H; [discriminate|].
  rewrite plf_at_cons in H by assumption. destruct (cs_contains_value i x) eqn:C.
  - injection H as <-. exists i. split; [left; reflexivity|]. apply contains_value_spec; assumption.
  - destruct (IH x f F H) as (j & I & M). exists j. split; [right; exact I|exact M].
Qed.

Lemma before_disj : forall a b x, before a b -> cs_mem x a -> cs_mem x b -> False.
Proof. intros a b x H A B. specialize (H x x A B). lia. Qed.

Lemma plf_at_unique : forall p x i f, finite x -> ascending (ivs p) -> In (i, f) p -> cs_mem x i -> plf_at p x = Some f.
Proof.
  induction p as [|[j g] p IH]; intros x i f F A I M; [destruct I|].
  rewrite plf_at_cons by assumption. unfold ascending in A. cbn [ivs map fst] in A. inversion A as [|? ? Fa A']; subst.
  destruct I as [E|I].
  - injection E as -> ->. rewrite (proj2 (contains_value_spec i x F) M). reflexivity.
  - destruct (cs_contains_value j x) eqn:C; [|apply (IH x i f F A' I M)].
    exfalso. apply contains_value_spec in C; [|exact F]. rewrite Forall_forall in Fa.
    apply (before_disj j i x); [apply Fa; apply in_map_iff; exists (i, f); auto|exact C|exact M].
Qed.

Lemma plf_is_at : forall p x y, plf_is p x y <-> exists f, plf_at p x = Some f /\ fn_is f (dval x) y.
Proof.
  intros p x y. unfold plf_is, plf_eval. split.
  - intros (v & E & H). destruct (plf_at p x) as [f|]; [|discriminate]. exists f. split; [reflexivity|].
    exists v. split; [congruence|exact H].
  - intros (f & -> & v & -> & H). exists v. auto.
Qed.

Lemma plf_is_dom : forall p x y, finite x -> plf_is p x y -> in_dom p x.
Proof.
  intros p x y F H. apply plf_is_at in H. destruct H as (f & E & _).
  apply plf_at_in in E; [|exact F]. destruct E as (i & I & M). exists i. split; [|exact M].
  apply in_map_iff. exists (i, f). auto.
Qed.

(** ** Pointwise operations *)

Lemma plf_map_spec : forall op p r, plf_map op p = Ok r ->
  Forall2 (fun s t : cs * fn => fst t = fst s /\ op (snd s) = Ok (snd t)) p r.
Proof.
  intros op. unfold plf_map. induction p as [|[i f] p IH]; cbn [mapM bind]; intros r H.
  - injection H as <-. constructor.
  - cbn [snd fst] in H. destruct (op f) as [g|e] eqn:E; cbn [bind] in H; [|discriminate].
    destruct (mapM _ p) as [l|e] eqn:E'; cbn [bind] in H; [|discriminate]. injection H as <-.
    constructor; [cbn; auto|]. apply IH. reflexivity.
Qed.

Lemma plf_map_ok : forall op p, Forall (fun s : cs * fn => exists g, op (snd s) = Ok g) p -> exists r, plf_map op p = Ok r.
Proof.
  intros op p H. unfold plf_map. induction H as [|[i f] p (g & E) H (r & IH)]; cbn [mapM bind]; [eauto|].
  cbn [snd fst] in *. rewrite E. cbn [bind]. rewrite IH. cbn [bind]. eauto.
Qed.

Lemma plf_map_at : forall op p r x, Forall2 (fun s t : cs * fn => fst t = fst s /\ op (snd s) = Ok (snd t)) p r ->
  match plf_at p x with
  | None => plf_at r x = None
  | Some f => exists g, plf_at r x = Some g /\ op f = Ok g
  end.
Proof.
  intros op p r x H. induction H as [|[i f] [j g] p r [Ei Eo] H IH]; cbn [plf_at]; [reflexivity|].
  cbn [fst snd] in *. subst j. destruct (piece_has i x); [eauto|exact IH].
Qed.

Lemma plf_map_ivs : forall op p r, plf_map op p = Ok r -> ivs r = ivs p.
Proof.
  intros op p r H. apply plf_map_spec in H. induction H as [|s t p r [E _] H IH]; cbn; [reflexivity|].
  unfold ivs in *. rewrite E, IH. reflexivity.
Qed.

Lemma plf_add_fn_spec : forall p g r x a b, plf_add_fn p g = Ok r -> plf_is p x a -> fn_is g (dval x) b ->
  plf_is r x (a + b).
Proof.
  intros p g r x a b E Ha Hb. apply plf_is_at in Ha. destruct Ha as (f & Ef & Hf).
  pose proof (plf_map_at _ _ _ x (plf_map_spec _ _ _ E)) as K. rewrite Ef in K. destruct K as (h & Eh & Eo).
  apply plf_is_at. exists h. split; [exact Eh|]. exact (op_add_spec _ _ _ _ _ _ Eo Hf Hb).
Qed.

Lemma plf_mul_fn_spec : forall p g r x a b, plf_mul_fn p g = Ok r -> plf_is p x a -> fn_is g (dval x) b ->
  plf_is r x (a * b).
Proof.
  intros p g r x a b E Ha Hb. apply plf_is_at in Ha. destruct Ha as (f & Ef & Hf).
  pose proof (plf_map_at _ _ _ x (plf_map_spec _ _ _ E)) as K. rewrite Ef in K. destruct K as (h & Eh & Eo).
  apply plf_is_at. exists h. split; [exact Eh|]. exact (op_mul_spec _ _ _ _ _ _ Eo Hf Hb).
Qed.

Lemma plf_add_fn_ok : forall p g, affines p -> affine g -> exists r, plf_add_fn p g = Ok r /\ affines r.
Proof.
  intros p g H G. destruct (plf_map_ok (fun f => op_add f g) p) as [r E].
  - apply (Forall_impl _ (P := fun s : cs * fn => affine (snd s))); [|exact H]. intros s A.
    destruct (op_add_affine (snd s) g A G) as (h & E & _). eauto.
  - exists r. split; [exact E|]. apply plf_map_spec in E. unfold affines in *. revert H.
    induction E as [|s t p r [_ E] _ IH]; intro H; constructor; inversion H; subst.
    + destruct (op_add_affine (snd s) g) as (h & Eh & A); [assumption..|]. rewrite E in Eh. injection Eh as ->. exact A.
    + apply IH. assumption.
Qed.

Lemma plf_mul_fn_ok : forall p g, affines p -> affine g -> exists r, plf_mul_fn p g = Ok r.
Proof.
  intros p g H G. apply plf_map_ok. apply (Forall_impl _ (P := fun s : cs * fn => affine (snd s))); [|exact H].
  intros s A. apply op_mul_affine_ok; assumption.
Qed.

Lemma stretch_eval : forall alpha f x y, affine f -> fn_is f x y -> fn_is (fn_stretch alpha f) x (y * alpha).
Proof.
  intros alpha [|v|m c|? ? ?] x y A (w & E & H); cbn in A; try contradiction; cbn [fn_stretch fn_eval] in *;
    injection E as <-; eexists; (split; [reflexivity|]); rewrite <- H; ring.
Qed.

Lemma plf_stretch_at : forall p alpha x, plf_at (plf_stretch p alpha) x = option_map (fn_stretch alpha) (plf_at p x).
Proof.
  intros p alpha x. induction p as [|[i f] p IH]; [reflexivity|]. cbn [plf_stretch map plf_at fst snd].
  destruct (piece_has i x); [reflexivity|exact IH].
Qed.

Lemma plf_at_affine : forall p x f, affines p -> plf_at p x = Some f -> affine f.
Proof.
  intros p x f H. induction H as [|[i g] p A H IH]; cbn [plf_at]; [discriminate|].
  destruct (piece_has i x); [|exact IH]. intro E. injection E as <-. exact A.
Qed.

Lemma plf_stretch_spec : forall p alpha x y, affines p -> plf_is p x y -> plf_is (plf_stretch p alpha) x (y * alpha).
Proof.
  intros p alpha x y A H. apply plf_is_at in H. destruct H as (f & E & H). apply plf_is_at.
  exists (fn_stretch alpha f). rewrite plf_stretch_at, E. split; [reflexivity|].
  apply stretch_eval; [exact (plf_at_affine _ _ _ A E)|exact H].
Qed.

(** ** Mirroring *)

Lemma mapM_length : forall {A B} (f : A -> res B) l r, mapM f l = Ok r -> length r = length l.
Proof.
  intros A B f. induction l as [|a l IH]; cbn; intros r H; [injection H as <-; reflexivity|].
  destruct (f a) as [b|]; cbn in H; [|discriminate]. destruct (mapM f l) as [m|] eqn:E; cbn in H; [|discriminate].
  injection H as <-. cbn. f_equal. apply IH. reflexivity.
Qed.

Lemma mapM_Forall2 : forall {A B} (f : A -> res B) l r, mapM f l = Ok r -> Forall2 (fun a b => f a = Ok b) l r.
Proof.
  intros A B f. induction l as [|a l IH]; cbn; intros r H; [injection H as <-; constructor|].
  destruct (f a) as [b|] eqn:E; cbn in H; [|discriminate]. destruct (mapM f l) as [m|] eqn:E'; cbn in H; [|discriminate].
  injection H as <-. constructor; [exact E|]. apply IH. reflexivity.
Qed.

Lemma mapM_ok_all : forall {A B} (f : A -> res B) l, (forall a, In a l -> exists b, f a = Ok b) -> exists r, mapM f l = Ok r.
Proof.
  intros A B f. induction l as [|a l IH]; intros H; cbn; [eauto|].
  destruct (H a) as [b E]; [left; reflexivity|]. rewrite E. cbn.
  destruct IH as [r E']; [intros x I; apply H; right; exact I|]. rewrite E'. cbn. eauto.
Qed.

Definition mirror_ends (i : cs) : cs := cs_ends i (Some (if isfinite (lower i) then INC else EXC)) (Some EXC).

Lemma combine_rev_map : forall {A B} (g : A -> A) (l : list A) (m : list B), length l = length m ->
  combine (map g (rev l)) (rev m) = rev (combine (map g l) m).
Proof.
  intros A B g. induction l as [|a l IH]; intros [|b m] H; cbn in *; try discriminate; [reflexivity|].
  rewrite map_app. cbn [map]. rewrite <- IH by lia.
  assert (L : length (map g (rev l)) = length (rev m)) by (rewrite map_length, !rev_length; lia).
  revert L. generalize (map g (rev l)) (rev m). intros u. induction u as [|x u IHu]; intros [|y w] L; cbn in *; try discriminate; [reflexivity|].
  f_equal. apply IHu. lia.
Qed.

Lemma xmirror_wf : forall s, wf s -> wf (cs_xmirror s).
Proof.
  intros s (A & B & C & D & E & F & G). unfold wf, cs_xmirror, moderate in *. cbn [lower upper left right].
  rewrite !Z.abs_opp. split; [lia|]. split; [exact C|]. split; [exact B|]. split; [lia|]. split; [lia|].
  split; intro H; [apply G; lia|apply F; lia].
Qed.

(** The result of mirroring: the mirrored pieces in reverse order. *)
Lemma xmirror_shape : forall p r, plf_xmirror p = Ok r ->
  exists fs, mapM fn_xmirror (map snd p) = Ok fs
    /\ r = rev (combine (map (fun i => mirror_ends (cs_xmirror i)) (ivs p)) fs).
Proof.
  intros p r H. unfold plf_xmirror in H. destruct (mapM fn_xmirror (map snd p)) as [fs|] eqn:E; cbn [bind] in H; [|discriminate].
  exists fs. split; [reflexivity|]. injection H as <-. unfold rs_xmirror.
  rewrite (combine_rev_map mirror_ends).
  - rewrite map_map. reflexivity.
  - rewrite map_length. apply mapM_length in E. rewrite map_length in E. unfold ivs. rewrite map_length. symmetry. exact E.
Qed.

Lemma mirror_in : forall p fs i f, Forall2 (fun a b => fn_xmirror a = Ok b) (map snd p) fs -> In (i, f) p ->
  exists g, fn_xmirror f = Ok g /\ In (mirror_ends (cs_xmirror i), g) (combine (map (fun i => mirror_ends (cs_xmirror i)) (ivs p)) fs).
Proof.
  induction p as [|[j h] p IH]; intros fs i f H I; [destruct I|]. cbn [map snd ivs fst] in *. inversion H as [|? g ? fs' E H']; subst.
  destruct I as [[= -> ->]|I].
  - exists g. split; [exact E|]. left. reflexivity.
  - destruct (IH fs' i f H' I) as (g' & E' & I'). exists g'. split; [exact E'|]. right. exact I'.
Qed.

Lemma mirror_in_inv : forall p fs j g, Forall2 (fun a b => fn_xmirror a = Ok b) (map snd p) fs ->
  In (j, g) (combine (map (fun i => mirror_ends (cs_xmirror i)) (ivs p)) fs) ->
  exists i f, In (i, f) p /\ j = mirror_ends (cs_xmirror i) /\ fn_xmirror f = Ok g.
Proof.
  induction p as [|[i h] p IH]; intros fs j g H I; [destruct I|]. cbn [map snd ivs fst] in *. inversion H as [|? g' ? fs' E H']; subst.
  destruct I as [[= <- <-]|I].
  - exists i, h. split; [left; reflexivity|]. auto.
  - destruct (IH fs' j g H' I) as (i' & f' & I' & K). exists i', f'. split; [right; exact I'|exact K].
Qed.

Lemma mirror_ends_mem : forall i x, wf i -> cs_mem x (mirror_ends (cs_xmirror i)) <-> cs_mem (- x) i.
Proof.
  intros i x W. unfold mirror_ends. rewrite ends_mem by (apply xmirror_wf; exact W). apply xmirror_mem.
Qed.

Lemma finite_opp : forall x, finite x <-> finite (- x).
Proof. intro x. unfold finite. lia. Qed.

Lemma xmirror_fn_spec : forall f g, fn_xmirror f = Ok g -> forall x y, fn_is f (- x) y <-> fn_is g x y.
Proof.
  intros f g E x y. unfold fn_is. destruct f; cbn [fn_xmirror] in E; try discriminate; injection E as <-; cbn [fn_eval];
    split; intros (w & [= <-] & H); eexists; (split; [reflexivity|]); rewrite <- H; ring.
Qed.

Lemma combine_fst : forall {A B} (l : list A) (m : list B), length l = length m -> map fst (combine l m) = l.
Proof. induction l as [|a l IH]; intros [|b m] H; cbn in *; try discriminate; [reflexivity|]. f_equal. apply IH. lia. Qed.

Lemma ascending_mirror : forall (l : list cs), Forall wf l -> ascending l ->
  ascending (rev (map (fun i => mirror_ends (cs_xmirror i)) l)).
Proof.
  intros l W A. revert W. induction A as [|a l Fa A IH]; intro W; cbn; [constructor|]. inversion W; subst.
  apply FOP_app; [apply IH; assumption|constructor; constructor|].
  intros u b Iu [<-|[]]. apply in_rev, in_map_iff in Iu. destruct Iu as (s & <- & Is).
  rewrite Forall_forall in Fa, H2. intros x y X Y.
  apply (mirror_ends_mem s x (H2 s Is)) in X. apply (mirror_ends_mem a y H1) in Y.
  specialize (Fa s Is _ _ Y X). lia.
Qed.

Lemma plf_xmirror_spec : forall p r, Forall wf (ivs p) -> ascending (ivs p) -> plf_xmirror p = Ok r ->
  forall x y, finite x -> plf_is r x y <-> plf_is p (- x) y.
Proof.
  intros p r W A E x y F. destruct (xmirror_shape p r E) as (fs & Efs & ->). apply mapM_Forall2 in Efs.
  assert (L : length (ivs p) = length fs).
  { clear -Efs. unfold ivs. revert fs Efs. induction p as [|s p IH]; intros fs H; inversion H; subst; cbn; [reflexivity|].
    f_equal. apply IH. assumption. }
  rewrite !plf_is_at. split.
  - intros (g & Eg & Hg). apply plf_at_in in Eg; [|exact F]. destruct Eg as (j & I & M). apply in_rev in I.
    destruct (mirror_in_inv _ _ _ _ Efs I) as (i & f & Ii & -> & Ef). exists f. split.
    + apply (plf_at_unique p (- x) i f); [apply finite_opp in F; exact F|exact A|exact Ii|].
      apply (mirror_ends_mem i x); [|exact M]. rewrite Forall_forall in W. apply W. apply in_map_iff. exists (i, f). auto.
    + apply (fn_is_wd f (- dval x) (dval (- x)) y y); [symmetry; apply dval_opp|reflexivity|].
      apply (xmirror_fn_spec f g Ef). exact Hg.
  - intros (f & Ef & Hf). apply plf_at_in in Ef; [|apply finite_opp in F; exact F]. destruct Ef as (i & I & M).
    destruct (mirror_in _ _ _ _ Efs I) as (g & Eg & Ig). exists g. split.
    + apply (plf_at_unique _ x (mirror_ends (cs_xmirror i)) g); [exact F| |apply -> in_rev; exact Ig|].
      * unfold ivs. rewrite map_rev, combine_fst by (rewrite map_length; exact L). apply ascending_mirror; assumption.
      * apply (mirror_ends_mem i x); [|exact M]. rewrite Forall_forall in W. apply W. apply in_map_iff. exists (i, f). auto.
    + apply (xmirror_fn_spec f g Eg). apply (fn_is_wd f (dval (- x)) (- dval x) y y); [apply dval_opp|reflexivity|exact Hf].
Qed.

Lemma plf_xmirror_ok : forall p, affines p -> exists r, plf_xmirror p = Ok r.
Proof.
  intros p H. unfold plf_xmirror. destruct (mapM_ok_all fn_xmirror (map snd p)) as [fs E].
  - intros f I. apply in_map_iff in I. destruct I as (s & <- & I). unfold affines in H. rewrite Forall_forall in H.
    specialize (H s I). destruct (snd s); cbn in *; try contradiction; eauto.
  - rewrite E. cbn [bind]. eauto.
Qed.

(** ** Shifting *)

Section Shift.
  (** [sub b d]: the double [b - d]; exact on the bounds used. *)
  Variable sub : Z -> Z -> Z.
  Variable delta : Z.

  Definition shifted (i : cs) : cs :=
    CS (shift_bound sub (lower i) delta) (shift_bound sub (upper i) delta) (left i) (right i).

  Lemma isfinite_spec : forall b, isfinite b = true <-> finite b.
  Proof. intro b. unfold isfinite, finite. rewrite Z.ltb_lt. lia. Qed.

  Lemma shift_lt : forall b x y, exact_at sub delta b -> finite x -> finite y -> - ORD_INF <= b <= ORD_INF ->
    (dval y == dval x + dval delta)%Q ->
    (shift_bound sub b delta < x <-> b < y) /\ (x < shift_bound sub b delta <-> y < b).
  Proof.
    intros b x y Ex Fx Fy R H. unfold shift_bound. destruct (isfinite b) eqn:E.
    - apply isfinite_spec in E. destruct (Ex E) as [Fs Es]. rewrite <- !dval_lt_iff, Es. split; split; intro; lra.
    - assert (N : ~ finite b) by (intro K; apply isfinite_spec in K; congruence). unfold finite in *. lia.
  Qed.

  Lemma shifted_mem : forall i x y, exact_at sub delta (lower i) -> exact_at sub delta (upper i) -> wf i ->
    finite x -> finite y -> (dval y == dval x + dval delta)%Q -> cs_mem x (shifted i) <-> cs_mem y i.
  Proof.
    intros i x y El Eu (W1 & _ & _ & W2 & W3 & _) Fx Fy H.
    assert (Rl : - ORD_INF <= lower i <= ORD_INF \/ lower i < - ORD_INF) by lia.
    assert (Ru : - ORD_INF <= upper i <= ORD_INF \/ ORD_INF < upper i) by lia.
    unfold cs_mem, shifted. cbn [lower upper left right].
    assert (L : (match left i with INC => shift_bound sub (lower i) delta <= x | EXC => shift_bound sub (lower i) delta < x end)
               <-> (match left i with INC => lower i <= y | EXC => lower i < y end)).
    { destruct Rl as [Rl|Rl].
      - destruct (shift_lt (lower i) x y El Fx Fy Rl H) as [A B]. destruct (left i); [|exact A]. lia.
      - unfold shift_bound, isfinite. destruct (Z.ltb_spec (Z.abs (lower i)) ORD_INF); [lia|]. unfold finite in *.
        destruct (left i); lia. }
    assert (U : (match right i with INC => x <= shift_bound sub (upper i) delta | EXC => x < shift_bound sub (upper i) delta end)
               <-> (match right i with INC => y <= upper i | EXC => y < upper i end)).
    { destruct Ru as [Ru|Ru].
      - destruct (shift_lt (upper i) x y Eu Fx Fy Ru H) as [A B]. destruct (right i); [|exact B]. lia.
      - unfold shift_bound, isfinite. destruct (Z.ltb_spec (Z.abs (upper i)) ORD_INF); [lia|]. unfold finite in *.
        destruct (right i); lia. }
    tauto.
  Qed.

  Lemma xshift_fn_spec : forall f g d, fn_xshift f d = Ok g -> forall x y, fn_is f (x + d) y <-> fn_is g x y.
  Proof.
    intros f g d E x y. unfold fn_is. destruct f; cbn [fn_xshift] in E; try discriminate; injection E as <-; cbn [fn_eval];
      split; intros (w & Ew & H); try discriminate; injection Ew as <-; eexists; (split; [reflexivity|]); rewrite <- H; ring.
  Qed.

  Lemma plf_xshift_spec : forall p r, plf_xshift sub p delta = Ok r -> Forall wf (ivs p) ->
    Forall (fun i => exact_at sub delta (lower i) /\ exact_at sub delta (upper i)) (ivs p) ->
    forall x x' y, finite x -> finite x' -> (dval x' == dval x + dval delta)%Q -> plf_is r x y <-> plf_is p x' y.
  Proof.
    intros p r E W Ex x x' y Fx Fx' H. rewrite !plf_is_at.
    assert (K : match plf_at p x' with
                | None => plf_at r x = None
                | Some f => exists g, plf_at r x = Some g /\ fn_xshift f (dval delta) = Ok g
                end).
    { unfold plf_xshift in E. apply mapM_Forall2 in E. revert W Ex.
      induction E as [|[i f] [j g] p r Es E IH]; intros W Ex; [reflexivity|].
      cbn [fst snd] in Es. destruct (fn_xshift f (dval delta)) as [g'|] eqn:Eg; cbn [bind] in Es; [|discriminate].
      injection Es as <- <-. unfold ivs in *. cbn [map fst] in W, Ex. inversion W; subst. inversion Ex; subst.
      rewrite !plf_at_cons by assumption. fold (shifted i).
      assert (M : cs_contains_value (shifted i) x = cs_contains_value i x').
      { pose proof (contains_value_spec (shifted i) x Fx). pose proof (contains_value_spec i x' Fx').
        pose proof (shifted_mem i x x' (proj1 H4) (proj2 H4) H2 Fx Fx' H).
        destruct (cs_contains_value (shifted i) x), (cs_contains_value i x'); try reflexivity; exfalso;
          [assert (false = true) by tauto|assert (false = true) by tauto]; discriminate. }
      rewrite M. destruct (cs_contains_value i x'); [eauto|]. apply IH; assumption. }
    destruct (plf_at p x') as [f|].
    - destruct K as (g & -> & Eg). split.
      + intros (h & [= <-] & Hh). exists f. split; [reflexivity|].
        apply (fn_is_wd f (dval x + dval delta) (dval x') y y); [symmetry; exact H|reflexivity|].
        apply (xshift_fn_spec f g (dval delta) Eg). exact Hh.
      + intros (h & [= <-] & Hh). exists g. split; [reflexivity|].
        apply (xshift_fn_spec f g (dval delta) Eg). apply (fn_is_wd f (dval x') (dval x + dval delta) y y); [exact H|reflexivity|exact Hh].
    - rewrite K. split; intros (h & D & _); discriminate.
  Qed.
End Shift.

(** ** Cropping *)

Lemma plf_crop_spec : forall p c r, Forall wf (ivs p) -> wf c -> plf_crop p c = Ok r ->
  (forall x y, finite x -> cs_mem x c -> plf_is r x y <-> plf_is p x y)
  /\ (forall x, finite x -> in_dom r x <-> in_dom p x /\ cs_mem x c).
Proof.
  intros p c r W Wc. revert r. induction p as [|[i f] p IH]; cbn [plf_crop]; intros r E.
  - injection E as <-. split; [tauto|]. intros x F. unfold in_dom. cbn. split; [intro H; destruct (rs_mem_nil _ H)|intros [H _]; destruct (rs_mem_nil _ H)].
  - cbn [ivs map fst] in W. inversion W as [|? ? Wi W']; subst. specialize (IH W'). destruct (cs_intersects i c) eqn:X.
    + destruct (cs_intersection_lr i c (Some INC) (Some EXC)) as [u|] eqn:Eu; cbn [bind] in E; [|discriminate].
      destruct (plf_crop p c) as [r'|] eqn:Er; cbn [bind] in E; [|discriminate]. injection E as <-.
      destruct (IH r' eq_refl) as [I1 I2]. pose proof (intersection_lr_mem i c _ _ u Wi Wc Eu) as M. split.
      * intros x y F Mc. rewrite !plf_is_at, !plf_at_cons by assumption.
        assert (B : cs_contains_value u x = cs_contains_value i x).
        { pose proof (contains_value_spec u x F). pose proof (contains_value_spec i x F). specialize (M x).
          destruct (cs_contains_value u x), (cs_contains_value i x); try reflexivity; exfalso;
            assert (false = true) by tauto; discriminate. }
        rewrite B. destruct (cs_contains_value i x); [tauto|]. rewrite <- !plf_is_at. apply I1; assumption.
      * intros x F. unfold in_dom in *. cbn [ivs map fst]. rewrite !rs_mem_cons, (M x), (I2 x F). tauto.
    + destruct (IH r E) as [I1 I2].
      assert (D : forall x, cs_mem x i -> cs_mem x c -> False).
      { intros x A B. rewrite (intersects_complete i c Wi Wc) in X; [discriminate|]. exists x. auto. }
      split.
      * intros x y F Mc. rewrite (I1 x y F Mc). rewrite !plf_is_at, plf_at_cons by assumption.
        destruct (cs_contains_value i x) eqn:B; [|tauto]. exfalso. apply contains_value_spec in B; [|exact F]. exact (D x B Mc).
      * intros x F. unfold in_dom in *. cbn [ivs map fst]. rewrite rs_mem_cons, (I2 x F). split; [tauto|].
        intros [[A|A] B]; [destruct (D x A B)|auto].
Qed.

Lemma plf_crop_ok : forall p c, Forall wf (ivs p) -> wf c -> exists r, plf_crop p c = Ok r.
Proof.
  intros p c W Wc. induction p as [|[i f] p IH]; cbn [plf_crop]; [eauto|]. cbn [ivs map fst] in W. inversion W; subst.
  destruct (IH H2) as [r E]. destruct (cs_intersects i c); [|eauto].
  destruct (cs_intersection_lr_ok i c (Some INC) (Some EXC)) as [u Eu]; [apply H1|apply Wc|]. rewrite Eu. cbn [bind].
  rewrite E. cbn [bind]. eauto.
Qed.

(** ** Splitting *)

Lemma plf_split_spec : forall p s l u, Forall wf (ivs p) -> ascending (ivs p) -> finite s -> plf_split p s = Ok (l, u) ->
  (forall x y, finite x -> x < s -> plf_is l x y <-> plf_is p x y)
  /\ (forall x y, finite x -> s <= x -> plf_is u x y <-> plf_is p x y)
  /\ (forall x, finite x -> in_dom l x <-> in_dom p x /\ x < s)
  /\ (forall x, finite x -> in_dom u x <-> in_dom p x /\ s <= x).
Proof.
  induction p as [|[i f] p IH]; intros s l u W A F E; cbn [plf_split] in E; [discriminate|].
  cbn [ivs map fst] in W, A. inversion W as [|? ? Wi W']; subst. inversion A as [|? ? Fa A']; subst.
  destruct (cs_contains_value i s) eqn:C.
  - assert (E1 : l = [(CS (lower i) s (left i) EXC, f)]) by congruence.
    assert (E2 : u = (CS s (upper i) INC (right i), f) :: p) by congruence. clear E. subst l u.
    pose proof C as C'. apply contains_value_spec in C'; [|exact F].
    assert (Aft : forall x, rs_mem x (ivs p) -> s < x).
    { intros x (j & Ij & Mj). rewrite Forall_forall in Fa. exact (Fa j Ij s x C' Mj). }
    assert (M1 : forall x, cs_mem x (CS (lower i) s (left i) EXC) <-> cs_mem x i /\ x < s).
    { intro x. unfold cs_mem in *. cbn [lower upper left right]. destruct C' as (_ & C1 & C2).
      destruct (left i), (right i); intuition lia. }
    assert (M2 : forall x, cs_mem x (CS s (upper i) INC (right i)) <-> cs_mem x i /\ s <= x).
    { intro x. unfold cs_mem in *. cbn [lower upper left right]. destruct C' as (_ & C1 & C2).
      destruct (left i), (right i); intuition lia. }
    split; [|split; [|split]].
    + intros x y H L. split.
      * rewrite !plf_is_at. intros (g & Eg & Hg). rewrite plf_at_cons in * by assumption. exists g. split; [|exact Hg].
      destruct (cs_contains_value (CS (lower i) s (left i) EXC) x) eqn:B; [|discriminate].
      apply contains_value_spec in B; [|assumption]. apply M1 in B. rewrite (proj2 (contains_value_spec i x H) (proj1 B)). exact Eg.
      * rewrite !plf_is_at. intros (g & Eg & Hg). rewrite plf_at_cons in * by assumption. exists g. split; [|exact Hg].
      destruct (cs_contains_value i x) eqn:B.
        -- apply contains_value_spec in B; [|assumption]. rewrite (proj2 (contains_value_spec _ x H)); [exact Eg|]. apply M1. auto.
        -- exfalso. apply plf_at_in in Eg; [|assumption]. destruct Eg as (j & Ij & Mj).
           assert (s < x) by (apply Aft; exists j; split; [apply in_map_iff; exists (j, g); auto|exact Mj]). lia.
    + intros x y H L. split.
      * rewrite !plf_is_at. intros (g & Eg & Hg). rewrite plf_at_cons in * by assumption. exists g. split; [|exact Hg].
      destruct (cs_contains_value (CS s (upper i) INC (right i)) x) eqn:B.
        -- apply contains_value_spec in B; [|assumption]. apply M2 in B. rewrite (proj2 (contains_value_spec i x H) (proj1 B)). exact Eg.
        -- destruct (cs_contains_value i x) eqn:B'; [|exact Eg]. exfalso. apply contains_value_spec in B'; [|assumption].
        rewrite (proj2 (contains_value_spec _ x H)) in B; [discriminate|]. apply M2. auto.
      * rewrite !plf_is_at. intros (g & Eg & Hg). rewrite plf_at_cons in * by assumption. exists g. split; [|exact Hg].
      destruct (cs_contains_value i x) eqn:B'.
        -- apply contains_value_spec in B'; [|assumption]. rewrite (proj2 (contains_value_spec _ x H)); [exact Eg|]. apply M2. auto.
        -- destruct (cs_contains_value (CS s (upper i) INC (right i)) x) eqn:B; [|exact Eg]. exfalso.
        apply contains_value_spec in B; [|assumption]. apply M2 in B. rewrite (proj2 (contains_value_spec i x H) (proj1 B)) in B'. discriminate.
    + intros x Fx. unfold in_dom. cbn [ivs map fst]. rewrite !rs_mem_cons, (M1 x). pose proof (rs_mem_nil x). pose proof (Aft x).
      split; [tauto|]. intros [[B|B] L]; [tauto|]. specialize (H0 B). lia.
    + intros x Fx. unfold in_dom. cbn [ivs map fst]. rewrite !rs_mem_cons, (M2 x). pose proof (Aft x).
      split; [|tauto]. intros [B|B]; [tauto|]. specialize (H B). split; [tauto|lia].
  - destruct (plf_split p s) as [[l' u']|] eqn:E'; cbn [bind] in E; [|discriminate]. cbn [fst snd] in E. injection E as <- <-.
    destruct (IH s l' u' W' A' F E') as (I1 & I2 & I3 & I4).
    assert (Sin : rs_mem s (ivs p)).
    { clear -E' F. revert l' u' E'. induction p as [|[j g] p IHp]; intros l' u' E'; cbn [plf_split] in E'; [discriminate|].
      apply rs_mem_cons. destruct (cs_contains_value j s) eqn:C; [left; apply contains_value_spec; assumption|].
      right. destruct (plf_split p s) as [[a b]|] eqn:E''; cbn [bind] in E'; [|discriminate]. exact (IHp a b eq_refl). }
    assert (Bef : forall x, cs_mem x i -> x < s).
    { intros x Mx. destruct Sin as (j & Ij & Mj). rewrite Forall_forall in Fa. exact (Fa j Ij x s Mx Mj). }
    split; [|split; [|split]].
    + intros x y Fx L. rewrite !plf_is_at, !plf_at_cons by assumption. destruct (cs_contains_value i x); [tauto|].
      rewrite <- !plf_is_at. apply I1; assumption.
    + intros x y Fx L. rewrite (I2 x y Fx L). rewrite !plf_is_at, !plf_at_cons by assumption.
      destruct (cs_contains_value i x) eqn:B; [|tauto]. apply contains_value_spec in B; [|exact Fx]. apply Bef in B. lia.
    + intros x Fx. unfold in_dom in *. cbn [ivs map fst]. rewrite !rs_mem_cons, (I3 x Fx). pose proof (Bef x). tauto.
    + intros x Fx. unfold in_dom in *. cbn [ivs map fst]. rewrite !rs_mem_cons, (I4 x Fx). pose proof (Bef x).
      split; [tauto|]. intros [[B|B] L]; [specialize (H B); lia|auto].
Qed.
