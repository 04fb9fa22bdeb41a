(** Mixtures of continuous distributions, of points and of fitted distributions. *)
Require Import ZArith QArith Qabs Lqa Bool List Arith Lia Sorted Permutation.
Require Import Verif.Base Verif.FloatLine Verif.FloatVal Verif.IntervalModel Verif.IntervalSpec Verif.IntervalProofs
  Verif.NumBase Verif.UtilModel Verif.FunctionModel Verif.FunctionSpec
  Verif.FunctionProofs Verif.FunctionPlf Verif.FunctionInt Verif.NumericModel Verif.NumericSpec Verif.NumericFit Verif.NumericProb Verif.NumericMerge Verif.NumericMix.
Import ListNotations.
Open Scope Z_scope.

(** ** Continuity *)
Lemma height_lin : forall f q, height f q = lin f q.
Proof. intros [|v|m c|? ? ?] q; reflexivity. Qed.
Lemma fn_height : forall f q y, affine f -> fn_is f q y -> (y == height f q)%Q.
Proof. intros f q y A H. rewrite height_lin. exact (fn_is_unique _ _ _ _ H (fn_lin f q A)). Qed.

Lemma tiling_cons : forall i f j g r, tiling ((i, f) :: (j, g) :: r) <->
  lower i < upper i /\ upper i = lower j /\ (exists y, fn_is f (dval (upper i)) y /\ fn_is g (dval (upper i)) y) /\ tiling ((j, g) :: r).
Proof. intros. reflexivity. Qed.

Lemma tiling_steps : forall p x, tiling p -> affines p -> (steps p x == 0)%Q.
Proof.
  induction p as [|[i f] p IH]; intros x T A; [reflexivity|]. destruct p as [|[j g] p]; [reflexivity|]. apply tiling_cons in T.
  destruct T as (_ & _ & (y & F & G) & T). specialize (IH x T (Forall_inv_tail A)). cbn [steps] in *. rewrite IH.
  pose proof (Forall_inv A) as Af. pose proof (Forall_inv (Forall_inv_tail A)) as Ag. cbn [snd] in *.
  pose proof (fn_height f _ y Af F). pose proof (fn_height g _ y Ag G). clear IH. destruct (upper i <=? x); lra.
Qed.

Lemma tiling_snoc : forall p i f j g, tiling (p ++ [(i, f)]) -> upper i = lower j -> lower j < upper j ->
  (exists y, fn_is f (dval (upper i)) y /\ fn_is g (dval (upper i)) y) -> tiling (p ++ [(i, f); (j, g)]).
Proof.
  induction p as [|[k h] p IH]; intros i f j g T E L M; cbn [app] in *.
  - repeat split; try assumption.
  - destruct p as [|[k2 h2] p]; cbn [app] in *; apply tiling_cons in T; destruct T as (T1 & T2 & T3 & T4); apply tiling_cons; (repeat (split; [assumption|])); apply (IH i f j g T4 E L M).
Qed.

Lemma smooth_tiling : forall p a b, chain a p b -> affines p -> smooth (rev p) -> tiling p.
Proof.
  intros p. induction p as [|s p IH] using rev_ind; intros a b C A S; [exact I|].
  rewrite rev_app_distr in S. cbn [rev app] in S. destruct s as [j g]. apply Forall_app in A. destruct A as (A & Ag).
  apply chain_app_inv in C. destruct C as (u & C & Cj).
  assert (Lj : lower j = u /\ u < upper j). { destruct Cj as (E & L & _). rewrite E. cbn [lower]. auto. }
  destruct p as [|s p _] using rev_ind.
  - cbn. lia.
  - destruct s as [i f]. rewrite rev_app_distr in S. cbn [rev app] in S. cbn [smooth] in S. destruct S as (S1 & S2).
    assert (T : tiling (p ++ [(i, f)])). { apply (IH a u C A). rewrite rev_app_distr. exact S2. }
    rewrite <- app_assoc. cbn [app].
    assert (U : upper i = lower j). { apply chain_app_inv in C. destruct C as (w & _ & Ci). destruct Ci as (_ & _ & Ci). cbn in Ci. lia. }
    apply tiling_snoc; try assumption; [lia|]. apply Forall_app in A. destruct A as (_ & Af). pose proof (Forall_inv Af) as Af'. pose proof (Forall_inv Ag) as Ag'. cbn [snd] in *.
    exists (lin f (dval (upper i))). split; [apply fn_lin; exact Af'|]. apply (fn_is_wd g (dval (upper i)) (dval (upper i)) (lin g (dval (upper i)))); [reflexivity| |apply fn_lin; exact Ag'].
    rewrite U, S1. reflexivity.
Qed.

Lemma tiling_flat : forall p s t, tiling p -> Forall (fun s : cs * fn => exists v, snd s = FConst v) p -> In s p -> In t p -> forall u v, snd s = FConst u -> snd t = FConst v -> (u == v)%Q.
Proof.
  assert (H : forall p i f, tiling ((i, f) :: p) -> Forall (fun s : cs * fn => exists v, snd s = FConst v) ((i, f) :: p) -> forall u, f = FConst u ->
    forall t v, In t ((i, f) :: p) -> snd t = FConst v -> (u == v)%Q).
  { induction p as [|[j g] p IH]; intros i f T F u -> t v I E.
    - destruct I as [<-|[]]. cbn in E. injection E as ->. reflexivity.
    - apply tiling_cons in T. destruct T as (_ & _ & (y & (y1 & Y1 & Z1) & (y2 & Y2 & Z2)) & T). destruct I as [<-|I]; [cbn in E; injection E as ->; reflexivity|].
      destruct (Forall_inv (Forall_inv_tail F)) as (w & W). cbn in W. subst g. cbn in Y1, Y2. injection Y1 as <-. injection Y2 as <-.
      transitivity w; [lra|]. eapply (IH j (FConst w) T (Forall_inv_tail F) w eq_refl t v); assumption. }
  intros p s t T F Is It u v Es Et. destruct p as [|[i f] p]; [destruct Is|]. destruct (Forall_inv F) as (w & W). cbn in W.
  pose proof (H p i f T F w W s u Is Es). pose proof (H p i f T F w W t v It Et). lra.
Qed.

(** ** Mixtures *)
Lemma mixture_le : forall ws ys zs, Forall (fun w => 0 <= w)%Q ws -> Forall2 Qle ys zs -> (mixture ws ys <= mixture ws zs)%Q.
Proof.
  unfold mixture. induction ws as [|w ws IH]; intros ys zs N L; [cbn; lra|]. destruct L as [|y z ys zs Lyz L]; [cbn; lra|]. cbn [combine map Qsum fst snd].
  specialize (IH ys zs (Forall_inv_tail N) L). pose proof (Forall_inv N). assert (w * y <= w * z)%Q by (rewrite !(Qmult_comm w); apply Qmult_le_compat_r; assumption). lra.
Qed.
Lemma mixture_ones : forall ws ys, length ws = length ys -> Forall (fun y => y == 1)%Q ys -> (mixture ws ys == Qsum ws)%Q.
Proof.
  unfold mixture. induction ws as [|w ws IH]; intros [|y ys] L F; cbn in L; try discriminate; cbn [combine map Qsum fst snd]; [lra|].
  rewrite (IH ys) by (lia || exact (Forall_inv_tail F)). rewrite (Forall_inv F). lra.
Qed.
Lemma mixture_zeros : forall ws ys, Forall (fun y => y == 0)%Q ys -> (mixture ws ys == 0)%Q.
Proof.
  unfold mixture. induction ws as [|w ws IH]; intros [|y ys] F; cbn [combine map Qsum fst snd]; try lra.
  rewrite (IH ys (Forall_inv_tail F)), (Forall_inv F). lra.
Qed.
Lemma mixture_nonneg : forall ws ys, Forall (fun w => 0 <= w)%Q ws -> Forall (fun y => 0 <= y)%Q ys -> (0 <= mixture ws ys)%Q.
Proof.
  unfold mixture. induction ws as [|w ws IH]; intros [|y ys] N F; cbn [combine map Qsum fst snd]; try lra.
  specialize (IH ys (Forall_inv_tail N) (Forall_inv_tail F)). pose proof (Qmult_le_0_compat _ _ (Forall_inv N) (Forall_inv F)). lra.
Qed.
Lemma mixture_le_sum : forall ws ys, Forall (fun w => 0 <= w)%Q ws -> Forall (fun y => y <= 1)%Q ys -> (mixture ws ys <= Qsum ws)%Q.
Proof.
  unfold mixture. induction ws as [|w ws IH]; intros [|y ys] N F; cbn [combine map Qsum fst snd]; try lra.
  - pose proof (Qsum_nonneg _ (Forall_inv_tail N)). pose proof (Forall_inv N). cbn in *. lra.
  - specialize (IH ys (Forall_inv_tail N) (Forall_inv_tail F)). pose proof (Forall_inv N). assert (w * y <= w * 1)%Q by (rewrite !(Qmult_comm w); apply Qmult_le_compat_r; [exact (Forall_inv F)|assumption]). lra.
Qed.

Lemma component_top : forall p, component p -> plf_is p (ORD_INF - 1) 1.
Proof.
  intros p [(x0 & (F1 & F2) & ->)|S].
  - apply (pc_right _ _ _ (dirac_proper x0 (conj F1 F2))); unfold finite in *; lia.
  - destruct (sp_proper p S) as (lo & hi & (F1 & F2) & P). apply (pc_right _ _ _ P); unfold finite; lia.
Qed.
Lemma component_mono : forall p x x' y y', component p -> finite x -> finite x' -> x <= x' -> plf_is p x y -> plf_is p x' y' -> (y <= y')%Q.
Proof.
  intros p x x' y y' [(x0 & F0 & ->)|S] F F' L H H'.
  - exact (pc_mono _ _ _ (dirac_proper x0 F0) x x' y y' F F' L H H').
  - destruct (sp_proper p S) as (lo & hi & _ & P). exact (pc_mono _ _ _ P x x' y y' F F' L H H').
Qed.

Lemma dws_of : forall ds ws, Forall component ds -> Forall (fun w => 0 <= w)%Q ws -> dws_ok (combine ds ws).
Proof.
  intros ds ws C N. unfold dws_ok. apply Forall_forall. intros [p w] I. pose proof (in_combine_l _ _ _ _ I) as I1. pose proof (in_combine_r _ _ _ _ I) as I2.
  rewrite Forall_forall in C, N. cbn [fst snd]. split; [exact (C _ I1)|exact (N _ I2)].
Qed.

(** What merging yields in general. *)
Theorem merge_general : forall ds ws, length ds = length ws -> Forall component ds -> Forall (fun w => 0 <= w)%Q ws ->
  (Qabs (Qsum ws - 1) <= tiny)%Q -> grained ds ws ->
  exists q last, merge_cdf ds ws = Ok q /\ merged_as (events (combine ds ws)) (Forall (fun p : plf => length p <> 2%nat) ds) last q
    /\ (forall x ys, finite x -> x < last -> Forall2 (fun p y => plf_is p x y) ds ys -> plf_is q x (mixture ws ys - mixture ws (map (fun p => lost p x) ds)))
    /\ (forall x, finite x -> last <= x -> plf_is q x 1).
Proof.
  intros ds ws L C N S G. destruct (merge_events ds ws L C N S G) as (q & last & E & M). exists q, last. split; [exact E|]. split; [exact M|]. split; [|exact (ma_after _ _ _ _ M)].
  intros x ys F Lx Y. apply (plf_is_wd q x (eval (events (combine ds ws)) x)); [|exact (ma_before _ _ _ _ M x F Lx)].
  exact (proj1 (events_value ds ws x ys L (dws_of ds ws C N) C F Y)).
Qed.

(** Where merging ends. *)
Lemma jump_add_from : forall x w js j, In j (jump_add x w js) -> (0 < snd j)%Q -> (0 <= w)%Q ->
  (exists j', In j' js /\ fst j' = fst j /\ (0 < snd j')%Q) \/ (fst j = x /\ (0 < w)%Q).
Proof.
  intros x w js j. induction js as [|[y v] js IH]; cbn [jump_add]; intros I P W.
  - destruct I as [<-|[]]. right. auto.
  - destruct (y =? x) eqn:E.
    + apply Z.eqb_eq in E. destruct I as [<-|I]; [|left; exists j; split; [right; exact I|auto]]. cbn [fst snd] in *.
      destruct (Qlt_le_dec 0 v) as [V|V]; [left; exists (y, v); split; [left; reflexivity|auto]|right; split; [exact E|lra]].
    + destruct I as [<-|I]; [left; exists (y, v); split; [left; reflexivity|auto]|]. destruct (IH I P W) as [(j' & I' & H)|H]; [left; exists j'; split; [right; exact I'|exact H]|right; exact H].
Qed.
Lemma jump_add_to : forall x w js, Forall (fun j : Z * Q => (0 <= snd j)%Q) js -> (0 < w)%Q -> exists j, In j (jump_add x w js) /\ fst j = x /\ (0 < snd j)%Q.
Proof.
  intros x w js F W. induction F as [|[y v] js V F (j & I & J)]; cbn [jump_add]; [exists (x, w); split; [left; reflexivity|auto]|].
  destruct (y =? x) eqn:E; [apply Z.eqb_eq in E; exists (y, (v + w)%Q); split; [left; reflexivity|split; [exact E|cbn in *; lra]]|exists j; split; [right; exact I|exact J]].
Qed.
Lemma jump_add_stays : forall x w js y, (0 <= w)%Q -> (exists j, In j js /\ fst j = y /\ (0 < snd j)%Q) -> exists j, In j (jump_add x w js) /\ fst j = y /\ (0 < snd j)%Q.
Proof.
  intros x w js y W. induction js as [|[z v] js IH]; intros (j & I & J & P); [destruct I|]. cbn [jump_add]. destruct I as [<-|I].
  - destruct (z =? x); eexists; (split; [left; reflexivity|]); cbn in *; split; try assumption; lra.
  - destruct (z =? x); [exists j; split; [right; exact I|auto]|]. destruct IH as (k & Ik & K); [eauto|]. exists k. split; [right; exact Ik|exact K].
Qed.
Lemma jumps_from : forall dws js, dws_ok dws -> Forall (fun j : Z * Q => (0 <= snd j)%Q) js -> forall x,
  (exists j, In j (fold_left (fun js dw => match fst dw with [(i, _); _] => jump_add (upper i) (snd dw) js | _ => js end) dws js) /\ fst j = x /\ (0 < snd j)%Q) <->
  (exists j, In j js /\ fst j = x /\ (0 < snd j)%Q) \/ (exists w, In (dirac x, w) dws /\ (0 < w)%Q).
Proof.
  induction dws as [|[p w] dws IH]; intros js O F x; cbn [fold_left fst snd].
  - split; [intro H; left; exact H|]. intros [H|(w & [] & _)]. exact H.
  - pose proof (Forall_inv O) as (Cp & W). pose proof (Forall_inv_tail O) as O'. cbn [fst snd] in *. destruct Cp as [(x0 & F0 & ->)|S].
    + cbn [upper]. rewrite IH; [|exact O'|].
      * split.
        { intros [(j & I & E & P)|(w' & I & P)]; [|right; exists w'; split; [right; exact I|exact P]].
          destruct (jump_add_from _ _ _ _ I P W) as [(j' & I' & E' & P')|(E' & P')]; [left; exists j'; split; [exact I'|split; [congruence|exact P']]|].
          right. exists w. split; [left|exact P']. rewrite <- E, E'. reflexivity. }
        { intros [H|(w' & [E|I] & P)].
          - left. apply jump_add_stays; assumption.
          - left. unfold dirac in E. injection E; intros; subst. apply jump_add_to; assumption.
          - right. exists w'. auto. }
      * apply Forall_forall. intros j I. clear - F W I. revert j I. induction js as [|[y v] js IHj]; cbn [jump_add]; intros j I; [destruct I as [<-|[]]; exact W|].
        pose proof (Forall_inv F) as V. cbn [snd] in V. destruct (y =? x0); destruct I as [<-|I]; try (cbn [snd]; lra); [|exact (IHj (Forall_inv_tail F) j I)].
        rewrite Forall_forall in F. apply F. right. exact I.
    + pose proof (sp_len p S) as Ln. assert (E : match p with [(i, _); _] => jump_add (upper i) w js | _ => js end = js) by (destruct p as [|[? ?] [|? [|? ?]]]; cbn in Ln; try lia; reflexivity).
      rewrite E. rewrite IH by assumption. split; intros [H|(w' & I & P)]; [left; exact H|right; exists w'; split; [right; exact I|exact P]|left; exact H|].
      destruct I as [I|I]; [|right; exists w'; auto]. injection I as -> _. cbn in Ln. lia.
Qed.
Lemma merge_finish : forall ds ws NJ la q, dws_ok (combine ds ws) -> merged_as (events (combine ds ws)) NJ la q -> finish_of ds ws la.
Proof.
  intros ds ws NJ la q O M. set (dws := combine ds ws) in *.
  assert (Pe : forall e, In e (events dws) -> In e ((map low_ev (pieces_of lower dws) ++ map low_ev (jump_entries dws)) ++ map up_ev (pieces_of upper dws))) by (intros e; apply Permutation_in; apply events_perm).
  assert (Pe' : forall e, In e ((map low_ev (pieces_of lower dws) ++ map low_ev (jump_entries dws)) ++ map up_ev (pieces_of upper dws)) -> In e (events dws)) by (intros e; apply Permutation_in; symmetry; apply events_perm).
  assert (Up : forall p w i m c, In (p, w) dws -> (0 < w)%Q -> In (i, FLin m c) p -> upper i <= la).
  { intros p w i m c I W Ii. apply (ma_all _ _ _ _ M (up_ev (upper i, (KFn (FLin m c), w)))). apply Pe'. apply in_or_app. right. apply in_map. apply in_pieces_conv with (p := p); auto. }
  assert (Jm : forall x w, In (dirac x, w) dws -> (0 < w)%Q -> x <= la).
  { intros x w I W. destruct (proj2 (jumps_from dws [] O (Forall_nil _) x)) as (j & Ij & E & P); [right; exists w; auto|].
    rewrite <- E. apply (ma_all _ _ _ _ M (low_ev (fst j, (KJump, snd j)))). apply Pe'. apply in_or_app. left. apply in_or_app. right. apply in_map. unfold jump_entries. apply in_map_iff. exists j. split; [reflexivity|].
    apply filter_In. split; [exact Ij|]. unfold Qltb. destruct (Qltb_spec 0 (snd j)); [reflexivity|contradiction]. }
  split.
  - destruct (ma_some _ _ _ _ M) as (e & I & E). apply Pe in I. apply in_app_or in I. destruct I as [I|I]; [apply in_app_or in I; destruct I as [I|I]|].
    + exfalso. apply in_map_iff in I. destruct I as (e' & <- & I). destruct (in_pieces _ _ _ I) as (p & w & i & f & Id & W & Ii & C & ->). cbn [fst low_ev] in E.
      pose proof O as O'. unfold dws_ok in O'. rewrite Forall_forall in O'. destruct (O' _ Id) as (Cp & _). cbn [fst] in Cp. destruct (component_piece p i f Cp Ii C) as (_ & _ & _ & L).
      assert (A : affine f). { destruct Cp as [(x0 & _ & ->)|S]; [destruct Ii as [X|[X|[]]]; injection X as _ <-; cbn; auto|]. pose proof (sp_affine p S) as A. unfold affines in A. rewrite Forall_forall in A. exact (A _ Ii). }
      destruct f as [|v|m c|? ? ?]; try discriminate C; try contradiction. pose proof (Up _ _ _ _ _ Id W Ii). lia.
    + apply in_map_iff in I. destruct I as (e' & <- & I). unfold jump_entries in I. apply in_map_iff in I. destruct I as (j & <- & I). apply filter_In in I. destruct I as (I & P). cbn [fst low_ev] in E.
      unfold Qltb in P. destruct (Qltb_spec 0 (snd j)) as [Vp|]; [|discriminate]. destruct (proj1 (jumps_from dws [] O (Forall_nil _) (fst j))) as [(j' & [] & _)|(w & Iw & W)]; [exists j; auto|].
      exists (dirac (fst j)), w. split; [exact Iw|]. split; [exact W|]. left. rewrite E. reflexivity.
    + apply in_map_iff in I. destruct I as (e' & <- & I). destruct (in_pieces _ _ _ I) as (p & w & i & f & Id & W & Ii & C & ->). cbn [fst up_ev] in E.
      pose proof O as O'. unfold dws_ok in O'. rewrite Forall_forall in O'. destruct (O' _ Id) as (Cp & _). cbn [fst] in Cp.
      assert (A : affine f). { destruct Cp as [(x0 & _ & ->)|S]; [destruct Ii as [X|[X|[]]]; injection X as _ <-; cbn; auto|]. pose proof (sp_affine p S) as A. unfold affines in A. rewrite Forall_forall in A. exact (A _ Ii). }
      destruct f as [|v|m c|? ? ?]; try discriminate C; try contradiction. exists p, w. split; [exact Id|]. split; [exact W|]. right. exists i, m, c. auto.
  - intros p w y I W [->|(i & m & c & Ii & <-)]; [apply (Jm y w I W)|eapply Up; eassumption].
Qed.

Lemma seamless_component : forall p, seamless p -> component p.
Proof. intros p [H|(H & _)]; [left|right]; exact H. Qed.
Lemma seamless_lost : forall p x, seamless p -> (lost p x == 0)%Q.
Proof.
  intros p x [(x0 & _ & ->)|(S & T)]; [reflexivity|]. pose proof (tiling_steps p x T (sp_affine p S)) as H. unfold lost. destruct p as [|? [|? [|? ?]]]; try exact H; reflexivity.
Qed.

Lemma total_one : forall ds ws x ys, length ds = length ws -> Forall seamless ds -> Forall (fun w => 0 <= w)%Q ws -> (Qsum ws == 1)%Q ->
  finite x -> Forall2 (fun p y => plf_is p x y) ds ys -> (forall e, In e (events (combine ds ws)) -> fst e <= x) -> (mixture ws ys == 1)%Q /\ (cst (events (combine ds ws)) == 1)%Q.
Proof.
  intros ds ws x ys L Sm N S1 F Y All. assert (C : Forall component ds) by (eapply Forall_impl; [|exact Sm]; exact seamless_component).
  assert (Fi : finite (ORD_INF - 1)) by (unfold finite, ORD_INF; lia).
  assert (Lo : forall z, (mixture ws (map (fun p => lost p z) ds) == 0)%Q).
  { intro z. apply mixture_zeros. apply Forall_forall. intros v I. apply in_map_iff in I. destruct I as (p & <- & I). rewrite Forall_forall in Sm. apply seamless_lost, Sm, I. }
  assert (Y1 : Forall2 (fun p y => plf_is p (ORD_INF - 1) y) ds (map (fun _ => 1%Q) ds)).
  { clear - C. induction C; constructor; [apply component_top; assumption|assumption]. }
  destruct (events_value ds ws x ys L (dws_of ds ws C N) C F Y) as (V & _ & D). rewrite Lo in V.
  destruct (events_value ds ws _ _ L (dws_of ds ws C N) C Fi Y1) as (V1 & _ & _). rewrite Lo in V1.
  assert (All1 : Forall (fun e : ev => fst e <= x) (events (combine ds ws))) by (apply Forall_forall; exact All).
  assert (All2 : Forall (fun e : ev => fst e <= ORD_INF - 1) (events (combine ds ws))) by (eapply Forall_impl; [|exact All1]; cbn beta; intros e He; destruct F as (F1 & F2); lia).
  rewrite (eval_all _ _ All1), D in V. rewrite (eval_all _ _ All2), D in V1.
  assert (M1 : (mixture ws (map (fun _ => 1%Q) ds) == Qsum ws)%Q).
  { apply mixture_ones; [rewrite map_length; lia|]. apply Forall_forall. intros v I. apply in_map_iff in I. destruct I as (? & <- & _). reflexivity. }
  rewrite M1, S1 in V1. split; lra.
Qed.

(** Components without steps: the merged cdf is their mixture, and a cdf. *)
Theorem merge_seamless : forall ds ws, length ds = length ws -> Forall seamless ds -> Forall (fun w => 0 <= w)%Q ws ->
  (Qsum ws == 1)%Q -> grained ds ws ->
  exists q last, merge_cdf ds ws = Ok q
    /\ merged_as (events (combine ds ws)) (Forall (fun p : plf => length p <> 2%nat) ds) last q
    /\ (forall x ys, finite x -> Forall2 (fun p y => plf_is p x y) ds ys -> plf_is q x (mixture ws ys))
    /\ exists lo, proper_cdf q lo last.
Proof.
  intros ds ws L Sm N S1 G. assert (C : Forall component ds) by (eapply Forall_impl; [|exact Sm]; exact seamless_component).
  destruct (merge_general ds ws L C N) as (q & last & E & M & B & A); [rewrite S1; cbn; unfold tiny; lra|exact G|].
  assert (V : forall x ys, finite x -> Forall2 (fun p y => plf_is p x y) ds ys -> plf_is q x (mixture ws ys)).
  { intros x ys F Y. destruct (Z_lt_dec x last) as [Lx|Lx].
    - apply (plf_is_wd q x (mixture ws ys - mixture ws (map (fun p => lost p x) ds))); [|exact (B x ys F Lx Y)].
      rewrite (mixture_zeros ws (map (fun p => lost p x) ds)); [lra|]. apply Forall_forall. intros v I. apply in_map_iff in I. destruct I as (p & <- & I). rewrite Forall_forall in Sm. apply seamless_lost, Sm, I.
    - apply (plf_is_wd q x 1); [|apply A; [exact F|lia]]. symmetry.
      refine (proj1 (total_one ds ws x ys L Sm N S1 F Y _)). intros e I. pose proof (ma_all _ _ _ _ M e I). lia. }
  exists q, last. split; [exact E|]. split; [exact M|]. split; [exact V|].
  destruct (ma_first _ _ _ _ M) as (i & r & Eq & _). exists (upper i). constructor.
  - intros x F Lx. pose proof (ma_chain _ _ _ _ M) as Ch. rewrite Eq in Ch |- *. destruct F as (F1 & F2). apply (plf_is_of _ x (FConst 0)); [|exists 0%Q; split; reflexivity].
    apply (chain_head i (FConst 0) r (- ORD_INF) ORD_INF x Ch); unfold finite; lia.
  - exact A.
  - intros x F. destruct (values_ex ds x C F) as (ys & Y & R). exists (mixture ws ys). split; [exact (V x ys F Y)|]. split.
    + apply mixture_nonneg; [exact N|]. eapply Forall_impl; [|exact R]. cbn. intros; lra.
    + rewrite <- S1. apply mixture_le_sum; [exact N|]. eapply Forall_impl; [|exact R]. cbn. intros; lra.
  - intros x x' y y' F F' Lx H H'. destruct (values_ex ds x C F) as (ys & Y & _). destruct (values_ex ds x' C F') as (ys' & Y' & _).
    rewrite (plf_is_fun _ _ _ _ H (V x ys F Y)), (plf_is_fun _ _ _ _ H' (V x' ys' F' Y')). apply mixture_le; [exact N|].
    clear - C Y Y' F F' Lx. revert ys ys' Y Y'. induction C as [|p ds Cp C IH]; intros ys ys' Y Y'; inversion Y; inversion Y'; subst; constructor.
    + exact (component_mono p x x' _ _ Cp F F' Lx ltac:(eassumption) ltac:(eassumption)).
    + apply IH; assumption.
Qed.

(** Mixtures of continuous distributions are continuous. *)
Theorem merge_closed : forall ds ws, length ds = length ws -> Forall (fun p => spread_cdf p /\ tiling p) ds -> Forall (fun w => 0 <= w)%Q ws ->
  (Qsum ws == 1)%Q -> grained ds ws ->
  exists q, merge_cdf ds ws = Ok q /\ spread_cdf q /\ tiling q.
Proof.
  intros ds ws L Sm N S1 G. assert (Sm' : Forall seamless ds) by (eapply Forall_impl; [|exact Sm]; right; assumption).
  assert (C : Forall component ds) by (eapply Forall_impl; [|exact Sm']; exact seamless_component).
  destruct (merge_seamless ds ws L Sm' N S1 G) as (q & last & E & M & V & lo & P). exists q. split; [exact E|].
  assert (Nj : Forall (fun p : plf => length p <> 2%nat) ds).
  { eapply Forall_impl; [|exact Sm]. cbn. intros p (S & _) Q. pose proof (sp_len p S). lia. }
  destruct (values_ex ds last C (ma_fin _ _ _ _ M)) as (ys & Y & _).
  destruct (total_one ds ws last ys L Sm' N S1 (ma_fin _ _ _ _ M) Y (ma_all _ _ _ _ M)) as (_ & C1).
  destruct (events_value ds ws last ys L (dws_of ds ws C N) C (ma_fin _ _ _ _ M) Y) as (_ & _ & D0).
  pose proof (ma_smooth _ _ _ _ M Nj D0 C1) as Sq.
  pose proof (smooth_tiling q _ _ (ma_chain _ _ _ _ M) (ma_affine _ _ _ _ M) Sq) as T. split; [|exact T].
  destruct (ma_first _ _ _ _ M) as (i & r & Eq & Nr). destruct (ma_last _ _ _ _ M) as (r' & v & Eq' & V1).
  assert (Some : exists i m c, In (i, FLin m c) q).
  { assert (D : (exists i m c, In (i, FLin m c) q) \/ Forall (fun s : cs * fn => exists v, snd s = FConst v) q).
    { clear - M. pose proof (ma_affine _ _ _ _ M) as A. clear M. induction q as [|[k f] q IH]; [right; constructor|].
      destruct (IH (Forall_inv_tail A)) as [(j & m & c & I)|F]; [left; exists j, m, c; right; exact I|].
      pose proof (Forall_inv A) as Af. cbn in Af. destruct f as [|u|m c|? ? ?]; try contradiction; [right; constructor; [exists u; reflexivity|exact F]|left; exists k, m, c; left; reflexivity]. }
    destruct D as [D|D]; [exact D|]. exfalso.
    assert (0 == v)%Q; [|lra]. eapply (tiling_flat q (i, FConst 0) (CS last ORD_INF INC EXC, FConst v) T D); try reflexivity.
    - rewrite Eq. left. reflexivity.
    - rewrite Eq'. apply in_or_app. right. left. reflexivity. }
  constructor.
  - exact (ma_chain _ _ _ _ M).
  - exact (ma_affine _ _ _ _ M).
  - destruct Some as (j & m & c & I). destruct q as [|a [|b [|d q]]]; cbn [length]; try lia.
    + destruct I.
    + exfalso. injection Eq as -> Er. congruence.
    + exfalso. injection Eq as -> Er. destruct r' as [|x1 [|x2 r']]; cbn [app] in Eq'; try discriminate Eq'.
      * injection Eq' as _ Eb. subst b. destruct I as [I|[I|[]]]; discriminate I.
      * injection Eq' as _ _ Eb. destruct r'; discriminate Eb.
  - exists i, r. exact Eq.
  - apply Forall_forall. intros [j f] I. cbn [fst snd]. destruct f as [|u|m c|? ? ?]; try exact Logic.I.
    pose proof (ma_steep _ _ _ _ M) as St. rewrite Forall_forall in St. specialize (St _ I). unfold steep in St. cbn [snd] in St.
    destruct (chain_in _ _ _ _ _ (ma_chain _ _ _ _ M) I) as (Hb & Hu & _).
    assert (Lo : - ORD_INF < lower j).
    { pose proof (ma_chain _ _ _ _ M) as Ch. rewrite Eq in I, Ch. destruct I as [I|I]; [discriminate I|]. destruct Ch as (_ & Lt & Ch).
      destruct (chain_in _ _ _ _ _ Ch I) as (H & _). lia. }
    assert (Up : upper j < ORD_INF).
    { pose proof (ma_chain _ _ _ _ M) as Ch. rewrite Eq' in I, Ch. apply chain_app_inv in Ch. destruct Ch as (u & Ch & Cl). apply in_app_or in I. destruct I as [I|[I|[]]]; [|discriminate I].
      destruct (chain_in _ _ _ _ _ Ch I) as (_ & H & _). destruct Cl as (_ & Lt & Ec). cbn [upper] in *. lia. }
    unfold tiny, finite in *. repeat split; try lia. lra.
  - exact Some.
  - exists lo, last. split; [exact (ma_fin _ _ _ _ M)|exact P].
Qed.

(** ** Fitted distributions *)
Lemma fitted_spread : forall data p knots, fitted data p knots -> Forall finite data -> spread_cdf p.
Proof.
  intros data p knots F Fi. rewrite Forall_forall in Fi.
  assert (Fk : forall k, In k knots -> finite k) by (intros k I; apply Fi, (ft_data _ _ _ F), I).
  assert (Fl : finite (last knots 0)) by (apply Fi; apply (ft_largest _ _ _ F)).
  constructor.
  - exact (ft_chain _ _ _ F).
  - exact (ft_affine _ _ _ F).
  - destruct (ft_first _ _ _ F) as (i & r & -> & L). cbn [length]. lia.
  - destruct (ft_first _ _ _ F) as (i & r & E & L). eauto.
  - apply Forall_forall. intros [i f] I. cbn [fst snd]. destruct f as [|u|m c|? ? ?]; try exact Logic.I.
    destruct (ft_pieces _ _ _ F i _ I) as [(E & _)|[(P & K)|(E & _)]]; try discriminate E. cbn [steepness] in P. split; [exact P|]. split; [exact (Fk _ K)|].
    destruct (ft_seams _ _ _ F) as (i0 & r0 & j & h & k & Ep & _). pose proof (ft_chain _ _ _ F) as Ch. rewrite Ep in I, Ch.
    change ((i0, FConst 0) :: r0 ++ [(j, h); (k, FConst 1)]) with (((i0, FConst 0) :: r0) ++ [(j, h); (k, FConst 1)]) in I, Ch.
    replace (((i0, FConst 0) :: r0) ++ [(j, h); (k, FConst 1)]) with ((((i0, FConst 0) :: r0) ++ [(j, h)]) ++ [(k, FConst 1)]) in I, Ch by (rewrite <- app_assoc; reflexivity).
    apply chain_app_inv in Ch. destruct Ch as (u & Ch & Ck). apply in_app_or in I. destruct I as [I|[I|[]]]; [|discriminate I].
    destruct (chain_in _ _ _ _ _ Ch I) as (H1 & H2 & _). destruct Ck as (_ & Lk & Ek). cbn [chain] in Ek. destruct (Fk _ K). unfold finite. lia.
  - destruct (ft_wide _ _ _ F) as (i & f & I & P & _). pose proof (ft_affine _ _ _ F) as A. unfold affines in A. rewrite Forall_forall in A. specialize (A _ I). cbn in A.
    destruct f as [|u|m c|? ? ?]; try contradiction; [cbn in P; lra|]. eauto.
  - exists (hd 0 knots), (last knots 0). split; [exact Fl|exact (ft_proper _ _ _ F)].
Qed.

Lemma steps_cons : forall i f j g r x, (steps ((i, f) :: (j, g) :: r) x == (if upper i <=? x then height g (dval (upper i)) - height f (dval (upper i)) else 0) + steps ((j, g) :: r) x)%Q.
Proof. intros. reflexivity. Qed.
Lemma steps_snoc : forall r0 j h k g x, tiling (r0 ++ [(j, h)]) -> affines (r0 ++ [(j, h)]) ->
  (steps (r0 ++ [(j, h); (k, g)]) x == (if upper j <=? x then height g (dval (upper j)) - height h (dval (upper j)) else 0))%Q.
Proof.
  induction r0 as [|[i f] r0 IH]; intros j h k g x T A; cbn [app] in *.
  - rewrite steps_cons. cbn [steps]. lra.
  - specialize (IH j h k g x). destruct r0 as [|[i2 f2] r0]; cbn [app] in *; apply tiling_cons in T; destruct T as (_ & _ & (y & F & G) & T);
      rewrite steps_cons, (IH T (Forall_inv_tail A)); pose proof (Forall_inv A) as Af; pose proof (Forall_inv (Forall_inv_tail A)) as Ag; cbn [snd] in *;
      pose proof (fn_height _ _ _ Af F); pose proof (fn_height _ _ _ Ag G); destruct (upper i <=? x); destruct (upper j <=? x); lra.
Qed.

(** A fitted cdf makes a step where it starts, if the smallest value is repeated, and
    exceeds 1 within the last interval, by less than its slope times the distance of two
    neighbouring numbers. *)
Definition overshoot (h : fn) (last : Z) : Q := (steepness h * (dval (plus_eps last) - dval last))%Q.
Lemma fitted_lost : forall data p knots, fitted data p knots -> exists h, (exists j, In (j, h) p) /\ forall x,
  (lost p x == (if (hd 0 knots <=? x)%Z then quantile data (hd 0 knots)%Z else 0) - (if (plus_eps (last knots 0) <=? x)%Z then overshoot h (last knots 0)%Z else 0))%Q.
Proof.
  intros data p knots F. destruct (ft_seams _ _ _ F) as (i & r0 & j & h & k & Ep & T & Ah & Hh & Ui & Uj & Lk & i1 & f1 & r1 & Er & Hf).
  exists h. split; [exists j; rewrite Ep; right; apply in_or_app; right; left; reflexivity|]. intro x.
  pose proof (ft_affine _ _ _ F) as A. rewrite Ep in A. pose proof (Forall_inv_tail A) as A1.
  assert (A2 : affines (r0 ++ [(j, h)])).
  { replace (r0 ++ [(j, h); (k, FConst 1)]) with ((r0 ++ [(j, h)]) ++ [(k, FConst 1)]) in A1 by (rewrite <- app_assoc; reflexivity). apply Forall_app in A1. tauto. }
  assert (Lp : lost p x = steps p x).
  { rewrite Ep. destruct r0 as [|? [|? r0]]; reflexivity. }
  rewrite Lp, Ep. pose proof (steps_snoc r0 j h k (FConst 1) x T A2) as S.
  assert (E : r0 ++ [(j, h); (k, FConst 1)] = (i1, f1) :: r1 ++ [(k, FConst 1)]).
  { transitivity ((r0 ++ [(j, h)]) ++ [(k, FConst 1)]); [rewrite <- app_assoc; reflexivity|]. rewrite Er. reflexivity. }
  rewrite E in S |- *. rewrite steps_cons, S, Ui, Uj.
  assert (A3 : affine f1). { rewrite Er in A2. exact (Forall_inv A2). }
  pose proof (fn_height _ _ _ A3 Hf) as H1. pose proof (fn_height _ _ _ Ah Hh) as H2.
  assert (O : (height h (dval (plus_eps (last knots 0%Z))) == 1 + overshoot h (last knots 0%Z))%Q).
  { unfold overshoot. rewrite H2. unfold height. ring. }
  unfold height at 2 3. cbn [steepness]. destruct (hd 0 knots <=? x); destruct (plus_eps (last knots 0) <=? x); lra.
Qed.
