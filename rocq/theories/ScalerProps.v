(** Scaling numeric data (C33). *)
Require Import Reals List Lra Lia.
Require Import Verif.Base Verif.ScalerModel.
Import ListNotations.
Open Scope R_scope.

Lemma rsum_const : forall c l, (forall x, In x l -> x = c) -> rsum l = INR (length l) * c.
Proof.
  intros c. induction l as [|x l IH]; intro H; [cbn; lra|]. cbn [rsum fold_right length]. fold (rsum l). rewrite IH by (intros y I; apply H; right; exact I). rewrite (H x (or_introl eq_refl)), S_INR. ring.
Qed.
Lemma rsum_lin : forall a b l, rsum (map (fun x => a * x + b) l) = a * rsum l + INR (length l) * b.
Proof. intros a b. induction l as [|x l IH]; [cbn; lra|]. cbn [map rsum fold_right length]. fold (rsum l) (rsum (map (fun x => a * x + b) l)). rewrite IH, S_INR. ring. Qed.
Lemma rsum_nonneg : forall l, (forall x, In x l -> 0 <= x) -> 0 <= rsum l.
Proof. induction l as [|x l IH]; intro H; [cbn; lra|]. cbn [rsum fold_right]. fold (rsum l). pose proof (H x (or_introl eq_refl)). pose proof (IH (fun y I => H y (or_intror I))). lra. Qed.
Lemma rsum_zero : forall l, (forall x, In x l -> 0 <= x) -> rsum l = 0 -> forall x, In x l -> x = 0.
Proof.
  induction l as [|y l IH]; intros H E x I; [destruct I|]. cbn [rsum fold_right] in E. fold (rsum l) in E. pose proof (H y (or_introl eq_refl)). pose proof (rsum_nonneg l (fun z J => H z (or_intror J))).
  destruct I as [<-|I]; [lra|]. apply IH; [intros z J; apply H; right; exact J|lra|exact I].
Qed.
Lemma len_pos : forall (l : list R), l <> [] -> 0 < INR (length l).
Proof. intros [|x l] H; [contradiction|]. apply lt_0_INR. cbn [length]. lia. Qed.
Lemma rvar_nonneg : forall l, l <> [] -> 0 <= rvar l.
Proof.
  intros l H. unfold rvar, rmean at 1. rewrite map_length. apply Rmult_le_pos.
  - apply rsum_nonneg. intros y I. apply in_map_iff in I. destruct I as (x & <- & _). apply (Rle_0_sqr (x - rmean l)).
  - left. apply Rinv_0_lt_compat. apply len_pos. exact H.
Qed.
Lemma rvar_zero : forall l, l <> [] -> (rvar l = 0 <-> exists c, forall x, In x l -> x = c).
Proof.
  intros l H. pose proof (len_pos l H) as P. split.
  - intro E. exists (rmean l). intros x I. unfold rvar, rmean at 1 in E. rewrite map_length in E.
    assert (Z : rsum (map (fun x => (x - rmean l) * (x - rmean l)) l) = 0).
    { apply (Rmult_eq_reg_r (/ INR (length l))); [|apply Rinv_neq_0_compat; lra]. unfold Rdiv in E. rewrite E. ring. }
    assert (S : (x - rmean l) * (x - rmean l) = 0).
    { refine (rsum_zero _ _ Z _ (in_map (fun x => (x - rmean l) * (x - rmean l)) l x I)). intros y J. apply in_map_iff in J. destruct J as (z & <- & _). apply (Rle_0_sqr (z - rmean l)). }
    apply Rmult_integral in S. lra.
  - intros (c & C). assert (M : rmean l = c). { unfold rmean. rewrite (rsum_const c l C). field. lra. }
    unfold rvar, rmean at 1. rewrite map_length, (rsum_const 0). { field. lra. }
    intros y I. apply in_map_iff in I. destruct I as (x & <- & I). rewrite M, (C x I). ring.
Qed.
Lemma scale_pos : forall l, 0 < s_scale (ds_fit l).
Proof.
  intros [|x l]; [cbn; lra|]. cbn [ds_fit s_scale]. destruct (Req_EM_T (rstd (x :: l)) 0) as [E|E]; [lra|]. pose proof (sqrt_pos (rvar (x :: l))). unfold rstd in *. lra.
Qed.
Lemma mean_fin : forall l, l <> [] -> s_mean (ds_fit l) = Fin (rmean l).
Proof. intros [|x l] H; [contradiction|reflexivity]. Qed.

(** Whatever the data, scaling never divides by zero: the scale is positive, and 1 for a constant
    column. *)
Theorem C33_scale : forall l, 0 < s_scale (ds_fit l) /\ ((exists c, forall x, In x l -> x = c) -> s_scale (ds_fit l) = 1).
Proof.
  intro l. split; [apply scale_pos|]. intros C. destruct l as [|x l]; [reflexivity|]. cbn [ds_fit s_scale]. destruct (Req_EM_T (rstd (x :: l)) 0) as [E|E]; [reflexivity|]. exfalso. apply E. unfold rstd. rewrite (proj2 (rvar_zero (x :: l) ltac:(discriminate)) C). apply sqrt_0.
Qed.
(** Transforming and transforming back, in either order, gives back every number, for a scaler
    fitted to any data. *)
Theorem C33_round_trip : forall l x, l <> [] -> let s := ds_fit l in
  (exists y, ds_transform s (Fin x) = Ok (Fin y) /\ ds_inverse s (Fin y) = Ok (Fin x)) /\
  (exists y, ds_inverse s (Fin x) = Ok (Fin y) /\ ds_transform s (Fin y) = Ok (Fin x)).
Proof.
  intros l x H s. pose proof (scale_pos l) as P. pose proof (mean_fin l H) as M. fold s in P, M. unfold ds_transform, ds_inverse. rewrite M. split; eexists; (split; [reflexivity|]); f_equal; f_equal; field; lra.
Qed.
(** The two dictionaries of a numeric type: each inverts the other on numbers and infinities. *)
Theorem C33_proxy_round_trip : forall l x inverse, l <> [] -> x <> NaN -> x <> PyNone ->
  exists y, proxy_getitem (ds_fit l) inverse x = Ok y /\ proxy_getitem (ds_fit l) (negb inverse) y = Ok x.
Proof.
  intros l x inverse H N1 N2. destruct x as [x| | | |]; try contradiction; try (eexists; split; reflexivity).
  destruct (C33_round_trip l x H) as ((y & E1 & E2) & (z & E3 & E4)). destruct inverse; cbn [proxy_getitem negb]; [exists (Fin z)|exists (Fin y)]; split; assumption.
Qed.
(** Missing values are mapped to 0, the mean of the transformed data; infinities stay. *)
Theorem C33_special : forall s inverse,
  proxy_getitem s inverse PyNone = Ok (Fin 0) /\ proxy_getitem s inverse NaN = Ok (Fin 0) /\
  proxy_getitem s inverse PInf = Ok PInf /\ proxy_getitem s inverse NInf = Ok NInf /\ ds_getitem s PInf = Ok PInf /\ ds_getitem s NInf = Ok NInf.
Proof. intros. repeat split. Qed.
(** The transformed data have mean 0, and standard deviation 1 unless all values are equal, in
    which case they are all 0. *)
Theorem C33_standardised : forall l, l <> [] -> exists t, mapM (fun x => ds_transform (ds_fit l) (Fin x)) l = Ok (map Fin t) /\
  rmean t = 0 /\ ((exists c, forall x, In x l -> x = c) -> forall y, In y t -> y = 0) /\ (~ (exists c, forall x, In x l -> x = c) -> rstd t = 1).
Proof.
  intros l H. pose proof (scale_pos l) as P. pose proof (mean_fin l H) as M. set (c := s_scale (ds_fit l)) in *. set (m := rmean l) in *. pose proof (len_pos l H) as L.
  exists (map (fun x => (x - m) / c) l).
  assert (Mt : rmean (map (fun x => (x - m) / c) l) = 0).
  { unfold rmean. rewrite map_length. replace (map (fun x => (x - m) / c) l) with (map (fun x => / c * x + - (m / c)) l) by (apply map_ext; intro x; field; lra).
    rewrite rsum_lin. replace (rsum l) with (INR (length l) * m) by (unfold m, rmean; field; lra). field. lra. }
  split; [|split; [exact Mt|split]].
  - assert (K : forall xs, mapM (fun x => ds_transform (ds_fit l) (Fin x)) xs = Ok (map Fin (map (fun x => (x - m) / c) xs))).
    { induction xs as [|x xs IH]; [reflexivity|]. cbn [mapM map]. unfold ds_transform at 1. rewrite M. cbn [bind]. rewrite IH. reflexivity. }
    apply K.
  - intros (k & K) y I. apply in_map_iff in I. destruct I as (x & <- & I). assert (E : m = k). { unfold m, rmean. rewrite (rsum_const k l K). field. lra. }
    rewrite (K x I), E. field. lra.
  - intro NC. assert (V : rvar l <> 0) by (intro E; apply NC; apply (rvar_zero l H); exact E). pose proof (rvar_nonneg l H) as V0.
    assert (Cs : c = rstd l). { unfold c. destruct l as [|x l']; [contradiction|]. cbn [ds_fit s_scale]. destruct (Req_EM_T (rstd (x :: l')) 0) as [E|E]; [|reflexivity]. exfalso. apply V. unfold rstd in E. apply sqrt_eq_0 in E; assumption. }
    unfold rstd. replace (rvar (map (fun x => (x - m) / c) l)) with 1; [apply sqrt_1|].
    unfold rvar. rewrite Mt, map_map. transitivity (rmean (map (fun x => / (c * c) * x) (map (fun x => (x - m) * (x - m)) l))).
    + unfold rmean at 1. rewrite !map_length. replace (rsum (map (fun x => / (c * c) * x) (map (fun x => (x - m) * (x - m)) l))) with (/ (c * c) * rsum (map (fun x => (x - m) * (x - m)) l)).
      * assert (R : rsum (map (fun x => (x - m) * (x - m)) l) = INR (length l) * rvar l). { unfold rvar, rmean at 1. rewrite map_length. fold m. field. lra. }
        rewrite R. assert (CC : c * c = rvar l) by (rewrite Cs; apply sqrt_sqrt; exact V0). rewrite CC. field. split; [lra|]. lra.
      * rewrite <- (Rplus_0_r (/ (c * c) * rsum _)). replace 0 with (INR (length (map (fun x => (x - m) * (x - m)) l)) * 0) at 1 by ring. rewrite <- rsum_lin. f_equal. apply map_ext. intro. ring.
    + rewrite map_map. f_equal. apply map_ext. intro x. field. lra.
Qed.
(** Scaling keeps the order. *)
Theorem C33_monotone : forall l x y, l <> [] -> x < y -> exists x' y', ds_transform (ds_fit l) (Fin x) = Ok (Fin x') /\ ds_transform (ds_fit l) (Fin y) = Ok (Fin y') /\ x' < y'.
Proof.
  intros l x y H L. unfold ds_transform. rewrite (mean_fin l H). eexists. eexists. split; [reflexivity|]. split; [reflexivity|]. apply Rmult_lt_compat_r; [apply Rinv_0_lt_compat; apply scale_pos|lra].
Qed.
(** A numeric type is created from any finite data, and not if a value is missing or infinite. *)
Theorem C33_numeric_type : forall l,
  (forall xs, l = map Fin xs -> numeric_type l = Ok (ds_fit xs)) /\ ((forall xs, l <> map Fin xs) -> numeric_type l = Err ValueError).
Proof.
  intro l. unfold numeric_type. split.
  - intros xs ->. assert (E : finite_values (map Fin xs) = Some xs) by (induction xs as [|x xs IH]; [reflexivity|]; cbn [map finite_values]; rewrite IH; reflexivity). rewrite E. reflexivity.
  - intro N. destruct (finite_values l) as [xs|] eqn:E; [|reflexivity]. exfalso. apply (N xs). clear N. revert xs E. induction l as [|[x| | | |] l IH]; intros xs E; try discriminate E; [injection E as <-; reflexivity|].
    cbn [finite_values] in E. destruct (finite_values l) as [ys|]; [|discriminate E]. injection E as <-. cbn [map]. rewrite (IH ys eq_refl). reflexivity.
Qed.
Theorem C33_json : forall s, ds_from_json (ds_to_json s) = Ok s.
Proof. intros [m c]. reflexivity. Qed.
(** Without any data the scaler turns every number into NaN. *)
Theorem C33_empty_refuted : exists s, numeric_type [] = Ok s /\ forall x, proxy_getitem s false (Fin x) = Ok NaN.
Proof. eexists. split; reflexivity. Qed.

Example C33_instance : [1; 3] <> [] /\ rmean [1; 3] = 2 /\ ~ (exists c, forall x, In x [1; 3] -> x = c).
Proof.
  split; [discriminate|]. split; [unfold rmean; cbn; lra|]. intros (c & H). pose proof (H 1 (or_introl eq_refl)). pose proof (H 3 (or_intror (or_introl eq_refl))). lra.
Qed.
Print Assumptions C33_scale.
Print Assumptions C33_round_trip.
Print Assumptions C33_proxy_round_trip.
Print Assumptions C33_special.
Print Assumptions C33_standardised.
Print Assumptions C33_monotone.
Print Assumptions C33_numeric_type.
Print Assumptions C33_json.
Print Assumptions C33_empty_refuted.
