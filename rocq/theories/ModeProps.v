(** Modes of numeric distributions: the most probable states. *)
Require Import ZArith QArith Qabs Lqa Bool List Arith Lia Sorted.
Require Import Verif.Base Verif.FloatLine Verif.FloatVal Verif.IntervalModel Verif.IntervalSpec Verif.IntervalProofs Verif.IntervalDec
  Verif.RealSetProofs Verif.RealSetOps Verif.NumBase Verif.UtilModel Verif.FunctionModel Verif.FunctionSpec
  Verif.FunctionProofs Verif.FunctionPlf Verif.NumericModel Verif.NumericSpec Verif.NumericFit Verif.NumericProb
  Verif.NumericMix Verif.NumericClose Verif.NumericExample Verif.NumericProps Verif.NumericProps4 Verif.NumericMoment Verif.MomentProps.
Import ListNotations.
Open Scope Q_scope.

(** ** Specification *)

(** [S] holds exactly the doubles of density [v], of which there is one. *)
Definition level_set (p : plf) (S : nset) (v : Q) : Prop :=
  0 < v /\ (forall x, ns_mem x S <-> finite x /\ density p x == v) /\ exists x, ns_mem x S.
(** Entries in the order of their densities, the largest first. *)
Definition falling (l : list (nset * dens)) : Prop := StronglySorted (fun a b => dens_leb (snd b) (snd a) = true) l.
(** The bounds of the pieces on which the cdf rises are moderate, no two of them are
    neighbouring doubles. *)
Definition climbs (s : cs * fn) : bool := match snd s with FLin _ _ => true | _ => false end.
Definition tame (p : plf) : Prop :=
  Forall (fun x => (Z.abs x < ORD_53)%Z) (all_bounds (map fst (filter climbs p))) /\ spaced (all_bounds (map fst (filter climbs p))).

(** ** Pieces *)

Lemma chain_piece : forall p a b i f, chain a p b -> In (i, f) p -> forall x, cs_mem x i <-> finite x /\ (lower i <= x < upper i)%Z.
Proof.
  induction p as [|[j g] p IH]; intros a b i f C I x; [destruct I|]. destruct C as (E & L & C). destruct I as [I|I]; [|exact (IH _ _ _ _ C I x)].
  injection I as <- <-. rewrite E. unfold cs_mem, finite. cbn [lower upper left right]. pose proof ord_facts.
  destruct (Z.eqb_spec a (- ORD_INF)); lia.
Qed.
Lemma chain_ascending : forall p a b, chain a p b -> (- ORD_INF <= a)%Z -> IntervalSpec.ascending (map fst p).
Proof.
  induction p as [|[i f] p IH]; intros a b C A; [constructor|]. destruct C as (E & L & C). cbn [map fst]. constructor.
  - apply Forall_forall. intros j J x y X Y. apply in_map_iff in J. destruct J as ([j' g] & <- & J). cbn [fst] in *.
    assert (C' : chain a ((i, f) :: p) b) by (repeat split; assumption).
    apply (chain_piece _ _ _ _ _ C' (or_introl eq_refl)) in X. apply (chain_piece _ _ _ _ _ C J) in Y.
    pose proof (chain_in _ _ _ _ _ C J) as (B & _). lia.
  - apply (IH _ _ C). lia.
Qed.
Lemma filter_ascending : forall (h : cs * fn -> bool) p, IntervalSpec.ascending (map fst p) -> IntervalSpec.ascending (map fst (filter h p)).
Proof.
  intros h. induction p as [|s p IH]; intro A; [constructor|]. cbn [map] in A. inversion A as [|? ? A1 A2]. subst. cbn [filter].
  destruct (h s); [|apply IH, A2]. cbn [map]. constructor; [|apply IH, A2].
  rewrite Forall_forall in *. intros j J. apply A1. apply in_map_iff in J. destruct J as (s' & <- & J). apply in_map. apply filter_In in J. tauto.
Qed.

Lemma density_piece : forall p i f x, spread_cdf p -> In (i, f) p -> cs_mem x i -> density p x = steepness f.
Proof.
  intros p i f x Sp I M. apply (chain_piece _ _ _ _ _ (sp_chain p Sp) I) in M. destruct M as [F L]. unfold density.
  rewrite (chain_at p _ _ i f x (sp_chain p Sp)); try assumption; try lia. reflexivity.
Qed.
Lemma piece_of : forall p x, spread_cdf p -> finite x -> exists i f, In (i, f) p /\ cs_mem x i /\ density p x = steepness f.
Proof.
  intros p x Sp F. destruct (spread_total p x Sp F) as (h & y & A & _). destruct (plf_at_in p x h F A) as (i & I & M).
  exists i, h. split; [exact I|]. split; [exact M|]. exact (density_piece p i h x Sp I M).
Qed.
Lemma piece_point : forall p i f, spread_cdf p -> In (i, f) p -> climbs (i, f) = true -> exists x, cs_mem x i.
Proof.
  intros p i f Sp I U. exists (lower i). apply (chain_piece _ _ _ _ _ (sp_chain p Sp) I). pose proof (sp_rise p Sp) as R. rewrite Forall_forall in R. specialize (R _ I).
  destruct f; try discriminate U. cbn [fst snd] in R. destruct R as (_ & R & _). split; [exact R|].
  pose proof (chain_in _ _ _ _ _ (sp_chain p Sp) I). lia.
Qed.

(** ** The pieces of one density *)

Definition with_slope (v : Q) (s : cs * fn) : bool := Qeq_bool (steepness (snd s)) v.
Lemma level_simplify : forall p v, spread_cdf p -> tame p -> 0 < v -> (exists i f, In (i, f) p /\ steepness f == v) ->
  exists S, rs_simplify (map fst (filter (with_slope v) p)) = Ok S /\ level_set p S v.
Proof.
  intros p v Sp [Tm Ts] V (i0 & f0 & I0 & E0).
  assert (Up : forall s, In s (filter (with_slope v) p) -> In s (filter climbs p)).
  { intros [i f] I. apply filter_In in I. destruct I as [I E]. apply filter_In. split; [exact I|]. unfold with_slope in E. cbn [snd] in E. apply Qeq_bool_iff in E.
    destruct f; cbn [steepness climbs snd] in *; try reflexivity; exfalso; lra. }
  assert (G : Forall (good (all_bounds (map fst (filter climbs p)))) (map fst (filter (with_slope v) p))).
  { apply Forall_forall. intros c Hc. apply in_map_iff in Hc. destruct Hc as ([i f] & <- & I). cbn [fst]. pose proof (Up _ I) as Iu.
    assert (Inc : incl (bounds i) (all_bounds (map fst (filter climbs p)))).
    { intros z Z. unfold all_bounds. apply in_flat_map. exists i. split; [apply in_map_iff; exists (i, f); split; [reflexivity|exact Iu]|exact Z]. }
    split; [|right; exact Inc]. rewrite Forall_forall in Tm. pose proof (Tm _ (Inc (lower i) (or_introl eq_refl))) as Bl.
    pose proof (Tm _ (Inc (upper i) (or_intror (or_introl eq_refl)))) as Bu. apply filter_In in Iu. destruct Iu as [Ip _].
    pose proof (chain_in _ _ _ _ _ (sp_chain p Sp) Ip) as (B & _). pose proof ord_facts as O. unfold wf, moderate.
    repeat split; try lia. }
  assert (A : IntervalSpec.ascending (map fst (filter (with_slope v) p))) by (apply filter_ascending, (chain_ascending p _ _ (sp_chain p Sp)); lia).
  destruct (ns_simplify_asc (NR (map fst (filter (with_slope v) p))) _ Ts G A) as (S & E & M). exists S. split; [exact E|].
  assert (Mem : forall x, ns_mem x S <-> exists i f, In (i, f) p /\ steepness f == v /\ cs_mem x i).
  { intro x. rewrite M. cbn [ns_mem]. unfold rs_mem. split.
    - intros (c & Hc & X). apply in_map_iff in Hc. destruct Hc as ([i f] & <- & I). apply filter_In in I. destruct I as [I W]. exists i, f.
      split; [exact I|]. split; [apply Qeq_bool_iff, W|exact X].
    - intros (i & f & I & W & X). exists i. split; [|exact X]. apply in_map_iff. exists (i, f). split; [reflexivity|]. apply filter_In. split; [exact I|apply Qeq_bool_iff, W]. }
  split; [exact V|]. split.
  - intro x. rewrite Mem. split.
    + intros (i & f & I & W & X). pose proof X as X'. apply (chain_piece _ _ _ _ _ (sp_chain p Sp) I) in X'. split; [tauto|]. rewrite (density_piece p i f x Sp I X). exact W.
    + intros [F D]. destruct (piece_of p x Sp F) as (i & f & I & X & Dx). exists i, f. split; [exact I|]. split; [rewrite <- Dx; exact D|exact X].
  - destruct (piece_point p i0 f0 Sp I0) as (x & X).
    { destruct f0; cbn [steepness] in E0; cbn [climbs snd]; try reflexivity; exfalso; lra. }
    exists x. apply Mem. exists i0, f0. split; [exact I0|]. split; assumption.
Qed.

(** ** The order *)

Lemma dens_leb_total : forall a b, dens_leb a b = false -> dens_leb b a = true.
Proof. intros [a|] [b|]; cbn; try congruence; try reflexivity. intro H. apply Qle_bool_iff. destruct (Qlt_le_dec b a) as [L|L]; [lra|]. apply Qle_bool_iff in L. congruence. Qed.
Lemma dens_leb_trans : forall a b c, dens_leb a b = true -> dens_leb b c = true -> dens_leb a c = true.
Proof. intros [a|] [b|] [c|]; cbn; try congruence; try reflexivity. rewrite !Qle_bool_iff. intros. lra. Qed.
Lemma dens_leb_refl : forall a, dens_leb a a = true.
Proof. intros [a|]; cbn; [apply Qle_bool_iff; lra|reflexivity]. Qed.
Lemma insert_dens_in : forall x l y, In y (insert_dens x l) <-> y = x \/ In y l.
Proof.
  intros x l y. induction l as [|z l I]; cbn [insert_dens]; [cbn; intuition congruence|]. destruct (dens_leb z x); cbn [In]; [intuition congruence|]. rewrite I. intuition congruence.
Qed.
Lemma sort_dens_in : forall l y, In y (fold_right insert_dens [] l) <-> In y l.
Proof. induction l as [|x l I]; intro y; [reflexivity|]. cbn [fold_right]. rewrite insert_dens_in, I. cbn [In]. intuition congruence. Qed.
Lemma insert_dens_sorted : forall x l, StronglySorted (fun a b => dens_leb b a = true) l -> StronglySorted (fun a b => dens_leb b a = true) (insert_dens x l).
Proof.
  intros x l H. induction H as [|y l S IH F]; cbn [insert_dens]; [repeat constructor|]. destruct (dens_leb y x) eqn:E.
  - constructor; [constructor; assumption|]. constructor; [exact E|]. rewrite Forall_forall in *. intros z Z. exact (dens_leb_trans _ _ _ (F z Z) E).
  - constructor; [exact IH|]. apply Forall_forall. intros z Z. apply insert_dens_in in Z. destruct Z as [->|Z]; [apply dens_leb_total, E|]. rewrite Forall_forall in F. apply F, Z.
Qed.
Lemma sort_dens_sorted : forall l, StronglySorted (fun a b => dens_leb b a = true) (fold_right insert_dens [] l).
Proof. induction l as [|x l I]; cbn [fold_right]; [constructor|apply insert_dens_sorted, I]. Qed.
Lemma firstn_sorted : forall A (R : A -> A -> Prop) l k, StronglySorted R l -> StronglySorted R (firstn k l).
Proof.
  intros A R l k H. revert k. induction H as [|x l S IH F]; intros [|k]; cbn [firstn]; try constructor; [apply IH|].
  rewrite Forall_forall in *. intros y Y. apply F. rewrite <- (firstn_skipn k l). apply in_or_app. left. exact Y.
Qed.
Lemma firstn_in : forall A (l : list A) k x, In x (firstn k l) -> In x l.
Proof. intros A l k x H. rewrite <- (firstn_skipn k l). apply in_or_app. left. exact H. Qed.

Definition sorted_of (p : plf) : list dens := fold_right insert_dens [] (filter (fun v => negb (dens_zero v)) (map snd (slopes p))).
Lemma sorted_of_in : forall p v, spread_cdf p -> In v (sorted_of p) <-> exists i f, In (i, f) p /\ v = DFin (steepness f) /\ 0 < steepness f.
Proof.
  intros p v Sp. unfold sorted_of. rewrite sort_dens_in, filter_In. unfold slopes. rewrite map_map, in_map_iff.
  assert (R : forall i f, In (i, f) p -> 0 <= steepness f).
  { intros i f I. pose proof (sp_rise p Sp) as R. rewrite Forall_forall in R. specialize (R _ I). cbn [fst snd] in R. destruct f; cbn [steepness]; try lra. }
  split.
  - intros (([i f] & <- & I) & Z). cbn [snd fst dens_zero] in *. exists i, f. split; [exact I|]. split; [reflexivity|].
    specialize (R i f I). apply negb_true_iff in Z. assert (N : ~ steepness f == 0) by (intro E; apply Qeq_bool_iff in E; congruence). lra.
  - intros (i & f & I & -> & P). split; [exists (i, f); split; [reflexivity|exact I]|]. cbn [dens_zero]. apply negb_true_iff.
    destruct (Qeq_bool (steepness f) 0) eqn:E; [apply Qeq_bool_iff in E; lra|reflexivity].
Qed.

(** The result, entry by entry. *)
Lemma mapM_forall2 : forall A B (f : A -> res B) (P : A -> B -> Prop) l, (forall a, In a l -> exists b, f a = Ok b /\ P a b) ->
  exists r, mapM f l = Ok r /\ Forall2 P l r.
Proof.
  intros A B f P l. induction l as [|a l I]; intro H; [exists []; split; [reflexivity|constructor]|].
  destruct (H a (or_introl eq_refl)) as (b & E & Pb). destruct (I (fun x X => H x (or_intror X))) as (r & Er & Pr).
  exists (b :: r). cbn [mapM]. rewrite E. cbn [bind]. rewrite Er. split; [reflexivity|constructor; assumption].
Qed.
Lemma slope_filter : forall v p, map fst (filter (fun s : cs * dens => dens_eqb (snd s) (DFin v)) (slopes p)) = map fst (filter (with_slope v) p).
Proof.
  intros v. induction p as [|[i f] p I]; [reflexivity|]. cbn [slopes map filter fst snd]. unfold with_slope at 1. cbn [snd]. unfold dens_eqb at 1. cbn [dens_leb].
  assert (E : Qle_bool (steepness f) v && Qle_bool v (steepness f) = Qeq_bool (steepness f) v).
  { apply eq_true_iff_eq. rewrite andb_true_iff, !Qle_bool_iff, Qeq_bool_iff. split; [intros []; lra|intro H; split; lra]. }
  rewrite E. fold (slopes p). destruct (Qeq_bool (steepness f) v); cbn [map fst]; rewrite I; reflexivity.
Qed.
Definition entry_ok (p : plf) (d : dens) (e : nset * dens) : Prop := exists v, d = DFin v /\ snd e = d /\ level_set p (fst e) v.
Lemma entries : forall p ds, spread_cdf p -> tame p -> (forall d, In d ds -> In d (sorted_of p)) ->
  exists r, mapM (fun v => do s <- rs_simplify (map fst (filter (fun s => dens_eqb (snd s) v) (slopes p))); Ok (s, v)) ds = Ok r /\ Forall2 (entry_ok p) ds r.
Proof.
  intros p ds Sp Tm H. apply mapM_forall2. intros d D. apply H, (sorted_of_in p d Sp) in D. destruct D as (i & f & I & -> & P).
  rewrite slope_filter. destruct (level_simplify p (steepness f) Sp Tm P) as (S & E & L); [exists i, f; split; [exact I|reflexivity]|].
  rewrite E. cbn [bind]. exists (S, DFin (steepness f)). split; [reflexivity|]. exists (steepness f). split; [reflexivity|]. split; [reflexivity|exact L].
Qed.
Lemma forall2_sorted : forall p ds r, Forall2 (entry_ok p) ds r -> StronglySorted (fun a b => dens_leb b a = true) ds -> falling r.
Proof.
  intros p ds r H. induction H as [|d e ds r (v & D & E & _) H IH]; intro St; [constructor|]. inversion St as [|? ? S1 F1]. subst. constructor; [apply IH, S1|].
  apply Forall_forall. intros x X. rewrite Forall_forall in F1. clear - H X F1 E.
  induction H as [|d' e' ds r (v' & D' & E' & _) H IH]; [destruct X|]. destruct X as [<-|X].
  - rewrite E, E'. apply F1. left. reflexivity.
  - apply IH; [intros y Y; apply F1; right; exact Y|exact X].
Qed.
Lemma Forall2_in_r' : forall A B (P : A -> B -> Prop) l r, Forall2 P l r -> forall b, In b r -> exists a, In a l /\ P a b.
Proof. intros A B P l r H. induction H as [|a b l r Pab H I]; intros c C; [destruct C|]. destruct C as [<-|C]; [exists a; split; [left; reflexivity|exact Pab]|]. destruct (I c C) as (x & X & Px). exists x. split; [right; exact X|exact Px]. Qed.
Lemma Forall2_in_l' : forall A B (P : A -> B -> Prop) l r, Forall2 P l r -> forall a, In a l -> exists b, In b r /\ P a b.
Proof. intros A B P l r H. induction H as [|a b l r Pab H I]; intros c C; [destruct C|]. destruct C as [<-|C]; [exists b; split; [left; reflexivity|exact Pab]|]. destruct (I c C) as (x & X & Px). exists x. split; [right; exact X|exact Px]. Qed.

(** * C80: the most probable states of a numeric distribution *)

(** [k_mpe]: every entry is a density together with exactly the doubles of this density;
    densities fall; without [k] every double of positive density is listed; [k] takes the
    first entries.
    Missing: no entry is listed twice, which is false (C80_repeated_refuted). *)
Theorem C80_k_mpe_partial : forall p, spread_cdf p -> tame p -> exists l, k_mpe_of p None = Ok l /\
  Forall (fun e => exists v, snd e = DFin v /\ level_set p (fst e) v) l /\ falling l /\
  (forall x, finite x -> 0 < density p x -> exists S v, In (S, DFin v) l /\ v == density p x /\ ns_mem x S) /\
  forall k, k_mpe_of p (Some k) = Ok (firstn k l).
Proof.
  intros p Sp Tm. pose proof (density_spec p (sp_affine p Sp) (sp_len p Sp)) as D. unfold k_mpe_of. rewrite D. cbn [bind]. fold (sorted_of p).
  destruct (entries p (sorted_of p) Sp Tm (fun d H => H)) as (l & E & F). exists l. split; [exact E|]. split; [|split; [|split]].
  - apply Forall_forall. intros e He. destruct (Forall2_in_r' _ _ _ _ _ F e He) as (d & _ & v & Dv & Es & L). exists v. split; [congruence|exact L].
  - exact (forall2_sorted p _ _ F (sort_dens_sorted _)).
  - intros x Fx P. destruct (piece_of p x Sp Fx) as (i & f & I & M & Dx). rewrite Dx in P.
    assert (Is : In (DFin (steepness f)) (sorted_of p)) by (apply (sorted_of_in p _ Sp); exists i, f; repeat split; assumption).
    destruct (Forall2_in_l' _ _ _ _ _ F _ Is) as ([S d] & He & v & Dv & Es & L). cbn [fst snd] in *. injection Dv as Ev. exists S, v. subst d. rewrite Ev in He. split; [exact He|].
    split; [rewrite Dx, <- Ev; reflexivity|]. apply L. split; [exact Fx|]. rewrite Dx, <- Ev. reflexivity.
  - intro k. clear F. revert l E. generalize (sorted_of p). intro ds. revert k. induction ds as [|d ds I]; intros [|k] l E; cbn [firstn mapM] in *; try (injection E as <-); try reflexivity.
    destruct (rs_simplify _) as [s|]; [|discriminate E]. cbn [bind] in *.
    destruct (mapM _ ds) as [r|] eqn:R in E; [|discriminate E]. injection E as <-. cbn [firstn]. rewrite (I k r R). reflexivity.
Qed.
Print Assumptions C80_k_mpe_partial.

(** [mpe]: the doubles of the largest density. *)
Theorem C80_mpe : forall p, spread_cdf p -> tame p -> exists S v, mpe_of p = Ok (S, DFin v) /\ level_set p S v /\ forall x, finite x -> density p x <= v.
Proof.
  intros p Sp Tm. destruct (C80_k_mpe_partial p Sp Tm) as (l & E & Fl & St & All & Fk). unfold mpe_of. rewrite Fk. cbn [bind].
  destruct (sp_some p Sp) as (i & m & c & I). destruct (piece_point p i _ Sp I eq_refl) as (x0 & X0).
  pose proof X0 as X0'. apply (chain_piece _ _ _ _ _ (sp_chain p Sp) I) in X0'. destruct X0' as [F0 _].
  assert (P0 : 0 < density p x0).
  { rewrite (density_piece p i _ x0 Sp I X0). pose proof (sp_rise p Sp) as R. rewrite Forall_forall in R. exact (proj1 (R _ I)). }
  destruct l as [|[S d] l]; [destruct (All x0 F0 P0) as (? & ? & [] & _)|]. cbn [firstn].
  inversion Fl as [|? ? (v & Ed & L) _]. subst. cbn [fst snd] in *. subst d. exists S, v. split; [reflexivity|]. split; [exact L|].
  intros x Fx. destruct (Qlt_le_dec 0 (density p x)) as [P|P]; [|destruct L; lra]. destruct (All x Fx P) as (S' & v' & H & Ev & _). rewrite <- Ev.
  destruct H as [H|H]; [injection H as _ <-; lra|]. inversion St as [|? ? _ F]. subst. rewrite Forall_forall in F. specialize (F _ H). cbn [snd dens_leb] in F. apply Qle_bool_iff, F.
Qed.
Print Assumptions C80_mpe.

(** Fitted distributions meet the hypotheses if no two samples are neighbouring doubles. *)
Theorem C80_fitted : forall epsilon rows x y, In x rows -> In y rows -> x <> y -> Forall (fun v => (Z.abs v + 1 < ORD_53)%Z) rows ->
  (forall a b, In a rows -> In b rows -> (a < b)%Z -> (a + 1 < b)%Z) ->
  exists p, fit_cdf epsilon None None rows = Ok p /\ spread_cdf p /\ tame p.
Proof.
  intros epsilon rows x y Ix Iy Nxy M Ap. pose proof ord_facts as O.
  assert (F : Forall finite rows) by (apply Forall_forall; intros v I; rewrite Forall_forall in M; specialize (M v I); unfold finite; lia).
  assert (N : rows <> []) by (intros ->; destruct Ix).
  destruct (fit_nonempty epsilon None None rows rows (fit_plain rows) N F) as [(z & A & _)|(p & ks & E & Ft)].
  { exfalso. apply Nxy. rewrite (A x Ix), (A y Iy). reflexivity. }
  pose proof (fitted_spread rows p ks Ft F) as Sp. exists p. split; [exact E|]. split; [exact Sp|].
  set (hi := last ks 0%Z). destruct (ft_largest _ _ _ Ft) as [Ih Lh]. fold hi in Ih, Lh.
  assert (K : forall z, In z (all_bounds (map fst (filter climbs p))) -> In z rows /\ (z < hi)%Z \/ (z = hi + 1)%Z).
  { intros z Z. unfold all_bounds in Z. apply in_flat_map in Z. destruct Z as (i & Hi & Z). apply in_map_iff in Hi. destruct Hi as ([i' f] & <- & I). cbn [fst] in Z.
    apply filter_In in I. destruct I as [I U]. destruct f as [|v|m c|]; try discriminate U. clear U.
    destruct (ft_wide _ _ _ Ft) as (j & g & J & _ & Lj & Uj). fold hi in Lj, Uj.
    rewrite Forall_forall in M. assert (Mh : (Z.abs hi < ORD_53)%Z) by (specialize (M _ Ih); lia).
    destruct (plus_eps_mod hi (or_introl Mh)) as [(_ & Pe)|(H & _)]; [|lia]. rewrite Pe in Uj.
    pose proof (chain_in _ _ _ _ _ (sp_chain p Sp) I) as (Bi & Bu & _). pose proof (chain_in _ _ _ _ _ (sp_chain p Sp) J) as (Bj & _).
    assert (D : In (lower i') rows).
    { destruct (ft_pieces _ _ _ Ft i' _ I) as [(K & _)|[(_ & K)|(K & _)]]; try discriminate K. exact (ft_data _ _ _ Ft _ K). }
    pose proof (Lh _ D) as Ld.
    destruct (chain_apart _ _ _ _ _ _ _ (sp_chain p Sp) I J) as [->|[K1|K1]].
    - destruct Z as [<-|[<-|[]]]; [left; split; [exact D|lia]|right; exact Uj].
    - destruct Z as [<-|[<-|[]]]; [left; split; [exact D|lia]|]. left. split; [|lia].
      pose proof (chain_next p _ _ i' _ (sp_chain p Sp) I) as CN. destruct CN as (pre & k & h & post & Ep & Ek); [lia|].
      assert (Ik : In (k, h) p) by (rewrite Ep; apply in_or_app; right; right; left; reflexivity). rewrite Ek.
      destruct (ft_pieces _ _ _ Ft k _ Ik) as [(_ & Q & _)|[(_ & Q)|(_ & _ & Q)]]; [exfalso; lia|exact (ft_data _ _ _ Ft _ Q)|exfalso; fold hi in Q; lia].
    - exfalso. lia. }
  split.
  - apply Forall_forall. intros z Z. rewrite Forall_forall in M. destruct (K z Z) as [[D _]|E1]; [specialize (M _ D); lia|]. subst z. specialize (M _ Ih). lia.
  - intros a b A B. destruct (K a A) as [[Da La]|Ea], (K b B) as [[Db Lb]|Eb]; try lia.
    + destruct (Z.lt_trichotomy a b) as [L|[L|L]]; [specialize (Ap a b Da Db L); lia|lia|specialize (Ap b a Db Da L); lia].
Qed.
Print Assumptions C80_fitted.

(** The distribution of one value: this value. *)
Theorem C80_point : forall x, (Z.abs x < ORD_53)%Z -> exists S, k_mpe_of (dirac x) None = Ok [(S, DInf)] /\ mpe_of (dirac x) = Ok (S, DInf) /\ forall y, ns_mem y S <-> y = x.
Proof.
  intros x X. exists (NC (CS x (x + 1) INC EXC)). unfold mpe_of, k_mpe_of. rewrite (dirac_pdf x X). cbn [bind map snd fst filter dens_zero negb]. change (Qeq_bool 0 0) with true. cbn [negb fold_right insert_dens firstn].
  cbn [mapM]. change (dens_eqb (DFin 0) DInf) with false. change (dens_eqb DInf DInf) with true. cbn [filter map fst].
  assert (E : rs_simplify [CS x (x + 1) INC EXC] = Ok (NC (CS x (x + 1) INC EXC))).
  { assert (Ne : cs_isempty (CS x (x + 1) INC EXC) = false).
    { unfold cs_isempty. cbn [upper lower]. destruct (Z.ltb_spec (x + 1) x); [lia|]. destruct (Z.eqb_spec x (x + 1)); [lia|]. apply andb_false_r. }
    unfold rs_simplify. cbn [length Nat.pow Nat.mul Nat.add disjoin_loop subtract_all bind]. rewrite Ne. reflexivity. }
  rewrite E. cbn [bind]. split; [reflexivity|]. split; [reflexivity|]. intro y. cbn [ns_mem]. unfold cs_mem, finite. cbn [left right lower upper]. pose proof ord_facts. lia.
Qed.
Print Assumptions C80_point.

(** Two pieces of the same density: the same entry is listed twice (samples 0, 1, 4, 5). *)
Theorem C80_repeated_refuted : exists rows p S v w l, Forall (fun x => (Z.abs x + 1 < ORD_53)%Z) rows /\ NoDup rows /\ fit_cdf (1 # 100) None None rows = Ok p /\
  k_mpe_of p None = Ok ((S, DFin v) :: (S, DFin w) :: l) /\ v == w.
Proof.
  exists [0; 1023 * 2 ^ 52; 1025 * 2 ^ 52; 1025 * 2 ^ 52 + 2 ^ 50]%Z. eexists. eexists. eexists. eexists. eexists.
  split; [repeat constructor; vm_compute; reflexivity|]. split; [repeat constructor; cbn [In]; vm_compute; intuition discriminate|].
  split; [vm_compute; reflexivity|]. split; [vm_compute; reflexivity|]. vm_compute. reflexivity.
Qed.
Print Assumptions C80_repeated_refuted.

(** Hypotheses: the uniform distribution on [0, 1). *)
Example C80_example : spread_cdf unit_cdf /\ tame unit_cdf.
Proof.
  split; [exact unit_spread|]. split.
  - repeat constructor; vm_compute; reflexivity.
  - intros a b A B. cbn in A, B. destruct A as [<-|[<-|[]]], B as [<-|[<-|[]]]; vm_compute; intuition discriminate.
Qed.
Example C80_example_fitted : exists p, fit_cdf (1 # 100) None None [0; - ONE; ONE]%Z = Ok p /\ spread_cdf p /\ tame p.
Proof.
  assert (F : (1 < ONE /\ ONE + 1 < ORD_53)%Z) by (split; vm_compute; reflexivity). set (o := ONE) in *. clearbody o. destruct F as (F1 & F2).
  apply (C80_fitted (1 # 100) [0; - o; o]%Z 0%Z o).
  - left. reflexivity.
  - right. right. left. reflexivity.
  - lia.
  - repeat (apply Forall_cons || apply Forall_nil); lia.
  - intros a b [<-|[<-|[<-|[]]]] [<-|[<-|[<-|[]]]]; lia.
Qed.
