(** Property C81: numeric distributions that compare equal are interchangeable. *)
Require Import ZArith QArith Lqa Bool List Arith Lia.
Require Import Verif.Base Verif.NumBase Verif.FloatLine Verif.IntervalModel Verif.IntervalSpec Verif.IntervalProofs Verif.FunctionModel Verif.FunctionSpec Verif.NumericModel Verif.NumericSpec Verif.NumericFit Verif.NumericProb Verif.NumericClose Verif.NumericExample Verif.NumericProps Verif.NumericProps4 Verif.MomentProps Verif.IntervalDec Verif.ModeProps.
Import ListNotations.
Open Scope Z_scope.

Definition like_piece (s t : cs * fn) : Prop := fst s = fst t /\ fn_eq (snd s) (snd t) = Ok true.
(** The bounds of the pieces are below 2^53, except for the infinities. *)
Definition small_bounds (p : plf) : Prop := Forall (fun s : cs * fn => Z.abs (upper (fst s)) < ORD_53 \/ upper (fst s) = ORD_INF) p.

Lemma chain_le : forall p a b, chain a p b -> a <= b.
Proof. induction p as [|[i f] p I]; intros a b C; cbn [chain] in C; [lia|]. destruct C as (_ & L & C). apply I in C. lia. Qed.
Lemma minus_eps_inj : forall x y, (Z.abs x < ORD_53 \/ x = ORD_INF) -> (Z.abs y < ORD_53 \/ y = ORD_INF) -> minus_eps x = minus_eps y -> x = y.
Proof.
  intros x y X Y. assert (O : 0 < ORD_53 /\ ORD_53 + 1 < ORD_INF) by (vm_compute; split; reflexivity).
  assert (G : forall z, Z.abs z < ORD_53 -> minus_eps z = z - 1) by (intros z Z; unfold minus_eps, subs_one, adds_one; destruct (Z.ltb_spec (Z.abs (- z)) ORD_53); [reflexivity|lia]).
  assert (H : minus_eps ORD_INF = ORD_INF) by reflexivity.
  destruct X as [X| ->], Y as [Y| ->]; rewrite ?(G _ X), ?(G _ Y), ?H; lia.
Qed.
(** Functions that are defined everywhere have equally many pieces if their common ones
    are equal. *)
Lemma chain_eq : forall p q a, - ORD_INF <= a -> chain a p ORD_INF -> chain a q ORD_INF -> small_bounds p -> small_bounds q -> plf_eq p q = Ok true -> Forall2 like_piece p q.
Proof.
  induction p as [|[i f] p I]; intros [|[j g] q] a A Cp Cq Mp Mq E.
  - constructor.
  - exfalso. cbn [chain] in *. destruct Cq as (_ & L & C). apply chain_le in C. lia.
  - exfalso. cbn [chain] in *. destruct Cp as (_ & L & C). apply chain_le in C. lia.
  - cbn [chain plf_eq] in *. destruct Cp as (Ei & Li & Cp), Cq as (Ej & Lj & Cq). inversion Mp as [|? ? Ui Mp']; inversion Mq as [|? ? Uj Mq']; subst. cbn [fst] in Ui, Uj. destruct (cs_eq i j) eqn:Q; cbn [negb] in E; [|discriminate].
    destruct (fn_eq f g) as [[|]|] eqn:Fe; cbn [bind] in E; try discriminate.
    assert (U : upper i = upper j).
    { rewrite Ei, Ej in Q. unfold cs_eq, uppermost, lowermost, cs_isempty in Q. cbn [lower upper left right] in Q. apply orb_true_iff in Q. destruct Q as [Q|Q].
      - apply andb_true_iff in Q. destruct Q as [_ Q]. apply Z.eqb_eq in Q. apply (minus_eps_inj _ _ Ui Uj Q).
      - exfalso. apply andb_true_iff in Q. destruct Q as [Q _]. destruct (Z.ltb_spec (upper i) a); [discriminate|]. destruct (Z.eqb_spec a (upper i)); [lia|]. apply andb_true_iff in Q. destruct Q as [Q1 Q2].
        destruct (Z.eqb_spec a (- ORD_INF)) as [Ea|Ea]; [rewrite Ea in Q1; change (plus_eps (- ORD_INF)) with (- ORD_INF) in Q1; lia|discriminate Q2]. }
    assert (X : i = j) by (rewrite Ei, Ej, U; reflexivity). constructor; [split; assumption|]. apply (I q (upper i)); [lia|exact Cp|rewrite U; exact Cq|assumption|assumption|exact E].
Qed.

(** The results of two computations are equal. *)
Definition same_number (a b : res Q) : Prop := match a, b with Ok x, Ok y => (x == y)%Q | Err e, Err e' => e = e' | _, _ => False end.

Lemma like_num : forall p q, Forall2 like_piece p q -> affines p -> affines q -> forall x, same_number (cdf_num p x) (cdf_num q x).
Proof.
  intros p q H Ap Aq x. unfold cdf_num. induction H as [|[i f] [j g] p q [E Fe] H I]; [reflexivity|]. cbn [fst snd] in *. subst j. inversion Ap; inversion Aq; subst. cbn [snd] in *. cbn [plf_at]. destruct (piece_has i x); [|apply I; assumption].
  destruct f as [|a|m c|], g as [|a'|m' c'|]; cbn [affine] in *; try contradiction; cbn [fn_eq] in Fe; injection Fe as Fe; unfold eval_num; cbn [fn_eval same_number].
  - apply Qeq_bool_iff, Fe.
  - unfold Qz in Fe. apply andb_true_iff in Fe. rewrite !Qeq_bool_iff in Fe. destruct Fe as [A B]. rewrite A, B. ring.
  - unfold Qz in Fe. apply andb_true_iff in Fe. rewrite !Qeq_bool_iff in Fe. destruct Fe as [A B]. rewrite A, B. ring.
  - apply andb_true_iff in Fe. rewrite !Qeq_bool_iff in Fe. destruct Fe as [A B]. rewrite A, B. reflexivity.
Qed.
Lemma like_steep : forall f g, affine f -> affine g -> fn_eq f g = Ok true -> (steepness f == steepness g)%Q.
Proof.
  intros f g Af Ag Fe. destruct f as [|a|m c|], g as [|a'|m' c'|]; cbn [affine] in *; try contradiction; cbn [fn_eq] in Fe; injection Fe as Fe; cbn [steepness]; try reflexivity; apply andb_true_iff in Fe; unfold Qz in Fe; rewrite !Qeq_bool_iff in Fe; destruct Fe as [A B]; [symmetry| |]; exact A.
Qed.
Lemma like_space : forall p q, Forall2 like_piece p q -> affines p -> affines q -> forall o, gt0_loop (slopes p) o = gt0_loop (slopes q) o.
Proof.
  intros p q H Ap Aq. induction H as [|[i f] [j g] p q [E Fe] H I]; [reflexivity|]. cbn [fst snd] in *. subst j. inversion Ap; inversion Aq; subst. cbn [snd] in *. specialize (I ltac:(assumption) ltac:(assumption)).
  intro o. unfold slopes. cbn [map fst snd gt0_loop]. fold (slopes p) (slopes q).
  assert (S : (steepness f == steepness g)%Q) by (apply like_steep; assumption).
  assert (Z1 : dens_zero (DFin (steepness f)) = dens_zero (DFin (steepness g))) by (cbn [dens_zero]; apply eq_true_iff_eq; rewrite !Qeq_bool_iff, S; reflexivity).
  assert (P1 : dens_pos (DFin (steepness f)) = dens_pos (DFin (steepness g))) by (cbn [dens_pos]; unfold Qltb; f_equal; apply eq_true_iff_eq; rewrite !Qle_bool_iff, S; reflexivity).
  rewrite Z1, P1. destruct o; rewrite !I; reflexivity.
Qed.

(** Numeric distributions that compare equal give every interval the same probability. *)
Theorem C81_numeric : forall p q, component p -> component q -> small_bounds p -> small_bounds q -> plf_eq p q = Ok true ->
  (forall x, same_number (cdf_num p x) (cdf_num q x)) /\ forall c, same_number (p_interval p c) (p_interval q c).
Proof.
  intros p q Cp Cq Mp Mq E.
  assert (Ch : forall r, component r -> chain (- ORD_INF) r ORD_INF /\ affines r).
  { intros r [(x & Fx & ->)|S]; [|split; apply S]. assert (N : x =? - ORD_INF = false) by (unfold finite in Fx; lia). cbn [chain upper]. rewrite N. split; [|repeat constructor]. unfold finite in Fx. repeat split; try lia; try reflexivity. }
  destruct (Ch p Cp) as [Chp Ap], (Ch q Cq) as [Chq Aq]. pose proof (chain_eq p q _ (Z.le_refl _) Chp Chq Mp Mq E) as L. pose proof (like_num p q L Ap Aq) as N. split; [exact N|].
  assert (Le : length p = length q) by (clear - L; induction L; cbn [length]; congruence).
  assert (Sp : forall ps, (pdf_of p = Ok (slopes p) /\ pdf_of q = Ok (slopes q)) \/ p = q -> same_number ps ps -> forall c, same_number (p_interval p c) (p_interval q c)).
  { intros _ [[Dp Dq]| ->] _ c; [|destruct (p_interval q c); cbn; [reflexivity|reflexivity]].
    unfold p_interval. rewrite Dp, Dq. cbn [bind]. unfold gt0. rewrite (like_space p q L Ap Aq None). destruct (rs_isdisjoint (gt0_loop (slopes q) None) (NC c)); [reflexivity|].
    assert (Bx : forall (b : bool) z x, same_number (if b then Ok z else cdf_num p x) (if b then Ok z else cdf_num q x)) by (intros [] z x; [reflexivity|apply N]).
    pose proof (Bx (upper c =? ORD_INF) 1%Q (upper c)) as Ba. pose proof (Bx (lower c =? - ORD_INF) 0%Q (lower c)) as Bb.
    destruct (if upper c =? ORD_INF then Ok 1%Q else cdf_num p (upper c)) as [a|], (if upper c =? ORD_INF then Ok 1%Q else cdf_num q (upper c)) as [a'|]; cbn [same_number] in Ba; try contradiction; cbn [bind]; [|exact Ba].
    destruct (if lower c =? - ORD_INF then Ok 0%Q else cdf_num p (lower c)) as [b|], (if lower c =? - ORD_INF then Ok 0%Q else cdf_num q (lower c)) as [b'|]; cbn [same_number] in Bb; try contradiction; cbn [bind]; [|exact Bb].
    assert (Ez : Qeq_bool (a - b) 0 = Qeq_bool (a' - b') 0) by (apply eq_true_iff_eq; rewrite !Qeq_bool_iff, Ba, Bb; reflexivity). rewrite Ez. destruct (Qeq_bool (a' - b') 0); cbn [same_number]; [reflexivity|]. rewrite Ba, Bb. reflexivity. }
  apply (Sp (Ok 0%Q)); [|reflexivity]. destruct Cp as [(x & Fx & Ep)|Sp1], Cq as [(y & Fy & Eq)|Sq].
  - right. subst p q. inversion L as [|? ? ? ? [K _] _]; subst. cbn [fst] in K. injection K as ->. reflexivity.
  - exfalso. pose proof (sp_len q Sq) as X. subst p. cbn [length] in Le. lia.
  - exfalso. pose proof (sp_len p Sp1) as X. subst q. cbn [length] in Le. lia.
  - left. split; apply density_spec; try assumption; [apply (sp_len p Sp1)|apply (sp_len q Sq)].
Qed.
Print Assumptions C81_numeric.

(** Distributions fitted to samples below 2^53 meet the hypotheses. *)
Theorem C81_fitted : forall epsilon rows, rows <> [] -> Forall (fun v => Z.abs v + 1 < ORD_53) rows ->
  exists p, fit_cdf epsilon None None rows = Ok p /\ component p /\ small_bounds p.
Proof.
  intros epsilon rows N M. pose proof ord_facts as O. rewrite Forall_forall in M.
  assert (F : Forall finite rows) by (apply Forall_forall; intros v I; specialize (M v I); unfold finite; lia).
  destruct (fit_nonempty epsilon None None rows rows (fit_plain rows) N F) as [(z & _ & Iz & E)|(p & ks & E & Ft)].
  - exists (dirac z). split; [exact E|]. split; [left; exists z; split; [rewrite Forall_forall in F; apply F, Iz|reflexivity]|]. specialize (M z Iz). constructor; [left; cbn; lia|]. constructor; [right; reflexivity|constructor].
  - pose proof (fitted_spread rows p ks Ft F) as Sp. exists p. split; [exact E|]. split; [right; exact Sp|].
    set (hi := last ks 0). destruct (ft_largest _ _ _ Ft) as [Ih Lh]. fold hi in Ih, Lh. assert (Mh : Z.abs hi + 1 < ORD_53) by (apply M, Ih).
    destruct (ft_wide _ _ _ Ft) as (j & g & J & Sg & Lj & Uj). fold hi in Lj, Uj. destruct (plus_eps_mod hi) as [(_ & Pe)|(H & _)]; [left; lia| |lia]. rewrite Pe in Uj.
    assert (K : forall k h, In (k, h) p -> - ORD_INF < lower k -> Z.abs (lower k) < ORD_53).
    { intros k h I B. destruct (ft_pieces _ _ _ Ft k h I) as [(_ & Q & _)|[(_ & Q)|(_ & Q & _)]]; [lia|specialize (M _ (ft_data _ _ _ Ft _ Q)); lia|].
      destruct (chain_next p _ _ j g (sp_chain p Sp) J) as (pre & n & hn & post & Ep & En); [lia|]. assert (In_ : In (n, hn) p) by (rewrite Ep; apply in_or_app; right; right; left; reflexivity).
      assert (Un : upper n = ORD_INF).
      { destruct (ft_pieces _ _ _ Ft n hn In_) as [(_ & Q1 & _)|[(_ & Q1)|(_ & Q1 & _)]]; [lia|pose proof (Lh _ (ft_data _ _ _ Ft _ Q1)); lia|exact Q1]. }
      pose proof (chain_in _ _ _ _ _ (sp_chain p Sp) I) as (A1 & _). pose proof (chain_in _ _ _ _ _ (sp_chain p Sp) In_) as (A2 & _).
      destruct (chain_apart _ _ _ _ _ _ _ (sp_chain p Sp) I In_) as [->|[C|C]]; lia. }
    apply Forall_forall. intros [i f] I. cbn [fst]. pose proof (chain_in _ _ _ _ _ (sp_chain p Sp) I) as (A & B & _).
    destruct (Z.eq_dec (upper i) ORD_INF) as [U|U]; [right; exact U|]. left. destruct (chain_next p _ _ i f (sp_chain p Sp) I) as (pre & n & hn & post & Ep & En); [lia|].
    rewrite En. apply (K n hn); [rewrite Ep; apply in_or_app; right; right; left; reflexivity|lia].
Qed.
Print Assumptions C81_fitted.

(** Two distributions fitted to samples of the same values. *)
Example C81_example_numeric : exists p q r, fit_cdf (1 # 100) None None [0; ONE] = Ok p /\ fit_cdf (1 # 100) None None [ONE; 0] = Ok q /\ fit_cdf (1 # 100) None None [0; TWO] = Ok r /\
  component p /\ component q /\ component r /\ small_bounds p /\ small_bounds q /\ small_bounds r /\ plf_eq p q = Ok true /\ plf_eq p r = Ok false.
Proof.
  assert (F : forall rows, rows <> [] -> forallb (fun v => Z.abs v + 1 <? ORD_53) rows = true -> exists p, fit_cdf (1 # 100) None None rows = Ok p /\ component p /\ small_bounds p).
  { intros rows N B. apply C81_fitted; [exact N|]. apply Forall_forall. intros v V. rewrite forallb_forall in B. apply Z.ltb_lt, B, V. }
  destruct (F [0; ONE]) as (p & Ep & P1 & P2); [discriminate|vm_compute; reflexivity|]. destruct (F [ONE; 0]) as (q & Eq & Q1 & Q2); [discriminate|vm_compute; reflexivity|]. destruct (F [0; TWO]) as (r & Er & R1 & R2); [discriminate|vm_compute; reflexivity|].
  exists p, q, r. do 3 (split; [assumption|]). do 6 (split; [assumption|]).
  split; [vm_compute in Ep, Eq; injection Ep as <-; injection Eq as <-|vm_compute in Ep, Er; injection Ep as <-; injection Er as <-]; vm_compute; reflexivity.
Qed.
