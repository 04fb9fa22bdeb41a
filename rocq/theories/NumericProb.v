(** Probabilities of a numeric distribution are differences of its cdf. *)
Require Import ZArith QArith Qabs Lqa Bool List Arith Lia Sorted Permutation.
Require Import Verif.Base Verif.FloatLine Verif.FloatVal Verif.IntervalModel Verif.IntervalSpec Verif.IntervalProofs
  Verif.NumBase Verif.UtilModel Verif.FunctionModel Verif.FunctionSpec
  Verif.FunctionProofs Verif.FunctionPlf Verif.FunctionInt Verif.NumericModel Verif.NumericSpec Verif.NumericFit.
Import ListNotations.
Open Scope Z_scope.

(** ** Density and support *)

(** The density of an affine piecewise function. *)
Lemma mapM_ok : forall {A B} (f : A -> res B) (g : A -> B) l, (forall x, In x l -> f x = Ok (g x)) -> mapM f l = Ok (map g l).
Proof.
  intros A B f g l. induction l as [|a l IH]; intro H; [reflexivity|]. cbn [mapM map]. rewrite (H a) by (left; reflexivity). cbn [bind].
  rewrite IH by (intros; apply H; right; assumption). reflexivity.
Qed.
Definition slopes (p : plf) : pdf_fn := map (fun s : cs * fn => (fst s, DFin (steepness (snd s)))) p.

Lemma density_spec : forall p, affines p -> (3 <= length p)%nat -> pdf_of p = Ok (slopes p).
Proof.
  intros p A L. unfold pdf_of, plf_differentiate, plf_map.
  rewrite (mapM_ok _ (fun s : cs * fn => (fst s, FConst (steepness (snd s))))).
  2: { intros [i f] I. unfold affines in A. rewrite Forall_forall in A. specialize (A _ I). cbn [fst snd] in *. destruct f; cbn in A; try contradiction; reflexivity. }
  cbn [bind]. rewrite (mapM_ok _ (fun s : cs * fn => (fst s, match snd s with FConst v => DFin v | _ => DInf end))).
  2: { intros s I. apply in_map_iff in I. destruct I as (s' & <- & _). reflexivity. }
  cbn [bind]. rewrite map_map. cbn [fst snd]. fold (slopes p). destruct p as [|? [|? [|? ?]]]; cbn in L; try lia. reflexivity.
Qed.

(** ** Disjointness from the support *)

Definition away (a b : Z) (i : cs) : Prop := upper i <= a \/ b <= lower i.

Lemma intersects_half : forall l u c, bounded c -> cs_isempty c = false -> l < u ->
  cs_intersects (CS l u INC EXC) c = false -> u <= lower c \/ upper c <= l.
Proof.
  intros l u c B E L H. unfold cs_intersects in H. rewrite E in H. cbn [lower upper left right] in H.
  destruct (Z.ltb_spec u (lower c)); [left; lia|]. destruct (Z.ltb_spec (upper c) l); [right; lia|]. cbn [orb] in H.
  destruct (Z.eqb_spec l (upper c)); [right; lia|]. cbn [andb] in H.
  destruct (Z.eqb_spec u (lower c)); [left; lia|]. cbn [andb] in H. discriminate.
Qed.

(** Every piece of positive density is covered by the computed support. *)
Lemma gt0_away : forall p a cur, chain a p ORD_INF -> Forall (fun s : cs * fn => (0 <= steepness (snd s))%Q) p ->
  forall c, bounded c -> cs_isempty c = false -> (match cur with Some l => l <= a | None => True end) ->
  rs_isdisjoint (gt0_loop (slopes p) cur) (NC c) = true ->
  (forall i f, In (i, f) p -> (0 < steepness f)%Q -> away (lower c) (upper c) i)
  /\ (forall l, cur = Some l -> l < a -> (a <= lower c \/ upper c <= l)).
Proof.
  induction p as [|[i f] p IH]; intros a cur Ch R c B E Cu D.
  - split; [intros ? ? []|]. intros l -> L. cbn in Ch. subst a. cbn [slopes map gt0_loop] in D.
    unfold rs_isdisjoint, rs_intersects in D. cbn [existsb as_list] in D. rewrite !orb_false_r in D. apply negb_true_iff in D.
    apply intersects_half in D; [|assumption..|exact L]. lia.
  - destruct Ch as (Ei & Li & Ch). inversion R as [|? ? R1 R2]; subst. cbn [snd] in R1. cbn [slopes map fst snd] in D. fold (slopes p) in D. cbn [gt0_loop] in D.
    assert (La : lower i = a) by (rewrite Ei; reflexivity).
    unfold dens_zero, dens_pos in D.
    destruct (Qeqb_spec (steepness f) 0) as [Z0|Z0].
    + assert (Hz : Qeq_bool (steepness f) 0 = true) by (apply Qeq_bool_iff; exact Z0).
      destruct cur as [l|]; cbn [negb andb orb] in D.
      * assert (D1 : cs_intersects (CS l (lower i) INC EXC) c = false /\ rs_isdisjoint (gt0_loop (slopes p) None) (NC c) = true).
        { unfold rs_isdisjoint, rs_intersects in *. cbn [existsb as_list] in D. apply negb_true_iff in D. apply orb_false_elim in D.
          destruct D as [D1 D2]. rewrite orb_false_r in D1. split; [exact D1|]. apply negb_true_iff. exact D2. }
        destruct D1 as [D1 D2]. destruct (IH (upper i) None Ch R2 c B E Logic.I D2) as [H1 _]. split.
        -- intros j g [Hj|Hj] Pg; [injection Hj as <- <-; lra|eapply H1; eassumption].
        -- intros l' El Ll. injection El as <-. rewrite La in D1. apply intersects_half in D1; assumption || lia.
      * destruct (IH (upper i) None Ch R2 c B E Logic.I D) as [H1 _]. split; [|discriminate].
        intros j g [Hj|Hj] Pg; [injection Hj as <- <-; lra|eapply H1; eassumption].
    + assert (Pf : (0 < steepness f)%Q) by (apply Qnot_le_lt; intro; apply Z0; lra).
      assert (Pb : Qltb 0 (steepness f) = true) by (unfold Qltb; apply negb_true_iff; apply not_true_is_false; intro K; apply Qle_bool_iff in K; lra).
      rewrite Pb in D. cbn [negb andb orb] in D.
      destruct cur as [l|].
      * destruct (IH (upper i) (Some l) Ch R2 c B E) as [H1 H2]; [lia|exact D|]. specialize (H2 l eq_refl ltac:(lia)). split.
        -- intros j g [Hj|Hj] Pg; [injection Hj as <- <-|eapply H1; eassumption]. unfold away. lia.
        -- intros l' El Ll. injection El as <-. lia.
      * destruct (IH (upper i) (Some (lower i)) Ch R2 c B E) as [H1 H2]; [lia|exact D|]. specialize (H2 (lower i) eq_refl ltac:(lia)). split; [|discriminate].
        intros j g [Hj|Hj] Pg; [injection Hj as <- <-|eapply H1; eassumption]. unfold away. lia.
Qed.

(** ** The cdf as a function *)

Lemma cdf_at_fun : forall p x y y', cdf_at p x y -> cdf_at p x y' -> (y == y')%Q.
Proof.
  intros p x y y' H H'. unfold cdf_at, finite in *. pose proof ord_facts.
  destruct H as [[A B]|[[A B]|[A B]]], H' as [[A' B']|[[A' B']|[A' B']]]; try lia; try (rewrite B, B'; reflexivity).
  apply (plf_is_fun p x); assumption.
Qed.
Lemma cdf_at_wd : forall p x y y', (y == y')%Q -> cdf_at p x y -> cdf_at p x y'.
Proof.
  intros p x y y' E [[A B]|[[A B]|[A B]]]; unfold cdf_at; [left|right; left|right; right]; split; try assumption; try (rewrite <- E; assumption).
  apply (plf_is_wd p x y y' E B).
Qed.
Lemma cdf_at_ex : forall p lo hi x, proper_cdf p lo hi -> - ORD_INF <= x <= ORD_INF -> exists y, cdf_at p x y /\ (0 <= y <= 1)%Q.
Proof.
  intros p lo hi x P B. destruct (Z.eq_dec x (- ORD_INF)) as [E|N]; [exists 0%Q; split; [left; split; [exact E|reflexivity]|lra]|].
  destruct (Z.eq_dec x ORD_INF) as [E|N']; [exists 1%Q; split; [right; left; split; [exact E|reflexivity]|lra]|].
  assert (F : finite x) by (unfold finite; lia). destruct (pc_range _ _ _ P x F) as (y & H & R). exists y. split; [right; right; auto|exact R].
Qed.
Lemma cdf_at_mono : forall p lo hi x x' y y', proper_cdf p lo hi -> x <= x' -> cdf_at p x y -> cdf_at p x' y' -> (y <= y')%Q.
Proof.
  intros p lo hi x x' y y' P L H H'. pose proof ord_facts as O.
  assert (R : forall x y, cdf_at p x y -> (0 <= y <= 1)%Q).
  { intros z v [[A B]|[[A B]|[A B]]]; [rewrite B; lra|rewrite B; lra|]. destruct (pc_range _ _ _ P z A) as (v' & Hv & Rv).
    rewrite (plf_is_fun _ _ _ _ B Hv). exact Rv. }
  pose proof (R _ _ H). pose proof (R _ _ H').
  destruct H as [[A B]|[[A B]|[A B]]], H' as [[A' B']|[[A' B']|[A' B']]]; unfold finite in *; try lia; try lra.
  apply (pc_mono _ _ _ P x x'); try assumption.
Qed.
Lemma cdf_at_eval : forall p x y, finite x -> cdf_at p x y -> exists v, cdf_num p x = Ok v /\ (v == y)%Q.
Proof.
  intros p x y F [[A _]|[[A _]|[_ H]]]; [unfold finite in *; lia|unfold finite in *; lia|].
  apply plf_is_at in H. destruct H as (f & E & v & Ev & Hv). exists v. unfold cdf_num. rewrite E. unfold eval_num. rewrite Ev. auto.
Qed.

Lemma fn_flat : forall f x y v w, affine f -> (steepness f == 0)%Q -> fn_is f x v -> fn_is f y w -> (v == w)%Q.
Proof.
  intros f x y v w A S (v' & E & H) (w' & E' & H'). destruct f as [|k|m c|? ? ?]; cbn in A; try contradiction; cbn [fn_eval steepness] in *;
    injection E as <-; injection E' as <-; rewrite <- H, <- H'; [reflexivity|]. rewrite S. ring.
Qed.

(** No mass where every rising piece is away. *)
Lemma flat_between : forall P, chain (- ORD_INF) P ORD_INF -> affines P -> (exists i r, P = (i, FConst 0) :: r) ->
  Forall (fun s : cs * fn => (0 <= steepness (snd s))%Q) P ->
  (exists lo hi, proper_cdf P lo hi) ->
  forall a b ya yb, - ORD_INF <= a -> a <= b -> b <= ORD_INF -> (forall i f, In (i, f) P -> (0 < steepness f)%Q -> away a b i) ->
  (forall i f y y', In (i, f) P -> (steepness f == 0)%Q -> a < upper i <= b -> cdf_at P (lower i) y -> cdf_at P (upper i) y' -> (y == y')%Q) ->
  cdf_at P a ya -> cdf_at P b yb -> (ya == yb)%Q.
Proof.
  intros P Ch0 Af First R (lo & hi & Pr) a b ya yb Ba Lab Bb Aw Fl Ha Hb.
  (* along the pieces *)
  assert (G : forall q pre c x yx, P = pre ++ q -> chain c q ORD_INF -> - ORD_INF <= c -> c <= x -> x <= b -> a <= x -> cdf_at P x yx ->
     (forall z, c <= z -> finite z -> plf_at P z = plf_at q z) -> (yx == yb)%Q).
  { induction q as [|[i f] q IH]; intros pre c x yx EP Ch Bc Lc Lx La Hx At.
    - cbn in Ch. assert (x = b) by lia. subst x. apply (cdf_at_fun P b); assumption.
    - pose proof Ch as Ch'. destruct Ch' as (Ei & Li & Ch'). 
      assert (In (i, f) P) as Hin by (rewrite EP; apply in_or_app; right; left; reflexivity).
      assert (Bu : upper i <= ORD_INF) by (apply chain_le in Ch'; exact Ch').
      assert (At' : forall z, upper i <= z -> finite z -> plf_at P z = plf_at q z).
      { intros z Lz Fz. rewrite At by (assumption || lia). apply (chain_tail _ _ _ _ _ _ Ch); try assumption; lia. }
      destruct (Z_lt_ge_dec x (upper i)) as [Lu|Gu].
      + destruct (Z.eq_dec x b) as [->|Nb]; [apply (cdf_at_fun P b); assumption|].
        assert (S0 : (steepness f == 0)%Q).
        { rewrite Forall_forall in R. specialize (R _ Hin). cbn [snd] in R. destruct (Qlt_le_dec 0 (steepness f)) as [Ps|Ns]; [|lra].
          exfalso. destruct (Aw i f Hin Ps); [lia|]. assert (lower i = c) by (rewrite Ei; reflexivity). lia. }
        assert (Hlow : lower i = c) by (rewrite Ei; reflexivity).
        assert (Fv : forall z yz, c <= z < upper i -> cdf_at P z yz -> forall yc, cdf_at P c yc -> (yz == yc)%Q).
        { intros z yz Lz Hz yc Hc. destruct (Z.eq_dec z c) as [->|Nz]; [apply (cdf_at_fun P c); assumption|].
          assert (Fz : finite z) by (unfold finite; lia).
          destruct Hz as [[K _]|[[K _]|[_ Hz]]]; [lia|lia|].
          apply plf_is_at in Hz. destruct Hz as (g & Eg & Hg). rewrite At in Eg by (assumption || lia).
          rewrite (chain_head _ _ _ _ _ _ Ch) in Eg by (assumption || lia). injection Eg as <-.
          destruct Hc as [[K B0]|[[K _]|[Fc Hc]]]; [|lia|].
          - (* the first piece *)
            destruct pre as [|s pre].
            + destruct First as (i0 & r0 & E0). rewrite E0 in EP. cbn in EP. injection EP as <- <- _.
              destruct Hg as (v & Ev & Hv). cbn in Ev. injection Ev as <-. rewrite <- Hv, B0. reflexivity.
            + exfalso. rewrite EP in Ch0. apply chain_app_inv in Ch0. destruct Ch0 as (m & C1 & C2).
              destruct s as [is fs]. destruct C1 as (_ & L1 & C1). apply chain_le in C1. destruct C2 as (E2 & _).
              rewrite Ei in E2. injection E2 as E2 _. lia.
          - apply plf_is_at in Hc. destruct Hc as (g & Eg & Hgc). rewrite At in Eg by (assumption || lia).
            rewrite (chain_head _ _ _ _ _ _ Ch) in Eg by (assumption || lia). injection Eg as <-.
            unfold affines in Af. rewrite Forall_forall in Af. specialize (Af _ Hin). exact (fn_flat f _ _ _ _ Af S0 Hg Hgc). }
        destruct (cdf_at_ex P lo hi c Pr) as (yc & Hc & _); [lia|].
        pose proof (Fv x yx ltac:(lia) Hx yc Hc) as E1.
        destruct (Z_lt_ge_dec b (upper i)) as [Lb|Gb].
        * pose proof (Fv b yb ltac:(lia) Hb yc Hc) as E2. rewrite E1, E2. reflexivity.
        * destruct (cdf_at_ex P lo hi (upper i) Pr) as (yu & Hu & _); [lia|].
          rewrite E1. rewrite (Fl i f yc yu Hin S0) by (rewrite ?Hlow; (assumption || lia)).
          apply (IH (pre ++ [(i, f)]) (upper i) (upper i) yu); try assumption; try lia. rewrite EP, <- app_assoc. reflexivity.
      + apply (IH (pre ++ [(i, f)]) (upper i) x yx); try assumption; try lia. rewrite EP, <- app_assoc. reflexivity. }
  apply (G P [] (- ORD_INF) a ya); try assumption; try lia; reflexivity.
Qed.

(** ** Probabilities *)

Lemma chain_in : forall p a b i f, chain a p b -> In (i, f) p -> a <= lower i < upper i /\ upper i <= b /\
  (hd (RR, FUndef) p = (i, f) \/ a < lower i).
Proof.
  induction p as [|[j g] p IH]; intros a b i f C I; [destruct I|]. destruct C as (E & L & C). destruct I as [I|I].
  - injection I as <- <-. apply chain_le in C. rewrite E at 1. cbn [lower]. repeat split; try lia; [rewrite E at 1; cbn [lower]; lia|]. left. reflexivity.
  - destruct (IH _ _ _ _ C I) as (A & B & _). repeat split; try lia.
Qed.

Lemma chain_at : forall p a b i f x, chain a p b -> - ORD_INF <= a -> b <= ORD_INF -> In (i, f) p -> finite x -> lower i <= x < upper i -> plf_at p x = Some f.
Proof.
  induction p as [|[j g] p IH]; intros a b i f x C A B I F L; [destruct I|]. destruct I as [I|I].
  - injection I as -> ->. apply (chain_head _ _ _ _ _ _ C); try assumption. destruct C as (E & _). rewrite E in L. cbn [lower upper] in L. lia.
  - pose proof C as C'. destruct C' as (E & Lj & C'). destruct (chain_in _ _ _ _ _ C' I) as (K & _).
    rewrite (chain_tail _ _ _ _ _ _ C) by (assumption || lia). apply (IH (upper j) b i); assumption || lia.
Qed.

Lemma gt0_cover : forall p a cur, chain a p ORD_INF -> Forall (fun s : cs * fn => (0 <= steepness (snd s))%Q) p ->
  (match cur with Some l => l <= a | None => True end) ->
  (forall i f, In (i, f) p -> (0 < steepness f)%Q -> exists c, In c (gt0_loop (slopes p) cur) /\ lower c <= lower i /\ upper i <= upper c /\ left c = INC /\ right c = EXC)
  /\ (forall l, cur = Some l -> exists c, In c (gt0_loop (slopes p) cur) /\ lower c <= l /\ a <= upper c /\ left c = INC /\ right c = EXC).
Proof.
  induction p as [|[i f] p IH]; intros a cur Ch R Cu.
  - split; [intros ? ? []|]. intros l ->. cbn in Ch. subst a. cbn [slopes map gt0_loop]. eexists. split; [left; reflexivity|]. cbn. repeat split; lia.
  - destruct Ch as (Ei & Li & Ch). inversion R as [|? ? R1 R2]; subst. cbn [snd] in R1. cbn [slopes map fst snd]. fold (slopes p). cbn [gt0_loop].
    assert (La : lower i = a) by (rewrite Ei; reflexivity). unfold dens_zero, dens_pos.
    destruct (Qeqb_spec (steepness f) 0) as [Z0|Z0].
    + destruct cur as [l|]; cbn [negb andb orb]; destruct (IH (upper i) None Ch R2 Logic.I) as [H1 _].
      * split.
        -- intros j g [Hj|Hj] Pg; [injection Hj as <- <-; lra|]. destruct (H1 j g Hj Pg) as (c & I & H). exists c. split; [right; exact I|exact H].
        -- intros l' El. injection El as <-. eexists. split; [left; reflexivity|]. cbn. repeat split; lia.
      * split; [|discriminate]. intros j g [Hj|Hj] Pg; [injection Hj as <- <-; lra|]. apply (H1 j g Hj Pg).
    + assert (Pf : (0 < steepness f)%Q) by (apply Qnot_le_lt; intro; apply Z0; lra).
      assert (Pb : Qltb 0 (steepness f) = true) by (unfold Qltb; apply negb_true_iff; apply not_true_is_false; intro K; apply Qle_bool_iff in K; lra).
      rewrite Pb. cbn [negb andb orb]. destruct cur as [l|].
      * destruct (IH (upper i) (Some l) Ch R2) as [H1 H2]; [lia|]. destruct (H2 l eq_refl) as (c & I & H3 & H4 & H5). split.
        -- intros j g [Hj|Hj] Pg; [injection Hj as <- <-|apply (H1 j g Hj Pg)]. exists c. repeat split; try tauto; lia.
        -- intros l' El. injection El as <-. exists c. repeat split; try tauto; lia.
      * destruct (IH (upper i) (Some (lower i)) Ch R2) as [H1 H2]; [lia|]. destruct (H2 _ eq_refl) as (c & I & H3 & H4 & H5). split; [|discriminate].
        intros j g [Hj|Hj] Pg; [injection Hj as <- <-|apply (H1 j g Hj Pg)]. exists c. repeat split; try tauto; lia.
Qed.

Lemma minus_eps_cases : forall x, minus_eps x = x - 1 \/ minus_eps x = x.
Proof. intro x. unfold minus_eps. destruct (subs_one x); auto. Qed.

Lemma contains_half : forall c o, left o = INC -> right o = EXC -> cs_contains_interval c o false = true ->
  lower c <= lower o /\ upper o - 1 <= upper c.
Proof.
  intros c o L R H. unfold cs_contains_interval in H. destruct (cs_isempty c); [discriminate|].
  destruct (Z.ltb_spec (lowermost o) (lowermost c)); [discriminate|]. destruct (Z.ltb_spec (uppermost c) (uppermost o)); [discriminate|].
  unfold lowermost, uppermost in *. rewrite L in *. rewrite R in *. pose proof (minus_eps_cases (upper o)). pose proof (minus_eps_cases (upper c)).
  pose proof (plus_eps_cases (lower c)). destruct (left c), (right c); lia.
Qed.

Lemma line_length : forall p, line_cdf p -> (3 <= length p)%nat.
Proof. intros p S. destruct (ln_first _ S) as (i & r & -> & L). cbn. lia. Qed.

Lemma p_empty : forall p c, affines p -> (3 <= length p)%nat -> cs_isempty c = true -> p_interval p c = Ok 0%Q.
Proof.
  intros p c A L E. unfold p_interval. rewrite (density_spec p A L). cbn [bind]. cbv zeta.
  assert (D : rs_isdisjoint (gt0 (slopes p)) (NC c) = true); [|rewrite D; reflexivity].
  unfold rs_isdisjoint, rs_intersects. cbn [as_list existsb]. apply negb_true_iff. generalize (gt0 (slopes p)).
  induction l as [|s l IH]; [reflexivity|]. cbn [existsb]. unfold cs_intersects at 1. rewrite E. exact IH.
Qed.

(** Zero for an interval off the support, otherwise the difference of the cdf. *)
Theorem p_interval_cases : forall p c ya yb, line_cdf p -> bounded c -> cs_isempty c = false ->
  cdf_at p (lower c) ya -> cdf_at p (upper c) yb ->
  exists q, p_interval p c = Ok q /\ (if rs_isdisjoint (gt0 (slopes p)) (NC c) then q == 0 else q == yb - ya)%Q.
Proof.
  intros p c ya yb Sm B E Ha Hb. pose proof (ln_chain _ Sm) as Ch. pose proof (ln_rise _ Sm) as R. pose proof (ln_affine _ Sm) as Af.
  destruct (ln_proper _ Sm) as (lo & hi & Pr). destruct B as (B1 & B2 & B3).
  unfold p_interval. rewrite (density_spec p Af (line_length p Sm)). cbn [bind]. cbv zeta.
  destruct (rs_isdisjoint (gt0 (slopes p)) (NC c)) eqn:D.
  - exists 0%Q. split; reflexivity.
  - assert (Hu : exists a, (if upper c =? ORD_INF then Ok 1%Q else cdf_num p (upper c)) = Ok a /\ (a == yb)%Q).
    { destruct (Z.eqb_spec (upper c) ORD_INF) as [Eu|Nu].
      - exists 1%Q. split; [reflexivity|]. symmetry. apply (cdf_at_fun p (upper c)); [exact Hb|]. right. left. split; [exact Eu|reflexivity].
      - apply cdf_at_eval; [unfold finite; lia|exact Hb]. }
    assert (Hl : exists a, (if lower c =? - ORD_INF then Ok 0%Q else cdf_num p (lower c)) = Ok a /\ (a == ya)%Q).
    { destruct (Z.eqb_spec (lower c) (- ORD_INF)) as [Eu|Nu].
      - exists 0%Q. split; [reflexivity|]. symmetry. apply (cdf_at_fun p (lower c)); [exact Ha|]. left. split; [exact Eu|reflexivity].
      - apply cdf_at_eval; [unfold finite; lia|exact Ha]. }
    destruct Hu as (vb & -> & Eb). destruct Hl as (va & -> & Ea). cbn [bind].
    destruct (Qeqb_spec (vb - va) 0) as [Z0|Z0]; [|exists (vb - va)%Q; split; [reflexivity|lra]].
    assert (forallb (fun i => cs_contains_interval c i false) (gt0 (slopes p)) = false) as ->; [|exists 0%Q; split; [reflexivity|lra]].
    apply not_true_is_false. intro K. rewrite forallb_forall in K.
    destruct (ln_spread _ Sm) as (i & f & I & Ps & Li).
    destruct (gt0_cover p (- ORD_INF) None Ch R Logic.I) as [Cv _]. destruct (Cv i f I Ps) as (o & Io & Lo & Uo & Lf & Rf).
    destruct (contains_half c o Lf Rf (K o Io)) as [K1 K2].
    destruct (chain_in _ _ _ _ _ Ch I) as (Ci & Cu & Hh).
    assert (Nl : - ORD_INF < lower i).
    { destruct Hh as [Hh|Hh]; [|exact Hh]. destruct (ln_first _ Sm) as (i0 & r0 & E0 & _). rewrite E0 in Hh. cbn in Hh. injection Hh as <- <-. cbn in Ps. lra. }
    assert (F1 : finite (lower i)) by (unfold finite; lia). assert (F2 : finite (lower i + 1)) by (unfold finite; lia).
    pose proof (chain_at _ _ _ _ _ (lower i) Ch ltac:(lia) ltac:(lia) I F1 ltac:(lia)) as A1.
    pose proof (chain_at _ _ _ _ _ (lower i + 1) Ch ltac:(lia) ltac:(lia) I F2 ltac:(lia)) as A2.
    unfold affines in Af. rewrite Forall_forall in Af. specialize (Af _ I). cbn [snd] in Af.
    destruct f as [|k|m k|? ? ?]; cbn in Af; try contradiction; cbn [steepness] in Ps; [lra|].
    assert (P1 : cdf_at p (lower i) (m * dval (lower i) + k)) by (right; right; split; [exact F1|apply (plf_is_of _ _ _ _ A1); eexists; split; reflexivity]).
    assert (P2 : cdf_at p (lower i + 1) (m * dval (lower i + 1) + k)) by (right; right; split; [exact F2|apply (plf_is_of _ _ _ _ A2); eexists; split; reflexivity]).
    assert (O1 : lower c <= lower i) by lia. assert (O2 : lower i + 1 <= upper c) by lia.
    pose proof (cdf_at_mono p lo hi _ _ _ _ Pr O1 Ha P1). pose proof (cdf_at_mono p lo hi _ _ _ _ Pr O2 P2 Hb).
    assert (dval (lower i) < dval (lower i + 1))%Q by (apply dval_lt; lia).
    assert (m * dval (lower i) < m * dval (lower i + 1))%Q by nra. lra.
Qed.

(** The difference of the cdf, if there is no jump at the bounds of the interval and
    every jump inside it is followed by a rising piece. *)
Definition jump_off (p : plf) (G : Z -> Prop) : Prop :=
  forall i f y y', In (i, f) p -> (steepness f == 0)%Q -> cdf_at p (lower i) y -> cdf_at p (upper i) y' ->
    (y == y')%Q \/ (~ G (upper i) /\ exists j g, In (j, g) p /\ lower j = upper i /\ (0 < steepness g)%Q).

Theorem p_interval_off : forall p c ya yb, line_cdf p -> jump_off p (fun x => x = upper c) -> bounded c -> cs_isempty c = false ->
  cdf_at p (lower c) ya -> cdf_at p (upper c) yb -> exists q, p_interval p c = Ok q /\ (q == yb - ya)%Q.
Proof.
  intros p c ya yb Sm NJ B E Ha Hb. destruct (p_interval_cases p c ya yb Sm B E Ha Hb) as (q & Eq & H). exists q. split; [exact Eq|].
  destruct (rs_isdisjoint (gt0 (slopes p)) (NC c)) eqn:D; [|exact H]. unfold gt0 in D.
  destruct (gt0_away p (- ORD_INF) None (ln_chain _ Sm) (ln_rise _ Sm) c B E Logic.I D) as [Aw _].
  assert (ya == yb)%Q; [|lra]. destruct (ln_first _ Sm) as (i0 & r0 & E0 & _). destruct B as (B1 & B2 & B3).
  apply (flat_between p (ln_chain _ Sm) (ln_affine _ Sm) (ex_intro _ i0 (ex_intro _ r0 E0)) (ln_rise _ Sm) (ln_proper _ Sm) (lower c) (upper c)); try assumption; try lia.
  intros i f y y' I S0 R Hy Hy'. destruct (NJ i f y y' I S0 Hy Hy') as [H0|(N & j & g & Ij & Lj & Pg)]; [exact H0|]. exfalso.
  destruct (chain_in _ _ _ _ _ (ln_chain _ Sm) Ij) as (C1 & _). destruct (Aw j g Ij Pg); lia.
Qed.
Theorem p_interval_spec : forall p c ya yb, line_cdf p -> no_jumps p -> bounded c -> cs_isempty c = false ->
  cdf_at p (lower c) ya -> cdf_at p (upper c) yb -> exists q, p_interval p c = Ok q /\ (q == yb - ya)%Q.
Proof.
  intros p c ya yb Sm NJ. apply (p_interval_off p c ya yb Sm). intros i f y y' I S0 Hy Hy'. left. exact (NJ i f y y' I S0 Hy Hy').
Qed.

(** ** Consequences *)

Lemma bounded_cdf : forall p c, line_cdf p -> bounded c -> exists ya yb, cdf_at p (lower c) ya /\ cdf_at p (upper c) yb /\ (0 <= ya /\ ya <= yb /\ yb <= 1)%Q.
Proof.
  intros p c L (B1 & B2 & B3). destruct (ln_proper _ L) as (lo & hi & Pr).
  destruct (cdf_at_ex p lo hi (lower c) Pr) as (ya & Ha & Ra); [lia|]. destruct (cdf_at_ex p lo hi (upper c) Pr) as (yb & Hb & Rb); [lia|].
  exists ya, yb. pose proof (cdf_at_mono p lo hi _ _ _ _ Pr B1 Ha Hb). repeat split; try assumption; lra.
Qed.

Lemma p_range : forall p c, line_cdf p -> bounded c -> exists q, p_interval p c = Ok q /\ (0 <= q <= 1)%Q.
Proof.
  intros p c L B. destruct (cs_isempty c) eqn:E.
  - rewrite (p_empty p c (ln_affine _ L) (line_length _ L) E). exists 0%Q. split; [reflexivity|lra].
  - destruct (bounded_cdf p c L B) as (ya & yb & Ha & Hb & R). destruct (p_interval_cases p c ya yb L B E Ha Hb) as (q & -> & H).
    exists q. split; [reflexivity|]. destruct (rs_isdisjoint _ _); lra.
Qed.

Lemma p_whole : forall p, line_cdf p -> exists q, p_interval p RR = Ok q /\ (q == 1)%Q.
Proof.
  intros p L. assert (B : bounded RR) by (pose proof ord_facts; unfold bounded, RR; cbn [lower upper left right]; repeat split; lia). 
  assert (Ha : cdf_at p (lower RR) 0) by (left; split; reflexivity). assert (Hb : cdf_at p (upper RR) 1) by (right; left; split; reflexivity).
  destruct (p_interval_cases p RR 0%Q 1%Q L B eq_refl Ha Hb) as (q & -> & H). exists q. split; [reflexivity|].
  destruct (rs_isdisjoint _ _) eqn:D; [|rewrite H; ring]. exfalso. unfold gt0 in D.
  destruct (gt0_away p (- ORD_INF) None (ln_chain _ L) (ln_rise _ L) RR B eq_refl Logic.I D) as [Aw _].
  destruct (ln_spread _ L) as (i & f & I & Ps & _). destruct (chain_in _ _ _ _ _ (ln_chain _ L) I) as (C1 & C2 & Hh).
  destruct (Aw i f I Ps) as [K|K]; cbn [lower upper RR] in K; lia.
Qed.

(** A larger interval meets the support whenever a smaller one does. *)
Definition inside_of (c d : cs) : Prop :=
  lower d <= lower c /\ upper c <= upper d
  /\ (lower c = lower d -> left c = INC -> left d = INC) /\ (upper c = upper d -> right c = INC -> right d = INC).

Lemma intersects_mono : forall s c d, inside_of c d -> bounded c -> cs_isempty c = false -> cs_isempty d = false ->
  cs_intersects s c = true -> cs_intersects s d = true.
Proof.
  intros s c d (I1 & I2 & I3 & I4) (B & _) Ec Ed H. unfold cs_intersects in *. rewrite Ec in H. rewrite Ed.
  destruct (Z.ltb_spec (upper s) (lower c)); [discriminate|]. destruct (Z.ltb_spec (upper c) (lower s)); [discriminate|]. cbn [orb] in H.
  destruct (Z.ltb_spec (upper s) (lower d)); [lia|]. destruct (Z.ltb_spec (upper d) (lower s)); [lia|]. cbn [orb].
  destruct (Z.eqb_spec (lower s) (upper d)) as [E1|N1]; cbn [andb].
  - assert (lower s = upper c) by lia. rewrite <- H4, Z.eqb_refl in H. cbn [andb] in H.
    destruct (right c) eqn:Rc; cbn [flag_eqb orb] in H; [|discriminate].
    rewrite (I4 ltac:(lia) eq_refl). cbn [flag_eqb orb]. destruct (left s) eqn:Ls; cbn [flag_eqb orb] in *; [|discriminate].
    destruct (Z.eqb_spec (upper s) (lower d)) as [E2|N2]; cbn [andb]; [|reflexivity].
    assert (upper s = lower c) by lia. rewrite H5 in H at 1. rewrite Z.eqb_refl in H. cbn [andb] in H.
    destruct (left c) eqn:Lc; [rewrite (I3 ltac:(lia) eq_refl)|rewrite orb_true_r in H; discriminate].
    destruct (right s); cbn [flag_eqb orb] in *; [reflexivity|discriminate].
  - destruct (Z.eqb_spec (upper s) (lower d)) as [E2|N2]; cbn [andb]; [|reflexivity].
    assert (Eq : upper s = lower c) by lia.
    destruct ((lower s =? upper c) && (flag_eqb (right c) EXC || flag_eqb (left s) EXC)); [discriminate|].
    rewrite Eq, Z.eqb_refl in H. cbn [andb] in H.
    destruct (left c) eqn:Lc; [rewrite (I3 ltac:(lia) eq_refl)|rewrite orb_true_r in H; discriminate].
    destruct (right s); cbn [flag_eqb orb] in *; [reflexivity|discriminate].
Qed.

Lemma p_mono : forall p c d, line_cdf p -> bounded c -> bounded d -> inside_of c d -> cs_isempty c = false -> cs_isempty d = false ->
  exists q r, p_interval p c = Ok q /\ p_interval p d = Ok r /\ (q <= r)%Q.
Proof.
  intros p c d L Bc Bd I Ec Ed. destruct (bounded_cdf p c L Bc) as (ya & yb & Ha & Hb & R). destruct (bounded_cdf p d L Bd) as (ya' & yb' & Ha' & Hb' & R').
  destruct (p_interval_cases p c ya yb L Bc Ec Ha Hb) as (q & -> & H). destruct (p_interval_cases p d ya' yb' L Bd Ed Ha' Hb') as (r & -> & H').
  exists q, r. split; [reflexivity|]. split; [reflexivity|]. destruct (ln_proper _ L) as (lo & hi & Pr).
  pose proof (cdf_at_mono p lo hi _ _ _ _ Pr (proj1 I) Ha' Ha). pose proof (cdf_at_mono p lo hi _ _ _ _ Pr (proj1 (proj2 I)) Hb Hb').
  destruct (rs_isdisjoint (gt0 (slopes p)) (NC c)) eqn:D; destruct (rs_isdisjoint (gt0 (slopes p)) (NC d)) eqn:D'; try lra.
  exfalso. unfold rs_isdisjoint, rs_intersects in D, D'. cbn [as_list existsb] in *.
  apply negb_true_iff in D'. apply negb_false_iff in D. apply existsb_exists in D. destruct D as (s & Is & D). rewrite orb_false_r in D.
  apply not_true_iff_false in D'. apply D'. apply existsb_exists. exists s. split; [exact Is|]. rewrite orb_false_r.
  apply (intersects_mono s c d); assumption.
Qed.

(** ** Inclusion of intervals of real numbers *)

Lemma dense_low : forall c t, bounded c -> lower c < upper c -> (lower c = - ORD_INF \/ (dval (lower c) < t)%Q) ->
  exists q, real_mem q c /\ (q < t)%Q.
Proof.
  intros c t (B1 & B2 & B3 & B4 & B5) L H.
  assert (Hi : exists h, (h <= t)%Q /\ (upper c = ORD_INF \/ (h <= dval (upper c))%Q) /\ (lower c = - ORD_INF \/ (dval (lower c) < h)%Q)).
  { destruct (Z.eq_dec (upper c) ORD_INF) as [E|N]; [exists t; repeat split; [lra|left; exact E|exact H]|].
    destruct (Qlt_le_dec t (dval (upper c))) as [K|K].
    - exists t. repeat split; [lra|right; lra|exact H].
    - exists (dval (upper c)). repeat split; [exact K|right; lra|]. right. apply dval_lt. exact L. }
  destruct Hi as (h & H1 & H2 & H3). destruct (Z.eq_dec (lower c) (- ORD_INF)) as [E|N].
  - exists (h - 1)%Q. split; [|lra]. split; [left; exact E|]. destruct H2 as [H2|H2]; [left; exact H2|right]. destruct (right c); lra.
  - destruct H3 as [H3|H3]; [contradiction|]. exists ((dval (lower c) + h) * (1 # 2))%Q. split; [|lra]. split.
    + right. destruct (left c); lra.
    + destruct H2 as [H2|H2]; [left; exact H2|right]. destruct (right c); lra.
Qed.
Lemma dense_high : forall c t, bounded c -> lower c < upper c -> (upper c = ORD_INF \/ (t < dval (upper c))%Q) ->
  exists q, real_mem q c /\ (t < q)%Q.
Proof.
  intros c t (B1 & B2 & B3 & B4 & B5) L H.
  assert (Hi : exists h, (t <= h)%Q /\ (lower c = - ORD_INF \/ (dval (lower c) <= h)%Q) /\ (upper c = ORD_INF \/ (h < dval (upper c))%Q)).
  { destruct (Z.eq_dec (lower c) (- ORD_INF)) as [E|N]; [exists t; repeat split; [lra|left; exact E|exact H]|].
    destruct (Qlt_le_dec (dval (lower c)) t) as [K|K].
    - exists t. repeat split; [lra|right; lra|exact H].
    - exists (dval (lower c)). repeat split; [exact K|right; lra|]. right. apply dval_lt. exact L. }
  destruct Hi as (h & H1 & H2 & H3). destruct (Z.eq_dec (upper c) ORD_INF) as [E|N].
  - exists (h + 1)%Q. split; [|lra]. split; [|left; exact E]. destruct H2 as [H2|H2]; [left; exact H2|right]. destruct (left c); lra.
  - destruct H3 as [H3|H3]; [contradiction|]. exists ((dval (upper c) + h) * (1 # 2))%Q. split; [|lra]. split.
    + destruct H2 as [H2|H2]; [left; exact H2|right]. destruct (left c); lra.
    + right. destruct (right c); lra.
Qed.

Lemma subset_inside : forall c d, bounded c -> bounded d -> cs_isempty c = false ->
  (forall q, real_mem q c -> real_mem q d) -> inside_of c d.
Proof.
  intros c d Bc Bd E S. pose proof ord_facts as O.
  assert (Ne : lower c < upper c \/ (lower c = upper c /\ left c = INC /\ right c = INC)).
  { destruct Bc as (B1 & _). destruct (Z.eq_dec (lower c) (upper c)) as [Q|Q]; [right|left; lia]. unfold cs_isempty in E.
    destruct (Z.ltb_spec (upper c) (lower c)); [lia|]. rewrite Q, Z.eqb_refl in E. apply negb_false_iff in E. unfold isclosed, itype in E.
    destruct (left c), (right c); cbn in E; try discriminate. auto. }
  destruct Ne as [L|(Q & Lc & Rc)].
  - assert (I1 : lower d <= lower c).
    { destruct (Z_le_gt_dec (lower d) (lower c)) as [K|K]; [exact K|exfalso].
      destruct (dense_low c (dval (lower d)) Bc L) as (q & M & Lq).
      - destruct (Z.eq_dec (lower c) (- ORD_INF)); [left; assumption|right; apply dval_lt; lia].
      - destruct (S q M) as [[H|H] _]; [destruct Bc as (_ & B & _); lia|]. destruct (left d); lra. }
    assert (I2 : upper c <= upper d).
    { destruct (Z_le_gt_dec (upper c) (upper d)) as [K|K]; [exact K|exfalso].
      destruct (dense_high c (dval (upper d)) Bc L) as (q & M & Lq).
      - destruct (Z.eq_dec (upper c) ORD_INF); [left; assumption|right; apply dval_lt; lia].
      - destruct (S q M) as [_ [H|H]]; [destruct Bc as (_ & _ & B & _); lia|]. destruct (right d); lra. }
    split; [exact I1|]. split; [exact I2|]. split.
    + intros El Lc. assert (N : lower c <> - ORD_INF) by (intro K; destruct Bc as (_ & _ & _ & B & _); rewrite (B K) in Lc; discriminate).
      assert (M : real_mem (dval (lower c)) c).
      { split; [right; rewrite Lc; lra|]. destruct (Z.eq_dec (upper c) ORD_INF); [left; assumption|right].
        pose proof (dval_lt _ _ L). destruct (right c); lra. }
      destruct (S _ M) as [[H|H] _]; [rewrite <- El in H; contradiction|]. rewrite El in H. destruct (left d); [reflexivity|lra].
    + intros El Rc. assert (N : upper c <> ORD_INF) by (intro K; destruct Bc as (_ & _ & _ & _ & B); rewrite (B K) in Rc; discriminate).
      assert (M : real_mem (dval (upper c)) c).
      { split; [|right; rewrite Rc; lra]. destruct (Z.eq_dec (lower c) (- ORD_INF)); [left; assumption|right].
        pose proof (dval_lt _ _ L). destruct (left c); lra. }
      destruct (S _ M) as [_ [H|H]]; [rewrite <- El in H; contradiction|]. rewrite El in H. destruct (right d); [reflexivity|lra].
  - destruct Bc as (B1 & B2 & B3 & B4 & B5).
    assert (M : real_mem (dval (lower c)) c).
    { split; right; [rewrite Lc; lra|rewrite Rc, <- Q; lra]. }
    destruct (S _ M) as [H1 H2]. destruct Bd as (D1 & D2 & D3 & D4 & D5).
    assert (I1 : lower d <= lower c).
    { destruct H1 as [H1|H1]; [lia|]. apply dval_le_iff. destruct (left d); lra. }
    assert (I2 : upper c <= upper d).
    { destruct H2 as [H2|H2]; [lia|]. apply dval_le_iff. rewrite Q in H2. destruct (right d); lra. }
    split; [exact I1|]. split; [exact I2|]. split.
    + intros El _. destruct H1 as [H1|H1]; [rewrite (B4 ltac:(lia)) in Lc; discriminate|]. rewrite El in H1. destruct (left d); [reflexivity|lra].
    + intros El _. destruct H2 as [H2|H2]; [rewrite (B5 ltac:(lia)) in Rc; discriminate|]. rewrite Q, El in H2. destruct (right d); [reflexivity|lra].
Qed.

(** ** Fitted distributions *)
Lemma cnt_one : forall data x, least x data -> count_occ Z.eq_dec data x = 1%nat -> cnt data x = 1%nat.
Proof.
  intros data x [_ M] C. rewrite <- C. unfold cnt. clear C. induction data as [|d data IH]; [reflexivity|].
  cbn [filter count_occ]. pose proof (M d (or_introl eq_refl)). destruct (Z.eq_dec d x) as [->|N].
  - rewrite Z.leb_refl. cbn [length]. f_equal. apply IH. intros; apply M; right; assumption.
  - destruct (Z.leb_spec d x); [lia|]. apply IH. intros; apply M; right; assumption.
Qed.

Lemma fitted_line : forall data p knots, fitted data p knots -> Forall finite data -> Z.abs (last knots 0) < ORD_53 -> line_cdf p.
Proof.
  intros data p knots F Fi Md. split.
  - apply (ft_chain _ _ _ F).
  - apply (ft_affine _ _ _ F).
  - apply (ft_first _ _ _ F).
  - eexists; eexists. apply (ft_proper _ _ _ F).
  - apply Forall_forall. intros [i f] I. cbn [snd]. destruct (ft_pieces _ _ _ F i f I) as [(-> & _)|[[P _]|(-> & _)]]; cbn [steepness]; lra.
  - destruct (ft_wide _ _ _ F) as (i & f & I & P & L & U). exists i, f. split; [exact I|]. split; [exact P|]. rewrite U.
    unfold plus_eps, adds_one. destruct (Z.ltb_spec (Z.abs (last knots 0)) ORD_53); lia.
Qed.

Lemma fitted_no_jumps : forall data p knots, fitted data p knots -> Forall finite data -> count_occ Z.eq_dec data (hd 0 knots) = 1%nat -> no_jumps p.
Proof.
  intros data p knots F Fi One i f y y' I S H H'. pose proof ord_facts as O. destruct (ft_pieces _ _ _ F i f I) as [(-> & E1 & E2)|[[P _]|(-> & E1 & E2)]]; [|lra|].
  - assert (y == 0)%Q by (apply (cdf_at_fun p (lower i)); [exact H|left; split; [exact E1|reflexivity]]).
    assert (y' == 0)%Q; [|lra].
    pose proof (ft_inc _ _ _ F) as Inc. pose proof (ft_len _ _ _ F) as Ln. destruct knots as [|a [|b ks]] eqn:Ek; cbn in Ln; try lia. cbn [hd] in *.
    assert (Fa : finite a). { rewrite Forall_forall in Fi. apply Fi. apply (ft_data _ _ _ F). left. reflexivity. }
    destruct (StronglySorted_inv Inc) as [_ Fab]. pose proof (Forall_inv Fab) as Lab. pose proof (dval_lt _ _ Lab).
    pose proof (ft_line _ _ _ F a b a (ex_intro _ [] (ex_intro _ ks eq_refl)) ltac:(lia)) as V.
    apply (cdf_at_fun p (upper i)); [exact H'|]. right. right. rewrite E2. split; [exact Fa|]. apply (plf_is_wd _ _ _ _ ) with (2 := V).
    assert (quantile data a == 0)%Q as Q0.
    { unfold quantile, count_le. fold (cnt data a). rewrite (cnt_one data a (ft_least _ _ _ F) One). change (Qn 1) with 1%Q. unfold Qdiv. ring. }
    unfold interpolate. rewrite Q0. field. lra.
  - assert (y' == 1)%Q by (apply (cdf_at_fun p (upper i)); [exact H'|right; left; split; [exact E1|reflexivity]]).
    assert (y == 1)%Q; [|lra]. destruct (chain_in _ _ _ _ _ (ft_chain _ _ _ F) I) as (C1 & C2 & Hh).
    assert (Fl : finite (lower i)).
    { unfold finite. destruct (ft_largest _ _ _ F) as [Il _]. rewrite Forall_forall in Fi. specialize (Fi _ Il). unfold finite in Fi. lia. }
    apply (cdf_at_fun p (lower i)); [exact H|]. right. right. split; [exact Fl|]. apply (pc_right _ _ _ (ft_proper _ _ _ F)); assumption.
Qed.

(** ** A single value *)
Lemma dirac_chain : forall x, finite x -> chain (- ORD_INF) (dirac x) ORD_INF.
Proof.
  intros x Fx. unfold dirac. cbn [chain upper]. rewrite Z.eqb_refl. assert ((x =? - ORD_INF) = false) as -> by (unfold finite in *; lia).
  unfold finite in *. repeat split; lia.
Qed.
Lemma dirac_pdf : forall x, Z.abs x < ORD_53 -> pdf_of (dirac x) =
  Ok [(CS (- ORD_INF) x EXC EXC, DFin 0); (CS x (x + 1) INC EXC, DInf); (CS (x + 1) ORD_INF INC EXC, DFin 0)].
Proof.
  intros x M. unfold pdf_of, dirac, plf_differentiate, plf_map. cbn [mapM fst snd fn_differentiate bind value_of_const upper lower].
  assert (E : plus_eps x = x + 1) by (unfold plus_eps, adds_one; destruct (Z.ltb_spec (Z.abs x) ORD_53); lia). rewrite !E.
  unfold mk_cs. destruct (Z.ltb_spec (x + 1) x); [lia|]. cbn [bind]. reflexivity.
Qed.

Lemma dirac_p : forall x c, Z.abs x < ORD_53 -> bounded c ->
  exists q, p_interval (dirac x) c = Ok q /\ (cs_mem x c -> q == 1)%Q /\ (~ cs_mem x c -> q == 0)%Q.
Proof.
  intros x c M (B1 & B2 & B3 & B4 & B5). pose proof ord_facts as O. assert (Fx : finite x) by (unfold finite; lia).
  unfold p_interval. rewrite (dirac_pdf x M). cbn [bind]. cbv zeta.
  assert (G : gt0 [(CS (- ORD_INF) x EXC EXC, DFin 0); (CS x (x + 1) INC EXC, DInf); (CS (x + 1) ORD_INF INC EXC, DFin 0)] = [CS x (x + 1) INC EXC]) by reflexivity.
  rewrite G. clear G. unfold rs_isdisjoint, rs_intersects. cbn [existsb as_list forallb]. rewrite !orb_false_r, andb_true_r.
  pose proof (dirac_proper x Fx) as Pr.
  assert (Ev : forall y, finite y -> exists v, cdf_num (dirac x) y = Ok v /\ (v == if y <? x then 0 else 1)%Q).
  { intros y Fy. apply cdf_at_eval; [exact Fy|]. right. right. split; [exact Fy|]. destruct (Z.ltb_spec y x).
    - apply (pc_left _ _ _ Pr); assumption.
    - apply (pc_right _ _ _ Pr); assumption. }
  assert (Hu : exists a, (if upper c =? ORD_INF then Ok 1%Q else cdf_num (dirac x) (upper c)) = Ok a /\ (a == if (upper c <? x)%Z then 0 else 1)%Q).
  { destruct (Z.eqb_spec (upper c) ORD_INF) as [E|N].
    - exists 1%Q. split; [reflexivity|]. destruct (Z.ltb_spec (upper c) x); [unfold finite in *; lia|reflexivity].
    - apply Ev. unfold finite. lia. }
  assert (Hl : exists a, (if lower c =? - ORD_INF then Ok 0%Q else cdf_num (dirac x) (lower c)) = Ok a /\ (a == if (lower c <? x)%Z then 0 else 1)%Q).
  { destruct (Z.eqb_spec (lower c) (- ORD_INF)) as [E|N].
    - exists 0%Q. split; [reflexivity|]. destruct (Z.ltb_spec (lower c) x); [reflexivity|unfold finite in *; lia].
    - apply Ev. unfold finite. lia. }
  destruct Hu as (vb & -> & Eb). destruct Hl as (va & -> & Ea). cbn [bind]. 
  destruct (cs_intersects (CS x (x + 1) INC EXC) c) eqn:I; cbn [negb].
  - assert (J : ~ (x + 1 <= lower c) /\ ~ (upper c < x) /\ (upper c = x -> right c = INC) /\ cs_isempty c = false).
    { unfold cs_intersects in I. destruct (cs_isempty c); [discriminate|]. cbn [lower upper left right flag_eqb] in I.
      destruct (Z.ltb_spec (x + 1) (lower c)); [discriminate|]. destruct (Z.ltb_spec (upper c) x); [discriminate|]. cbn [orb] in I.
      destruct (Z.eqb_spec x (upper c)); cbn [andb] in I.
      - destruct (right c); cbn [flag_eqb orb] in I; [|discriminate]. destruct (Z.eqb_spec (x + 1) (lower c)); cbn [andb orb] in I; [discriminate|]. repeat split; try lia; auto.
      - destruct (Z.eqb_spec (x + 1) (lower c)); cbn [andb orb] in I; [discriminate|]. repeat split; try lia; auto. }
    destruct J as (J1 & J2 & J3 & J4).
    destruct (Z.ltb_spec (upper c) x); [lia|]. destruct (Z.ltb_spec (lower c) x) as [Ll|Gl].
    + destruct (Qeqb_spec (vb - va) 0) as [Z0|Z0]; [lra|]. exists (vb - va)%Q. split; [reflexivity|]. split; [intros _; lra|].
      intro N. exfalso. apply N. split; [exact Fx|]. split; [destruct (left c); lia|]. 
      destruct (right c); [lia|]. destruct (Z.eq_dec (upper c) x) as [E|]; [discriminate (J3 E)|lia].
    + assert (Lx : lower c = x) by lia. destruct (Qeqb_spec (vb - va) 0) as [Z0|Z0]; [|exfalso; apply Z0; lra].
      destruct (left c) eqn:Lf.
      * assert (K : cs_contains_interval c (CS x (x + 1) INC EXC) false = true).
        { unfold cs_contains_interval. rewrite J4. unfold lowermost, uppermost. cbn [lower upper left right]. rewrite Lf.
          assert (Em : minus_eps (x + 1) = x).
          { unfold minus_eps, subs_one, adds_one. destruct (Z.ltb_spec (Z.abs (- (x + 1))) ORD_53); [lia|].
            assert (Ex : x = ORD_53 - 1) by lia. clear -Ex. subst x. reflexivity. }
          rewrite Em, Lx, Z.ltb_irrefl. cbn [orb flag_eqb]. rewrite Z.eqb_refl. cbn [andb].
          assert (Ux : (match right c with INC => upper c | EXC => minus_eps (upper c) end <? x) = false).
          { apply Z.ltb_ge. destruct (right c) eqn:Rf; [lia|]. pose proof (minus_eps_cases (upper c)).
            destruct (Z.eq_dec (upper c) x) as [E|]; [discriminate (J3 E)|lia]. }
          rewrite Ux. rewrite !andb_false_r. reflexivity. }
        rewrite K. exists 1%Q. split; [reflexivity|]. split; [reflexivity|]. intro N. exfalso. apply N. split; [exact Fx|]. rewrite Lf. split; [lia|].
        destruct (right c); [lia|]. destruct (Z.eq_dec (upper c) x) as [E|]; [discriminate (J3 E)|lia].
      * assert (K : cs_contains_interval c (CS x (x + 1) INC EXC) false = false).
        { unfold cs_contains_interval. rewrite J4. unfold lowermost. cbn [lower upper left right]. rewrite Lf.
          assert (plus_eps (lower c) = x + 1) as -> by (rewrite Lx; unfold plus_eps, adds_one; destruct (Z.ltb_spec (Z.abs x) ORD_53); lia).
          destruct (Z.ltb_spec x (x + 1)); [reflexivity|lia]. }
        rewrite K. exists 0%Q. split; [reflexivity|]. split; [|reflexivity]. intros (_ & N & _). rewrite Lf in N. lia.
  - exists 0%Q. split; [reflexivity|]. split; [|reflexivity]. intros (_ & N1 & N2). exfalso. 
    destruct (cs_isempty c) eqn:Ec.
    + unfold cs_isempty in Ec. destruct (Z.ltb_spec (upper c) (lower c)); [discriminate|]. unfold isclosed, itype in Ec.
      destruct (Z.eqb_spec (lower c) (upper c)) as [E|N].
      * destruct (left c), (right c); cbn in Ec; try discriminate; lia.
      * apply andb_prop in Ec. destruct Ec as [E1 E2]. pose proof (plus_eps_cases (lower c)). destruct (left c), (right c); cbn in E2; try discriminate. lia.
    + unfold cs_intersects in I. rewrite Ec in I. cbn [lower upper left right flag_eqb] in I.
      destruct (Z.ltb_spec (x + 1) (lower c)); [destruct (left c); lia|]. destruct (Z.ltb_spec (upper c) x); [destruct (right c); lia|]. cbn [orb] in I.
      destruct (Z.eqb_spec x (upper c)) as [E|N]; cbn [andb] in I.
      * destruct (right c); [|lia]. cbn [flag_eqb orb] in I. destruct (Z.eqb_spec (x + 1) (lower c)); [lia|]. discriminate.
      * destruct (Z.eqb_spec (x + 1) (lower c)); [destruct (left c); lia|]. discriminate.
Qed.
