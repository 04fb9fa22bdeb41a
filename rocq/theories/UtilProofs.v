(** Proofs about normalisation, the roulette wheel, the heap and linspace. *)
Require Import QArith Qabs Lqa ZArith Bool List Lia Permutation Sorted.
Require Import Verif.Base Verif.NumBase Verif.UtilModel.
Import ListNotations.
Open Scope Q_scope.

(** ** normalized *)

Lemma Qmin_list_spec : forall l, match Qmin_list l with
  | None => l = []
  | Some m => In m l /\ forall x, In x l -> m <= x
  end.
Proof.
  induction l as [|x l IH]; cbn; [reflexivity|]. destruct (Qmin_list l) as [m|].
  - destruct IH as [I M]. unfold Qltb. destruct (Qltb_spec m x).
    + split; [auto|]. intros y [<-|Iy]; [lra|auto].
    + split; [auto|]. intros y [<-|Iy]; [lra|]. specialize (M y Iy). lra.
  - subst l. split; [auto|]. intros y [<-|[]]. lra.
Qed.

Lemma Qsum_abs_nonneg : forall l, 0 <= Qsum (map Qabs l).
Proof. intro l. apply Qsum_map_nonneg. intros; apply Qabs_nonneg. Qed.

Lemma div_zero_iff : forall a b, ~ b == 0 -> (a / b == 0 <-> a == 0).
Proof.
  intros a b N. split; intro H.
  - assert (E : a == a / b * b) by (field; exact N). rewrite H in E. lra.
  - rewrite H. unfold Qdiv. lra.
Qed.

(** What the loop computes: the input divided by its sum, after zeros have been
    replaced by the fraction [zeros] of the smallest positive entry. *)
Definition fill (zeros : Q) (m : Q) (v : Q) : Q := if Qeq_bool v 0 then m * zeros else v.

Lemma loop_nofill : forall fuel ident zeros l, (0 < fuel)%nat -> ~ Qsum l == 0 ->
  (zeros == 0 \/ (l <> [] /\ forall x, In x l -> 0 < x)) -> (forall x, In x l -> 0 <= x) ->
  normalize_loop fuel ident zeros l = Ok (Some (map (fun v => v / Qsum l) l)).
Proof.
  intros fuel ident zeros l F N C Nn. destruct fuel as [|fuel]; [lia|]. cbn [normalize_loop].
  destruct (Qeqb_spec (Qsum l) 0); [contradiction|].
  destruct (Qeqb_spec zeros 0) as [Z|Z]; cbn [negb]; [reflexivity|].
  destruct C as [C|[NE P]]; [contradiction|].
  pose proof (Qmin_list_spec (map (fun v => v / Qsum l) l)) as M.
  destruct (Qmin_list (map (fun v => v / Qsum l) l)) as [m|].
  - destruct M as [I _]. apply in_map_iff in I. destruct I as (v & <- & I).
    destruct (Qeqb_spec (v / Qsum l) 0) as [E|]; [|reflexivity].
    exfalso. apply (proj1 (div_zero_iff v (Qsum l) n)) in E. specialize (P v I). lra.
  - exfalso. destruct l; [congruence|discriminate].
Qed.

Definition min_pos (l : list Q) (m : Q) : Prop := In m l /\ 0 < m /\ forall x, In x l -> 0 < x -> m <= x.

Lemma loop_fill : forall fuel ident zeros l, (0 < fuel)%nat -> 0 < zeros -> ~ Qsum l == 0 -> (forall x, In x l -> 0 <= x) ->
  (exists x, In x l /\ x == 0) ->
  exists m, min_pos l m
   /\ exists r c, normalize_loop (S fuel) ident zeros l = Ok (Some r)
   /\ 0 < c /\ Qsum r == 1 /\ Forall2 (fun v y => y == c * fill zeros m v) l r.
Proof.
  intros fuel ident zeros l Fu Z N Nn (x0 & I0 & E0).
  assert (SP : 0 < Qsum l).
  { assert (0 <= Qsum l) by (apply Qsum_nonneg; apply Forall_forall; exact Nn). lra. }
  cbn [normalize_loop]. destruct (Qeqb_spec (Qsum l) 0) as [|_]; [contradiction|].
  destruct (Qeqb_spec zeros 0) as [Q|_]; [lra|]. cbn [negb].
  set (l1 := map (fun v => v / Qsum l) l).
  assert (P1 : forall v, In v l -> (0 < v / Qsum l <-> 0 < v)).
  { intros v Iv. specialize (Nn v Iv). pose proof (div_zero_iff v (Qsum l) N). pose proof (Qdiv_nonneg v (Qsum l) Nn SP).
    split; intro; [|apply Qdiv_pos; assumption]. destruct (Qlt_le_dec 0 v); [assumption|]. assert (v == 0) by lra. tauto || lra. }
  pose proof (Qmin_list_spec l1) as M. destruct (Qmin_list l1) as [m1|].
  2:{ exfalso. destruct l; [destruct I0|discriminate]. }
  destruct M as [I1 M1].
  assert (m1 == 0) as Em1.
  { assert (In (x0 / Qsum l) l1) as I by (apply in_map_iff; eauto). specialize (M1 _ I). rewrite E0 in M1.
    apply in_map_iff in I1. destruct I1 as (v & <- & Iv). pose proof (Qdiv_nonneg v (Qsum l) (Nn v Iv) SP).
    assert (0 / Qsum l == 0) by (apply div_zero_iff; [exact N|reflexivity]). lra. }
  destruct (Qeqb_spec m1 0) as [_|]; [|contradiction].
  pose proof (Qmin_list_spec (filter (fun v => Qltb 0 v) l1)) as M. destruct (Qmin_list (filter (fun v => Qltb 0 v) l1)) as [p|].
  2:{ exfalso. destruct (Qsum_pos_ex l SP) as (x & Ix & Px). assert (In (x / Qsum l) (filter (fun v => Qltb 0 v) l1)) as K.
      { apply filter_In. split; [apply in_map_iff; eauto|]. unfold Qltb. destruct (Qltb_spec 0 (x / Qsum l)); [reflexivity|].
        exfalso. apply n. apply P1; assumption. }
      rewrite M in K. destruct K. }
  destruct M as [Ip Mp]. apply filter_In in Ip. destruct Ip as [Ip Pp]. apply in_map_iff in Ip. destruct Ip as (m & Em & Im). subst p.
  unfold Qltb in Pp. destruct (Qltb_spec 0 (m / Qsum l)) as [Pp'|]; [|discriminate].
  assert (0 < m) as Pm by (apply P1; assumption).
  exists m. split.
  { split; [exact Im|]. split; [exact Pm|]. intros x Ix Px.
    assert (m / Qsum l <= x / Qsum l).
    { apply Mp. apply filter_In. split; [apply in_map_iff; eauto|]. unfold Qltb. destruct (Qltb_spec 0 (x / Qsum l)); [reflexivity|].
      exfalso. apply n. apply P1; assumption. }
    assert (m == m / Qsum l * Qsum l) as -> by (field; exact N). assert (x == x / Qsum l * Qsum l) as -> by (field; exact N).
    apply Qmult_le_compat_r; lra. }
  set (l2 := map (fun v => if Qeq_bool v 0 then m / Qsum l * zeros else v) l1).
  assert (Pz : 0 < m / Qsum l * zeros) by (apply Qmult_lt_0_compat; assumption).
  assert (P2 : forall y, In y l2 -> 0 < y).
  { intros y Iy. apply in_map_iff in Iy. destruct Iy as (v & <- & Iv). destruct (Qeqb_spec v 0); [exact Pz|].
    apply in_map_iff in Iv. destruct Iv as (u & <- & Iu). pose proof (Qdiv_nonneg u (Qsum l) (Nn u Iu) SP). lra. }
  assert (NE2 : l2 <> []) by (intro Q; destruct l; [destruct I0|discriminate]).
  assert (S2 : 0 < Qsum l2).
  { destruct l2 as [|y l2'] eqn:E2; [congruence|]. apply (Qsum_pos _ y); [|left; reflexivity|apply P2; left; reflexivity].
    apply Forall_forall. intros x Ix. specialize (P2 x Ix). lra. }
  assert (Step := loop_nofill fuel ident zeros l2 Fu ltac:(lra) (or_intror (conj NE2 P2)) ltac:(intros x Ix; specialize (P2 x Ix); lra)).
  rewrite Step.
  exists (map (fun v => v / Qsum l2) l2), (1 / Qsum l / Qsum l2). split; [reflexivity|]. split.
  { apply Qdiv_pos; [|exact S2]. apply Qdiv_pos; lra. }
  split.
  { rewrite Qsum_map_div, map_id. apply Qdiv_same. lra. }
  clear Step. set (s2 := Qsum l2) in *. clearbody s2. unfold l2, l1. rewrite !map_map.
  assert (G : forall k, (forall v, In v k -> In v l) ->
    Forall2 (fun v y => y == 1 / Qsum l / s2 * fill zeros m v) k
     (map (fun x => (if Qeq_bool (x / Qsum l) 0 then m / Qsum l * zeros else x / Qsum l) / s2) k)).
  { induction k as [|v k IH]; intro S; cbn [map]; constructor; [|apply IH; intros; apply S; right; assumption].
    unfold fill. destruct (Qeqb_spec v 0) as [Ev|Ev], (Qeqb_spec (v / Qsum l) 0) as [Eq|Eq].
    - field. split; lra.
    - exfalso. apply Eq. apply div_zero_iff; assumption.
    - exfalso. apply Ev. apply (proj1 (div_zero_iff _ _ N)) in Eq. exact Eq.
    - field. split; lra. }
  apply G. auto.
Qed.

Lemma sign_abs : forall v, Qabs v * sign1 v == v.
Proof.
  intro v. unfold sign1, Qltb. destruct (Qltb_spec v 0).
  - rewrite Qabs_neg by lra. lra.
  - rewrite Qabs_pos by lra. lra.
Qed.

Lemma sum_abs_zero : forall l, Qsum (map Qabs l) == 0 <-> forall x, In x l -> x == 0.
Proof.
  intro l. split; intro H.
  - intros x I. assert (Qabs x == 0) as Q.
    { apply (Qsum_zero_all (map Qabs l)); [|exact H|apply in_map; exact I]. apply Forall_forall.
      intros y Iy. apply in_map_iff in Iy. destruct Iy as (z & <- & _). apply Qabs_nonneg. }
    pose proof (sign_abs x) as S. rewrite Q in S. lra.
  - apply Qsum_map_zero. intros x I. rewrite (H x I). reflexivity.
Qed.

Lemma forallb_nonneg : forall l, forallb (fun e => Qle_bool 0 e) l = true <-> forall x, In x l -> 0 <= x.
Proof. intro l. rewrite forallb_forall. split; intros H x I; apply Qle_bool_iff; auto. Qed.

(** When it raises. *)
Lemma normalized_raises : forall l ident neg, 
  (exists e, normalized l ident neg 0 = Err e) <->
  (neg = false /\ exists x, In x l /\ x < 0) \/ (ident = false /\ forall x, In x l -> x == 0).
Proof.
  intros l ident neg. unfold normalized.
  destruct (forallb (fun e => Qle_bool 0 e) l) eqn:F; cbn [negb andb].
  2:{ assert (exists x, In x l /\ x < 0) as X.
      { apply Bool.not_true_iff_false in F. rewrite forallb_nonneg in F.
        induction l as [|a l IH]; [exfalso; apply F; intros x []|].
        destruct (Qlt_le_dec a 0); [exists a; split; [left; reflexivity|assumption]|].
        destruct IH as (x & I & L); [|exists x; split; [right; assumption|assumption]].
        intro H. apply F. intros x [<-|I]; [assumption|auto]. }
      destruct neg; cbn [negb]; [|split; [intros _; left; auto|intros _; eexists; reflexivity]].
      destruct X as (x & I & L).
      assert (N : ~ Qsum (map Qabs l) == 0).
      { rewrite sum_abs_zero. intro H. specialize (H x I). lra. }
      rewrite (loop_nofill 3 ident 0 (map Qabs l)); [|lia|exact N|left; reflexivity|].
      2:{ intros y Iy. apply in_map_iff in Iy. destruct Iy as (z & <- & _). apply Qabs_nonneg. }
      cbn [bind]. split; [intros [e E]; discriminate|]. intros [[Q _]|[_ H]]; [discriminate|]. specialize (H x I). lra. }
  rewrite forallb_nonneg in F.
  destruct (Qeqb_spec (Qsum (map Qabs l)) 0) as [Z|N].
  - cbn [normalize_loop]. destruct (Qeqb_spec (Qsum (map Qabs l)) 0); [|contradiction]. rewrite sum_abs_zero in Z.
    destruct ident; cbn [bind].
    + split; [intros [e E]; discriminate|]. intros [[_ (x & I & L)]|[Q _]]; [|discriminate]. specialize (Z x I). lra.
    + split; [intros _; right; auto|intros _; eexists; reflexivity].
  - rewrite (loop_nofill 3 ident 0 (map Qabs l)); [|lia|exact N|left; reflexivity|].
    2:{ intros y Iy. apply in_map_iff in Iy. destruct Iy as (z & <- & _). apply Qabs_nonneg. }
    cbn [bind]. split; [intros [e E]; discriminate|]. intros [[_ (x & I & L)]|[_ H]].
    + specialize (F x I). lra.
    + exfalso. apply N. apply sum_abs_zero. exact H.
Qed.

Lemma combine_signs : forall (f : Q -> Q) l,
  map (fun vs => fst vs * snd vs) (combine (map f l) (map sign1 l)) = map (fun v => f v * sign1 v) l.
Proof. intros. induction l as [|v l IH]; cbn; [reflexivity|]. rewrite IH. reflexivity. Qed.

Lemma normalized_exact : forall l ident neg r, normalized l ident neg 0 = Ok r -> ~ (forall x, In x l -> x == 0) ->
  Qsum (map Qabs r) == 1 /\ Forall2 (fun w y => y * Qsum (map Qabs l) == w) l r.
Proof.
  intros l ident neg r E NZ. unfold normalized in E.
  destruct (negb (forallb (fun e => Qle_bool 0 e) l) && negb neg)%bool; [discriminate|].
  assert (N : ~ Qsum (map Qabs l) == 0) by (rewrite sum_abs_zero; exact NZ).
  rewrite (loop_nofill 3 ident 0 (map Qabs l)) in E; [|lia|exact N|left; reflexivity|].
  2:{ intros y Iy. apply in_map_iff in Iy. destruct Iy as (z & <- & _). apply Qabs_nonneg. }
  cbn [bind] in E. set (Z := Qsum (map Qabs l)) in *. injection E as <-. rewrite (map_map Qabs (fun v => v / Z)), combine_signs.
  assert (ZP : 0 < Z). { pose proof (Qsum_abs_nonneg l). fold Z in H. lra. }
  split.
  - rewrite map_map. rewrite (Qsum_map_ext _ _ (fun v => Qabs v / Z)).
    + rewrite Qsum_map_div. apply Qdiv_same. exact N.
    + intros v _. assert (Qabs v / Z * sign1 v == v / Z) as ->.
      { transitivity (Qabs v * sign1 v / Z); [field; exact N|]. rewrite sign_abs. reflexivity. }
      unfold Qdiv. rewrite Qabs_Qmult. rewrite (Qabs_pos (/ Z)); [reflexivity|]. apply Qlt_le_weak, Qinv_lt_0_compat, ZP.
  - clear NZ. clearbody Z. induction l as [|v l IH]; cbn; constructor; [|exact IH].
    transitivity (Qabs v * sign1 v); [field; exact N|apply sign_abs].
Qed.

(** With zero replacement. *)
Lemma normalized_fill : forall l ident neg zeros r, 0 < zeros -> normalized l ident neg zeros = Ok r ->
  (exists x, In x l /\ ~ x == 0) -> (exists x, In x l /\ x == 0) ->
  exists m c, min_pos (map Qabs l) m /\ 0 < c /\ Qsum (map Qabs r) == 1
    /\ Forall2 (fun w y => y == c * (if Qeq_bool w 0 then m * zeros else w)) l r.
Proof.
  intros l ident neg zeros r Z E (x1 & I1 & N1) (x0 & I0 & E0). unfold normalized in E.
  destruct (negb (forallb (fun e => Qle_bool 0 e) l) && negb neg)%bool; [discriminate|].
  assert (N : ~ Qsum (map Qabs l) == 0) by (rewrite sum_abs_zero; intro H; apply N1, H, I1).
  destruct (loop_fill 2 ident zeros (map Qabs l) ltac:(lia) Z N) as (m & Mm & r' & c & El & C & S & F2).
  { intros y Iy. apply in_map_iff in Iy. destruct Iy as (z & <- & _). apply Qabs_nonneg. }
  { exists (Qabs x0). split; [apply in_map; exact I0|]. rewrite E0. reflexivity. }
  rewrite El in E. cbn [bind] in E. injection E as <-.
  exists m, c. split; [exact Mm|]. split; [exact C|]. destruct Mm as (_ & Pm & _).
  assert (Pz : 0 < m * zeros) by (apply Qmult_lt_0_compat; assumption). split.
  - rewrite <- S. clear N I1 N1 I0 E0 El S. revert r' F2. induction l as [|v l IH]; intros r' F2; inversion F2 as [|? ? ? ? Hv F2']; subst; cbn [map combine Qsum fst snd]; [reflexivity|].
    rewrite (IH _ F2'). assert (0 <= y) as Py.
    { rewrite Hv. unfold fill. destruct (Qeq_bool (Qabs v) 0); [|pose proof (Qabs_nonneg v)]; apply Qmult_le_0_compat; lra. }
    rewrite Qabs_Qmult, (Qabs_pos y Py). unfold sign1. destruct (Qltb v 0); cbn; lra.
  - clear N I1 N1 I0 E0 El S. revert r' F2. induction l as [|v l IH]; intros r' F2; inversion F2 as [|? ? ? ? Hv F2']; subst; cbn [map combine Qsum fst snd]; constructor; cbn [fst snd]; [|apply IH; exact F2'].
    rewrite Hv. unfold fill. pose proof (sign_abs v) as SA.
    destruct (Qeqb_spec v 0) as [Ev|Ev], (Qeqb_spec (Qabs v) 0) as [Ea|Ea].
    + unfold sign1, Qltb. destruct (Qltb_spec v 0); [lra|]. lra.
    + exfalso. apply Ea. rewrite Ev. reflexivity.
    + exfalso. rewrite Ea in SA. lra.
    + transitivity (c * (Qabs v * sign1 v)); [ring|]. rewrite SA. reflexivity.
Qed.

(** ** Roulette wheel *)

(** The cumulated weight of the first [i] elements. *)
Definition cum (ws : list Q) (i : nat) : Q := Qsum (firstn i ws).

Lemma cumsum_length : forall ws a, length (cumsum_from a ws) = length ws.
Proof. induction ws; intro; cbn; auto. Qed.

Lemma cumsum_last : forall ws a b l, rev (cumsum_from a ws) = b :: l -> b == a + Qsum ws.
Proof.
  induction ws as [|w ws IH]; intros a b l H; cbn in *; [discriminate|].
  destruct (rev (cumsum_from (a + w) ws)) as [|b' l'] eqn:E.
  - cbn in H. inversion H; subst. destruct ws; [cbn; lra|]. cbn in E. destruct (rev (cumsum_from (a + w + q) ws)); discriminate.
  - cbn in H. inversion H; subst. rewrite (IH _ _ _ E). lra.
Qed.

Lemma first_bound_spec : forall ws k a x, Forall (fun w => 0 <= w) ws -> a < x -> x <= a + Qsum ws ->
  exists i, first_bound k (cumsum_from a ws) x = Some (k + i)%nat /\ (i < length ws)%nat
    /\ a + cum ws i < x /\ x <= a + cum ws (S i).
Proof.
  induction ws as [|w ws IH]; intros k a x P L U; cbn in *; [lra|].
  inversion P as [|? ? Pw P']; subst.
  destruct (Qleb_spec x (a + w)) as [C|C].
  - exists 0%nat. rewrite Nat.add_0_r. split; [reflexivity|]. split; [lia|]. unfold cum. cbn. split; lra.
  - destruct (IH (S k) (a + w) x P') as (i & E & Li & A & B); [lra|lra|].
    exists (S i). split; [rewrite E; f_equal; lia|]. split; [lia|]. unfold cum in *. cbn [firstn Qsum] in *. split; lra.
Qed.

Lemma cum_mono : forall ws i j, Forall (fun w => 0 <= w) ws -> (i <= j)%nat -> cum ws i <= cum ws j.
Proof.
  induction ws as [|w ws IH]; intros i j P L; [unfold cum; rewrite !firstn_nil; lra|].
  inversion P; subst. unfold cum in *. destruct i as [|i]; cbn [firstn Qsum].
  - destruct j as [|j]; cbn [firstn Qsum]; [lra|]. assert (0 <= Qsum (firstn j ws)); [|lra].
    apply Qsum_nonneg. apply Forall_forall. intros y Iy. rewrite Forall_forall in H2. apply H2.
    rewrite <- (firstn_skipn j ws). apply in_or_app. auto.
  - destruct j as [|j]; [lia|]. cbn [firstn Qsum]. specialize (IH i j H2 ltac:(lia)). lra.
Qed.

Lemma cum_step : forall ws i w, nth_error ws i = Some w -> cum ws (S i) == cum ws i + w.
Proof.
  induction ws as [|w' ws IH]; intros i w H; [destruct i; discriminate|]. unfold cum in *.
  destruct i as [|i]; cbn in *; [inversion H; subst; lra|]. specialize (IH i w H). cbn in IH. rewrite IH. lra.
Qed.

Lemma roulette_spec : forall ws x, Forall (fun w => 0 <= w) ws -> 0 < x -> x <= Qsum ws ->
  exists i, roulette_index ws x = Ok (Some i)
   /\ cum ws i < x /\ x <= cum ws (S i)
   /\ (exists w, nth_error ws i = Some w /\ 0 < w)
   /\ (forall j, (j < length ws)%nat -> cum ws j < x -> x <= cum ws (S j) -> j = i).
Proof.
  intros ws x P L U. unfold roulette_index. unfold cumsum.
  destruct (first_bound_spec ws 0 0 x P) as (i & E & Li & A & B); [lra|lra|]. cbn [Nat.add] in E. rewrite Qplus_0_l in A, B.
  destruct (rev (cumsum_from 0 ws)) as [|t l] eqn:R.
  { exfalso. assert (Q := cumsum_length ws 0). rewrite <- rev_length, R in Q. destruct ws; [|discriminate]. cbn in U. lra. }
  apply cumsum_last in R.
  destruct (Qleb_spec 0 x); [|lra]. destruct (Qleb_spec x t); [|lra]. cbn [negb andb]. rewrite E.
  exists i. split; [reflexivity|]. split; [exact A|]. split; [exact B|]. split.
  - destruct (nth_error ws i) as [w|] eqn:N; [|apply nth_error_None in N; lia]. exists w. split; [reflexivity|].
    pose proof (cum_step ws i w N). lra.
  - intros j Lj Aj Bj. destruct (lt_eq_lt_dec i j) as [[C|C]|C]; [|auto|].
    + pose proof (cum_mono ws (S i) j P ltac:(lia)). lra.
    + pose proof (cum_mono ws (S j) i P ltac:(lia)). lra.
Qed.

Lemma roulette_range : forall ws x, roulette_index ws x = Err IndexError <-> ws = [] \/ x < 0 \/ Qsum ws < x.
Proof.
  intros ws x. unfold roulette_index, cumsum. destruct (rev (cumsum_from 0 ws)) as [|t l] eqn:R.
  - assert (ws = []) as ->; [|tauto]. assert (Q := cumsum_length ws 0). rewrite <- rev_length, R in Q. destruct ws; [reflexivity|discriminate].
  - assert (ws <> []) by (intros ->; discriminate R). apply cumsum_last in R.
    destruct (Qleb_spec 0 x); cbn [andb]; [|cbn; split; [intros _; right; left; lra|reflexivity]].
    destruct (Qleb_spec x t); cbn [negb]; split; intro K; try discriminate; try reflexivity; [|right; right; lra].
    destruct K as [K|[K|K]]; [contradiction|lra|lra].
Qed.

(** ** linspace *)

Lemma linspace_loop_spec : forall k val space i, (i < k)%nat ->
  exists y, nth_error (linspace_loop k val space) i = Some y /\ y == val + Qn i * space.
Proof.
  induction k as [|k IH]; intros val space i L; [lia|]. destruct i as [|i]; cbn [linspace_loop nth_error].
  - exists val. split; [reflexivity|]. change (Qn 0) with 0. lra.
  - destruct (IH (val + space) space i) as (y & E & V); [lia|]. exists y. split; [exact E|]. rewrite V, Qn_S. lra.
Qed.
Lemma linspace_loop_length : forall k val space, length (linspace_loop k val space) = k.
Proof. induction k; intros; cbn; auto. Qed.

Lemma linspace_spec : forall start stop num, num <> 1%nat ->
  length (linspace start stop num) = num
  /\ forall i, (i < num)%nat -> exists y, nth_error (linspace start stop num) i = Some y
       /\ y == start + Qn i * ((stop - start) / (Qn num - 1)).
Proof.
  intros start stop num N. unfold linspace. destruct num as [|[|num]]; [|congruence|].
  - split; [reflexivity|intros i L; lia].
  - split; [apply linspace_loop_length|]. intros i L. apply linspace_loop_spec. exact L.
Qed.

Lemma linspace_ends : forall start stop num, (2 <= num)%nat ->
  (exists y, nth_error (linspace start stop num) 0 = Some y /\ y == start)
  /\ (exists y, nth_error (linspace start stop num) (num - 1) = Some y /\ y == stop).
Proof.
  intros start stop num N. destruct (linspace_spec start stop num ltac:(lia)) as [_ H]. split.
  - destruct (H 0%nat ltac:(lia)) as (y & E & V). exists y. split; [exact E|]. rewrite V. change (Qn 0) with 0. lra.
  - destruct (H (num - 1)%nat ltac:(lia)) as (y & E & V). exists y. split; [exact E|]. rewrite V.
    replace num with (S (num - 1)) at 2 by lia. rewrite Qn_S.
    assert (0 < Qn (num - 1)) by (apply Qn_pos; lia). field. lra.
Qed.

(** ** Integer ranges *)
Lemma list2intset_spec : forall lo hi, exists l, list2intset [lo; hi] = Ok l /\ forall k, In k l <-> (lo <= k <= hi)%Z.
Proof.
  intros lo hi. eexists. split; [reflexivity|]. intro k. rewrite in_map_iff. split.
  - intros (i & <- & I). apply in_seq in I. lia.
  - intro H. exists (Z.to_nat (k - lo)). split; [lia|]. apply in_seq. lia.
Qed.

(** ** Heap *)
Section HeapSpec.
  Variable item : Type.
  Variable key : item -> Z.

  Definition ele (a b : hentry item) : Prop :=
    (fst (fst a) < fst (fst b))%Z \/ (fst (fst a) = fst (fst b) /\ (snd (fst a) <= snd (fst b))%Z).

  (** What is assumed of Python's heapq functions. *)
  Record heapq_ok (heappush : list (hentry item) -> hentry item -> list (hentry item))
                  (heappop : list (hentry item) -> option (hentry item * list (hentry item)))
                  (heapify : list (hentry item) -> list (hentry item)) (inv : list (hentry item) -> Prop) : Prop := {
    hq_nil : inv [];
    hq_push : forall d x, inv d -> inv (heappush d x) /\ Permutation (x :: d) (heappush d x);
    hq_heapify : forall d, inv (heapify d) /\ Permutation d (heapify d);
    hq_pop_nil : heappop [] = None;
    hq_pop : forall d, inv d -> d <> [] -> exists e d', heappop d = Some (e, d') /\ Permutation d (e :: d') /\ inv d'
               /\ forall e', In e' d' -> ele e e' }.

  (** The specification: a queue in insertion order; [Pop] removes the first of
      the elements with the smallest key. *)
  Inductive fifo_run : list item -> list (hop item) -> list item -> list item -> Prop :=
  | fifo_nil q : fifo_run q [] [] q
  | fifo_push q x ops out q' : fifo_run (q ++ [x]) ops out q' -> fifo_run q (Push _ x :: ops) out q'
  | fifo_pop q1 x q2 ops out q' :
      (forall y, In y q1 -> (key x < key y)%Z) -> (forall y, In y q2 -> (key x <= key y)%Z) ->
      fifo_run (q1 ++ q2) ops out q' -> fifo_run (q1 ++ x :: q2) (Pop _ :: ops) (x :: out) q'.

  Variable heappush : list (hentry item) -> hentry item -> list (hentry item).
  Variable heappop : list (hentry item) -> option (hentry item * list (hentry item)).
  Variable heapify : list (hentry item) -> list (hentry item).
  Variable inv : list (hentry item) -> Prop.
  Hypothesis OK : heapq_ok heappush heappop heapify inv.

  Definition tag (p : Z * item) : hentry item := ((key (snd p), fst p), snd p).

  Definition refines (h : heap item) (q : list item) : Prop :=
    inv (hdata _ h) /\ exists l, map snd l = q /\ StronglySorted Z.lt (map fst l)
      /\ Forall (fun p => (fst p < hindex _ h)%Z) l /\ Permutation (hdata _ h) (map tag l).

  Lemma sorted_app : forall a (b : list Z), StronglySorted Z.lt a -> StronglySorted Z.lt b ->
    (forall x y, In x a -> In y b -> (x < y)%Z) -> StronglySorted Z.lt (a ++ b).
  Proof.
    intros a b A B C. induction A as [|x a A IH F]; cbn; [exact B|]. constructor.
    - apply IH. intros; apply C; [right|]; assumption.
    - apply Forall_app. split; [exact F|]. apply Forall_forall. intros y Iy. apply C; [left; reflexivity|exact Iy].
  Qed.

  Lemma sorted_app_inv : forall a (b : list Z), StronglySorted Z.lt (a ++ b) ->
    StronglySorted Z.lt a /\ StronglySorted Z.lt b /\ (forall x y, In x a -> In y b -> (x < y)%Z).
  Proof.
    intros a b. induction a as [|x a IH]; cbn; intro H; [split; [constructor|split; [exact H|intros ? ? []]]|].
    inversion H as [|? ? H' F]; subst. destruct (IH H') as (A & B & C). apply Forall_app in F. destruct F as [F1 F2].
    split; [constructor; assumption|]. split; [exact B|]. intros y z [<-|I] J; [|apply C; assumption].
    rewrite Forall_forall in F2. apply F2, J.
  Qed.

  Lemma push_refines : forall h q x, refines h q -> refines (heap_push item key 1 heappush h x) (q ++ [x]).
  Proof.
    intros h q x (I & l & M & S & F & P). destruct (hq_push _ _ _ _ OK (hdata _ h) ((key x, hindex _ h), x) I) as [I' P'].
    split; [exact I'|]. exists (l ++ [(hindex _ h, x)]). cbn. rewrite !map_app. cbn. split; [congruence|]. split.
    - apply sorted_app; [exact S|constructor; constructor|]. intros a b Ia [<-|[]]. apply in_map_iff in Ia.
      destruct Ia as (p & <- & Ip). rewrite Forall_forall in F. apply F, Ip.
    - split.
      + apply Forall_app. split; [eapply Forall_impl; [|exact F]; cbn; intros; lia|constructor; [cbn; lia|constructor]].
      + rewrite <- P', P. apply Permutation_cons_append.
  Qed.

  Lemma pop_refines : forall h q, refines h q ->
    match heap_pop item heappop h with
    | Err e => e = IndexError /\ q = []
    | Ok (x, h') => exists q1 q2, q = q1 ++ x :: q2 /\ refines h' (q1 ++ q2)
        /\ (forall y, In y q1 -> (key x < key y)%Z) /\ (forall y, In y q2 -> (key x <= key y)%Z)
    end.
  Proof.
    intros h q (I & l & M & S & F & P). unfold heap_pop. destruct (hdata _ h) as [|e0 d0] eqn:D.
    - rewrite (hq_pop_nil _ _ _ _ OK). split; [reflexivity|]. apply Permutation_nil in P. destruct l; [symmetry; exact M|discriminate].
    - rewrite <- D in *. destruct (hq_pop _ _ _ _ OK (hdata _ h) I ltac:(congruence)) as (e & d' & E & Pe & I' & Mn). rewrite E.
      assert (In e (map tag l)) as Ie. { apply (Permutation_in _ P). apply Permutation_in with (e :: d'); [symmetry; exact Pe|left; reflexivity]. }
      apply in_map_iff in Ie. destruct Ie as (p & <- & Ip). apply in_split in Ip. destruct Ip as (l1 & l2 & ->).
      rewrite map_app in P, S, M. cbn [map] in P, S, M.
      assert (Pd : Permutation d' (map tag (l1 ++ l2))).
      { rewrite map_app. apply (Permutation_cons_inv (a := tag p)). rewrite <- Pe, P. symmetry. apply Permutation_middle. }
      apply sorted_app_inv in S. destruct S as (S1 & S2 & S3). inversion S2 as [|? ? S2' F2]; subst.
      exists (map snd l1), (map snd l2). split; [reflexivity|]. split; [|split].
      + split; [exact I'|]. exists (l1 ++ l2). rewrite !map_app. split; [reflexivity|]. split.
        * apply sorted_app; [exact S1|exact S2'|]. intros; apply S3; [|right]; assumption.
        * cbn. split; [|rewrite <- map_app; exact Pd]. apply Forall_app in F. destruct F as [Fa Fb]. inversion Fb. apply Forall_app; auto.
      + intros y Iy. apply in_map_iff in Iy. destruct Iy as (r & <- & Ir).
        assert (ele (tag p) (tag r)) as L.
        { apply Mn. apply (Permutation_in _ (Permutation_sym Pd)). apply in_map. apply in_or_app. auto. }
        assert (fst r < fst p)%Z by (apply S3; [apply in_map; exact Ir|left; reflexivity]).
        destruct L as [L|[L1 L2]]; cbn in *; lia.
      + intros y Iy. apply in_map_iff in Iy. destruct Iy as (r & <- & Ir).
        assert (ele (tag p) (tag r)) as L.
        { apply Mn. apply (Permutation_in _ (Permutation_sym Pd)). apply in_map. apply in_or_app. auto. }
        destruct L as [L|[L1 L2]]; cbn in *; lia.
  Qed.

  Lemma enum_refines : forall l i, exists t, enum item key 1 i l = map tag t /\ map snd t = l
    /\ StronglySorted Z.lt (map fst t) /\ Forall (fun p => (i <= fst p < i + Z.of_nat (length l))%Z) t.
  Proof.
    induction l as [|x l IH]; intro i; cbn [enum length]; [exists []; repeat split; constructor|].
    destruct (IH (i + 1)%Z) as (t & E & M & S & F). exists ((i, x) :: t). cbn [map]. rewrite E, M. split; [reflexivity|].
    split; [reflexivity|]. split.
    - constructor; [exact S|]. apply Forall_forall. intros y Iy. apply in_map_iff in Iy. destruct Iy as (p & <- & Ip).
      rewrite Forall_forall in F. specialize (F p Ip). cbn. lia.
    - constructor; [cbn [fst]; lia|]. eapply Forall_impl; [|exact F]. cbn. intros; lia.
  Qed.

  Lemma init_refines : forall data, refines (heap_init item key 1 heapify data) data.
  Proof.
    intro data. destruct data as [|x l].
    - split; [apply (hq_nil _ _ _ _ OK)|]. exists []. repeat split; constructor.
    - unfold heap_init. set (d := x :: l). destruct (enum_refines d 0) as (t & E & M & S & F).
      destruct (hq_heapify _ _ _ _ OK (enum item key 1 0 d)) as [I P]. split; [exact I|]. exists t. split; [exact M|]. split; [exact S|].
      split; [|cbn [hdata]; rewrite <- E; symmetry; exact P]. eapply Forall_impl; [|exact F]. cbn [hindex]. cbn beta. intros; lia.
  Qed.

  Lemma refines_content : forall h q, refines h q -> Permutation (map snd (hdata _ h)) q.
  Proof.
    intros h q (_ & l & M & _ & _ & P). rewrite (Permutation_map snd P), map_map. cbn. subst q. reflexivity.
  Qed.

  Lemma run_refines : forall ops h q, refines h q ->
    match heap_run item key 1 heappush heappop h ops with
    | Ok (out, h') => exists q', fifo_run q ops out q' /\ refines h' q'
    | Err e => e = IndexError /\ exists ops1 ops2 out, ops = ops1 ++ Pop _ :: ops2 /\ fifo_run q ops1 out []
    end.
  Proof.
    induction ops as [|o ops IH]; intros h q R; cbn [heap_run].
    - exists q. split; [constructor|exact R].
    - destruct o as [x|].
      + specialize (IH _ _ (push_refines h q x R)). destruct (heap_run item key 1 heappush heappop (heap_push item key 1 heappush h x) ops) as [[out h']|e].
        * destruct IH as (q' & Fr & R'). exists q'. split; [constructor; exact Fr|exact R'].
        * destruct IH as (-> & o1 & o2 & out & -> & Fr). split; [reflexivity|]. exists (Push _ x :: o1), o2, out. split; [reflexivity|]. constructor. exact Fr.
      + pose proof (pop_refines h q R) as P. destruct (heap_pop item heappop h) as [[x h1]|e]; cbn [bind fst snd].
        * destruct P as (q1 & q2 & -> & R1 & A & B). specialize (IH h1 _ R1).
          destruct (heap_run item key 1 heappush heappop h1 ops) as [[out h']|e]; cbn [bind fst snd].
          -- destruct IH as (q' & Fr & R'). exists q'. split; [constructor; assumption|exact R'].
          -- destruct IH as (-> & o1 & o2 & out & -> & Fr). split; [reflexivity|]. exists (Pop _ :: o1), o2, (x :: out).
             split; [reflexivity|]. constructor; assumption.
        * destruct P as [-> ->]. split; [reflexivity|]. exists [], ops, []. split; [reflexivity|constructor].
  Qed.

  Lemma heap_fifo : forall data ops,
    match heap_run item key 1 heappush heappop (heap_init item key 1 heapify data) ops with
    | Ok (out, h') => exists q', fifo_run data ops out q' /\ Permutation (map snd (hdata _ h')) q'
    | Err e => e = IndexError /\ exists ops1 ops2 out, ops = ops1 ++ Pop _ :: ops2 /\ fifo_run data ops1 out []
    end.
  Proof.
    intros data ops. pose proof (run_refines ops _ _ (init_refines data)) as R.
    destruct (heap_run item key 1 heappush heappop (heap_init item key 1 heapify data) ops) as [[out h']|e]; [|exact R].
    destruct R as (q' & F & R). exists q'. split; [exact F|]. apply refines_content. exact R.
  Qed.
End HeapSpec.
