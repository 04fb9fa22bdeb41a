(** Further proofs about RealSet: simplification of left-closed intervals,
    equality, containment, intersection test, least element, size. *)
Require Import ZArith Bool List Lia Permutation.
Require Import Verif.Base Verif.FloatLine Verif.IntervalModel Verif.IntervalSpec.
Require Import Verif.IntervalProofs Verif.IntervalDiff Verif.RealSetProofs Verif.RealSetOps Verif.IntervalMore.
Import ListNotations.
Open Scope Z_scope.

(** ** Simplifying left-closed intervals *)


Definition pinv (B : list Z) (Hs : list cs) (p : cs) : Prop :=
  good B p /\
  (lo1 p <= hi1 p ->
   (exists A, good B A /\ left_closed A
      /\ (lo1 p = lo1 A \/ rs_mem (lo1 p - 1) Hs) /\ (hi1 p = hi1 A \/ rs_mem (hi1 p + 1) Hs))
   /\ (left p = EXC -> rs_mem (lower p) Hs \/ lower p = - ORD_INF)
   /\ (forall x, cs_mem x p -> ~ rs_mem x Hs)).

Definition hinv (B : list Z) (Hs : list cs) : Prop :=
  forall h, In h Hs -> lo1 h <= hi1 h ->
    good B h /\ (left h = EXC -> rs_mem (lower h) Hs \/ lower h = - ORD_INF).

Lemma pinv_diff : forall B Hs p h r p', pinv B Hs p -> good B h -> diff_shape p h r -> In p' (as_list r) ->
  good B p' -> pinv B (h :: Hs) p'.
Proof.
  intros B Hs p h r p' (Gp & IV) Gh D Ip' Gp'. split; [exact Gp'|]. intro NE.
  assert (Sub := diff_shape_sub _ _ _ _ D Ip'). assert (M := diff_shape_mem _ _ _ D).
  assert (Disj : forall x, cs_mem x p' -> ~ cs_mem x h).
  { intros x X. apply (M x). apply as_list_mem. exists p'. auto. }
  destruct Gp as [Wp _], Gh as [Wh _], Gp' as [Wp' _].
  pose proof (wf_lo1 _ Wp). pose proof (wf_lo1 _ Wh). pose proof (wf_lo1 _ Wp').
  assert (NEp : lo1 p <= hi1 p).
  { assert (cs_mem (lo1 p') p') as X by (apply mem_lo1; zl). apply Sub in X. apply mem_lo1 in X. lia. }
  specialize (IV NEp). destruct IV as ((A & GA & LA & L1 & L2) & L3 & L4).
  assert (Low : forall y, rs_mem y Hs -> rs_mem y (h :: Hs)) by (intros; apply rs_mem_cons; auto).
  assert (Hd : forall y, lo1 h <= y <= hi1 h -> rs_mem y (h :: Hs)).
  { intros y Hy. apply rs_mem_cons. left. apply mem_lo1. zl. }
  assert (Dis' : forall x, cs_mem x p' -> ~ rs_mem x (h :: Hs)).
  { intros x X Y. apply rs_mem_cons in Y. destruct Y as [Y|Y]; [exact (Disj x X Y)|exact (L4 x (Sub x X) Y)]. }
  refine (conj _ (conj _ Dis')).
  - exists A. split; [exact GA|]. split; [exact LA|].
    inversion D; subst; cbn [as_list In] in Ip';
      repeat match goal with H : _ \/ _ |- _ => destruct H end; subst; try tauto;
      try (cbn in NE; lia); split;
      try (left; congruence); try (right; apply Low; (congruence || assumption));
      try (right; apply Hd; lia); try (right; apply Low; 
        match goal with H : rs_mem ?a Hs |- rs_mem ?b Hs => replace b with a by lia; exact H end).
  - intro LE.
    assert (E : lo1 p' = lower p' + 1) by (unfold lo1; rewrite LE; reflexivity).
    inversion D; subst; cbn [as_list In] in Ip';
      repeat match goal with H : _ \/ _ |- _ => destruct H end; subst; try tauto;
      try (cbn in NE; lia).
    all: try (left; apply Hd; lia).
    all: destruct L3 as [Q|Q]; [congruence|left; apply Low; congruence|right; congruence].
Qed.

Lemma degenerate_absurd : forall B Hs h b, spaced B -> hinv B Hs -> pinv B Hs h -> good B b ->
  lo1 h <= hi1 h -> lo1 b <= hi1 b ->
  (forall x, cs_mem x b -> ~ rs_mem x (h :: Hs)) -> ~ degenerate_first h b.
Proof.
  intros B Hs h b Sp HI (Gh & PI) Gb Nh Nb Db (E1 & E2).
  specialize (PI Nh). destruct PI as ((A & GA & (LA & NA) & L1 & L2) & L3 & L4).
  assert (Wh := proj1 Gh). assert (Wb := proj1 Gb). assert (WA := proj1 GA).
  pose proof (wf_lo1 _ Wh) as Fh. pose proof (wf_lo1 _ Wb) as Fb.
  set (u := upper h) in *.
  assert (Hu : left h = INC /\ right h = INC /\ lo1 h = u /\ hi1 h = u).
  { clear - Nh E1. unfold lo1, hi1, u in *. destruct (left h), (right h); cbn in *;
      refine (conj _ (conj _ (conj _ _))); try reflexivity; try lia. }
  destruct Hu as (lh & rh & loh & hih).
  assert (Mu : cs_mem u h) by (apply mem_lo1; zl).
  assert (Rb : hi1 b = u - 1).
  { unfold hi1 in *. destruct (right b) eqn:R; [|lia]. exfalso. apply (Db u); [|apply rs_mem_cons; auto].
    apply mem_lo1. unfold hi1. rewrite R. clear - Nb Fb E2 Fh loh hih. zl. }
  assert (Bu : In u B).
  { destruct (good_bounds B h u Gh Mu) as [_ Q]. exact Q. }
  destruct L1 as [L1|L1].
  2:{ apply (Db (u - 1)); [apply mem_lo1; zl|]. apply rs_mem_cons. right. rewrite loh in L1. exact L1. }
  assert (MA : exists y, cs_mem y A).
  { exists (lo1 A). apply mem_lo1. pose proof (wf_lo1 _ WA).
    assert (lo1 A <= hi1 A); [|zl]. clear - NA LA WA Fh Fb loh hih L1 u Nb Rb. unfold lo1, hi1 in *.
    destruct (left A), (right A); try lia.
    destruct LA as [LA|LA]; [discriminate|]. 
    destruct WA as (? & ? & M & ?). unfold moderate in M. pose proof ord_facts. lia. }
  destruct MA as (y & My). destruct (good_bounds B A y GA My) as [BlA BuA].
  assert (LA' : left A = INC /\ lower A = u).
  { destruct LA as [LA|LA].
    - split; [exact LA|]. unfold lo1 in L1. rewrite LA in L1. unfold lo1 in loh. rewrite lh in *. congruence.
    - exfalso. assert (u = - ORD_INF + 1).
      { assert (left A = EXC) by (destruct WA as (_ & _ & _ & _ & _ & Q & _); auto).
        unfold lo1 in L1 at 2. rewrite H, LA in L1. lia. }
      destruct (Sp u (lower A) Bu BlA); lia. }
  destruct LA' as [lA lowA].
  destruct L2 as [L2|L2].
  - assert (upper A = u \/ upper A = u + 1).
    { unfold hi1 in L2 at 2. destruct (right A); lia. }
    destruct (Sp u (upper A) Bu BuA); lia.
  - destruct L2 as (k & Ik & Mk). rewrite hih in Mk.
    assert (Nk : ~ cs_mem u k). { intro Q. apply (L4 u Mu). exists k. auto. }
    assert (Hk := Mk). apply mem_lo1 in Hk.
    assert (Lk : lo1 k = u + 1). { destruct (Z.le_gt_cases (lo1 k) u); [|lia]. exfalso. apply Nk. apply mem_lo1. zl. }
    destruct (HI k Ik ltac:(lia)) as (Gk & Ek).
    destruct (good_bounds B k _ Gk Mk) as [Blk _].
    unfold lo1 in Lk. destruct (left k) eqn:lk.
    + destruct (Sp u (lower k) Bu Blk); lia.
    + assert (lower k = u) as Elk by lia. rewrite Elk in Ek. destruct (Ek eq_refl) as [Q|Q]; [exact (L4 u Mu Q)|].
      clear - Q Fh loh. lia.
Qed.

Lemma disjoin_left_closed : forall B fuel l Hs r, spaced B -> hinv B Hs -> Forall (pinv B Hs) l ->
  disjoin_loop fuel l = Ok r ->
  ForallOrdPairs (fun a b => ~ degenerate_first a b) r
  /\ Forall (fun b => forall x, cs_mem x b -> ~ rs_mem x Hs) r.
Proof.
  intros B fuel. induction fuel as [|n IH]; intros l Hs r Sp HI P E.
  - destruct l; cbn in E; [|discriminate]. injection E as <-. split; constructor.
  - destruct l as [|h t]; cbn in E.
    + injection E as <-. split; constructor.
    + inversion P as [|? ? Ph Pt]; subst.
      assert (Gh := proj1 Ph). assert (Gt : Forall (good B) t) by (eapply Forall_impl; [|exact Pt]; intros ? []; assumption).
      destruct (subtract_all_spec B h t Sp Gh Gt) as (t' & Et & Gt' & Mt & Src).
      rewrite Et in E. cbn in E.
      destruct (disjoin_loop n t') as [rest|] eqn:Er; cbn in E; [|discriminate]. injection E as <-.
      destruct (disjoin_spec B n t' rest Sp Gt' Er) as (Gr & Nr & _ & _).
      assert (HI' : hinv B (h :: Hs)).
      { intros k [<-|Ik] Nk.
        - split; [exact Gh|]. destruct Ph as (_ & PI). specialize (PI Nk). destruct PI as (_ & Q & _).
          intro Q'. destruct (Q Q'); [left; apply rs_mem_cons; auto|right; assumption].
        - destruct (HI k Ik Nk) as [Gk Q]. split; [exact Gk|]. intro Q'.
          destruct (Q Q'); [left; apply rs_mem_cons; auto|right; assumption]. }
      assert (P' : Forall (pinv B (h :: Hs)) t').
      { rewrite Forall_forall in *. intros p' Ip'. destruct (Src p' Ip') as (p & r0 & Ip & _ & D & I').
        exact (pinv_diff B Hs p h r0 p' (Pt p Ip) Gh D I' (Gt' p' Ip')). }
      destruct (IH t' (h :: Hs) rest Sp HI' P' Er) as (F & Dj).
      assert (Dj' : Forall (fun b => forall x, cs_mem x b -> ~ rs_mem x Hs) rest).
      { eapply Forall_impl; [|exact Dj]. cbn. intros b Hb x X Y. apply (Hb x X). apply rs_mem_cons. auto. }
      destruct (cs_isempty h) eqn:Eh; cbn [negb]; [split; assumption|].
      assert (Nh : lo1 h <= hi1 h) by (apply isempty_lo1_f; [apply Gh|exact Eh]).
      split.
      * constructor; [|exact F]. rewrite Forall_forall in *. intros b Ib.
        apply (degenerate_absurd B Hs h b Sp HI Ph (Gr b Ib) Nh); [|apply Dj; exact Ib].
        apply isempty_lo1_f; [apply (Gr b Ib)|apply Nr; exact Ib].
      * constructor; [|exact Dj']. destruct Ph as (_ & PI). specialize (PI Nh). apply PI.
Qed.

Lemma left_closed_safe : forall l, Forall wf l -> spaced (all_bounds l) -> Forall left_closed l -> pieces_safe l.
Proof.
  intros l W Sp L ps E. assert (G := good_all l W).
  apply (disjoin_left_closed (all_bounds l) (Nat.pow 2 (length l)) l [] ps Sp); [intros ? []| |exact E].
  rewrite Forall_forall in *. intros p Ip. split; [apply G; exact Ip|]. intro N.
  split; [|split].
  - exists p. auto.
  - intro Q. right. destruct (L p Ip) as [[Q'|Q'] _]; [congruence|exact Q'].
  - intros x _. apply rs_mem_nil.
Qed.

(** ** Equality *)

Lemma lo1_sep_unique : forall l m, Forall wf l -> Forall ne l -> lo1_sep l ->
  Forall wf m -> Forall ne m -> lo1_sep m ->
  (forall x, rs_mem x l <-> rs_mem x m) -> Forall2 (fun a b => lo1 a = lo1 b /\ hi1 a = hi1 b) l m.
Proof.
  assert (Tail : forall (a : cs) l x, lo1_sep (a :: l) -> rs_mem x l -> hi1 a + 1 < x).
  { intros a l x S (s & I & M). inversion S as [|? ? F _]; subst. rewrite Forall_forall in F.
    specialize (F s I). cbn in F. apply mem_lo1 in M. lia. }
  assert (Nb : forall (a : cs), wf a -> ne a -> lo1 a <= hi1 a /\ - ORD_INF < lo1 a /\ hi1 a < ORD_INF).
  { intros a W N. pose proof (wf_lo1 a W). split; [apply isempty_lo1_f; assumption|assumption]. }
  induction l as [|a l IH]; intros m W N S W' N' S' H.
  - destruct m as [|b m]; [constructor|exfalso].
    inversion W'; subst. inversion N'; subst. destruct (Nb b) as (? & ? & ?); [assumption..|].
    apply (rs_mem_nil (lo1 b)). apply H. apply rs_mem_cons. left. apply mem_lo1. zl.
  - destruct m as [|b m].
    { exfalso. inversion W; subst. inversion N; subst. destruct (Nb a) as (? & ? & ?); [assumption..|].
      apply (rs_mem_nil (lo1 a)). apply H. apply rs_mem_cons. left. apply mem_lo1. zl. }
    inversion W as [|? ? Wa Wl]; subst. inversion N as [|? ? Na Nl]; subst.
    inversion W' as [|? ? Wb Wm]; subst. inversion N' as [|? ? Nb' Nm]; subst.
    destruct (Nb a Wa Na) as (A1 & A2 & A3). destruct (Nb b Wb Nb') as (B1 & B2 & B3).
    assert (Fwd : forall x, (lo1 a <= x <= hi1 a) -> lo1 b <= x <= hi1 b \/ hi1 b + 1 < x).
    { intros x Hx. assert (rs_mem x (b :: m)) as Q by (apply H; apply rs_mem_cons; left; apply mem_lo1; zl).
      apply rs_mem_cons in Q. destruct Q as [Q|Q]; [apply mem_lo1 in Q; tauto|right; eapply Tail; eassumption]. }
    assert (Bwd : forall x, (lo1 b <= x <= hi1 b) -> lo1 a <= x <= hi1 a \/ hi1 a + 1 < x).
    { intros x Hx. assert (rs_mem x (a :: l)) as Q by (apply H; apply rs_mem_cons; left; apply mem_lo1; zl).
      apply rs_mem_cons in Q. destruct Q as [Q|Q]; [apply mem_lo1 in Q; tauto|right; eapply Tail; eassumption]. }
    assert (lo1 a = lo1 b).
    { pose proof (Fwd (lo1 a) ltac:(lia)). pose proof (Bwd (lo1 b) ltac:(lia)). lia. }
    assert (hi1 a = hi1 b).
    { destruct (Z.lt_trichotomy (hi1 a) (hi1 b)) as [Q|[Q|Q]]; [|exact Q|].
      - pose proof (Bwd (hi1 a + 1) ltac:(lia)). lia.
      - pose proof (Fwd (hi1 b + 1) ltac:(lia)). lia. }
    constructor; [auto|]. inversion S; subst. inversion S'; subst.
    apply IH; auto. intro x. specialize (H x). rewrite !rs_mem_cons in H.
    split; intro Q.
    + assert (hi1 a + 1 < x) by (eapply Tail; eassumption).
      destruct (proj1 H (or_intror Q)) as [R|R]; [apply mem_lo1 in R; lia|exact R].
    + assert (hi1 b + 1 < x) by (eapply Tail; eassumption).
      destruct (proj2 H (or_intror Q)) as [R|R]; [apply mem_lo1 in R; lia|exact R].
Qed.

Lemma cs_list_eq_sound : forall l m, Forall wf l -> Forall wf m -> cs_list_eq l m = true ->
  forall x, rs_mem x l <-> rs_mem x m.
Proof.
  induction l as [|a l IH]; intros [|b m] W W' E x; cbn in E; try discriminate; [tauto|].
  apply andb_prop in E. destruct E as [E1 E2]. inversion W; subst. inversion W'; subst.
  rewrite !rs_mem_cons, (IH m) by assumption. assert (Q := proj1 (eq_spec a b ltac:(assumption) ltac:(assumption)) E1 x). tauto.
Qed.

Lemma cs_list_eq_complete : forall l m, Forall wf l -> Forall wf m ->
  Forall2 (fun a b => lo1 a = lo1 b /\ hi1 a = hi1 b) l m -> cs_list_eq l m = true.
Proof.
  intros l m W W' F. induction F as [|a b l m [E1 E2] F IH]; cbn; [reflexivity|].
  inversion W; subst. inversion W'; subst. rewrite IH by assumption. rewrite andb_true_r.
  apply eq_spec; [assumption..|]. intro x. rewrite !mem_lo1, E1, E2. tauto.
Qed.

(** What [simplify] returns under the guards. *)
Definition simp_form (r : nset) : Prop :=
  Forall wf (as_list r)
  /\ (r = NC EMPTY \/ (Forall ne (as_list r) /\ lo1_sep (as_list r)))
  /\ (forall m, r = NR m -> (2 <= length m)%nat).

Lemma simplify_form : forall l, Forall wf l -> spaced (all_bounds l) -> pieces_safe l ->
  exists r, rs_simplify l = Ok r /\ (forall x, ns_mem x r <-> rs_mem x l) /\ simp_form r.
Proof.
  intros l W Sp Safe.
  destruct (simplify_core (all_bounds l) l Sp (good_all l W) Safe) as (r & E & M & C & L).
  exists r. split; [exact E|]. split; [exact M|]. split; [|split; [|exact L]].
  - destruct C as [->|(G & _)]; [cbn; constructor; [apply EMPTY_wf|constructor]|].
    eapply Forall_impl; [|exact G]. intros ? []; assumption.
  - destruct C as [->|(_ & N & S)]; auto.
Qed.

Lemma cs_form : forall c, wf c -> simp_form (NC c) \/ cs_isempty c = true.
Proof.
  intros c W. destruct (cs_isempty c) eqn:E; [right; reflexivity|left].
  split; [constructor; [exact W|constructor]|]. split; [|discriminate].
  right. cbn. split; repeat constructor; exact E.
Qed.

Lemma EMPTY_form_mem : forall x, ~ ns_mem x (NC EMPTY).
Proof. intro x. cbn. apply EMPTY_mem. Qed.

Lemma form_eq : forall s o, simp_form s -> simp_form o ->
  (match s, o with
   | NC a, NC b => cs_eq a b
   | NR a, NR b => cs_list_eq a b
   | _, _ => false
   end = true) <-> (forall x, ns_mem x s <-> ns_mem x o).
Proof.
  assert (Mix : forall c m, simp_form (NC c) -> simp_form (NR m) -> (forall x, ns_mem x (NC c) <-> ns_mem x (NR m)) -> False).
  { intros c m (W & C & _) (W' & C' & L') H. destruct C' as [Q|(N' & S')]; [discriminate|].
    specialize (L' m eq_refl). destruct C as [Q|(N & S)].
    - destruct m as [|b m]; [cbn in L'; lia|]. inversion N'; subst. inversion W'; subst.
      destruct (nonempty_ex b) as (x & X); [assumption..|].
      rewrite Q in H. apply (EMPTY_form_mem x). apply H. cbn. apply rs_mem_cons. auto.
    - assert (F := lo1_sep_unique [c] m W N S W' N' S').
      assert (Forall2 (fun a b => lo1 a = lo1 b /\ hi1 a = hi1 b) [c] m) as F2.
      { apply F. intro x. specialize (H x). cbn in H. rewrite rs_mem_cons. pose proof (rs_mem_nil x). tauto. }
      inversion F2 as [|? ? ? ? _ F3]; subst. inversion F3; subst. cbn in L'. lia. }
  intros [a|a] [b|b] Fs Fo.
  - cbn. destruct Fs as (Ws & _), Fo as (Wo & _). inversion Ws; inversion Wo; subst. apply eq_spec; assumption.
  - split; [discriminate|]. intro H. destruct (Mix a b Fs Fo H).
  - split; [discriminate|]. intro H. destruct (Mix b a Fo Fs). intro x. rewrite H. tauto.
  - cbn. destruct Fs as (Ws & Cs & _), Fo as (Wo & Co & _). split.
    + apply cs_list_eq_sound; assumption.
    + intro H. destruct Cs as [Q|(N & S)]; [discriminate|]. destruct Co as [Q|(N' & S')]; [discriminate|].
      apply cs_list_eq_complete; [assumption..|]. apply lo1_sep_unique; assumption.
Qed.

Definition ns_safe (o : nset) : Prop :=
  match o with NC _ => True | NR l => spaced (all_bounds l) /\ pieces_safe l end.

Lemma rs_eq_main : forall l o, Forall wf l -> Forall wf (as_list o) -> ns_safe (NR l) -> ns_safe o ->
  exists b, rs_eq l o = Ok b /\ (b = true <-> (forall x, rs_mem x l <-> ns_mem x o)).
Proof.
  intros l o W Wo (Sp & Sf) So. unfold rs_eq.
  destruct (rs_isempty l && ns_isempty o) eqn:E.
  { apply andb_prop in E. destruct E as [E1 E2]. exists true. split; [reflexivity|]. split; [|reflexivity].
    intros _ x. pose proof (proj1 (rs_isempty_spec l W) E1 x). pose proof (proj1 (ns_isempty_spec o Wo) E2 x). tauto. }
  destruct (simplify_form l W Sp Sf) as (s & Es & Ms & Fs). rewrite Es. cbn [bind].
  destruct o as [c|ol].
  - cbn [bind]. cbn in Wo. inversion Wo as [|? ? Wc _]; subst.
    destruct (cs_form c Wc) as [Fc|Ec].
    + pose proof (form_eq s (NC c) Fs Fc) as Q.
      assert (Q' : (forall x, ns_mem x s <-> ns_mem x (NC c)) <-> (forall x, rs_mem x l <-> ns_mem x (NC c))).
      { split; intros H x; specialize (H x); rewrite Ms in *; exact H. }
      destruct s as [a|a]; eexists; (split; [reflexivity|]); exact (iff_trans Q Q').
    + (* an empty ContinuousSet *)
      pose proof (proj1 (isempty_spec c Wc) Ec) as Nc.
      destruct s as [a|a].
      * eexists; split; [reflexivity|]. destruct Fs as (Ws & _). inversion Ws; subst.
        rewrite eq_spec by assumption. split; intros H' x; specialize (H' x); cbn in Ms; rewrite ?Ms in *; exact H'.
      * eexists; split; [reflexivity|]. split; [discriminate|]. intro H. exfalso.
        destruct Fs as (Ws & [Q|(N & _)] & L); [discriminate|]. specialize (L a eq_refl).
        destruct a as [|b a]; [cbn in L; lia|]. cbn in N, Ws. inversion N; subst. inversion Ws; subst.
        destruct (nonempty_ex b) as (x & X); [assumption..|]. apply (Nc x). apply (H x). apply Ms. cbn. apply rs_mem_cons. auto.
  - destruct So as (Spo & Sfo). destruct (simplify_form ol Wo Spo Sfo) as (o' & Eo & Mo & Fo). rewrite Eo. cbn [bind].
    pose proof (form_eq s o' Fs Fo) as Q.
    assert (Q' : (forall x, ns_mem x s <-> ns_mem x o') <-> (forall x, rs_mem x l <-> rs_mem x ol)).
    { split; intros H x; specialize (H x); rewrite Ms, Mo in *; exact H. }
    cbn [ns_mem]. destruct s as [a|a], o' as [b|b]; eexists; (split; [reflexivity|]); exact (iff_trans Q Q').
Qed.
