(** Inference with unions of intervals: the atoms of a numeric distribution, events beyond the
    contract of the leaf distributions. *)
Require Import ZArith QArith Lqa Bool List Arith Lia Permutation.
Require Import Verif.Base Verif.FloatLine Verif.NumBase Verif.UtilModel Verif.UtilProofs Verif.IntervalModel Verif.IntervalSpec Verif.IntervalProofs Verif.IntervalExact
  Verif.RealSetProofs Verif.RealSetOps Verif.FunctionModel Verif.NumericModel Verif.NumericSpec Verif.NumericProb Verif.NumericProps Verif.TreeModel Verif.TreeSpec Verif.TreeApply Verif.TreeInfer Verif.NumericTree.
Import ListNotations.
Open Scope Q_scope.

(** ** Events beyond the contract

    [infer] cuts an event only with the path of a leaf, to which the leaf gives all its mass. *)
Record extended {F : family} {fl : var -> vset F} (L : measured fl) := Extended {
  okq : var -> vset F -> Prop;
  PQ : dist F -> vset F -> Q;
  q_p : forall v d s, okd L v d -> okq v s -> exists q, d_p F d s = Ok q /\ q == PQ d s;
  q_cut : forall v d s p, okd L v d -> okq v s -> oks L v p -> P L d p == 1 -> exists q, d_p F d (inter F s p) = Ok q /\ q == PQ d s;
  q_disj : forall v d s p, okd L v d -> okq v s -> oks L v p -> P L d p == 1 -> disj F s p = true \/ disj F p s = true -> PQ d s == 0;
  q_range : forall v d s, okd L v d -> okq v s -> 0 <= PQ d s /\ PQ d s <= 1
}.
Arguments okq {F fl L} _.
Arguments PQ {F fl L} _.

Section Extended.
  Context {F : family}.
  Variable J : jpt F.
  Variable L : measured (full J).
  Variable X : extended L.
  Hypothesis T : tree_ok J.
  Hypothesis Pr : proper_tree J L.
  Hypothesis Su : supported_tree J L.

  Definition xevent (q : assignment F) : Prop := NoDup (keys q) /\ Forall (fun vs => (fst vs < n_vars J)%nat /\ okq X (fst vs) (snd vs)) q.
  Fixpoint xprob (ds : list (dist F)) (q : assignment F) : Q :=
    match q with
    | [] => 1
    | (v, s) :: q' => match nth_error ds v with Some d => PQ X d s | None => 0 end * xprob ds q'
    end.
  Definition xmixture (q : assignment F) : Q := Qsum (map (fun l => l_prior l * xprob (l_dists l) q) (leaves J)).

  Section Leaf.
    Variable l : leaf F.
    Hypothesis Pl : proper_leaf L (n_vars J) l.
    Hypothesis Sl : supported_leaf L l.

    Lemma xprob_app : forall q e, xprob (l_dists l) (q ++ e) == xprob (l_dists l) q * xprob (l_dists l) e.
    Proof. induction q as [|[v s] q IH]; intro e; cbn [xprob app]; [lra|]. rewrite IH. ring. Qed.
    Lemma xprob_zero : forall q v s d, In (v, s) q -> nth_error (l_dists l) v = Some d -> PQ X d s == 0 -> xprob (l_dists l) q == 0.
    Proof.
      induction q as [|[v' s'] q IH]; intros v s d I Hd Z; [destruct I|]. cbn [xprob]. destruct I as [E|I].
      - inversion E; subst. rewrite Hd, Z. ring.
      - rewrite (IH v s d I Hd Z). ring.
    Qed.
    Lemma xprob_range : forall q, Forall (fun vs => (fst vs < n_vars J)%nat /\ okq X (fst vs) (snd vs)) q -> 0 <= xprob (l_dists l) q /\ xprob (l_dists l) q <= 1.
    Proof.
      induction q as [|[v s] q IH]; intro H; cbn [xprob]; [lra|]. destruct (Forall_inv H) as [V Os]. cbn [fst snd] in V, Os. apply Forall_inv_tail in H.
      destruct (pl_dist L (n_vars J) l Pl v V) as (d & Hd & Od). rewrite Hd. destruct (q_range _ X v d s Od Os) as [A B]. destruct (IH H) as [C D]. split; [apply Qmult_le_0_compat; assumption|].
      apply Qle_trans with (1 * xprob (l_dists l) q); [apply Qmult_le_compat_r; assumption|lra].
    Qed.
    Lemma xincompatible : forall q, xevent q -> compatb q (l_path l) = false -> xprob (l_dists l) q == 0.
    Proof.
      intros q [N Fq] C. unfold compatb in C. assert (exists vs, In vs (l_path l) /\ follow q (fst vs) (snd vs) = false) as ([v s] & I & B).
      { destruct (forallb _ (l_path l)) eqn:E in C; [discriminate|]. clear C. induction (l_path l) as [|vs p IH]; cbn in E; [discriminate|].
        destruct (follow q (fst vs) (snd vs)) eqn:B; [|exists vs; split; [left; reflexivity|exact B]]. destruct (IH E) as (vs' & I & B'). exists vs'. split; [right; exact I|exact B']. }
      cbn in B. unfold follow in B. destruct (lookup q v) as [e|] eqn:El; [|discriminate]. destruct (disj F e s) eqn:D; [|discriminate]. clear B.
      apply lookup_in in El. pose proof (proj1 (Forall_forall _ _) Fq (v, e) El) as [V Oe]. cbn in V, Oe.
      destruct (pl_dist L (n_vars J) l Pl v V) as (d & Hd & Od). apply (xprob_zero q v e d El Hd).
      pose proof Pl as (_ & _ & _ & Pth). destruct (Pth v s I) as [_ Os]. apply (q_disj _ X v d e s Od Oe Os (Sl v d s Hd I)). left. exact D.
    Qed.
    Lemma xapplies : forall q, xevent q -> applies J l q = false -> xprob (l_dists l) q == 0.
    Proof.
      intros q [N Fq] A. unfold applies in A.
      assert (exists vs, In vs q /\ match path_get (full J) (l_path l) (fst vs) with Some p => negb (disj F p (snd vs)) | None => true end = false) as ([v s] & I & B).
      { clear N Fq. induction q as [|vs q IH]; cbn in A; [discriminate|].
        destruct (match path_get (full J) (l_path l) (fst vs) with Some p => negb (disj F p (snd vs)) | None => true end) eqn:B; [|exists vs; split; [left; reflexivity|exact B]].
        destruct (IH A) as (vs' & I & B'). exists vs'. split; [right; exact I|exact B']. }
      cbn in B. destruct (path_get (full J) (l_path l) v) as [p|] eqn:Hp; [|discriminate]. destruct (disj F p s) eqn:D; [|discriminate]. clear B.
      pose proof (proj1 (Forall_forall _ _) Fq (v, s) I) as [V Os]. cbn in V, Os. destruct (pl_dist L (n_vars J) l Pl v V) as (d & Hd & Od).
      destruct (path_sure L (n_vars J) l Pl Sl v d p Hd Hp) as [Op Pp]. apply (xprob_zero q v s d I Hd). apply (q_disj _ X v d s p Od Os Op Pp). right. exact D.
    Qed.
    Lemma xmul_p : forall q x, Forall (fun vs => (fst vs < n_vars J)%nat /\ okq X (fst vs) (snd vs)) q -> exists r, mul_p J l q x = Ok r /\ r == x * xprob (l_dists l) q.
    Proof.
      induction q as [|[v s] q IH]; intros x H; cbn [mul_p xprob]; [exists x; split; [reflexivity|ring]|].
      destruct (Forall_inv H) as [V Os]. cbn [fst snd] in V, Os. apply Forall_inv_tail in H. destruct (pl_dist L (n_vars J) l Pl v V) as (d & Hd & Od).
      unfold leaf_dist. rewrite Hd. cbn [bind].
      assert (E : exists y, d_p F d (restrict J l v s) = Ok y /\ y == PQ X d s).
      { unfold restrict. destruct (path_get (full J) (l_path l) v) as [p|] eqn:Hp; [|apply (q_p _ X v); assumption]. destruct (path_sure L (n_vars J) l Pl Sl v d p Hd Hp) as [Op Pp]. apply (q_cut _ X v); assumption. }
      destruct E as (y & -> & Y). cbn [bind]. destruct (IH (x * y) H) as (r & -> & R). exists r. split; [reflexivity|]. rewrite R, Y. ring.
    Qed.
  End Leaf.

  Lemma xknown : forall q, xevent q -> known J q = true.
  Proof. intros q [_ H]. apply forallb_forall. intros vs I. apply Nat.ltb_lt. apply (proj1 (Forall_forall _ _) H vs I). Qed.
  Lemma xloop : forall q e ls pq pe, xevent q -> xevent e -> (forall l, In l ls -> In l (leaves J)) ->
    exists r, infer_loop J q e ls pq pe = Ok r /\
      fst r == pq + Qsum (map (fun l => l_prior l * xprob (l_dists l) (q ++ e)) ls) /\ snd r == pe + Qsum (map (fun l => l_prior l * xprob (l_dists l) e) ls).
  Proof.
    intros q e ls. induction ls as [|l ls IH]; intros pq pe Eq Ee I; cbn [infer_loop map Qsum]; [exists (pq, pe); cbn; repeat split; ring|].
    destruct (tree_leaf J L Pr Su l (I l (or_introl eq_refl))) as [Pl Sl].
    destruct (xmul_p l Pl Sl e 1 (proj2 Ee)) as (x & -> & Hx). cbn [bind]. cbv zeta.
    destruct (applies J l q) eqn:A.
    - destruct (xmul_p l Pl Sl q (x * l_prior l) (proj2 Eq)) as (y & -> & Y). cbn [bind].
      destruct (IH (pq + y) (pe + x * l_prior l) Eq Ee) as (r & -> & R1 & R2); [intros; apply I; right; assumption|].
      exists r. split; [reflexivity|]. rewrite R1, R2, Y, Hx, (xprob_app l q e). split; ring.
    - destruct (IH pq (pe + x * l_prior l) Eq Ee) as (r & -> & R1 & R2); [intros; apply I; right; assumption|].
      exists r. split; [reflexivity|]. rewrite R1, R2, Hx, (xprob_app l q e), (xapplies l Pl Sl q Eq A). split; ring.
  Qed.
  Lemma xapplied : forall e q ls, xevent e -> Permutation ls (filter (fun l => compatb e (l_path l)) (leaves J)) ->
    Qsum (map (fun l => l_prior l * xprob (l_dists l) (q ++ e)) ls) == xmixture (q ++ e).
  Proof.
    intros e q ls Ee Pm. rewrite (Qsum_map_perm _ _ _ _ Pm), Qsum_filter. apply Qsum_map_ext. intros l I. destruct (compatb e (l_path l)) eqn:C; [reflexivity|].
    destruct (tree_leaf J L Pr Su l I) as [Pl Sl]. rewrite (xprob_app l), (xincompatible l Pl Sl e Ee C). ring.
  Qed.
  Lemma xinfer : forall q e fail, xevent q -> xevent e ->
    (xmixture e == 0 -> infer J q e fail = if fail then Err ValueError else Ok None) /\
    (~ xmixture e == 0 -> exists r, infer J q e fail = Ok (Some r) /\ r == xmixture (q ++ e) / xmixture e /\ 0 <= r <= 1).
  Proof.
    intros q e fail Eq Ee. unfold infer. rewrite (xknown q Eq), (xknown e Ee). cbn [negb].
    destruct (apply_perm J e T (xknown e Ee)) as (ls & -> & Pm). cbn [bind].
    destruct (xloop q e ls 0 0 Eq Ee) as (r & -> & R1 & R2).
    { intros l I. apply (Permutation_in _ Pm) in I. apply filter_In in I. apply I. }
    cbn [bind]. rewrite (xapplied e q ls Ee Pm) in R1. pose proof (xapplied e [] ls Ee Pm) as S. cbn [app] in S. rewrite S in R2.
    destruct (Qeqb_spec (snd r) 0) as [Z|Z]; split; intro H.
    - destruct fail; reflexivity.
    - exfalso. apply H. rewrite <- Z, R2. ring.
    - exfalso. apply Z. rewrite R2, H. ring.
    - eexists. split; [reflexivity|]. rewrite !Qplus_0_l in R1, R2. rewrite R1, R2. split; [reflexivity|].
      assert (Leaf : forall l, In l (leaves J) -> 0 <= l_prior l * xprob (l_dists l) e /\ 0 <= l_prior l * xprob (l_dists l) (q ++ e) /\ l_prior l * xprob (l_dists l) (q ++ e) <= l_prior l * xprob (l_dists l) e).
      { intros l I. destruct (tree_leaf J L Pr Su l I) as [Pl Sl]. destruct (xprob_range l Pl e (proj2 Ee)) as [A1 A2]. destruct (xprob_range l Pl q (proj2 Eq)) as [B1 B2]. pose proof Pl as (_ & _ & Pp & _).
        pose proof (xprob_app l q e) as Ap. assert (C1 : 0 <= xprob (l_dists l) (q ++ e)) by (rewrite Ap; apply Qmult_le_0_compat; assumption).
        assert (C2 : xprob (l_dists l) (q ++ e) <= xprob (l_dists l) e). { rewrite Ap. apply Qle_trans with (1 * xprob (l_dists l) e); [apply Qmult_le_compat_r; assumption|lra]. }
        split; [apply Qmult_le_0_compat; assumption|]. split; [apply Qmult_le_0_compat; assumption|]. rewrite !(Qmult_comm (l_prior l)). apply Qmult_le_compat_r; assumption. }
      assert (M0 : 0 <= xmixture e) by (apply Qsum_map_nonneg; intros l I; apply (Leaf l I)).
      assert (M1 : xmixture (q ++ e) <= xmixture e) by (apply Qsum_map_le; intros l I; apply (Leaf l I)).
      assert (M2 : 0 <= xmixture (q ++ e)) by (apply Qsum_map_nonneg; intros l I; apply (Leaf l I)).
      assert (M3 : 0 < xmixture e) by (destruct (Qlt_le_dec 0 (xmixture e)); [assumption|exfalso; apply H; lra]).
      split; [apply Qle_shift_div_l; [exact M3|lra]|apply Qle_shift_div_r; [exact M3|lra]].
  Qed.
End Extended.

(** ** Atoms

    For finitely many bounds, a numeric distribution is as good as finitely many weighted
    points. *)
Definition inb (c : cs) (x : Z) : bool := ((lo1 c <=? x) && (x <=? hi1 c))%Z.
Lemma inb_mem : forall c x, wf c -> inb c x = true <-> cs_mem x c.
Proof. intros c x W. rewrite (mem_ends c x W). unfold inb. rewrite andb_true_iff, !Z.leb_le. reflexivity. Qed.

Section Steps.
Open Scope Z_scope.
Fixpoint steps (f : Z -> Q) (l : list Z) : list (Z * Q) :=
  match l with
  | a :: (b :: _) as r => (a + 1, (f b - f a)%Q) :: steps f r
  | _ => []
  end.
Definition between (lo hi x : Z) : bool := (lo <? x) && (x <=? hi).
Fixpoint rising (l : list Z) : Prop := match l with a :: (b :: _) as r => a < b /\ rising r | _ => True end.
Lemma rising_tail : forall a l, rising (a :: l) -> rising l.
Proof. intros a [|b l] H; [exact I|]. apply H. Qed.
Lemma rising_head : forall a l x, rising (a :: l) -> In x l -> a < x.
Proof.
  intros a l. revert a. induction l as [|b l IH]; intros a x H I; [destruct I|]. destruct H as [L H]. destruct I as [<-|I]; [exact L|]. specialize (IH b x H I). lia.
Qed.
Lemma steps_above : forall f a l y, rising (a :: l) -> In y (steps f (a :: l)) -> a + 1 <= fst y.
Proof.
  intros f a l. revert a. induction l as [|b l IH]; intros a y H I; [destruct I|]. cbn [steps] in I. destruct H as [L H]. destruct I as [<-|I]; [cbn; lia|]. specialize (IH b y H I). lia.
Qed.
Lemma steps_sum : forall f l lo hi, rising l -> In lo l -> In hi l -> lo <= hi ->
  (Qsum (map (fun y => if between lo hi (fst y) then snd y else 0) (steps f l)) == f hi - f lo)%Q.
Proof.
  intros f. induction l as [|a l IH]; intros lo hi R Il Ih Le; [destruct Il|].
  assert (Z0 : forall h, h <= a -> (Qsum (map (fun y => if between lo h (fst y) then snd y else 0) (steps f (a :: l))) == 0)%Q).
  { intros h Lh. assert (G : forall ys : list (Z * Q), (forall y, In y ys -> h < fst y) -> (Qsum (map (fun y => if between lo h (fst y) then snd y else 0) ys) == 0)%Q).
    { induction ys as [|y ys IHy]; intro H; [reflexivity|]. cbn [map Qsum]. rewrite IHy by (intros; apply H; right; assumption). unfold between. pose proof (H y (or_introl eq_refl)). destruct (Z.leb_spec (fst y) h); [lia|]. rewrite andb_false_r. ring. }
    apply G. intros y I. pose proof (steps_above f a l y R I). lia. }
  destruct l as [|b l].
  - destruct Il as [<-|[]]. destruct Ih as [<-|[]]. cbn. ring.
  - pose proof (rising_tail _ _ R) as Rt. assert (Lb : a < b) by apply R.
    destruct Ih as [<-|Ih].
    + assert (lo = a) as -> by (destruct Il as [<-|Il]; [reflexivity|pose proof (rising_head _ _ _ R Il); lia]). rewrite Z0 by lia. ring.
    + change (steps f (a :: b :: l)) with ((a + 1, (f b - f a)%Q) :: steps f (b :: l)). cbn [map Qsum fst snd]. destruct Il as [<-|Il].
      * assert (Lh : b <= hi) by (destruct Ih as [<-|Ih]; [lia|pose proof (rising_head _ _ _ Rt Ih); lia]).
        assert (E : (Qsum (map (fun y => if between a hi (fst y) then snd y else 0) (steps f (b :: l))) == Qsum (map (fun y => if between b hi (fst y) then snd y else 0) (steps f (b :: l))))%Q).
        { apply Qsum_map_ext. intros y I. pose proof (steps_above f b l y Rt I). unfold between. destruct (Z.ltb_spec a (fst y)), (Z.ltb_spec b (fst y)); try lia. reflexivity. }
        rewrite E, (IH b hi Rt (or_introl eq_refl) Ih Lh). unfold between. destruct (Z.ltb_spec a (a + 1)); [|lia]. destruct (Z.leb_spec (a + 1) hi); [|lia]. cbn [andb]. ring.
      * pose proof (rising_head _ _ _ R Il). rewrite (IH lo hi Rt Il Ih Le). unfold between. destruct (Z.ltb_spec lo (a + 1)); [lia|]. cbn [andb]. ring.
Qed.
Lemma steps_in : forall f l y, rising l -> In y (steps f l) -> exists a b, In a l /\ In b l /\ a < b /\ fst y = a + 1 /\ snd y = (f b - f a)%Q.
Proof.
  intros f. induction l as [|a l IH]; intros y R I; [destruct I|]. destruct l as [|b l]; [destruct I|]. change (steps f (a :: b :: l)) with ((a + 1, (f b - f a)%Q) :: steps f (b :: l)) in I. destruct I as [<-|I].
  - exists a, b. cbn. split; [auto|]. split; [auto|]. split; [apply R|auto].
  - destruct (IH y (rising_tail _ _ R) I) as (c & d & Ic & Id & H). exists c, d. split; [right; exact Ic|]. split; [right; exact Id|exact H].
Qed.
Fixpoint ins (x : Z) (l : list Z) : list Z := match l with [] => [x] | y :: l' => if x =? y then l else if x <? y then x :: l else y :: ins x l' end.
Lemma ins_in : forall x l y, In y (ins x l) <-> y = x \/ In y l.
Proof.
  intros x. induction l as [|z l IH]; intro y; cbn [ins]; [cbn; intuition congruence|]. destruct (Z.eqb_spec x z) as [->|]; [cbn; intuition congruence|]. destruct (x <? z); cbn [In]; [intuition congruence|]. rewrite IH. tauto.
Qed.
Lemma ins_rising : forall x l, rising l -> rising (ins x l).
Proof.
  intros x. induction l as [|z l IH]; intro R; [exact I|]. cbn [ins]. destruct (Z.eqb_spec x z); [exact R|]. destruct (Z.ltb_spec x z); [split; assumption|].
  specialize (IH (rising_tail _ _ R)). destruct l as [|w l]; [cbn; lia|]. cbn [ins] in *. destruct (x =? w); [split; [apply R|exact IH]|]. destruct (x <? w); [split; [lia|exact IH]|]. split; [apply R|exact IH].
Qed.
Lemma sorted_of : forall B, exists S, rising S /\ forall x, In x S <-> In x B.
Proof.
  induction B as [|x B (S & R & H)]; [exists []; split; [exact I|tauto]|]. exists (ins x S). split; [apply ins_rising, R|]. intro y. rewrite ins_in, H. cbn [In]. intuition congruence.
Qed.
End Steps.

Lemma good_grid : forall G B c, Forall G B -> good B c -> on_grid G c.
Proof. intros G B c H [W [->|I]]; (split; [exact W|]); [left; reflexivity|right]. rewrite Forall_forall in H. split; apply H, I; cbn; auto. Qed.
Lemma bounds_of : forall G l, Forall (on_grid G) l -> exists B, Forall G B /\ Forall (good B) l.
Proof.
  intros G l. induction l as [|c l IH]; intro H; [exists []; split; constructor|]. destruct (IH (Forall_inv_tail H)) as (B & GB & HB). destruct (Forall_inv H) as [W [->|[G1 G2]]].
  - exists B. split; [exact GB|]. constructor; [apply good_EMPTY|exact HB].
  - exists (lower c :: upper c :: B). split; [repeat constructor; assumption|]. constructor; [split; [exact W|right; intros x [<-|[<-|[]]]; cbn; auto]|].
    eapply Forall_impl; [|exact HB]. intros a [Wa [->|I]]; [apply good_EMPTY|split; [exact Wa|right; intros x Ix; right; right; apply I, Ix]].
Qed.
Lemma good_more : forall B B' c, incl B B' -> good B c -> good B' c.
Proof. intros B B' c H [W [->|I]]; (split; [exact W|]); [left; reflexivity|right; intros x Ix; apply H, I, Ix]. Qed.
Lemma grid_spaced : forall G B, gridded G -> Forall G B -> spaced B.
Proof.
  intros G B GG H x y Ix Iy. rewrite Forall_forall in H. destruct (Z.lt_trichotomy x y) as [K|[K|K]]; [|left; exact K|]; right.
  - pose proof (g_gap _ GG x y (H x Ix) (H y Iy) K). lia.
  - pose proof (g_gap _ GG y x (H y Iy) (H x Ix) K). lia.
Qed.

Definition amass (at_ : list (Z * Q)) (m : Z -> bool) : Q := Qsum (map (fun a => if m (fst a) then snd a else 0) at_).
Record atoms (p : plf) (B : list Z) (at_ : list (Z * Q)) : Prop := Atoms {
  at_pos : forall a, In a at_ -> 0 <= snd a;
  at_one : amass at_ (fun _ => true) == 1;
  at_np : forall c, good B c -> np p c == amass at_ (inb c)
}.
Lemma amass_ext : forall at_ m m', (forall a, In a at_ -> m (fst a) = m' (fst a)) -> amass at_ m == amass at_ m'.
Proof. intros at_ m m' H. apply Qsum_map_ext. intros a I. rewrite (H a I). reflexivity. Qed.
Lemma atoms_ex : forall G p B, gridded G -> ok_numeric G p -> Forall G B -> exists at_, atoms p B at_.
Proof.
  intros G p B0 GG Op GB0. pose proof ord_facts as O. destruct Op as [S|(x & -> & M)].
  - set (B := (- ORD_INF :: ORD_INF :: filter (fun z => (- ORD_INF <=? z) && (z <=? ORD_INF)) B0)%Z).
    assert (GB : Forall G B). { destruct (g_inf _ GG). constructor; [assumption|]. constructor; [assumption|]. apply Forall_forall. intros z Iz. apply filter_In in Iz. rewrite Forall_forall in GB0. apply GB0, Iz. }
    assert (RB : forall z, In z B -> (- ORD_INF <= z <= ORD_INF)%Z). { intros z [<-|[<-|Iz]]; [lia..|]. apply filter_In in Iz. lia. }
    destruct (sorted_of B) as (l & R & Hl). pose proof (proj1 S) as Ln. rewrite Forall_forall in GB.
    assert (Np : forall c, good B c -> np p c == amass (steps (cdfv p) l) (inb c)).
    { intros c Gc. assert (Gg : on_grid G c) by (apply (good_grid G B); [apply Forall_forall; exact GB|exact Gc]). assert (W : wf c) by apply Gc.
      destruct (cs_isempty c) eqn:E.
      - rewrite (np_empty G p c (or_introl S) W E). rewrite (amass_ext _ (inb c) (fun _ => false)).
        + unfold amass. symmetry. apply Qsum_map_zero. intros; reflexivity.
        + intros a _. destruct (inb c (fst a)) eqn:I; [|reflexivity]. apply (inb_mem c _ W) in I. destruct (isempty_sound c E _ I).
      - destruct (np_smooth G p c S Gg E) as [_ ->]. destruct (grid_bounds G c Gg E) as (_ & Gl & Gu). assert (Ib : In (lower c) l /\ In (upper c) l).
        { destruct Gc as [_ [->|I]]; [discriminate E|]. split; apply Hl, I; cbn; auto. }
        rewrite <- (steps_sum (cdfv p) l (lower c) (upper c) R (proj1 Ib) (proj2 Ib) (proj1 W)). apply amass_ext. intros y I.
        destruct (steps_in _ _ _ R I) as (a & b & Ia & Ib' & Lab & Ea & _). pose proof (GB a (proj1 (Hl a) Ia)) as Ga.
        unfold between, inb. rewrite Ea. pose proof (ends_close c) as [C1 C2].
        pose proof (g_gap _ GG a (lower c) Ga Gl) as K1. pose proof (g_gap _ GG a (upper c) Ga Gu) as K2.
        destruct (Z.ltb_spec (lower c) (a + 1)), (Z.leb_spec (a + 1) (upper c)), (Z.leb_spec (lo1 c) (a + 1)), (Z.leb_spec (a + 1) (hi1 c)); try reflexivity; exfalso; lia. }
    exists (steps (cdfv p) l). constructor.
    + intros y I. destruct (steps_in _ _ _ R I) as (a & b & Ia & Ib & Lab & _ & ->). apply Hl, RB in Ia. apply Hl, RB in Ib.
      pose proof (cdfv_mono p a b Ln ltac:(lia) ltac:(lia) ltac:(lia)). lra.
    + rewrite <- (np_full G p (or_introl S)), (Np RR).
      * apply amass_ext. intros y I. destruct (steps_in _ _ _ R I) as (a & b & Ia & Ib & Lab & -> & _). apply Hl in Ia, Ib.
        pose proof (g_gap _ GG a b (GB a Ia) (GB b Ib) Lab). apply RB in Ia. apply RB in Ib. symmetry. apply (inb_mem RR _ wf_RR). unfold cs_mem, RR, finite. cbn [lower upper left right]. lia.
      * split; [apply wf_RR|]. right. intros z [<-|[<-|[]]]; cbn; auto.
    + intros c Gc. apply Np. destruct Gc as [W [->|I]]; [apply good_EMPTY|]. split; [exact W|]. right. intros z Iz. right. right. apply filter_In. split; [apply I, Iz|].
      destruct (wf_bounded c W) as (B1 & B2 & B3 & _). destruct Iz as [<-|[<-|[]]]; lia.
  - exists [(x, 1)]. constructor.
    + intros a [<-|[]]. cbn. lra.
    + cbn. lra.
    + intros c Gc. assert (W : wf c) by apply Gc. destruct (np_dirac x c M W) as (_ & A & Bn). unfold amass. cbn [map Qsum fst snd]. destruct (inb c x) eqn:I.
      * rewrite A by (apply (inb_mem c x W), I). lra.
      * rewrite Bn; [lra|]. intro H. apply (inb_mem c x W) in H. congruence.
Qed.

(** ** Unions *)
Definition inu (l : list cs) (x : Z) : bool := existsb (fun c => inb c x) l.
Lemma inu_mem : forall l x, Forall wf l -> inu l x = true <-> rs_mem x l.
Proof.
  intros l x W. unfold inu. rewrite existsb_exists. rewrite Forall_forall in W. split; intros (c & I & H); exists c; (split; [exact I|]); apply (inb_mem c x (W c I)); exact H.
Qed.
Lemma good_wf : forall B l, Forall (good B) l -> Forall wf l.
Proof. intros B l H. eapply Forall_impl; [|exact H]. intros a [W _]. exact W. Qed.
Definition np_union (p : plf) (l : list cs) : Q := Qsum (map (np p) l).

Section Atoms.
  Variable p : plf.
  Variable B : list Z.
  Variable at_ : list (Z * Q).
  Hypothesis A : atoms p B at_.

  Lemma np_inu : forall l, Forall (good B) l -> IntervalSpec.ascending l -> np_union p l == amass at_ (inu l).
  Proof.
    induction l as [|c l IH]; intros Gl Al.
    - unfold np_union, amass. cbn. symmetry. apply Qsum_map_zero. reflexivity.
    - pose proof (good_wf _ _ Gl) as Wl. inversion Al as [|? ? Fc Al']; subst. change (np_union p (c :: l)) with (np p c + np_union p l). rewrite (IH (Forall_inv_tail Gl) Al'), (at_np _ _ _ A c (Forall_inv Gl)).
      unfold amass. rewrite <- Qsum_map_plus. apply Qsum_map_ext. intros a _. unfold inu. cbn [existsb]. destruct (inb c (fst a)) eqn:Ic; destruct (existsb (fun c0 => inb c0 (fst a)) l) eqn:Il; cbn [orb]; try ring.
      exfalso. apply (inb_mem c _ (Forall_inv Wl)) in Ic. apply (inu_mem l _ (Forall_inv_tail Wl)) in Il. destruct Il as (d & Id & Md). rewrite Forall_forall in Fc. pose proof (Fc d Id _ _ Ic Md). lia.
  Qed.
  Lemma amass_zero_out : forall m, amass at_ m == 1 -> forall a, In a at_ -> m (fst a) = false -> snd a == 0.
  Proof.
    intros m One. assert (E : Qsum (map (fun a => if m (fst a) then 0 else snd a) at_) == 0).
    { assert (D : Qsum (map (fun a => if m (fst a) then 0 else snd a) at_) == amass at_ (fun _ => true) - amass at_ m).
      { unfold amass. rewrite <- Qsum_map_minus. apply Qsum_map_ext. intros a _. destruct (m (fst a)); ring. }
      rewrite D, One, (at_one _ _ _ A). ring. }
    pose proof (at_pos _ _ _ A) as Pos. clear One. clear A. induction at_ as [|b r IH]; intros a I Ha; [destruct I|]. cbn [map Qsum] in E.
    assert (N : 0 <= Qsum (map (fun a => if m (fst a) then 0 else snd a) r)).
    { apply Qsum_map_nonneg. intros c Ic. destruct (m (fst c)); [lra|]. apply Pos. right. exact Ic. }
    pose proof (Pos b (or_introl eq_refl)) as Pb. assert (Nb : 0 <= (if m (fst b) then 0 else snd b)) by (destruct (m (fst b)); lra). destruct I as [->|I].
    - rewrite Ha in *. lra.
    - apply IH; [lra|intros c Ic; apply Pos; right; exact Ic|exact I|exact Ha].
  Qed.
  Lemma amass_same : forall s m m', amass at_ s == 1 -> (forall x, s x = true -> m x = m' x) -> amass at_ m == amass at_ m'.
  Proof.
    intros s m m' One H. apply Qsum_map_ext. intros a I. destruct (s (fst a)) eqn:Sa; [rewrite (H _ Sa); reflexivity|]. pose proof (amass_zero_out s One a I Sa) as Z. destruct (m (fst a)), (m' (fst a)); lra.
  Qed.
  Lemma amass_range : forall m, 0 <= amass at_ m /\ amass at_ m <= 1.
  Proof.
    intro m. split.
    - apply Qsum_map_nonneg. intros a I. destruct (m (fst a)); [apply (at_pos _ _ _ A), I|lra].
    - rewrite <- (at_one _ _ _ A). apply Qsum_map_le. intros a I. destruct (m (fst a)); [lra|apply (at_pos _ _ _ A), I].
  Qed.
End Atoms.

(** Intervals and unions of intervals over the grid, in ascending order. *)
Definition union_on (G : grid) (o : nset) : Prop := Forall (on_grid G) (as_list o) /\ IntervalSpec.ascending (as_list o).

Lemma p_union : forall G p o, ok_numeric G p -> union_on G o -> exists q, p_set p o = Ok q /\ q == np_union p (as_list o).
Proof.
  intros G p o Op [Go _]. destruct o as [c|l]; cbn [as_list p_set] in *.
  - exists (np p c). split; [apply (np_ok G); [exact Op|exact (Forall_inv Go)]|]. unfold np_union. cbn. lra.
  - induction l as [|c l IH]; cbn [map sum_res]; [exists 0; split; reflexivity|]. rewrite (np_ok G p c Op (Forall_inv Go)). cbn [bind]. destruct (IH (Forall_inv_tail Go)) as (q & -> & Q). cbn [bind].
    eexists. split; [reflexivity|]. unfold np_union in *. cbn [map Qsum]. rewrite Q. reflexivity.
Qed.

Lemma n_inter_good : forall B o c, spaced B -> Forall (good B) (as_list o) -> IntervalSpec.ascending (as_list o) -> good B c ->
  Forall (good B) (as_list (n_inter o (NC c))) /\ IntervalSpec.ascending (as_list (n_inter o (NC c))) /\ forall x, ns_mem x (n_inter o (NC c)) <-> rs_mem x (as_list o) /\ cs_mem x c.
Proof.
  intros B o c Sp Go Ao Gc. destruct o as [d|l]; cbn [as_list n_inter] in *.
  - destruct (intersection_good B d c (Forall_inv Go) Gc) as (r & -> & Gr & Mr). cbn [as_list]. split; [constructor; [exact Gr|constructor]|]. split; [constructor; constructor|].
    intro x. cbn [ns_mem]. rewrite Mr. split; [intros [H1 H2]; split; [exists d; cbn; auto|exact H2]|]. intros [(y & [<-|[]] & H1) H2]. auto.
  - unfold rs_intersection. destruct (mapM_intersection B (list_prod l [c])) as (r & Er & F2).
    { rewrite Forall_forall in *. intros [i j] I. apply in_prod_iff in I. destruct I as [I [<-|[]]]. cbn. auto. }
    cbn [as_list]. rewrite Er. cbn [bind].
    assert (Gr : Forall (good B) r).
    { apply Forall_forall. intros a Ia. destruct (Forall2_in_r _ _ _ F2 a Ia) as (ij & _ & H & _). exact H. }
    assert (Ar : IntervalSpec.ascending r).
    { eapply FOP_Forall2; [exact F2|apply list_prod_asc; [exact Ao|constructor; constructor]|].
      cbn. intros [i j] [i' j'] a a' (_ & Mc) (_ & Mc') [Bf|Bf] x y Hx Hy; cbn in *; apply Mc in Hx; apply Mc' in Hy; apply Bf; tauto. }
    destruct (simplify_core B r Sp Gr (ascending_safe_B B r Sp Gr Ar)) as (r' & -> & M' & C' & _). split; [|split].
    + destruct C' as [->|(H & _)]; [constructor; [apply good_EMPTY|constructor]|exact H].
    + destruct C' as [->|(_ & _ & S)]; [constructor; constructor|apply sep_asc; exact S].
    + intro x. rewrite M'. split.
      * intros (a & Ia & Ma). destruct (Forall2_in_r _ _ _ F2 a Ia) as ([i j] & Iij & _ & Mij). apply in_prod_iff in Iij. destruct Iij as [Ii [<-|[]]]. apply Mij in Ma. cbn in Ma. split; [exists i|]; tauto.
      * intros [(i & Ii & Mi) Mc]. destruct (Forall2_in_l _ _ _ F2 (i, c)) as (a & Ia & _ & Ma); [apply in_prod_iff; cbn; auto|]. exists a. split; [exact Ia|]. apply Ma. cbn. auto.
Qed.

Section Union.
  Variable G : grid.
  Hypothesis GG : gridded G.
  Variable p : plf.
  Hypothesis Op : ok_numeric G p.
  Variable o : nset.
  Hypothesis Uo : union_on G o.

  Lemma setup : forall c, on_grid G c -> exists B at_, Forall G B /\ spaced B /\ Forall (good B) (as_list o) /\ good B c /\ atoms p B at_.
  Proof.
    intros c Gc. destruct (bounds_of G (c :: as_list o)) as (B & GB & H); [constructor; [exact Gc|apply Uo]|]. destruct (atoms_ex G p B GG Op GB) as (at_ & A).
    exists B, at_. split; [exact GB|]. split; [apply (grid_spaced G B GG GB)|]. split; [exact (Forall_inv_tail H)|]. split; [exact (Forall_inv H)|exact A].
  Qed.
  Lemma RR_grid : on_grid G RR.
  Proof. split; [apply wf_RR|]. right. apply (g_inf _ GG). Qed.
  Lemma union_range : 0 <= np_union p (as_list o) /\ np_union p (as_list o) <= 1.
  Proof. destruct (setup RR RR_grid) as (B & at_ & _ & _ & Go & _ & A). rewrite (np_inu p B at_ A _ Go (proj2 Uo)). apply (amass_range p B), A. Qed.
  Lemma union_cut : forall c, on_grid G c -> np p c == 1 -> union_on G (n_inter o (NC c)) /\ np_union p (as_list (n_inter o (NC c))) == np_union p (as_list o).
  Proof.
    intros c Gc One. destruct (setup c Gc) as (B & at_ & GB & Sp & Go & Gb & A). destruct (n_inter_good B o c Sp Go (proj2 Uo) Gb) as (Gr & Ar & Mr). split.
    - split; [|exact Ar]. eapply Forall_impl; [|exact Gr]. intros a. apply good_grid, GB.
    - rewrite (np_inu p B at_ A _ Gr Ar), (np_inu p B at_ A _ Go (proj2 Uo)). rewrite (at_np _ _ _ A c Gb) in One. apply (amass_same p B at_ A (inb c) _ _ One).
      intros x Hx. apply (inb_mem c x (proj1 Gc)) in Hx. apply eq_iff_eq_true. rewrite (inu_mem _ x (good_wf _ _ Gr)), (inu_mem _ x (good_wf _ _ Go)).
      specialize (Mr x). rewrite <- as_list_mem in Mr. tauto.
  Qed.
  Lemma union_apart : forall c, on_grid G c -> np p c == 1 -> n_disj o (NC c) = true \/ n_disj (NC c) o = true -> np_union p (as_list o) == 0.
  Proof.
    intros c Gc One D. destruct (setup c Gc) as (B & at_ & GB & Sp & Go & Gb & A). rewrite (np_inu p B at_ A _ Go (proj2 Uo)). rewrite (at_np _ _ _ A c Gb) in One.
    rewrite (amass_same p B at_ A (inb c) _ (fun _ => false) One).
    - unfold amass. apply Qsum_map_zero. reflexivity.
    - intros x Hx. apply (inb_mem c x (proj1 Gc)) in Hx. destruct (inu (as_list o) x) eqn:I; [|reflexivity]. exfalso. apply (inu_mem _ x (good_wf _ _ Go)) in I. destruct I as (d & Id & Md).
      assert (Lst : rs_isempty (as_list o) = false).
      { clear - Id Md. induction (as_list o) as [|e l IH]; [destruct Id|]. cbn [rs_isempty]. destruct (cs_isempty e) eqn:E; [|reflexivity]. destruct Id as [->|Id]; [exfalso; exact (isempty_sound d E x Md)|exact (IH Id)]. }
      assert (Oc : rs_intersects (as_list o) (NC c) = true).
      { unfold rs_intersects. apply existsb_exists. exists d. split; [exact Id|]. cbn [as_list existsb]. rewrite (proj1 (intersects_complete_all d c x Md Hx)). reflexivity. }
      clear - D Id Md Hx Lst Oc. destruct o as [e|l]; cbn [n_disj as_list] in *.
      + destruct Id as [->|[]]. destruct (intersects_complete_all d c x Md Hx) as (I1 & I2 & _). unfold cs_intersects_ns in D. cbn [ns_isempty] in D. assert (cs_isempty c = false) as Ec by (destruct (cs_isempty c) eqn:E; [exfalso; exact (isempty_sound c E x Hx)|reflexivity]).
        assert (cs_isempty d = false) as Ed by (destruct (cs_isempty d) eqn:E; [exfalso; exact (isempty_sound d E x Md)|reflexivity]). rewrite Ec, Ed, I1, I2 in D. destruct D; discriminate.
      + unfold rs_isdisjoint, cs_intersects_ns in D. cbn [ns_isempty] in D. rewrite Lst, Oc in D. destruct D; discriminate.
  Qed.
End Union.
