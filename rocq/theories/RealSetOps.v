(** Proofs about RealSet union, intersection, difference, complement and
    equality.  Statements for readers are in RealSetProps. *)
Require Import ZArith Bool List Lia Permutation.
Require Import Verif.Base Verif.FloatLine Verif.IntervalModel Verif.IntervalSpec.
Require Import Verif.IntervalProofs Verif.IntervalDiff Verif.RealSetProofs.
Import ListNotations.
Open Scope Z_scope.

(** Constituents listed from left to right (empty ones may stand anywhere). *)

Lemma before_sub : forall a b a' b', before a b -> subset_cs a' a -> subset_cs b' b -> before a' b'.
Proof. unfold before, subset_cs. eauto. Qed.

Lemma diff_shape_asc : forall a b r, diff_shape a b r -> ascending (as_list r).
Proof.
  intros a b r [D|D|c ? ? ? ? ? ? ? ? ?|c ? ? ? ? ? ? ? ? ?|c d ? ? ? ? ? ? ? ? ? ? ? ? ? ? ?]; cbn;
    try (apply FOP_cons; [apply Forall_nil|apply FOP_nil]).
  apply FOP_cons; [apply Forall_cons; [|apply Forall_nil]|apply FOP_cons; [apply Forall_nil|apply FOP_nil]].
  intros x y Hc Hd. rewrite mem_lo1 in Hc, Hd. lia.
Qed.

Lemma FOP_app : forall {A} (R : A -> A -> Prop) l1 l2, ForallOrdPairs R l1 -> ForallOrdPairs R l2 ->
  (forall a b, In a l1 -> In b l2 -> R a b) -> ForallOrdPairs R (l1 ++ l2).
Proof.
  intros A R l1 l2 P1 P2 H. induction P1 as [|a l1 F P1 IH]; cbn; [exact P2|].
  constructor.
  - apply Forall_app. split; [exact F|]. apply Forall_forall. intros b I. apply H; [left; reflexivity|exact I].
  - apply IH. intros; apply H; [right|]; assumption.
Qed.

Lemma subtract_all_asc : forall B h t t', spaced B -> good B h -> Forall (good B) t -> ascending t ->
  subtract_all h t = Ok t' -> ascending t'.
Proof.
  intros B h t t' Sp Gh Gt. revert t'. induction Gt as [|p t Gp Gt IH]; intros t' As E.
  - injection E as <-. constructor.
  - cbn in E. inversion As as [|? ? Fp As']; subst.
    destruct (diff_good B p h Sp Gp Gh) as (r & Er & D & Gr). rewrite Er in E. cbn in E.
    destruct (subtract_all_spec B h t Sp Gh Gt) as (u & Eu & Gu & Mu & Pu).
    rewrite Eu in E. cbn in E. injection E as <-.
    apply FOP_app; [eapply diff_shape_asc; eassumption|apply IH; assumption|].
    intros a b Ia Ib. rewrite Forall_forall in Pu. destruct (Pu b Ib) as (q & rq & Iq & _ & Dq & Ibq).
    rewrite Forall_forall in Fp.
    eapply before_sub; [exact (Fp q Iq)|eapply diff_shape_sub; eassumption..].
Qed.

Lemma disjoin_asc : forall B fuel l r, spaced B -> Forall (good B) l -> ascending l ->
  disjoin_loop fuel l = Ok r -> ascending r /\ Forall (fun p' => exists p, In p l /\ subset_cs p' p) r.
Proof.
  intros B fuel. induction fuel as [|n IH]; intros l r Sp G As E.
  - destruct l; cbn in E; [|discriminate]. injection E as <-. split; constructor.
  - destruct l as [|h t]; cbn in E; [injection E as <-; split; constructor|].
    inversion G as [|? ? Gh Gt]; subst. inversion As as [|? ? Fh At]; subst.
    destruct (subtract_all_spec B h t Sp Gh Gt) as (t' & Et & Gt' & Mt & Pt).
    rewrite Et in E. cbn in E.
    destruct (disjoin_loop n t') as [rest|] eqn:Er; cbn in E; [|discriminate]. injection E as <-.
    destruct (IH t' rest Sp Gt' (subtract_all_asc B h t t' Sp Gh Gt At Et) Er) as [Ar Sr].
    assert (Sr' : Forall (fun p' => exists p, In p t /\ subset_cs p' p) rest).
    { rewrite Forall_forall in *. intros p' I. destruct (Sr p' I) as (p & Ip & S1).
      destruct (Pt p Ip) as (q & rq & Iq & _ & Dq & Ipq). exists q. split; [exact Iq|].
      intros x Hx. eapply diff_shape_sub; [exact Dq|exact Ipq|auto]. }
    assert (Sr'' : Forall (fun p' => exists p, In p (h :: t) /\ subset_cs p' p) rest).
    { eapply Forall_impl; [|exact Sr']. intros p' (p & I & S). exists p. split; [right; exact I|exact S]. }
    destruct (cs_isempty h); cbn [negb]; [split; assumption|].
    split; [constructor; [|exact Ar]|constructor; [|exact Sr'']].
    + rewrite Forall_forall in *. intros p' I. destruct (Sr' p' I) as (p & Ip & S1).
      eapply before_sub; [exact (Fh p Ip)|intros x Hx; exact Hx|exact S1].
    + exists h. split; [left; reflexivity|intros x Hx; exact Hx].
Qed.

Lemma ascending_safe_B : forall B l, spaced B -> Forall (good B) l -> ascending l -> pieces_safe l.
Proof.
  intros B l Sp G As ps E.
  destruct (disjoin_spec B _ l ps Sp G E) as (Gp & Np & _ & _).
  destruct (disjoin_asc B _ l ps Sp G As E) as [Ap _].
  eapply FOP_impl; [exact Ap|]. cbn. intros a b Ia Ib Bef [E1 E2].
  rewrite Forall_forall in Gp, Np. destruct (Gp a Ia) as [Wa _]. destruct (Gp b Ib) as [Wb _].
  destruct (nonempty_ex a Wa (Np a Ia)) as [x Hx]. destruct (nonempty_ex b Wb (Np b Ib)) as [y Hy].
  specialize (Bef x y Hx Hy). apply mem_lo1 in Hx, Hy. destruct Hx as [_ Hx], Hy as [_ Hy].
  unfold lo1, hi1 in *. destruct (left a), (right b); lia.
Qed.

(** ** Difference *)

Definition inside (s o : cs) : bool :=
  (lo1 s <? lo1 o) && (lo1 o <=? hi1 o) && (hi1 o <? hi1 s).
Fixpoint cnt (os : list cs) (s : cs) : nat :=
  match os with [] => 0 | o :: os' => (if inside s o then 1 else 0) + cnt os' s end.

Lemma inside_spec : forall s o, inside s o = true <-> lo1 s < lo1 o /\ lo1 o <= hi1 o /\ hi1 o < hi1 s.
Proof. intros. unfold inside. zb; cbn; split; intros; try discriminate; try reflexivity; lia. Qed.

Lemma cnt_mono : forall os s c, (hi1 c < lo1 c \/ (lo1 s <= lo1 c /\ hi1 c <= hi1 s)) -> (cnt os c <= cnt os s)%nat.
Proof.
  intros os s c H. induction os as [|o os IH]; cbn; [lia|].
  destruct (inside c o) eqn:I1; [|destruct (inside s o); lia].
  apply inside_spec in I1. assert (I2 : inside s o = true) by (apply inside_spec; lia).
  rewrite I2. lia.
Qed.

Lemma cnt_split : forall os s a b o, lo1 a = lo1 s -> hi1 a = lo1 o - 1 -> lo1 b = hi1 o + 1 -> hi1 b = hi1 s ->
  lo1 s < lo1 o -> lo1 o <= hi1 o -> hi1 o < hi1 s ->
  (cnt os a + cnt os b <= cnt os s)%nat /\ (In o os -> (S (cnt os a + cnt os b) <= cnt os s)%nat).
Proof.
  intros os s a b o A1 A2 B1 B2 S1 S2 S3. induction os as [|p os [IH1 IH2]]; cbn; [lia|].
  assert (K : ((if inside a p then 1 else 0) + (if inside b p then 1 else 0) <= (if inside s p then 1 else 0))%nat).
  { destruct (inside a p) eqn:I1.
    - apply inside_spec in I1. assert (I2 : inside s p = true) by (apply inside_spec; lia). rewrite I2.
      destruct (inside b p) eqn:I3; [|lia]. apply inside_spec in I3. lia.
    - destruct (inside b p) eqn:I3; [|lia]. apply inside_spec in I3.
      assert (I2 : inside s p = true) by (apply inside_spec; lia). rewrite I2. lia. }
  split; [lia|]. intros [<-|I]; [|specialize (IH2 I); lia].
  assert (I2 : inside s p = true) by (apply inside_spec; lia). rewrite I2 in *.
  assert (I1 : inside a p = false).
  { destruct (inside a p) eqn:I1; [|reflexivity]. apply inside_spec in I1. lia. }
  assert (I3 : inside b p = false).
  { destruct (inside b p) eqn:I3; [|reflexivity]. apply inside_spec in I3. lia. }
  rewrite I1, I3. lia.
Qed.

Lemma split_strict : forall B a b, spaced B -> good B a -> good B b ->
  lo1 b <= hi1 b -> lo1 a <= lo1 b -> hi1 b <= hi1 a ->
  ~ (lower a = lower b /\ left a = left b) -> ~ (upper a = upper b /\ right a = right b) ->
  lo1 a < lo1 b /\ hi1 b < hi1 a.
Proof.
  intros B a b Sp Ga Gb Nb L U N1 N2.
  destruct (Ga) as [Wa _], (Gb) as [Wb _].
  assert (Ea : cs_isempty a = false) by (apply isempty_lo1_f; [assumption|lia]).
  assert (Eb : cs_isempty b = false) by (apply isempty_lo1_f; [assumption|lia]).
  pose proof (spaced_bounds a b (good_spaced B a b Sp Ga Gb Ea Eb)) as (S1 & _ & _ & S4 & _ & _).
  split.
  - destruct (Z.eq_dec (lo1 a) (lo1 b)) as [E|E]; [exfalso; apply N1|lia].
    clear S4. unfold lo1 in *. destruct (left a), (left b); split; try reflexivity; lia.
  - destruct (Z.eq_dec (hi1 a) (hi1 b)) as [E|E]; [exfalso; apply N2|lia].
    clear S1. unfold hi1 in *. destruct (right a), (right b); split; try reflexivity; lia.
Qed.

Fixpoint sum_cnt (O : list cs) (q : list cs) : nat :=
  match q with [] => 0 | s :: q' => S (cnt O s) + sum_cnt O q' end.

Lemma sum_cnt_app : forall O a b, sum_cnt O (a ++ b) = (sum_cnt O a + sum_cnt O b)%nat.
Proof. intros O a b. induction a; cbn; lia. Qed.

Lemma diff_inner_spec : forall B O os s q, spaced B -> good B s -> Forall (good B) os -> incl os O ->
  exists s' new, diff_inner s os q = Ok (s', new ++ q)
    /\ Forall (good B) (s' :: new) /\ ascending (s' :: new)
    /\ Forall (fun p => subset_cs p s) (s' :: new)
    /\ (forall x, cs_mem x s' -> ~ rs_mem x os)
    /\ (forall x, cs_mem x s -> ~ rs_mem x os -> rs_mem x (s' :: new))
    /\ (sum_cnt O new + cnt O s' <= cnt O s)%nat.
Proof.
  intros B O os. induction os as [|o os IH]; intros s q Sp Gs Go Inc.
  - exists s, []. cbn. split; [reflexivity|]. split; [constructor; [assumption|constructor]|].
    split; [constructor; constructor|]. split; [constructor; [intros x Hx; exact Hx|constructor]|].
    split; [intros x _ H; destruct (rs_mem_nil _ H)|]. split; [|lia].
    intros x H _. apply rs_mem_cons. left; exact H.
  - inversion Go as [|? ? Goo Gos]; subst.
    destruct (diff_good B s o Sp Gs Goo) as (r & Er & D & Gr).
    assert (Dm := diff_shape_mem s o r D).
    cbn [diff_inner]. rewrite Er. cbn [bind].
    assert (Inc' : incl os O) by (intros z Iz; apply Inc; right; exact Iz).
    destruct r as [c|lr].
    + cbn in Gr. inversion Gr as [|? ? Gc _]; subst.
      destruct (IH c q Sp Gc Gos Inc') as (s' & new & E & G & A & S & N & C & L).
      exists s', new. split; [exact E|]. split; [exact G|]. split; [exact A|].
      assert (Sc : subset_cs c s) by (eapply diff_shape_sub; [exact D|left; reflexivity]).
      split; [|split; [|split]].
      * eapply Forall_impl; [|exact S]. intros p Hp x Hx. apply Sc, Hp, Hx.
      * intros x Hx Hm. apply rs_mem_cons in Hm. destruct Hm as [Hm|Hm]; [|exact (N x Hx Hm)].
        inversion S as [|? ? S1 _]; subst. apply (Dm x); [|exact Hm]. cbn. apply S1, Hx.
      * intros x Hx Hm. rewrite rs_mem_cons in Hm. apply C; [|tauto]. cbn in Dm. apply Dm. tauto.
      * assert (cnt O c <= cnt O s)%nat; [|lia]. apply cnt_mono.
        destruct Gc as [Wc _]. destruct (cs_isempty c) eqn:Ec.
        -- left. apply isempty_lo1; assumption.
        -- right. destruct Gs as [Ws _]. apply (sub_lo1 s c); assumption.
    + inversion D as [| | | |c d ? ? ? ? ? ? Wc Wd Lc Hc Ld Hd Nb La Ha N1 N2]; subst.
      cbn in Gr. inversion Gr as [|? ? Gc Gr']; subst. inversion Gr' as [|? ? Gd _]; subst.
      destruct (IH c (d :: q) Sp Gc Gos Inc') as (s' & new & E & G & A & S & N & C & L).
      exists s', (new ++ [d]). split; [rewrite <- app_assoc; exact E|].
      assert (Sc : subset_cs c s) by (eapply diff_shape_sub; [exact D|left; reflexivity]).
      assert (Sd : subset_cs d s) by (eapply diff_shape_sub; [exact D|right; left; reflexivity]).
      split; [|split; [|split; [|split; [|split]]]].
      * change (Forall (good B) ((s' :: new) ++ [d])). apply Forall_app. split; [exact G|]. constructor; [exact Gd|constructor].
      * change (ascending ((s' :: new) ++ [d])). apply FOP_app; [exact A|constructor; constructor|].
        intros a b Ia [<-|[]]. rewrite Forall_forall in S. specialize (S a Ia).
        intros x y Hx Hy. apply S in Hx. apply mem_lo1 in Hx, Hy. lia.
      * change (Forall (fun p => subset_cs p s) ((s' :: new) ++ [d])). apply Forall_app.
        split; [|constructor; [exact Sd|constructor]].
        eapply Forall_impl; [|exact S]. intros p Hp x Hx. apply Sc, Hp, Hx.
      * intros x Hx Hm. apply rs_mem_cons in Hm. destruct Hm as [Hm|Hm]; [|exact (N x Hx Hm)].
        inversion S as [|? ? S1 _]; subst. apply (Dm x); [|exact Hm].
        exists c. split; [left; reflexivity|]. apply S1, Hx.
      * intros x Hx Hm. rewrite rs_mem_cons in Hm.
        change (rs_mem x ((s' :: new) ++ [d])). rewrite rs_mem_app.
        assert (Hcd : ns_mem x (NR [c; d])) by (apply Dm; tauto).
        cbn [ns_mem] in Hcd. rewrite !rs_mem_cons in Hcd. rewrite (rs_mem_cons x d []).
        destruct Hcd as [Hc'|[Hd'|Hn]]; [left; apply C; tauto|tauto|destruct (rs_mem_nil _ Hn)].
      * destruct (split_strict B s o Sp Gs Goo Nb La Ha N1 N2) as [T1 T2].
        rewrite sum_cnt_app. cbn [sum_cnt].
        destruct (cnt_split O s c d o Lc Hc Ld Hd T1 Nb T2) as [_ K].
        specialize (K (Inc o (or_introl eq_refl))). lia.
Qed.

Lemma diff_loop_spec : forall B O fuel q, spaced B -> Forall (good B) q -> Forall (good B) O ->
  (sum_cnt O q <= fuel)%nat ->
  exists r, diff_loop fuel q O = Ok r /\ Forall (good B) r
    /\ (forall x, rs_mem x r <-> rs_mem x q /\ ~ rs_mem x O)
    /\ Forall (fun p' => exists p, In p q /\ subset_cs p' p) r
    /\ (ascending q -> ascending r).
Proof.
  intros B O fuel. induction fuel as [|n IH]; intros q Sp Gq GO L.
  - destruct q; [|cbn in L; lia]. exists []. cbn. split; [reflexivity|]. split; [constructor|].
    split; [|split; [constructor|auto]]. intro x. split; [intro H; destruct (rs_mem_nil _ H)|tauto].
  - destruct q as [|s q].
    { exists []. cbn. split; [reflexivity|]. split; [constructor|].
      split; [|split; [constructor|auto]]. intro x. split; [intro H; destruct (rs_mem_nil _ H)|tauto]. }
    inversion Gq as [|? ? Gs Gq']; subst. cbn [diff_loop].
    destruct (diff_inner_spec B O O s q Sp Gs GO (incl_refl O)) as (s' & new & E & G & A & S & N & C & Lc).
    rewrite E. cbn [bind fst snd].
    inversion G as [|? ? Gs' Gnew]; subst.
    destruct (IH (new ++ q)) as (r & Er & Gr & Mr & Pr & Ar); [assumption|apply Forall_app; auto|assumption|..].
    { rewrite sum_cnt_app. cbn in L. lia. }
    rewrite Er. cbn [bind]. exists (s' :: r). split; [reflexivity|]. split; [constructor; assumption|].
    inversion S as [|? ? Ss' Snew]; subst.
    split; [|split].
    + intro x. rewrite rs_mem_cons, Mr, rs_mem_app, rs_mem_cons. split.
      * intros [H|[[H|H] Ho]]; [split; [left; apply Ss'; exact H|apply N; exact H]| |tauto].
        split; [|exact Ho]. left. destruct H as (p & Ip & Mp). rewrite Forall_forall in Snew. exact (Snew p Ip x Mp).
      * intros [[H|H] Ho]; [|tauto]. specialize (C x H Ho). rewrite rs_mem_cons in C. tauto.
    + constructor.
      * exists s. split; [left; reflexivity|exact Ss'].
      * rewrite Forall_forall in *. intros p' I. destruct (Pr p' I) as (p & Ip & Sp').
        apply in_app_or in Ip. destruct Ip as [Ip|Ip].
        -- exists s. split; [left; reflexivity|]. intros x Hx. apply (Snew p Ip), Sp', Hx.
        -- exists p. split; [right; exact Ip|exact Sp'].
    + intro Aq. inversion Aq as [|? ? Fs Aq']; subst.
      inversion A as [|? ? Fs' Anew]; subst.
      constructor.
      * rewrite Forall_forall in *. intros p' I. destruct (Pr p' I) as (p & Ip & Sp').
        apply in_app_or in Ip. destruct Ip as [Ip|Ip].
        -- eapply before_sub; [exact (Fs' p Ip)|intros x Hx; exact Hx|exact Sp'].
        -- eapply before_sub; [exact (Fs p Ip)|exact Ss'|exact Sp'].
      * apply Ar. apply FOP_app; [exact Anew|exact Aq'|].
        intros a b Ia Ib. rewrite Forall_forall in Fs, Snew.
        eapply before_sub; [exact (Fs b Ib)|exact (Snew a Ia)|intros x Hx; exact Hx].
Qed.

Lemma cnt_le : forall O s, (cnt O s <= length O)%nat.
Proof. intros O s. induction O; cbn; [lia|]. destruct (inside s a); lia. Qed.

Lemma sum_cnt_le : forall O q, (sum_cnt O q <= length q * S (length O))%nat.
Proof. intros O q. induction q; cbn; [lia|]. pose proof (cnt_le O a). lia. Qed.

Lemma rs_isempty_spec : forall l, Forall wf l -> rs_isempty l = true <-> (forall x, ~ rs_mem x l).
Proof.
  intros l W. induction W as [|s l Ws W IH]; cbn; [split; [intros _ x H; destruct (rs_mem_nil _ H)|reflexivity]|].
  destruct (cs_isempty s) eqn:E; cbn [negb].
  - rewrite IH. split; intros H x Hx.
    + apply rs_mem_cons in Hx. destruct Hx as [Hx|Hx]; [exact (proj1 (isempty_spec s Ws) E x Hx)|exact (H x Hx)].
    + apply (H x). apply rs_mem_cons. right; exact Hx.
  - split; [discriminate|]. intro H. destruct (nonempty_ex s Ws E) as [x Hx].
    destruct (H x). apply rs_mem_cons. left; exact Hx.
Qed.

Lemma ns_isempty_spec : forall o, Forall wf (as_list o) -> ns_isempty o = true <-> (forall x, ~ ns_mem x o).
Proof.
  intros [c|l] W; cbn in *.
  - inversion W; subst. apply isempty_spec; assumption.
  - apply rs_isempty_spec; assumption.
Qed.

Lemma good_app : forall l1 l2, Forall wf l1 -> Forall wf l2 ->
  Forall (good (all_bounds (l1 ++ l2))) l1 /\ Forall (good (all_bounds (l1 ++ l2))) l2.
Proof.
  intros l1 l2 W1 W2. apply Forall_app. apply good_all. apply Forall_app; auto.
Qed.

Lemma rs_difference_main : forall l o, Forall wf l -> Forall wf (as_list o) ->
  spaced (all_bounds (l ++ as_list o)) -> ascending l ->
  exists r, rs_difference l o = Ok r /\ (forall x, ns_mem x r <-> rs_mem x l /\ ~ ns_mem x o)
    /\ ascending (as_list r).
Proof.
  intros l o Wl Wo Sp As. destruct (good_app l (as_list o) Wl Wo) as [Gl Go].
  unfold rs_difference. destruct (ns_isempty o) eqn:E.
  - exists (NR l). split; [reflexivity|]. split; [|exact As]. intro x. cbn.
    pose proof (proj1 (ns_isempty_spec o Wo) E x). tauto.
  - destruct (diff_loop_spec _ (as_list o) (length l * S (length (as_list o))) l Sp Gl Go (sum_cnt_le _ _))
      as (r & Er & Gr & Mr & _ & Ar).
    rewrite Er. cbn [bind]. specialize (Ar As).
    destruct (simplify_core _ r Sp Gr (ascending_safe_B _ r Sp Gr Ar)) as (r' & E' & M' & C' & _).
    exists r'. split; [exact E'|]. split.
    + intro x. rewrite M', Mr, as_list_mem. reflexivity.
    + destruct C' as [->|(_ & _ & S)]; [constructor; constructor|].
      eapply FOP_impl; [exact S|]. cbn. intros a b _ _ H x y Hx Hy. apply mem_lo1 in Hx, Hy. lia.
Qed.

(** ** Intersection *)

Lemma intersection_wf : forall a b r, wf a -> wf b -> cs_intersection a b = Ok r -> wf r.
Proof.
  intros a b r (A1 & A2 & A3 & A4 & A5 & A6 & A7) (B1 & B2 & B3 & B4 & B5 & B6 & B7).
  unfold cs_intersection, cs_intersection_lr.
  destruct (cs_intersects a b); cbn [negb]; [|injection 1 as <-; exact EMPTY_wf].
  unfold mk_cs. destruct (Z.ltb_spec (Z.min (upper a) (upper b)) (Z.max (lower a) (lower b))) as [|Le]; cbn [bind]; [discriminate|].
  injection 1 as <-. unfold wf. cbn [set_left set_right lower upper left right].
  refine (conj _ (conj _ (conj _ (conj _ (conj _ (conj _ _)))))).
  - exact Le.
  - apply moderate_max; assumption.
  - apply moderate_min; assumption.
  - lia.
  - lia.
  - intro E. unfold moderate in *. rewrite A6, B6 by zl. destruct (lower b =? lower a), (lower b <? lower a); reflexivity.
  - intro E. unfold moderate in *. rewrite A7, B7 by zl. destruct (upper b =? upper a), (upper a <? upper b); reflexivity.
Qed.

Lemma intersection_good : forall B a b, good B a -> good B b ->
  exists r, cs_intersection a b = Ok r /\ good B r /\ (forall x, cs_mem x r <-> cs_mem x a /\ cs_mem x b).
Proof.
  intros B a b Ga Gb. destruct (Ga) as [Wa Oa], (Gb) as [Wb Ob].
  destruct (cs_intersection_lr_ok a b None None) as [r Er]; [apply Wa|apply Wb|].
  exists r. split; [exact Er|]. split; [|exact (intersection_spec a b r Wa Wb Er)].
  assert (Wr := intersection_wf a b r Wa Wb Er).
  unfold cs_intersection_lr in Er. destruct (negb (cs_intersects a b)) eqn:I; [injection Er as <-; apply good_EMPTY|].
  apply negb_false_iff in I.
  split; [exact Wr|].
  unfold mk_cs in Er. destruct (_ <? _) eqn:Lt; cbn [bind] in Er; [discriminate|]. apply Z.ltb_ge in Lt.
  injection Er as <-. cbn [set_left set_right lower upper left right] in *.
  destruct Ob as [->|Ib]; [unfold cs_intersects in I; discriminate I|].
  destruct Oa as [->|Ia].
  - left. clear Wr Ga. unfold cs_intersects in I. destruct (cs_isempty b); [discriminate|].
    cbn [lower upper left right EMPTY] in *. try unfold EMPTY; cbn [lower upper left right].
    destruct Wb as (Lb & _). destruct b as [lo hi l r]. cbn [lower upper left right] in *.
    revert I. destruct l, r; cbn; zb; cbn; try discriminate; intros _; f_equal; lia.
  - right. unfold bounds. cbn [lower upper]. intros z [<-|[<-|[]]].
    + destruct (Z.max_spec (lower a) (lower b)) as [[_ ->]|[_ ->]]; [apply Ib|apply Ia]; cbn; tauto.
    + destruct (Z.min_spec (upper a) (upper b)) as [[_ ->]|[_ ->]]; [apply Ia|apply Ib]; cbn; tauto.
Qed.

Lemma mapM_intersection : forall B prs, Forall (fun ij => good B (fst ij) /\ good B (snd ij)) prs ->
  exists r, mapM (fun ij : cs * cs => cs_intersection (snd ij) (fst ij)) prs = Ok r
    /\ Forall2 (fun ij c => good B c /\ forall x, cs_mem x c <-> cs_mem x (fst ij) /\ cs_mem x (snd ij)) prs r.
Proof.
  intros B prs F. induction F as [|[i j] prs [Gi Gj] F (r & E & F2)]; cbn.
  - exists []. split; [reflexivity|constructor].
  - cbn in *. destruct (intersection_good B j i Gj Gi) as (c & Ec & Gc & Mc).
    rewrite Ec. cbn. rewrite E. cbn. exists (c :: r). split; [reflexivity|].
    constructor; [|exact F2]. split; [exact Gc|]. intro x. cbn. rewrite Mc. tauto.
Qed.

Lemma Forall2_in_r : forall {A B} (R : A -> B -> Prop) l r, Forall2 R l r ->
  forall b, In b r -> exists a, In a l /\ R a b.
Proof.
  intros A B R l r F. induction F; [intros ? []|]; intros b [<-|I].
  - exists x. split; [left; reflexivity|assumption].
  - destruct (IHF b I) as (a & Ia & Ra). exists a. split; [right; exact Ia|exact Ra].
Qed.
Lemma Forall2_in_l : forall {A B} (R : A -> B -> Prop) l r, Forall2 R l r ->
  forall a, In a l -> exists b, In b r /\ R a b.
Proof.
  intros A B R l r F. induction F; [intros ? []|]; intros b [<-|I].
  - exists y. split; [left; reflexivity|assumption].
  - destruct (IHF b I) as (a & Ia & Ra). exists a. split; [right; exact Ia|exact Ra].
Qed.

Lemma FOP_Forall2 : forall {A B} (P : A -> A -> Prop) (Q : B -> B -> Prop) (R : A -> B -> Prop) l r,
  Forall2 R l r -> ForallOrdPairs P l ->
  (forall a a' b b', R a b -> R a' b' -> P a a' -> Q b b') -> ForallOrdPairs Q r.
Proof.
  intros A B P Q R l r F. induction F as [|a b l r Rab F IH]; intros Pl H; [constructor|].
  inversion Pl as [|? ? Fa Pl']; subst. constructor; [|apply IH; assumption].
  apply Forall_forall. intros b' Ib'. destruct (Forall2_in_r _ _ _ F b' Ib') as (a' & Ia' & Ra').
  rewrite Forall_forall in Fa. eapply H; eauto.
Qed.

Definition pair_before (p q : cs * cs) : Prop := before (fst p) (fst q) \/ before (snd p) (snd q).

Lemma list_prod_asc : forall l m, ascending l -> ascending m -> ForallOrdPairs pair_before (list_prod l m).
Proof.
  intros l m Al Am. induction Al as [|a l F Al IH]; cbn; [constructor|].
  apply FOP_app; [|exact IH|].
  - clear - Am. induction Am as [|b m Fm Am IHm]; cbn; constructor; [|exact IHm].
    rewrite Forall_forall in *. intros p Ip. apply in_map_iff in Ip. destruct Ip as (y & <- & Iy).
    right. cbn. exact (Fm y Iy).
  - intros p q Ip Iq. apply in_map_iff in Ip. destruct Ip as (y & <- & Iy).
    destruct q as [q1 q2]. apply in_prod_iff in Iq. destruct Iq as [Iq1 _].
    left. cbn. rewrite Forall_forall in F. exact (F q1 Iq1).
Qed.

Lemma sep_asc : forall l, lo1_sep l -> ascending l.
Proof.
  intros l S. eapply FOP_impl; [exact S|]. cbn. intros a b _ _ H x y Hx Hy. apply mem_lo1 in Hx, Hy. lia.
Qed.

Lemma rs_intersection_main : forall l o, Forall wf l -> Forall wf (as_list o) ->
  spaced (all_bounds (l ++ as_list o)) -> ascending l -> ascending (as_list o) ->
  exists r, rs_intersection l o = Ok r /\ (forall x, ns_mem x r <-> rs_mem x l /\ ns_mem x o)
    /\ ascending (as_list r).
Proof.
  intros l o Wl Wo Sp Al Ao. destruct (good_app l (as_list o) Wl Wo) as [Gl Go].
  set (B := all_bounds (l ++ as_list o)) in *.
  unfold rs_intersection.
  destruct (mapM_intersection B (list_prod l (as_list o))) as (r & Er & F2).
  { rewrite Forall_forall in *. intros [i j] I. apply in_prod_iff in I. destruct I. cbn. auto. }
  rewrite Er. cbn [bind].
  assert (Gr : Forall (good B) r).
  { apply Forall_forall. intros c Ic. destruct (Forall2_in_r _ _ _ F2 c Ic) as (ij & _ & G & _). exact G. }
  assert (Ar : ascending r).
  { eapply FOP_Forall2; [exact F2|apply list_prod_asc; assumption|].
    cbn. intros [i j] [i' j'] c c' (_ & Mc) (_ & Mc') [Bf|Bf] x y Hx Hy; cbn in *;
      apply Mc in Hx; apply Mc' in Hy; apply Bf; tauto. }
  destruct (simplify_core B r Sp Gr (ascending_safe_B B r Sp Gr Ar)) as (r' & E' & M' & C' & _).
  exists r'. split; [exact E'|]. split.
  - intro x. rewrite M', <- as_list_mem. split.
    + intros (c & Ic & Mc). destruct (Forall2_in_r _ _ _ F2 c Ic) as ([i j] & Iij & _ & Mij).
      apply in_prod_iff in Iij. apply Mij in Mc. cbn in Mc. split; [exists i|exists j]; tauto.
    + intros [(i & Ii & Mi) (j & Ij & Mj)].
      destruct (Forall2_in_l _ _ _ F2 (i, j)) as (c & Ic & _ & Mc); [apply in_prod_iff; auto|].
      exists c. split; [exact Ic|]. apply Mc. cbn. auto.
  - destruct C' as [->|(_ & _ & S)]; [constructor; constructor|apply sep_asc; exact S].
Qed.

(** ** Union, complement *)

Lemma rs_union_main : forall l o, Forall wf l -> Forall wf (as_list o) ->
  spaced (all_bounds (l ++ as_list o)) -> pieces_safe (l ++ as_list o) ->
  exists r, rs_union l o = Ok r /\ (forall x, ns_mem x r <-> rs_mem x l \/ ns_mem x o)
    /\ ascending (as_list r).
Proof.
  intros l o Wl Wo Sp Safe. unfold rs_union.
  destruct (simplify_core _ (l ++ as_list o) Sp (good_all _ (proj2 (Forall_app _ _ _) (conj Wl Wo))) Safe)
    as (r & E & M & C & _).
  exists r. split; [exact E|]. split.
  - intro x. rewrite M, rs_mem_app, as_list_mem. reflexivity.
  - destruct C as [->|(_ & _ & S)]; [constructor; constructor|apply sep_asc; exact S].
Qed.

Lemma ns_simplify_asc : forall o B, spaced B -> Forall (good B) (as_list o) -> ascending (as_list o) ->
  exists r, ns_simplify o = Ok r /\ (forall x, ns_mem x r <-> ns_mem x o).
Proof.
  intros [c|l] B Sp G A; cbn in *.
  - exists (NC c). split; [reflexivity|]. reflexivity.
  - destruct (simplify_core B l Sp G (ascending_safe_B B l Sp G A)) as (r & E & M & _). exists r. auto.
Qed.

Lemma RR_mem : forall x, cs_mem x RR <-> finite x.
Proof. intro x. unfold cs_mem, RR, finite. cbn [lower upper left right]. tauto. Qed.

Lemma rs_complement_main : forall l, Forall wf l -> spaced (- ORD_INF :: ORD_INF :: all_bounds l) ->
  exists r, rs_complement l = Ok r /\ (forall x, ns_mem x r <-> finite x /\ ~ rs_mem x l).
Proof.
  intros l W Sp. unfold rs_complement.
  assert (A : ascending [RR]) by (constructor; constructor).
  assert (G : Forall (good (- ORD_INF :: ORD_INF :: all_bounds l)) [RR]).
  { constructor; [|constructor]. split; [exact RR_wf|]. right. intros z [<-|[<-|[]]]; cbn; tauto. }
  assert (Gl : Forall (good (- ORD_INF :: ORD_INF :: all_bounds l)) l).
  { eapply Forall_impl; [|exact (good_all l W)]. intros s [Ws [->|I]]; [apply good_EMPTY|].
    split; [exact Ws|]. right. intros z Iz. right; right. apply I, Iz. }
  unfold rs_difference. cbn [ns_isempty as_list].
  destruct (rs_isempty l) eqn:E; cbn [bind ns_simplify].
  - destruct (ns_simplify_asc (NR [RR]) _ Sp G A) as (r & Er & M). cbn [ns_simplify] in Er. rewrite Er.
    exists r. split; [reflexivity|]. intro x. rewrite M. cbn [ns_mem]. rewrite rs_mem_cons, RR_mem.
    pose proof (proj1 (rs_isempty_spec l W) E x). pose proof (rs_mem_nil x). tauto.
  - destruct (diff_loop_spec _ l (length [RR] * S (length l)) [RR] Sp G Gl (sum_cnt_le _ _))
      as (r & Er & Gr & Mr & _ & Ar).
    rewrite Er. cbn [bind]. specialize (Ar A).
    destruct (simplify_core _ r Sp Gr (ascending_safe_B _ r Sp Gr Ar)) as (r' & E' & M' & C' & _).
    rewrite E'. cbn [bind].
    assert (G' : Forall (good (- ORD_INF :: ORD_INF :: all_bounds l)) (as_list r') /\ ascending (as_list r')).
    { destruct C' as [->|(? & _ & S)].
      - split; [constructor; [apply good_EMPTY|constructor]|constructor; constructor].
      - split; [assumption|apply sep_asc; exact S]. }
    destruct (ns_simplify_asc r' _ Sp (proj1 G') (proj2 G')) as (r'' & E'' & M'').
    exists r''. split; [exact E''|]. intro x. rewrite M'', M', Mr, rs_mem_cons, RR_mem.
    pose proof (rs_mem_nil x). tauto.
Qed.
