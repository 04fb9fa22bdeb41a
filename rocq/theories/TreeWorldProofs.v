(** The inference theorems for trees with symbolic and integer variables, world by
    world. *)
Require Import QArith Lqa Bool List Arith Lia Permutation.
Require Import Verif.Base Verif.NumBase Verif.DiscreteModel Verif.DiscreteProofs Verif.TreeModel Verif.TreeSpec Verif.TreeApply Verif.TreeInfer Verif.TreePosterior Verif.TreeCond2 Verif.TreeCond4 Verif.TreeDiscrete Verif.TreeWorlds.
Import ListNotations.
Open Scope Q_scope.

Lemma disj_false : forall a b : list nat, disj discrete a b = false <-> exists x, In x a /\ In x b.
Proof.
  intros a b. cbn. split.
  - intro H. assert (~ (forall x, In x a -> negb (nmem x b) = true)) as N.
    { intro A. apply forallb_forall in A. congruence. }
    induction a as [|y a IH]; [discriminate|]. cbn in H. destruct (nmem y b) eqn:B.
    + exists y. split; [left; reflexivity|]. unfold nmem in B. apply existsb_exists in B. destruct B as (z & I & E). apply Nat.eqb_eq in E. subst z. exact I.
    + cbn in H. destruct IH as (x & I1 & I2); [exact H| |exists x; split; [right; exact I1|exact I2]]. intro A. apply N. intros x [<-|I]; [rewrite B; reflexivity|auto].
  - intros (x & Ia & Ib). destruct (forallb (fun v => negb (nmem v b)) a) eqn:E; [|reflexivity]. rewrite forallb_forall in E. specialize (E x Ia).
    assert (nmem x b = true) as N; [|rewrite N in E; discriminate]. apply existsb_exists. exists x. split; [exact Ib|apply Nat.eqb_refl].
Qed.

Section W.
  Variable doms : list dom.
  Variable J : jpt discrete.
  Hypothesis W : wf_tree doms J.
  Notation L := (discrete_lawful doms).

  Lemma wf_known : forall q : query, wf_query doms q -> known J q = true.
  Proof. intros q [_ H]. apply forallb_forall. intros [v s] I. apply Nat.ltb_lt. cbn. rewrite (wt_vars _ _ W). apply (H v s I). Qed.

  Theorem world_apply : forall q : query, wf_query doms q -> exists ls, apply J q = Ok ls /\ NoDup (map l_idx ls) /\
    forall l, In l ls <-> In l (leaves J) /\ forall v s e, In (v, s) (l_path l) -> In (v, e) q -> exists x, In x e /\ In x s.
  Proof.
    intros q Wq. destruct (apply_spec J q (wt_tree _ _ W) (wf_known q Wq)) as (ls & A & B & C). exists ls. split; [exact A|]. split; [exact B|].
    intro l. rewrite C. unfold compatible. split; intros [I H]; (split; [exact I|]); intros v s e I1 I2.
    - apply disj_false. apply (H v s e I1). apply in_lookup; [apply Wq|exact I2].
    - apply disj_false. apply (H v s e I1). apply lookup_in, I2.
  Qed.

  (** What infer computes, for every query and evidence. *)
  Theorem world_infer_general : forall (q e : query) fail, wf_query doms q -> wf_query doms e ->
    (Pr doms J e == 0 -> infer J q e fail = if fail then Err ValueError else Ok None) /\
    (~ Pr doms J e == 0 -> exists r, infer J q e fail = Ok (Some r) /\
       r == Qsum (map (fun l : leaf discrete => l_prior l * (Pr_leaf doms (l_dists l) q * Pr_leaf doms (l_dists l) e)) (leaves J)) / Pr doms J e).
  Proof.
    destruct J as [nv fl ns ls r ps]. pose proof (wt_vars _ _ W) as E1. pose proof (wt_full _ _ W) as E2. cbn in E1, E2. subst nv fl.
    pose proof (proj1 (wf_tree_iff doms ns ls r ps) W) as (T & Pp & Su). cbv zeta in T, Pp, Su. intros q e fail Wq We.
    pose proof (infer_spec (@JPT discrete (length doms) (dfull doms) ns ls r ps) L T Pp Su q e fail (proj1 (wf_query_event doms q) Wq) (proj1 (wf_query_event doms e) We)) as [A B].
    pose proof (mixture_worlds doms ns ls r ps e (wt_leaves _ _ W) We) as M. cbv zeta in M. split.
    - intro Z. apply A. eapply Qeq_trans; [exact M|exact Z].
    - intro NZ. destruct B as (x & Ex & X). { intro H. apply NZ. eapply Qeq_trans; [symmetry; exact M|exact H]. }
      exists x. split; [exact Ex|]. eapply Qeq_trans; [exact X|]. unfold Qdiv. apply Qmult_comp; [|apply Qinv_comp; exact M].
      unfold mixture. apply Qsum_map_ext. intros l I. apply Qmult_comp; [reflexivity|]. eapply Qeq_trans; [apply leaf_prob_app|].
      pose proof (wt_leaves _ _ W) as Fl. rewrite Forall_forall in Fl. destruct (Fl l I) as [Fd _ _ _]. apply Qmult_comp; apply leaf_prob_worlds; assumption.
  Qed.

  Lemma Pr_mixture : forall q, wf_query doms q -> Pr doms J q == Qsum (map (fun l : leaf discrete => l_prior l * leaf_prob L (l_dists l) q) (leaves J)).
  Proof.
    intros q Wq. rewrite Pr_leaves. apply Qsum_map_ext. intros l I. apply Qmult_comp; [reflexivity|].
    pose proof (wt_leaves _ _ W) as Fl. rewrite Forall_forall in Fl. destruct (Fl l I) as [Fd _ _ _]. symmetry. apply leaf_prob_worlds; assumption.
  Qed.

  Lemma density_nonneg : forall ds w, Forall (fun d => Forall (fun p => 0 <= p) (d_params d)) ds -> 0 <= density ds w.
  Proof.
    intros ds w Fd. revert w. induction Fd as [|d ds N Fd IH]; intros [|x w]; cbn; try lra. apply Qmult_le_0_compat; [|apply IH].
    destruct (nth_in_or_default x (d_params d) 0) as [I|E]; [rewrite Forall_forall in N; apply N, I|rewrite E; lra].
  Qed.
  Lemma wf_density_nonneg : forall l w, In l (leaves J) -> 0 <= density (l_dists l) w.
  Proof.
    intros l w I. apply density_nonneg. pose proof (wt_leaves _ _ W) as Fl. rewrite Forall_forall in Fl. destruct (Fl l I) as [Fd _ _ _]. clear - Fd.
    induction Fd as [|D d doms ds O Fd IH]; constructor; [apply O|exact IH].
  Qed.
  Lemma joint_nonneg : forall w, 0 <= joint J w.
  Proof.
    intro w. apply Qsum_map_nonneg. intros l I. apply Qmult_le_0_compat; [|apply wf_density_nonneg, I]. pose proof (wt_leaves _ _ W) as Fl. rewrite Forall_forall in Fl. apply (Fl l I).
  Qed.
  Lemma Pr_nonneg : forall q, 0 <= Pr doms J q.
  Proof. intro q. apply Qsum_map_nonneg. intros w _. destruct (sat q w); [apply joint_nonneg|lra]. Qed.
  Lemma Pr_mono : forall q e, Pr doms J (q ++ e) <= Pr doms J e.
  Proof. intros q e. apply Qsum_map_le. intros w _. rewrite sat_app. pose proof (joint_nonneg w). destruct (sat q w), (sat e w); cbn; lra. Qed.

  Theorem world_infer : forall (q e : query) fail, wf_query doms q -> wf_query doms e -> disjoint_keys (F := discrete) q e ->
    (Pr doms J e == 0 -> infer J q e fail = if fail then Err ValueError else Ok None) /\
    (~ Pr doms J e == 0 -> exists r, infer J q e fail = Ok (Some r) /\ r == Pr doms J (q ++ e) / Pr doms J e /\ 0 <= r <= 1).
  Proof.
    intros q e fail Wq We D. destruct (world_infer_general q e fail Wq We) as [A B]. split; [exact A|]. intro NZ. destruct (B NZ) as (x & Ex & X). exists x. split; [exact Ex|].
    assert (E : x == Pr doms J (q ++ e) / Pr doms J e).
    { rewrite X. apply Qmult_comp; [|reflexivity]. rewrite (Pr_mixture (q ++ e) (wf_app doms q e Wq We D)). apply Qsum_map_ext. intros l I. apply Qmult_comp; [reflexivity|].
      pose proof (wt_leaves _ _ W) as Fl. rewrite Forall_forall in Fl. destruct (Fl l I) as [Fd _ _ _].
      rewrite <- (leaf_prob_worlds doms (l_dists l) q Fd Wq), <- (leaf_prob_worlds doms (l_dists l) e Fd We). symmetry. apply (leaf_prob_app L l q e). }
    split; [exact E|]. rewrite E. pose proof (Pr_nonneg e). pose proof (Pr_nonneg (q ++ e)). pose proof (Pr_mono q e). assert (0 < Pr doms J e) by lra. split; [apply Qdiv_nonneg; assumption|apply Qdiv_le_1; assumption].
  Qed.

  (** ** posterior *)

  Theorem world_posterior : forall (vs : list nat) (e : query) fail, wf_query doms e -> (forall v, In v vs -> (v < length doms)%nat) ->
    (forall v, In v vs -> In v (map fst e) -> forall l, In l (leaves J) -> 0 < l_prior l -> 0 < Pr_leaf doms (l_dists l) e -> In v (map fst (l_path l))) ->
    (Pr doms J e == 0 -> posterior J vs e fail = if fail then Err Unsatisfiability else Ok None) /\
    (~ Pr doms J e == 0 -> exists ds, posterior J vs e fail = Ok (Some (combine vs ds)) /\
       Forall2 (fun v d => ok_dist (domain doms v) d /\
         forall s, (forall x, In x s -> (x < n_values (domain doms v))%nat) -> exists p, dd_p d s = Ok p /\ p == Pr doms J ((v, s) :: e) / Pr doms J e) vs ds).
  Proof.
    intros vs e fail We V OnP. pose proof (Pr_nonneg e) as Nn. pose proof (Pr_mixture e We) as Me0.
    assert (PL : forall q l, wf_query doms q -> In l (leaves J) -> leaf_prob L (l_dists l) q == Pr_leaf doms (l_dists l) q).
    { intros q l Wq I. pose proof (wt_leaves _ _ W) as Fl. rewrite Forall_forall in Fl. destruct (Fl l I) as [Fd _ _ _]. apply leaf_prob_worlds; assumption. }
    assert (PM : forall q, wf_query doms q -> Pr doms J q == Qsum (map (fun l : leaf discrete => l_prior l * leaf_prob L (l_dists l) q) (leaves J))) by (apply Pr_mixture).
    destruct J as [nv fl ns ls r ps]. pose proof (wt_vars _ _ W) as E1. pose proof (wt_full _ _ W) as E2. cbn in E1, E2. subst nv fl.
    pose proof (proj1 (wf_tree_iff doms ns ls r ps) W) as (T & Pp & Su). cbv zeta in T, Pp, Su.
    set (K := @JPT discrete (length doms) (dfull doms) ns ls r ps) in *.
    pose proof (posterior_spec K L T Pp Su vs e fail (proj1 (wf_query_event doms e) We) V) as [A B].
    pose proof (mixture_worlds doms ns ls r ps e (wt_leaves _ _ W) We) as M. cbv zeta in M. fold K in M. split.
    - intro Z. apply A. eapply Qeq_trans; [exact M|exact Z].
    - intro NZ. destruct B as (ds & Ed & F2). { assert (P1 : 0 < Pr doms K e) by lra. apply (Qlt_le_trans _ (Pr doms K e)); [exact P1|]. apply Qle_lteq. right. symmetry. exact M. }
      exists ds. split; [exact Ed|]. clear Ed A. refine (Forall2_impl _ _ _ _ _ _ _ F2). intros v d Iv [Od H]. split; [exact Od|]. intros s Os.
      assert (Oe : ok_event (domain doms v) s) by (apply ok_event_iff, Os). destruct (dd_p_ok _ _ s Od Oe) as (p & Ep & X). exists p. split; [exact Ep|]. rewrite X.
      specialize (H s Oe). change (P L d s) with (pm (d_params d) s) in H. eapply Qeq_trans; [exact H|]. clear H X Ep p. unfold Qdiv. apply Qmult_comp; [|apply Qinv_comp; exact M].
      assert (Wvs : wf_query doms [(v, s)]). { split; [repeat constructor; intros []|]. intros v' s' [E|[]]. inversion E; subst. split; [apply V, Iv|exact Os]. }
      assert (Ms : Pr doms K ((v, s) :: e) == Pr doms K (@meet discrete [(v, s)] e)).
      { apply Pr_ext. intros w _. rewrite sat_meet by apply We. reflexivity. }
      rewrite Ms, (PM _ (wf_meet doms _ _ Wvs We)). change (full K) with (dfull doms) in *. apply Qsum_map_ext. intros l I.
      rewrite <- Qmult_assoc. 
      assert (Pl0 : 0 <= l_prior l). { pose proof (wt_leaves _ _ W) as Fl. rewrite Forall_forall in Fl. apply (Fl l I). }
      destruct (Qlt_le_dec 0 (l_prior l)) as [Pp1|Pp1]; [|assert (l_prior l == 0) as -> by lra; ring].
      apply Qmult_comp; [reflexivity|].
      destruct (proj1 (wf_leaf_iff doms l) (proj1 (Forall_forall _ _) (wt_leaves _ _ W) l I)) as [Pl Sl].
      pose proof (meet_le L (length doms) l Pl [(v, s)] e (proj1 (wf_query_event doms _) Wvs) (proj1 (wf_query_event doms e) We)) as [M1 M2].
      destruct (Qlt_le_dec 0 (leaf_prob L (l_dists l) e)) as [Pe|Pe].
      2:{ assert (leaf_prob L (l_dists l) e == 0) as Z0 by lra. assert (leaf_prob L (l_dists l) (@meet discrete [(v, s)] e) == 0) as Z1 by lra. rewrite Z0, Z1. ring. }
      unfold leaf_post. destruct Pl as (Len & Okd & Pn & Pt). destruct (nth_error (l_dists l) v) as [d0|] eqn:Ev.
      2:{ exfalso. apply nth_error_None in Ev. specialize (V v Iv). change (length (l_dists l)) with (@length (dist discrete) (l_dists l)) in Ev. lia. }
      unfold meet. cbn [map fst snd]. destruct (@lookup (vset discrete) e v) as [ev|] eqn:El.
      + assert (OnV : existsb (Nat.eqb v) (keys (l_path l)) = true).
        { apply existsb_exists. exists v. split; [|apply Nat.eqb_refl]. apply (OnP v Iv); [apply (in_map fst) in El || (apply lookup_in in El; apply (in_map fst) in El; exact El)|exact I|exact Pp1|].
          rewrite <- (PL e l We I). exact Pe. }
        rewrite OnV. destruct (leaf_prob_factor K L l e v ev (conj Len (conj Okd (conj Pn Pt))) (proj1 (wf_query_event doms e) We) (lookup_in _ _ _ _ El) Pe) as (d1 & Hd1 & Od1 & Oe1 & Pe1).
        rewrite Ev in Hd1. inversion Hd1; subst d1. cbn [app leaf_prob]. rewrite Ev.
        assert (G : forall e0, NoDup (map fst e0) -> lookup e0 v = Some ev ->
            leaf_prob L (l_dists l) e0 == P L d0 ev * leaf_prob L (l_dists l) (filter (fun vs0 : var * vset discrete => negb (existsb (Nat.eqb (fst vs0)) (keys [(v, s)]))) e0)).
        { clear - Ev. induction e0 as [|[v1 s1] e0 IH]; intros N H; [discriminate|]. cbn [lookup] in H. cbn [map fst] in N. inversion N as [|? ? N1 N2]; subst. cbn [filter fst keys map existsb].
          destruct (Nat.eqb_spec v1 v) as [->|Ne]; cbn [orb negb leaf_prob].
          - inversion H; subst. rewrite Ev. apply Qmult_comp; [reflexivity|].
            assert (filter (fun vs0 : var * vset discrete => negb (Nat.eqb (fst vs0) v || false)) e0 = e0) as ->; [|reflexivity].
            clear - N1. induction e0 as [|[v2 s2] e0 IH]; [reflexivity|]. cbn in *. destruct (Nat.eqb_spec v2 v); [exfalso; apply N1; left; assumption|]. cbn. f_equal. apply IH. intro. apply N1. right; assumption.
          - rewrite (IH N2 H). cbn [keys map fst existsb]. ring. }
        eapply Qeq_trans; [apply Qmult_comp; [exact (G e (proj1 We) El)|reflexivity]|].
        match goal with |- _ * ?A * _ == _ * ?B => change A with B; generalize B end. intro X. change (P L d0 ev) with (pm (d_params d0) ev) in *.
        match goal with |- _ * _ * (?A / _) == ?B * _ => change A with B; generalize B end. intro Y. field. lra.
      + cbn [app leaf_prob]. rewrite Ev.
        assert (Fe : filter (fun vs0 : var * vset discrete => negb (existsb (Nat.eqb (fst vs0)) (keys [(v, s)]))) e = e).
        { apply (proj1 (lookup_none _ e v)) in El. clear - El. induction e as [|[v2 s2] e0 IH]; [reflexivity|]. cbn in *. destruct (Nat.eqb_spec v2 v); [exfalso; apply El; left; assumption|]. cbn. f_equal. apply IH. intro. apply El. right; assumption. }
        match goal with |- _ == _ * leaf_prob _ _ ?f => change f with (filter (fun vs0 : var * vset discrete => negb (existsb (Nat.eqb (fst vs0)) (keys [(v, s)]))) e) end. rewrite Fe. apply Qmult_comm.
  Qed.

  (** ** conditional_jpt *)

  Theorem world_conditional : forall (e : query) fail, wf_query doms e -> e <> [] ->
    (forall n, In n (innernodes J) -> length (i_children n) = 2%nat) ->
    (Pr doms J e == 0 -> conditional_jpt J e fail = if fail then Err Unsatisfiability else Ok None) /\
    (~ Pr doms J e == 0 -> exists J', conditional_jpt J e fail = Ok (Some J') /\ wf_tree doms J' /\
       (forall n, In n (innernodes J') -> i_children n <> []) /\
       Qsum (map l_prior (leaves J')) == 1 /\
       Forall2 (fun l l' : leaf discrete => l_idx l' = l_idx l /\ l_parent l' = l_parent l /\ l_path l' = l_path l /\ l_samples l' = l_samples l /\
                  l_prior l' == l_prior l * Pr_leaf doms (l_dists l) e / Pr doms J e /\
                  forall w, In w (worlds doms) -> density (l_dists l') w == if sat e w then density (l_dists l) w / Pr_leaf doms (l_dists l) e else 0)
         (filter (fun l : leaf discrete => Qltb 0 (Pr_leaf doms (l_dists l) e)) (leaves J)) (leaves J') /\
       (forall q, wf_query doms q -> Pr doms J' q == Pr doms J (q ++ e) / Pr doms J e) /\
       Forall2 (fun v d => ok_dist (domain doms v) d /\
         forall s, (forall x, In x s -> (x < n_values (domain doms v))%nat) -> exists p, dd_p d s = Ok p /\ p == Pr doms J ((v, s) :: e) / Pr doms J e)
         (seq 0 (length doms)) (priors J')).
  Proof.
    intros e fail We Ne Bin. pose proof (Pr_nonneg e) as Nn.
    assert (PL : forall q l, wf_query doms q -> In l (leaves J) -> leaf_prob L (l_dists l) q == Pr_leaf doms (l_dists l) q).
    { intros q l Wq I. pose proof (wt_leaves _ _ W) as Fl. rewrite Forall_forall in Fl. destruct (Fl l I) as [Fd _ _ _]. apply leaf_prob_worlds; assumption. }
    destruct J as [nv fl ns ls r ps]. pose proof (wt_vars _ _ W) as E1. pose proof (wt_full _ _ W) as E2. cbn in E1, E2. subst nv fl.
    pose proof (proj1 (wf_tree_iff doms ns ls r ps) W) as (T & Pp & Su). cbv zeta in T, Pp, Su.
    set (K := @JPT discrete (length doms) (dfull doms) ns ls r ps) in *.
    pose proof (conditional_spec K L T Pp Su Bin e (proj1 (wf_query_event doms e) We) Ne fail) as [A B].
    pose proof (mixture_worlds doms ns ls r ps e (wt_leaves _ _ W) We) as M. cbv zeta in M. fold K in M. split.
    - intro Z. apply A. eapply Qeq_trans; [exact M|exact Z].
    - intro NZ. destruct B as (ns' & ls' & r' & ps' & Ec & T' & Cf & Pp' & Su' & Fc & S1 & Mx & Fp).
      { assert (P1 : 0 < Pr doms K e) by lra. apply (Qlt_le_trans _ (Pr doms K e)); [exact P1|]. apply Qle_lteq. right. symmetry. exact M. }
      change (n_vars K) with (length doms) in *. change (full K) with (dfull doms) in *.
      set (K' := @JPT discrete (length doms) (dfull doms) ns' ls' r' ps') in *. 
      assert (W' : wf_tree doms K') by (apply (wf_tree_iff doms ns' ls' r' ps'); auto).
      assert (Q' : forall q, wf_query doms q -> Pr doms K' q == Pr doms K (q ++ e) / Pr doms K e).
      { intros q Wq. pose proof (mixture_worlds doms ns' ls' r' ps' q (wt_leaves _ _ W') Wq) as M'. cbv zeta in M'. fold K' in M'. eapply Qeq_trans; [symmetry; exact M'|].
        eapply Qeq_trans; [apply (Mx q (proj1 (wf_query_event doms q) Wq))|]. unfold Qdiv. apply Qmult_comp; [|apply Qinv_comp; exact M].
        eapply Qeq_trans; [apply (mixture_worlds doms ns ls r ps _ (wt_leaves _ _ W) (wf_meet doms q e Wq We))|]. apply Pr_ext. intros w _. apply sat_meet, We. }
      exists K'. split; [exact Ec|]. split; [exact W'|]. split; [exact Cf|]. split; [exact S1|]. split; [|split; [exact Q'|]].
      + assert (filter (positive K L e) (leaves K) = filter (fun l : leaf discrete => Qltb 0 (Pr_leaf doms (l_dists l) e)) (leaves K)) as <-.
        { apply filter_ext_in. intros l I. unfold positive. rewrite (Qltb_comp _ _ _ (PL e l We I)). reflexivity. }
        refine (Forall2_impl _ _ _ _ _ _ _ Fc). intros l l' I (C1 & C2 & C3 & C4 & C5 & C6 & C7 & _). apply filter_In in I. destruct I as [I Po]. repeat split; try assumption.
        * eapply Qeq_trans; [exact C5|]. unfold Qdiv. apply Qmult_comp; [|apply Qinv_comp; exact M]. apply Qmult_comp; [reflexivity|]. apply PL; [exact We|exact I].
        * intros w Iw. assert (Po' : 0 < leaf_prob L (l_dists l) e). { unfold positive, Qltb in Po. apply negb_true_iff in Po. apply Qnot_le_lt. intro H. apply Qle_bool_iff in H. apply not_true_iff_false in Po. apply Po. exact H. }
          destruct (proj1 (wf_leaf_iff doms l) (proj1 (Forall_forall _ _) (wt_leaves _ _ W) l I)) as [Pl _].
          pose proof (singles_wf doms w Iw) as Ws.
          pose proof (meet_cropped L (length doms) l Pl e (l_dists l') (proj1 (wf_query_event doms e) We) Po' C7 (singles w) (proj1 (wf_query_event doms _) Ws)) as H.
          assert (Fd' : Forall2 ok_dist doms (l_dists l')).
          { apply ok_dists_nth; [exact (eq_trans C6 (proj1 Pl))|]. intros v d' Ev. destruct (nth_error (l_dists l) v) as [d|] eqn:E0.
            - destruct (C7 v d E0) as (d2 & E2 & Od & _). change (@nth_error (dist discrete) (l_dists l') v) with (@nth_error ddist (l_dists l') v) in E2. rewrite Ev in E2. inversion E2; subst. exact Od.
            - exfalso. apply nth_error_None in E0. assert (N0 : nth_error (l_dists l') v = None); [|pose proof (eq_trans (eq_sym Ev) N0) as Hc; discriminate Hc]. apply nth_error_None. refine (Nat.le_trans _ _ _ (Nat.eq_le_incl _ _ C6) E0). }
          pose proof (leaf_prob_worlds doms (l_dists l') (singles w) Fd' Ws) as X1. pose proof (PL e l We I) as X2. pose proof (PL _ l (wf_meet doms _ _ Ws We) I) as X3.
          pose proof (Pr_leaf_ext doms (l_dists l) _ _ (fun w' _ => sat_meet (singles w) e w' (proj1 We))) as X4. pose proof (Pr_leaf_singles_and doms (l_dists l) w e Iw) as X5. pose proof (Pr_leaf_singles doms (l_dists l') w Iw) as X6.
          change (full K) with (dfull doms) in *. rewrite X1, X2, X3, X4, X5, X6 in H. rewrite X2 in Po'. clear - H Po'. 
          destruct (sat e w); [rewrite <- H; field; lra|].
          destruct (Qeq_dec (density (l_dists l') w) 0) as [Z|Z]; [exact Z|]. exfalso. apply Qmult_integral in H. destruct H; [contradiction|lra].
      + refine (Forall2_impl _ _ _ _ _ _ _ Fp). intros v d Iv [Od H]. split; [exact Od|]. intros s Os.
        assert (Oe : ok_event (domain doms v) s) by (apply ok_event_iff, Os). destruct (dd_p_ok _ _ s Od Oe) as (p & Ep & X). exists p. split; [exact Ep|]. rewrite X.
        assert (Wvs : wf_query doms [(v, s)]). { split; [repeat constructor; intros []|]. intros v' s' [E|[]]. inversion E; subst. split; [apply in_seq in Iv; lia|exact Os]. }
        specialize (H s Oe). change (P L d s) with (pm (d_params d) s) in H. eapply Qeq_trans; [exact H|].
        eapply Qeq_trans; [apply (mixture_worlds doms ns' ls' r' ps' _ (wt_leaves _ _ W') Wvs)|]. fold K'. rewrite (Q' _ Wvs). reflexivity.
  Qed.
End W.
