(** likelihood, pdf, expectation, moment and mpe, world by world. *)
Require Import QArith Lqa ZArith Bool List Arith Lia Permutation.
Require Import Verif.Base Verif.NumBase Verif.DiscreteModel Verif.DiscreteProofs Verif.DiscreteProofs2 Verif.TreeModel Verif.TreeSpec Verif.TreeApply Verif.TreeInfer Verif.TreePosterior Verif.TreeDiscrete Verif.TreeWorlds Verif.TreeWorldProofs.
Import ListNotations.
Open Scope Q_scope.

Lemma nth_param : forall ps x, (x < length ps)%nat -> nth_error ps x = Some (nth x ps 0).
Proof. intros. apply nth_error_nth'. assumption. Qed.

Lemma pm_single : forall ps x, (x < length ps)%nat -> pm ps [x] == nth x ps 0.
Proof.
  intros ps x H. unfold pm. rewrite lmass_values. 
  assert (G : forall l, NoDup l -> In x l -> Qsum (map (fun y => if nmem y [x] then nth y ps 0 else 0) l) == nth x ps 0).
  { induction l as [|y l IH]; intros N I; [contradiction|]. inversion N as [|? ? N1 N2]; subst. cbn [map Qsum]. unfold nmem at 1. cbn [existsb]. rewrite orb_false_r. destruct I as [->|I].
    - rewrite Nat.eqb_refl. rewrite Qsum_map_zero; [ring|]. intros z Iz. unfold nmem. cbn. rewrite orb_false_r. destruct (Nat.eqb_spec z x); [subst; contradiction|reflexivity].
    - rewrite IH by assumption. destruct (Nat.eqb_spec y x); [subst; contradiction|ring]. }
  apply G; [apply seq_NoDup|apply in_seq; lia].
Qed.

Section M.
  Variable doms : list dom.
  Variable J : jpt discrete.
  Hypothesis W : wf_tree doms J.

  Lemma leaf_wf : forall l, In l (leaves J) -> wf_leaf doms l.
  Proof. intros l I. pose proof (wt_leaves _ _ W) as Fl. rewrite Forall_forall in Fl. apply Fl, I. Qed.

  (** ** likelihood *)

  Lemma mul_lik_ok : forall doms0 (ds : list ddist) w, Forall2 ok_dist doms0 ds -> In w (worlds doms0) -> @mul_lik discrete ds w = Ok (density ds w).
  Proof.
    intros doms0 ds w F. revert w. induction F as [|D d doms0 ds O F IH]; intros w I; [destruct w; reflexivity|].
    apply worlds_spec in I. inversion I as [|D' x doms' w' B I']; subst. cbn [mul_lik density]. cbn [d_lik discrete]. unfold pget.
    destruct O as (_ & Len & _). rewrite nth_param by lia. cbn [bind]. rewrite IH by (apply worlds_spec, I'). reflexivity.
  Qed.

  Theorem world_likelihood : forall w, In w (worlds doms) -> likelihood J w = Ok (joint J w).
  Proof.
    intros w I. unfold likelihood, joint. assert (Fl : forall l, In l (leaves J) -> wf_leaf doms l) by apply leaf_wf. revert Fl. induction (leaves J) as [|l ls IH]; intro Fl; [reflexivity|].
    cbn [lik_loop map Qsum]. rewrite (mul_lik_ok doms); [|apply (wl_dists _ _ (Fl l (or_introl eq_refl)))|exact I]. cbn [bind]. rewrite IH by (intros; apply Fl; right; assumption). reflexivity.
  Qed.

  (** ** pdf *)

  (** Domains whose labels are their own values. *)
  Definition identity_dom (D : dom) : Prop :=
    match D with
    | SymDom ls => ls = map (fun k => Some (Z.of_nat k)) (seq 0 (length ls))
    | IntDom lo _ => lo = 0%Z
    end.

  Lemma olab_spec : forall n k x, (k <= x < k + n)%nat -> value_of (option Z) olab_eqb (map (fun k => Some (Z.of_nat k)) (seq k n)) (Some (Z.of_nat x)) = Some (x - k)%nat.
  Proof.
    induction n as [|n IH]; intros k x H; [lia|]. cbn [seq map value_of olab_eqb]. destruct (Z.eqb_spec (Z.of_nat k) (Z.of_nat x)) as [E|E].
    - replace (x - k)%nat with 0%nat by lia. reflexivity.
    - rewrite IH by lia. cbn [option_map]. f_equal. lia.
  Qed.

  Lemma zlab_spec : forall n k x, (k <= x < k + n)%nat -> value_of Z Z.eqb (map (fun k => (0 + Z.of_nat k)%Z) (seq k n)) (Z.of_nat x) = Some (x - k)%nat.
  Proof.
    induction n as [|n IH]; intros k x H; [lia|]. cbn [seq map value_of]. destruct (Z.eqb_spec (0 + Z.of_nat k) (Z.of_nat x)) as [E|E].
    - replace (x - k)%nat with 0%nat by lia. reflexivity.
    - rewrite IH by lia. cbn [option_map]. f_equal. lia.
  Qed.

  Lemma dd_pdf_ok : forall D d x, ok_dist D d -> identity_dom D -> (x < n_values D)%nat -> exists y, dd_pdf d x = Ok y /\ y == pm (d_params d) [x].
  Proof.
    intros D d x O Id H. destruct (dd_p_ok D d [x] O) as (y & Ey & X); [repeat constructor; exact H|]. exists y. split; [|exact X].
    destruct O as (E & Len & _). unfold dd_p in Ey. unfold dd_pdf. rewrite E in *. destruct D as [ls|lo hi]; cbn in Id, H.
    - rewrite Id. unfold label2value1. rewrite olab_spec by lia. cbn [bind]. rewrite Nat.sub_0_r. exact Ey.
    - subst lo. unfold int_p1, label2value1. unfold ilabels. cbn [lmin lmax iparams]. rewrite zlab_spec by lia. cbn [bind]. rewrite Nat.sub_0_r. exact Ey.
  Qed.

  Lemma wf_nth : forall l v, wf_leaf doms l -> (v < length doms)%nat -> exists d, @nth_error (dist discrete) (l_dists l) v = Some d /\ ok_dist (domain doms v) d.
  Proof.
    intros l v Wl V. pose proof (Forall2_len _ _ _ _ _ (wl_dists _ _ Wl)) as Len. destruct (@nth_error (dist discrete) (l_dists l) v) as [d|] eqn:E.
    - exists d. split; [reflexivity|]. apply (ok_dists_nth doms (l_dists l)); [symmetry; exact Len|apply (wl_dists _ _ Wl)|exact E].
    - exfalso. apply nth_error_None in E. change (@length (dist discrete) (l_dists l)) with (@length ddist (l_dists l)) in E. lia.
  Qed.

  Lemma mul_pdf_ok : forall l (w : list (nat * nat)), wf_leaf doms l -> (forall v x, In (v, x) w -> (v < length doms)%nat /\ identity_dom (domain doms v) /\ (x < n_values (domain doms v))%nat) ->
    exists y, mul_pdf l w = Ok y /\ y == leaf_prob (discrete_lawful doms) (l_dists l) (map (fun vx => (fst vx, [snd vx])) w).
  Proof.
    intros l w Wl. induction w as [|[v x] w IH]; intro H; [exists 1; split; reflexivity|].
    destruct IH as (r & Er & R); [intros; apply H; right; assumption|]. destruct (H v x (or_introl eq_refl)) as (V & Id & X). cbn [mul_pdf map fst snd leaf_prob].
    destruct (wf_nth l v Wl V) as (d & E & O). unfold leaf_dist. rewrite E. cbn [bind].
    destruct (dd_pdf_ok _ d x O Id X) as (y & Ey & Y). cbn [d_pdf discrete]. rewrite Ey. cbn [bind]. rewrite Er. cbn [bind]. exists (y * r). split; [reflexivity|]. rewrite Y, R. reflexivity.
  Qed.

  Theorem world_pdf : forall w : list (nat * nat), NoDup (map fst w) ->
    (forall v x, In (v, x) w -> (v < length doms)%nat /\ identity_dom (domain doms v) /\ (x < n_values (domain doms v))%nat) ->
    exists p, pdf J w = Ok p /\ p == Pr doms J (map (fun vx => (fst vx, [snd vx])) w).
  Proof.
    intros w N H. set (q := map (fun vx => (fst vx, [snd vx])) w).
    assert (Wq : wf_query doms q).
    { split; [unfold q; rewrite map_map; exact N|]. intros v s I. apply in_map_iff in I. destruct I as ([v' x] & E & I). cbn in E. inversion E; subst. destruct (H _ _ I) as (A & _ & B).
      split; [exact A|]. intros y [<-|[]]. exact B. }
    assert (Eu : pdf J w = if negb (known J q) then Err ValueError else do ls <- apply J q; @pdf_loop discrete w ls) by reflexivity. rewrite Eu. clear Eu. rewrite (wf_known doms J W q Wq). cbn [negb].
    destruct (apply_perm J q (wt_tree _ _ W) (wf_known doms J W q Wq)) as (ls & -> & Pm). cbn [bind].
    assert (Inc : forall l, In l ls -> In l (leaves J)). { intros l I. apply (Permutation_in _ Pm) in I. apply filter_In in I. apply I. }
    assert (A : exists p, @pdf_loop discrete w ls = Ok p /\ p == Qsum (map (fun l => l_prior l * leaf_prob (discrete_lawful doms) (l_dists l) q) ls)).
    { clear Pm. induction ls as [|l ls IH]; [exists 0; split; reflexivity|]. cbn [pdf_loop map Qsum]. destruct (mul_pdf_ok l w (leaf_wf l (Inc l (or_introl eq_refl))) H) as (y & Ey & Y). rewrite Ey. cbn [bind].
      destruct IH as (p & Ep & X); [intros; apply Inc; right; assumption|]. rewrite Ep. cbn [bind]. eexists. split; [reflexivity|]. rewrite Y, X. reflexivity. }
    destruct A as (p & Ep & X). exists p. split; [exact Ep|]. rewrite X. rewrite (Qsum_map_perm _ _ _ _ Pm), Qsum_filter, (Pr_mixture doms J W q Wq). apply Qsum_map_ext. intros l I.
    destruct (@compatb discrete q (l_path l)) eqn:C; [reflexivity|].
    destruct (proj1 (wf_leaf_iff doms l) (leaf_wf l I)) as [Pl Sl]. rewrite (incompatible_zero (discrete_lawful doms) (length doms) l Pl Sl q (proj1 (wf_query_event doms q) Wq) C). ring.
  Qed.

  (** A whole row: pdf agrees with likelihood. *)
  Theorem world_pdf_row : forall w, In w (worlds doms) -> Forall identity_dom doms ->
    exists p, pdf J (combine (seq 0 (length w)) w) = Ok p /\ p == joint J w.
  Proof.
    intros w I Id. destruct (world_pdf (combine (seq 0 (length w)) w)) as (p & Ep & X).
    - replace (map fst (combine (seq 0 (length w)) w)) with (seq 0 (length w)); [apply seq_NoDup|]. clear. generalize 0%nat. induction w as [|x w IH]; intro k; cbn; [reflexivity|]. f_equal. apply IH.
    - intros v x Iv. assert (Is : In (v, [x]) (singles w)).
      { unfold singles. clear - Iv. revert Iv. generalize 0%nat. induction w as [|y w IH]; intros k Iv; cbn in *; [contradiction|]. destruct Iv as [E|Iv]; [inversion E; subst; left; reflexivity|right; apply IH, Iv]. }
      destruct (proj2 (singles_wf doms w I) v [x] Is) as [V X]. split; [exact V|]. split; [|apply X; left; reflexivity].
      rewrite Forall_forall in Id. apply Id. apply nth_In, V.
    - exists p. split; [exact Ep|]. rewrite X, <- (Pr_singles doms J w I). replace (map (fun vx : nat * nat => (fst vx, [snd vx])) (combine (seq 0 (length w)) w)) with (singles w); [reflexivity|].
      unfold singles. clear. generalize 0%nat. induction w as [|x w IH]; intro k; cbn; [reflexivity|]. f_equal. apply IH.
  Qed.

  (** ** expectation and moments *)

  (** The conditional expectation of a function of variable [v]'s value. *)
  Definition cond_exp (v : nat) (g : nat -> Q) (e : query) : Q :=
    Qsum (map (fun w => if sat e w then joint J w * g (nth v w 0%nat) else 0) (worlds doms)) / Pr doms J e.

  Lemma world_value : forall w v, In w (worlds doms) -> (v < length doms)%nat -> (nth v w 0%nat < n_values (domain doms v))%nat.
  Proof.
    clear W. intros w v I. apply worlds_spec in I. unfold domain. revert v. induction I as [|D x doms0 w B I IH]; intros [|v] V; cbn in *; try lia. apply IH. lia.
  Qed.

  Lemma posterior_exp : forall v e d, (v < length doms)%nat -> ok_dist (domain doms v) d ->
    (forall s, (forall x, In x s -> (x < n_values (domain doms v))%nat) -> exists p, dd_p d s = Ok p /\ p == Pr doms J ((v, s) :: e) / Pr doms J e) ->
    forall g, Qsum (map (fun x => g x * nth x (d_params d) 0) (seq 0 (n_values (domain doms v)))) == cond_exp v g e.
  Proof.
    intros v e d V O H g. set (n := n_values (domain doms v)) in *.
    transitivity (Qsum (map (fun x => g x * Pr doms J ((v, [x]) :: e)) (seq 0 n)) / Pr doms J e).
    - rewrite <- Qsum_map_div. apply Qsum_map_ext. intros x I. apply in_seq in I. destruct (H [x]) as (p & Ep & X); [intros y [<-|[]]; lia|].
      destruct (dd_p_ok _ _ [x] O) as (p' & Ep' & X'); [repeat constructor; fold n; lia|]. rewrite Ep in Ep'. inversion Ep'; subst p'.
      assert (Lx : (x < length (d_params d))%nat) by (destruct O as (_ & -> & _); fold n; lia). rewrite <- (pm_single _ x Lx), <- X', X. unfold Qdiv. ring.
    - unfold cond_exp. apply Qmult_comp; [|reflexivity]. unfold Pr.
      transitivity (Qsum (map (fun x => Qsum (map (fun w => if sat ((v, [x]) :: e) w then g x * joint J w else 0) (worlds doms))) (seq 0 n))).
      + apply Qsum_map_ext. intros x _. rewrite <- Qsum_map_scale. apply Qsum_map_ext. intros w _. destruct (sat _ w); ring.
      + rewrite Qsum_exchange. apply Qsum_map_ext. intros w Iw. pose proof (world_value w v Iw V) as B. fold n in B.
        transitivity (Qsum (map (fun x => if Nat.eqb x (nth v w 0%nat) then (if sat e w then joint J w * g x else 0) else 0) (seq 0 n))).
        * apply Qsum_map_ext. intros x _. unfold sat at 1. cbn [forallb fst snd existsb]. rewrite orb_false_r, Nat.eqb_sym. fold (sat e w). destruct (Nat.eqb x (nth v w 0%nat)), (sat e w); cbn; try reflexivity. ring.
        * generalize (seq_NoDup n 0). assert (Is : In (nth v w 0%nat) (seq 0 n)) by (apply in_seq; lia). revert Is. generalize (seq 0 n) as l. generalize (nth v w 0%nat) as y. clear.
          intros y l. induction l as [|x l IH]; intros I N; [contradiction|]. inversion N as [|? ? N1 N2]; subst. cbn [map Qsum]. destruct I as [->|I].
          -- rewrite Nat.eqb_refl. rewrite Qsum_map_zero; [destruct (sat e w); ring|]. intros z Iz. destruct (Nat.eqb_spec z y); [subst; contradiction|reflexivity].
          -- rewrite IH by assumption. destruct (Nat.eqb_spec x y); [subst; contradiction|]. ring.
  Qed.

  Lemma iexp_values : forall lo hi ps g, length ps = Z.to_nat (hi - lo + 1) ->
    iexp (IDist lo hi ps) g == Qsum (map (fun x => g (lo + Z.of_nat x)%Z * nth x ps 0) (seq 0 (Z.to_nat (hi - lo + 1)))).
  Proof.
    intros lo hi ps g Len. unfold iexp, ilabels. cbn [lmin lmax iparams]. rewrite <- Len. clear Len.
    transitivity (Qsum (map (fun x => g (lo + Z.of_nat x)%Z * nth (x - 0) ps 0) (seq 0 (length ps)))); [|apply Qsum_map_ext; intros x _; rewrite Nat.sub_0_r; reflexivity].
    generalize 0%nat as k. induction ps as [|p ps IH]; intro k; cbn [length seq map combine Qsum fst snd]; [reflexivity|]. rewrite IH, Nat.sub_diag. cbn [nth].
    apply Qplus_comp; [reflexivity|]. apply Qsum_map_ext. intros x I. apply in_seq in I. replace (x - k)%nat with (S (x - S k)) by lia. reflexivity.
  Qed.

  Definition is_expectation (v : nat) (e : query) (r : Q + list nat) : Prop :=
    match domain doms v, r with
    | IntDom lo hi, inl x => x == cond_exp v (fun k => inject_Z (lo + Z.of_nat k)) e
    | SymDom ls, inr s => s <> [] /\ forall a, In a s <-> (a < length ls)%nat /\ forall b, (b < length ls)%nat -> Pr doms J ((v, [b]) :: e) <= Pr doms J ((v, [a]) :: e)
    | _, _ => False
    end.

  Lemma dd_expectation_ok : forall v e d, (v < length doms)%nat -> ~ Pr doms J e == 0 -> ok_dist (domain doms v) d ->
    (forall s, (forall x, In x s -> (x < n_values (domain doms v))%nat) -> exists p, dd_p d s = Ok p /\ p == Pr doms J ((v, s) :: e) / Pr doms J e) ->
    exists x, dd_expectation d = Ok x /\ is_expectation v e x.
  Proof.
    intros v e d V NZ O H. pose proof (posterior_exp v e d V O H) as G. unfold is_expectation, dd_expectation. pose proof O as (Ed & Len & Pp). rewrite Ed. destruct (domain doms v) as [ls|lo hi] eqn:ED.
    - destruct (mpe_spec (d_params d) Pp) as (S & p & Em & _ & Hs & _ & Ne). rewrite Em. cbn [bind fst]. eexists. split; [reflexivity|]. split; [exact Ne|].
      assert (Pos : 0 < Pr doms J e) by (pose proof (Pr_nonneg doms J W e); lra).
      assert (Px : forall x, (x < length ls)%nat -> nth x (d_params d) 0 == Pr doms J ((v, [x]) :: e) / Pr doms J e).
      { intros x Lx. destruct (H [x]) as (p1 & Ep1 & X1); [intros y [<-|[]]; cbn; lia|]. destruct (dd_p_ok _ _ [x] O) as (p2 & Ep2 & X2); [repeat constructor; cbn; lia|]. rewrite Ep1 in Ep2. inversion Ep2; subst p2.
        rewrite <- X1, X2. symmetry. apply pm_single. rewrite Len. exact Lx. }
      cbn [n_values] in Len. intro a. rewrite Hs. split.
      + intros (q & Eq & Mx). assert (La : (a < length ls)%nat) by (rewrite <- Len; apply nth_error_Some; congruence). split; [exact La|]. intros b Lb.
        assert (Le : nth b (d_params d) 0 <= nth a (d_params d) 0). { rewrite (nth_error_nth _ _ 0 Eq). apply (Mx b). apply nth_param. lia. }
        rewrite (Px a La), (Px b Lb) in Le. unfold Qdiv in Le. apply Qmult_lt_0_le_reg_r in Le; [exact Le|]. apply Qinv_lt_0_compat, Pos.
      + intros [La Mx]. exists (nth a (d_params d) 0). split; [apply nth_param; lia|]. intros b q Eb. assert (Lb : (b < length ls)%nat) by (rewrite <- Len; apply nth_error_Some; congruence).
        rewrite <- (nth_error_nth _ _ 0 Eb). rewrite (Px a La), (Px b Lb). unfold Qdiv. apply Qmult_le_compat_r; [apply Mx, Lb|]. apply Qlt_le_weak, Qinv_lt_0_compat, Pos.
    - eexists. split; [reflexivity|]. cbv beta iota. eapply Qeq_trans; [apply int_expectation_iexp|]. rewrite (iexp_values lo hi _ _ Len). apply (G (fun k => inject_Z (lo + Z.of_nat k))).
  Qed.

  (** The variables on which expectation reports. *)
  Definition on_paths (v : nat) (e : query) : Prop :=
    In v (map fst e) -> forall l, In l (leaves J) -> 0 < l_prior l -> 0 < Pr_leaf doms (l_dists l) e -> In v (map fst (l_path l)).

  Lemma mapM_combine : forall A B C (f : A * B -> res C) (R : A -> C -> Prop) l m, Forall2 (fun a b => exists c, f (a, b) = Ok c /\ R a c) l m ->
    exists cs, mapM f (combine l m) = Ok cs /\ Forall2 R l cs.
  Proof.
    intros A B C f R l m H. induction H as [|a b l m (c & E & X) H IH]; [exists []; split; [reflexivity|constructor]|].
    destruct IH as (cs & Ec & Fc). exists (c :: cs). split; [|constructor; assumption]. cbn [combine]. rewrite mapM_cons, E. cbn [bind]. rewrite Ec. reflexivity.
  Qed.

  Theorem world_expectation : forall (ovs : option (list nat)) (e : query) fail, wf_query doms e ->
    let vs := match ovs with
              | Some (v :: vs) => v :: vs
              | Some [] => filter (fun v => negb (existsb (Nat.eqb v) (map fst e))) (seq 0 (length doms))
              | None => seq 0 (length doms)
              end in
    (0 < length doms)%nat -> (forall v, In v vs -> (v < length doms)%nat /\ on_paths v e) ->
    (Pr doms J e == 0 -> expectation J ovs e fail = if fail then Err Unsatisfiability else Ok None) /\
    (~ Pr doms J e == 0 -> exists r, expectation J ovs e fail = Ok (Some r) /\ Forall2 (fun v vr => fst vr = v /\ is_expectation v e (snd vr)) vs r).
  Proof.
    intros ovs e fail We vs L0 V. unfold expectation.
    assert (Ev : @expectation_vars discrete J ovs e = vs).
    { unfold expectation_vars, vs. destruct ovs as [[|v0 vs0]|]; cbn; rewrite ?(wt_vars _ _ W); try reflexivity. destruct (length doms); [lia|reflexivity]. }
    rewrite Ev. clear Ev. clearbody vs. clear ovs.
    destruct (world_posterior doms J W vs e fail We (fun v I => proj1 (V v I)) (fun v I => proj2 (V v I))) as [A B]. split.
    - intro Z. rewrite (A Z). destruct fail; reflexivity.
    - intro NZ. destruct (B NZ) as (ds & Ed & F2). rewrite Ed. cbn [bind].
      destruct (mapM_combine _ _ _ (fun vd : nat * ddist => do x <- d_expectation discrete (snd vd); Ok (fst vd, x)) (fun v (vr : nat * (Q + list nat)) => fst vr = v /\ is_expectation v e (snd vr)) vs ds) as (r & Er & Fr).
      { refine (Forall2_impl _ _ _ _ _ _ _ F2). intros v d I [O H]. destruct (dd_expectation_ok v e d (proj1 (V v I)) NZ O H) as (x & Ex & X). exists (v, x). cbn [snd fst d_expectation discrete]. rewrite Ex. split; [reflexivity|]. split; [reflexivity|exact X]. }
      exists r. split; [exact (f_equal (fun z => bind z (fun r => Ok (Some r))) Er)|exact Fr].
  Qed.

  Theorem world_moment : forall (vs : list nat) (order : nat) (center : list (nat * Q)) (e : query) fail, wf_query doms e ->
    (forall v, In v vs -> (v < length doms)%nat /\ on_paths v e /\ exists lo hi, domain doms v = IntDom lo hi) ->
    (Pr doms J e == 0 -> moment J vs order center e fail = if fail then Err Unsatisfiability else Ok None) /\
    (~ Pr doms J e == 0 -> exists r, moment J vs order center e fail = Ok (Some r) /\
       Forall2 (fun v vr => fst vr = v /\ exists lo hi c, domain doms v = IntDom lo hi /\ c = match lookup center v with Some c => c | None => 0 end /\
                  snd vr == cond_exp v (fun k => Qpower (inject_Z (lo + Z.of_nat k) - c) (Z.of_nat order)) e) vs r).
  Proof.
    intros vs order center e fail We V. unfold moment.
    destruct (world_posterior doms J W vs e fail We (fun v I => proj1 (V v I)) (fun v I => proj1 (proj2 (V v I)))) as [A B]. split.
    - intro Z. rewrite (A Z). destruct fail; reflexivity.
    - intro NZ. destruct (B NZ) as (ds & Ed & F2). rewrite Ed. cbn [bind].
      destruct (mapM_combine _ _ _ (fun vd : nat * ddist => do x <- d_moment discrete order (match lookup center (fst vd) with Some c => c | None => 0 end) (snd vd); Ok (fst vd, x))
        (fun v (vr : nat * Q) => fst vr = v /\ exists lo hi c, domain doms v = IntDom lo hi /\ c = match lookup center v with Some c => c | None => 0 end /\
                  snd vr == cond_exp v (fun k => Qpower (inject_Z (lo + Z.of_nat k) - c) (Z.of_nat order)) e) vs ds) as (r & Er & Fr).
      { refine (Forall2_impl _ _ _ _ _ _ _ F2). intros v d I [O H]. destruct (V v I) as (Lv & _ & lo & hi & ED). pose proof (posterior_exp v e d Lv O H) as G. rewrite ED in O, G. destruct O as (Edom & Len & _).
        cbn [fst snd d_moment discrete]. unfold dd_moment. rewrite Edom. cbn [bind]. eexists. split; [reflexivity|]. split; [reflexivity|]. exists lo, hi. eexists. split; [exact ED|]. split; [reflexivity|]. cbn [snd].
        rewrite <- G. cbn [n_values] in *. pose proof (iexp_values lo hi (d_params d) (fun z => Qpower (inject_Z z - match lookup center v with Some c => c | None => 0 end) (Z.of_nat order)) Len) as X. rewrite <- X. reflexivity. }
      exists r. split; [exact (f_equal (fun z => bind z (fun r => Ok (Some r))) Er)|exact Fr].
  Qed.

  (** Linearity: the weights are the posterior weights of the leaves. *)
  Theorem expectation_leaves : forall v (g : nat -> Q) (e : query), wf_query doms e -> (v < length doms)%nat -> ~ In v (map fst e) ->
    cond_exp v g e == Qsum (map (fun l : leaf discrete => l_prior l * Pr_leaf doms (l_dists l) e / Pr doms J e *
      match nth_error (l_dists l) v with Some d => Qsum (map (fun x => g x * nth x (d_params d) 0) (seq 0 (n_values (domain doms v)))) | None => 0 end) (leaves J)).
  Proof.
    intros v g e We V Nv. set (n := n_values (domain doms v)).
    transitivity (Qsum (map (fun x => g x * Pr doms J ((v, [x]) :: e)) (seq 0 n)) / Pr doms J e).
    - unfold cond_exp. apply Qmult_comp; [|reflexivity]. symmetry. unfold Pr.
      transitivity (Qsum (map (fun x => Qsum (map (fun w => if sat ((v, [x]) :: e) w then g x * joint J w else 0) (worlds doms))) (seq 0 n))).
      + apply Qsum_map_ext. intros x _. rewrite <- Qsum_map_scale. apply Qsum_map_ext. intros w _. destruct (sat _ w); ring.
      + rewrite Qsum_exchange. apply Qsum_map_ext. intros w Iw. pose proof (world_value w v Iw V) as B. fold n in B.
        transitivity (Qsum (map (fun x => if Nat.eqb x (nth v w 0%nat) then (if sat e w then joint J w * g x else 0) else 0) (seq 0 n))).
        * apply Qsum_map_ext. intros x _. unfold sat at 1. cbn [forallb fst snd existsb]. rewrite orb_false_r, Nat.eqb_sym. fold (sat e w). destruct (Nat.eqb x (nth v w 0%nat)), (sat e w); cbn; try reflexivity. ring.
        * generalize (seq_NoDup n 0). assert (Is : In (nth v w 0%nat) (seq 0 n)) by (apply in_seq; lia). revert Is. generalize (seq 0 n) as l. generalize (nth v w 0%nat) as y. clear.
          intros y l. induction l as [|x l IH]; intros I N; [contradiction|]. inversion N as [|? ? N1 N2]; subst. cbn [map Qsum]. destruct I as [->|I].
          -- rewrite Nat.eqb_refl. rewrite Qsum_map_zero; [destruct (sat e w); ring|]. intros z Iz. destruct (Nat.eqb_spec z y); [subst; contradiction|reflexivity].
          -- rewrite IH by assumption. destruct (Nat.eqb_spec x y); [subst; contradiction|]. ring.
    - rewrite <- Qsum_map_div.
      transitivity (Qsum (map (fun x => Qsum (map (fun l : leaf discrete => l_prior l * Pr_leaf doms (l_dists l) e / Pr doms J e * match nth_error (l_dists l) v with Some d => g x * nth x (d_params d) 0 | None => 0 end) (leaves J))) (seq 0 n))).
      + apply Qsum_map_ext. intros x Ix. apply in_seq in Ix. rewrite Pr_leaves. unfold Qdiv. rewrite <- Qmult_assoc, (Qmult_comm (Qsum _)), Qmult_assoc, <- Qsum_map_scale. apply Qsum_map_ext. intros l Il.
        pose proof (leaf_wf l Il) as Wl. destruct (wf_nth l v Wl V) as (d & Ed & Od). change (@nth_error ddist (l_dists l) v) with (@nth_error (dist discrete) (l_dists l) v). rewrite Ed.
        assert (Wx : wf_query doms ((v, [x]) :: e)).
        { split; [cbn; constructor; [exact Nv|apply We]|]. intros v' s' [E|I]; [inversion E; subst; split; [exact V|intros y [<-|[]]; fold n; lia]|apply (proj2 We v' s' I)]. }
        assert (Lx : (x < length (d_params d))%nat) by (destruct Od as (_ & -> & _); fold n; lia).
        rewrite <- (leaf_prob_worlds doms (l_dists l) _ (wl_dists _ _ Wl) Wx), <- (leaf_prob_worlds doms (l_dists l) e (wl_dists _ _ Wl) We). cbn [leaf_prob]. rewrite Ed.
        change (P (discrete_lawful doms) d [x]) with (pm (d_params d) [x]). rewrite (pm_single _ x Lx). ring.
      + rewrite Qsum_exchange. apply Qsum_map_ext. intros l Il. destruct (nth_error (l_dists l) v) as [d|]; [rewrite Qsum_map_scale; reflexivity|]. rewrite Qsum_map_zero by (intros; ring). ring.
  Qed.
End M.
