(** Intervals whose infinite bounds are written as closed ends, as list2interval
    (base/utils.py:270-278) writes them: inference treats them as open ends. *)
Require Import ZArith QArith Lqa Bool List Arith Lia.
Require Import Verif.Base Verif.FloatLine Verif.FloatVal Verif.NumBase Verif.IntervalModel Verif.IntervalSpec Verif.IntervalProofs Verif.IntervalExact Verif.FunctionModel
  Verif.NumericModel Verif.NumericSpec Verif.NumericFit Verif.NumericProb Verif.NumericProps Verif.TreeModel Verif.TreeSpec Verif.TreeApply Verif.TreeInfer Verif.TreeDiscrete Verif.NumericTree Verif.MixedTree Verif.MixedProps.
Import ListNotations.
Open Scope Z_scope.

(** The same interval with open ends at infinity. *)
Definition opn (c : cs) : cs := CS (lower c) (upper c) (if lower c =? - ORD_INF then EXC else left c) (if upper c =? ORD_INF then EXC else right c).

Lemma opn_mem : forall c x, cs_mem x (opn c) <-> cs_mem x c.
Proof.
  intros c x. unfold cs_mem, opn, finite. cbn [lower upper left right].
  destruct (Z.eqb_spec (lower c) (- ORD_INF)) as [E|_]; destruct (Z.eqb_spec (upper c) ORD_INF) as [E'|_]; destruct (left c), (right c); lia.
Qed.

Section Opn.
  Variable G : grid.
  Hypothesis GG : gridded G.
  Definition nearly (c : cs) : Prop := on_grid G (opn c).

  Lemma nearly_bounds : forall c, nearly c -> lower c <= upper c /\ lower c < ORD_INF /\ - ORD_INF < upper c /\ - ORD_INF <= lower c /\ upper c <= ORD_INF.
  Proof. intros c [W _]. pose proof (wf_bounded _ W) as (A & B & C & _). cbn [opn lower upper] in *. lia. Qed.
  Lemma opn_wf : forall c, wf c -> opn c = c.
  Proof.
    intros [lo hi l r] (_ & _ & _ & _ & _ & A & B). unfold opn. cbn [lower upper left right] in *.
    destruct (Z.eqb_spec lo (- ORD_INF)) as [E|_]; [rewrite (A E)|]; (destruct (Z.eqb_spec hi ORD_INF) as [E'|_]; [rewrite (B E')|]); reflexivity.
  Qed.
  Lemma grid_nearly : forall c, on_grid G c -> nearly c.
  Proof. intros c Gc. unfold nearly. rewrite opn_wf; [exact Gc|apply Gc]. Qed.

  Lemma opn_empty : forall c, nearly c -> cs_isempty (opn c) = cs_isempty c.
  Proof.
    intros c N. destruct (nearly_bounds c N) as (A & B & C & D & E). destruct N as [_ N]. unfold cs_isempty, isclosed, itype, opn. cbn [lower upper left right].
    destruct (Z.ltb_spec (upper c) (lower c)); [reflexivity|].
    destruct (Z.eqb_spec (lower c) (upper c)) as [K|K]; [destruct (Z.eqb_spec (lower c) (- ORD_INF)); [lia|]; destruct (Z.eqb_spec (upper c) ORD_INF); [lia|]; reflexivity|].
    destruct (Z.eqb_spec (lower c) (- ORD_INF)) as [E1|E1]; [|destruct (Z.eqb_spec (upper c) ORD_INF) as [E2|E2]; [|reflexivity]].
    all: assert (X : upper c <=? plus_eps (lower c) = false); [|rewrite X; reflexivity].
    all: apply Z.leb_gt; assert (P : plus_eps (lower c) <= lower c + 1) by (unfold plus_eps; destruct (adds_one _); lia).
    all: destruct N as [N|[Gl Gu]]; [unfold opn in N; injection N as N1 N2 _ _; pose proof ord_facts; lia|].
    all: cbn [opn lower upper] in *; pose proof (g_gap G GG _ _ Gl Gu ltac:(lia)); lia.
  Qed.

  (** Two intervals, at least as good as [nearly]. *)
  Lemma opn_intersects : forall a b, nearly a -> nearly b -> cs_intersects (opn a) (opn b) = cs_intersects a b.
  Proof.
    intros a b Na Nb. destruct (nearly_bounds a Na) as (A & B & C & D & E). destruct (nearly_bounds b Nb) as (A' & B' & C' & D' & E').
    unfold cs_intersects. rewrite (opn_empty b Nb). destruct (cs_isempty b); [reflexivity|]. unfold opn. cbn [lower upper left right].
    destruct ((upper a <? lower b) || (upper b <? lower a)); [reflexivity|].
    assert (X : forall f, (lower a =? upper b) && (flag_eqb (if upper b =? ORD_INF then EXC else right b) EXC || flag_eqb (if lower a =? - ORD_INF then EXC else left a) EXC) = (lower a =? upper b) && (flag_eqb (right b) EXC || flag_eqb (left a) EXC) /\ f = f :> Z).
    { intro f. split; [|reflexivity]. destruct (Z.eqb_spec (lower a) (upper b)); [|reflexivity]. destruct (Z.eqb_spec (upper b) ORD_INF); [lia|]. destruct (Z.eqb_spec (lower a) (- ORD_INF)); [lia|]. reflexivity. }
    rewrite (proj1 (X 0)). clear X. destruct ((lower a =? upper b) && _); [reflexivity|].
    destruct (Z.eqb_spec (upper a) (lower b)); [|reflexivity]. destruct (Z.eqb_spec (upper a) ORD_INF); [lia|]. destruct (Z.eqb_spec (lower b) (- ORD_INF)); [lia|]. reflexivity.
  Qed.
  Lemma opn_cut : forall a b, nearly a -> nearly b -> opn (cut a b) = cut (opn a) (opn b).
  Proof.
    intros a b Na Nb. destruct (nearly_bounds a Na) as (A & B & C & D & E). destruct (nearly_bounds b Nb) as (A' & B' & C' & D' & E').
    unfold cut, cs_intersection, cs_intersection_lr. rewrite (opn_intersects a b Na Nb). destruct (cs_intersects a b); cbn [negb].
    2: { pose proof ord_facts. unfold opn, EMPTY. cbn [lower upper left right]. destruct (Z.eqb_spec 0 (- ORD_INF)); [lia|]. destruct (Z.eqb_spec 0 ORD_INF); [lia|]. reflexivity. }
    unfold opn at 2 3 4 5 6 7 8 9 10 11 12 13 14 15 16. cbn [lower upper left right]. unfold mk_cs. destruct (Z.ltb_spec (Z.min (upper a) (upper b)) (Z.max (lower a) (lower b))).
    { cbn [bind]. pose proof ord_facts. unfold opn, EMPTY. cbn [lower upper left right]. destruct (Z.eqb_spec 0 (- ORD_INF)); [lia|]. destruct (Z.eqb_spec 0 ORD_INF); [lia|]. reflexivity. }
    cbn [bind lower upper set_left set_right]. unfold opn. cbn [lower upper left right]. clear Na Nb.
    f_equal.
    - destruct (Z.eqb_spec (lower b) (lower a)) as [K|K].
      + rewrite K, Z.max_id. destruct (Z.eqb_spec (lower a) (- ORD_INF)); reflexivity.
      + destruct (Z.ltb_spec (lower b) (lower a)).
        * rewrite Z.max_l by lia. destruct (Z.eqb_spec (lower a) (- ORD_INF)); reflexivity.
        * rewrite Z.max_r by lia. destruct (Z.eqb_spec (lower b) (- ORD_INF)); reflexivity.
    - destruct (Z.eqb_spec (upper b) (upper a)) as [K|K].
      + rewrite K, Z.min_id. destruct (Z.eqb_spec (upper a) ORD_INF); reflexivity.
      + destruct (Z.ltb_spec (upper a) (upper b)).
        * rewrite Z.min_l by lia. destruct (Z.eqb_spec (upper a) ORD_INF); reflexivity.
        * rewrite Z.min_r by lia. destruct (Z.eqb_spec (upper b) ORD_INF); reflexivity.
  Qed.

  (** The pieces of positive density: bounded below, closed below, open above. *)
  Definition risen (s : cs) : Prop := - ORD_INF < lower s < ORD_INF /\ - ORD_INF < upper s <= ORD_INF /\ left s = INC /\ right s = EXC.
  Lemma risen_gt0 : forall p a b cur, chain a p b -> b = ORD_INF -> - ORD_INF <= a ->
    (cur = None -> a = - ORD_INF -> match p with [] => True | s :: _ => (steepness (snd s) == 0)%Q end) ->
    match cur with Some l => - ORD_INF < l < ORD_INF /\ l <= a | None => True end ->
    Forall risen (gt0_loop (slopes p) cur).
  Proof.
    induction p as [|[i f] p IH]; intros a b cur Ch Eb La St Cu; cbn [slopes map gt0_loop fst snd].
    - destruct cur as [l|]; constructor; [|constructor]. unfold risen. cbn [lower upper left right]. pose proof ord_facts. repeat split; lia.
    - destruct Ch as (Ei & Li & Ch). fold (slopes p).
      assert (Ub : upper i <= ORD_INF). { clear - Ch Eb. subst b. revert Ch. generalize (upper i) as u. induction p as [|[j g] p IH]; intros u Ch; cbn in Ch; [lia|]. destruct Ch as (_ & L & Ch). specialize (IH _ Ch). lia. }
      assert (Lo : lower i = a) by (rewrite Ei; reflexivity). cbn [snd] in St.
      destruct cur as [l|].
      + destruct (dens_zero _ || _); [constructor|].
        * unfold risen. cbn [lower upper left right]. repeat split; lia.
        * apply (IH (upper i) b None Ch Eb ltac:(lia)); [intros _ K; lia|exact I].
        * apply (IH (upper i) b (Some l) Ch Eb ltac:(lia)); [discriminate|lia].
      + destruct (negb (dens_zero (DFin (steepness f))) && dens_pos (DFin (steepness f))) eqn:P.
        * apply (IH (upper i) b (Some (lower i)) Ch Eb ltac:(lia)); [discriminate|]. rewrite Lo. split; [|lia]. split; [|lia].
          destruct (Z.eq_dec a (- ORD_INF)) as [K|K]; [|lia]. exfalso. specialize (St eq_refl K). apply andb_true_iff in P. destruct P as [P _]. cbn [dens_zero] in P.
          assert (Qeq_bool (steepness f) 0 = true) as X by (apply Qeq_bool_iff; exact St). rewrite X in P. discriminate.
        * apply (IH (upper i) b None Ch Eb ltac:(lia)); [intros _ K; lia|exact I].
  Qed.
  Lemma risen_intersects : forall s c, risen s -> nearly c -> cs_intersects s (opn c) = cs_intersects s c.
  Proof.
    intros s c ((A & B) & (A' & B') & L & R) N. destruct (nearly_bounds c N) as (C1 & C2 & C3 & C4 & C5). unfold cs_intersects. rewrite (opn_empty c N). destruct (cs_isempty c); [reflexivity|].
    unfold opn. cbn [lower upper left right]. rewrite L, R. cbn [flag_eqb orb]. destruct ((upper s <? lower c) || (upper c <? lower s)); [reflexivity|].
    destruct (Z.eqb_spec (lower s) (upper c)); [destruct (Z.eqb_spec (upper c) ORD_INF); [lia|]|]; cbn [andb]; reflexivity.
  Qed.
  Lemma risen_contains : forall s c, risen s -> nearly c -> cs_contains_interval (opn c) s false = cs_contains_interval c s false.
  Proof.
    intros s c ((A & B) & (A' & B') & L & R) N. destruct (nearly_bounds c N) as (C1 & C2 & C3 & C4 & C5). unfold cs_contains_interval. rewrite (opn_empty c N). destruct (cs_isempty c); [reflexivity|].
    assert (H1 : lowermost (opn c) = lowermost c).
    { unfold lowermost, opn. cbn [lower left]. destruct (Z.eqb_spec (lower c) (- ORD_INF)) as [E|]; [|reflexivity]. rewrite E. destruct (left c); vm_compute; reflexivity. }
    assert (H2 : uppermost (opn c) = uppermost c).
    { unfold uppermost, opn. cbn [upper right]. destruct (Z.eqb_spec (upper c) ORD_INF) as [E|]; [|reflexivity]. rewrite E. destruct (right c); vm_compute; reflexivity. }
    rewrite H1, H2. destruct ((lowermost s <? lowermost c) || (uppermost c <? uppermost s)); [reflexivity|]. unfold opn. cbn [lower upper left right]. rewrite L, R. cbn [flag_eqb]. rewrite !andb_false_r, !andb_true_r.
    destruct (Z.eqb_spec (lower c) (lower s)) as [E|E]; cbn [andb]; [|reflexivity]. destruct (Z.eqb_spec (lower c) (- ORD_INF)); [lia|]. reflexivity.
  Qed.
  Lemma risen_p : forall p pdf c, pdf_of p = Ok pdf -> Forall risen (gt0 pdf) -> nearly c -> p_interval p (opn c) = p_interval p c.
  Proof.
    intros p pdf c E Rs N. unfold p_interval. rewrite E. cbn [bind]. cbv zeta. unfold rs_isdisjoint, rs_intersects. cbn [as_list existsb].
    assert (H1 : existsb (fun s => cs_intersects s (opn c) || false) (gt0 pdf) = existsb (fun s => cs_intersects s c || false) (gt0 pdf)).
    { induction Rs as [|s l R Rs IH]; cbn [existsb]; [reflexivity|]. rewrite IH, (risen_intersects s c R N). reflexivity. }
    assert (H2 : forallb (fun i => cs_contains_interval (opn c) i false) (gt0 pdf) = forallb (fun i => cs_contains_interval c i false) (gt0 pdf)).
    { clear H1. induction Rs as [|s l R Rs IH]; cbn [forallb]; [reflexivity|]. rewrite IH, (risen_contains s c R N). reflexivity. }
    rewrite H1, H2. reflexivity.
  Qed.
  Lemma opn_p : forall p c, ok_numeric G p -> nearly c -> p_interval p (opn c) = p_interval p c.
  Proof.
    intros p c [[L _]|(x & -> & M)] N.
    - pose proof (line_length _ L) as Ln. apply (risen_p p (slopes p)); [apply density_spec; [apply (ln_affine _ L)|lia]| |exact N].
      apply (risen_gt0 p (- ORD_INF) ORD_INF None (ln_chain _ L) eq_refl); [lia| |exact I]. intros _ _. destruct (ln_first _ L) as (i & r & -> & _). cbn [snd]. reflexivity.
    - apply (risen_p _ _ c (dirac_pdf x M)); [|exact N]. pose proof ord_facts. cbn [gt0 gt0_loop dens_zero dens_pos]. change (Qeq_bool 0 0) with true. cbn [negb andb orb lower].
      repeat constructor; cbn [lower upper left right]; lia.
  Qed.
End Opn.

(** ** The contract of inference for such intervals

    Sets are replaced by others which all operations treat alike. *)
Section Retract.
  Context {F : family} {full : var -> vset F}.
  Variables (L : measured full) (r : vset F -> vset F).
  Hypothesis r_full : forall v, r (full v) = full v.
  Hypothesis r_inter : forall v a b, oks L v (r a) -> oks L v (r b) -> r (inter F a b) = inter F (r a) (r b).
  Hypothesis r_disj : forall v a b, oks L v (r a) -> oks L v (r b) -> disj F (r a) (r b) = disj F a b.
  Hypothesis r_p : forall v d s, okd L v d -> oks L v (r s) -> d_p F d (r s) = d_p F d s.

  Definition retracted : measured full.
  Proof.
    refine (@Measured F full (okd L) (fun v s => oks L v (r s)) (fun d s => P L d (r s)) _ _ _ _ _ _ _ _ _ _ _).
    - intro v. rewrite r_full. apply oks_full.
    - intros v a b A B. rewrite (r_inter v) by assumption. apply oks_inter; assumption.
    - intros v d s D S. rewrite <- (r_p v) by assumption. apply (p_ok _ L v); assumption.
    - intros v d s D S. apply (P_nonneg _ L v); assumption.
    - intros v d D. rewrite r_full. apply (P_full _ L v), D.
    - intros v d a b D A B. rewrite (r_inter v) by assumption. apply (P_le _ L v); assumption.
    - intros v d a b D A B. rewrite !(r_inter v) by assumption. apply (P_comm _ L v); assumption.
    - intros v d a b c D A B C. assert (AB : oks L v (r (inter F a b))) by (rewrite (r_inter v) by assumption; apply oks_inter; assumption).
      assert (BC : oks L v (r (inter F b c))) by (rewrite (r_inter v) by assumption; apply oks_inter; assumption).
      rewrite !(r_inter v) by assumption. apply (P_assoc _ L v); assumption.
    - intros v d a b D A B. assert (AB : oks L v (r (inter F a b))) by (rewrite (r_inter v) by assumption; apply oks_inter; assumption).
      rewrite !(r_inter v) by assumption. apply (P_idem _ L v); assumption.
    - intros v d a b D A B K. rewrite (r_inter v) by assumption. apply (P_disj _ L v); [assumption..|]. rewrite (r_disj v) by assumption. exact K.
    - intros v d a b D A B K. rewrite (r_inter v) by assumption. apply (P_sure _ L v); assumption.
  Defined.
End Retract.

Open Scope Q_scope.
Definition mopn (s : mset) : mset := match s with inl (NC c) => inl (NC (opn c)) | _ => s end.

(** Queries with closed infinite bounds. *)
Definition wide_mquery (kinds : list kind) (G : var -> grid) (q : list (var * mset)) : Prop :=
  NoDup (map fst q) /\ forall v s, In (v, s) q -> (v < length kinds)%nat /\ suits (G v) (nth v kinds None) (mopn s).

Lemma wide_infer : forall kinds G (J : mtree), wf_mixed kinds G J ->
  exists pr : mdist -> mset -> Q,
    (forall v d s, fits (G v) (nth v kinds None) d -> suits (G v) (nth v kinds None) s -> mass d s (pr d s)) /\
    forall q e fail, wide_mquery kinds G q -> wide_mquery kinds G e ->
      let q' := map (fun vs : var * mset => (fst vs, mopn (snd vs))) q in let e' := map (fun vs : var * mset => (fst vs, mopn (snd vs))) e in
      (weight pr J e' == 0 -> infer J q e fail = if fail then Err ValueError else Ok None) /\
      (~ weight pr J e' == 0 -> exists r, infer J q e fail = Ok (Some r) /\ r == weight pr J (q' ++ e') / weight pr J e' /\ 0 <= r <= 1).
Proof.
  intros kinds G J W. exists (P (LM kinds G (mx_grid _ _ _ W))). split; [intros v d s Fd Ss; apply (P_mass kinds G _ v); assumption|].
  intros q e fail Wq We q' e'. destruct W as [Hv Hf Ht Hg Hl Hd Hp Hpa Hs]. cbn [mx_grid]. destruct J as [n fl inn lv rt prs]. cbn [n_vars full leaves] in *. subst n. subst fl.
  set (J := JPT (length kinds) (whole kinds) inn lv rt prs : mtree) in *. set (L0 := LM kinds G Hg).
  assert (Mo : forall v s, oks L0 v (mopn s) -> is_numeric kinds v = true -> exists c, s = inl (NC c) /\ nearly (G v) c).
  { clear. intros v s O N. unfold L0, LM in O. cbn [oks mixed_measured numeric_measured discrete_measured] in O. destruct s as [[c|l]|s]; cbn [mopn on] in O.
    - exists c. split; [reflexivity|]. destruct O as [_ (c' & E & H)]. injection E as <-. exact H.
    - destruct O as [_ (c' & E & _)]. discriminate.
    - destruct O as [O _]. congruence. }
  assert (Md : forall v s, oks L0 v (mopn s) -> is_numeric kinds v = false -> exists l, s = inr l).
  { clear. intros v s O N. unfold L0, LM in O. cbn [oks mixed_measured numeric_measured discrete_measured] in O. destruct s as [[c|l]|s]; cbn [mopn on] in O; [destruct O; congruence..|]. eauto. }
  assert (Rf : forall v, mopn (whole kinds v) = whole kinds v). { intro v. unfold whole. destruct (is_numeric kinds v); [|reflexivity]. unfold mopn. rewrite (opn_wf RR wf_RR). reflexivity. }
  assert (Ri : forall v a b, oks L0 v (mopn a) -> oks L0 v (mopn b) -> mopn (inter (mixed numeric discrete) a b) = inter (mixed numeric discrete) (mopn a) (mopn b)).
  { intros v a b A B. destruct (is_numeric kinds v) eqn:N.
    - destruct (Mo v a A N) as (x & -> & Nx). destruct (Mo v b B N) as (y & -> & Ny). cbn [inter mixed mopn]. change (inter numeric) with n_inter. rewrite !n_inter_cut. cbn [mopn]. rewrite (opn_cut (G v) (Hg v) x y Nx Ny). reflexivity.
    - destruct (Md v a A N) as (x & ->). destruct (Md v b B N) as (y & ->). reflexivity. }
  assert (Rd : forall v a b, oks L0 v (mopn a) -> oks L0 v (mopn b) -> disj (mixed numeric discrete) (mopn a) (mopn b) = disj (mixed numeric discrete) a b).
  { intros v a b A B. destruct (is_numeric kinds v) eqn:N.
    - destruct (Mo v a A N) as (x & -> & Nx). destruct (Mo v b B N) as (y & -> & Ny). cbn [disj mixed mopn numeric n_disj]. unfold cs_intersects_ns. cbn [as_list existsb]. cbn [ns_isempty]. rewrite (opn_intersects (G v) (Hg v) x y Nx Ny), (opn_empty (G v) (Hg v) y Ny). reflexivity.
    - destruct (Md v a A N) as (x & ->). destruct (Md v b B N) as (y & ->). reflexivity. }
  assert (Rp : forall v d s, okd L0 v d -> oks L0 v (mopn s) -> d_p (mixed numeric discrete) d (mopn s) = d_p (mixed numeric discrete) d s).
  { intros v d s D S. destruct (is_numeric kinds v) eqn:N.
    - destruct (Mo v s S N) as (x & -> & Nx). unfold L0, LM in D. cbn [okd mixed_measured numeric_measured] in D. destruct d as [p|d]; cbn [on] in D; destruct D as [D1 D2]; [|congruence].
      cbn [d_p mixed mopn numeric p_set]. apply (opn_p (G v) (Hg v)); assumption.
    - destruct (Md v s S N) as (x & ->). reflexivity. }
  set (L := retracted L0 mopn Rf Ri Rd Rp).
  assert (Os : forall v s, suits (G v) (nth v kinds None) (mopn s) -> oks L v s) by (intros v s S; apply suits_oks; exact S).
  assert (Sw : forall v s, suits (G v) (nth v kinds None) s -> mopn s = s).
  { clear. intros v s S. unfold suits in S. destruct (nth v kinds None); destruct s as [[c|l]|s]; try contradiction; [reflexivity|]. unfold mopn. rewrite (opn_wf c); [reflexivity|apply S]. }
  assert (Pt : proper_tree J L).
  { apply Forall_forall. intros l I. split; [apply Hl, I|]. split; [intros v d E; apply fits_okd; exact (Hd l v d I E)|]. split; [apply Hp, I|].
    intros v s Is. destruct (Hpa l v s I Is) as [A B]. split; [exact A|]. apply Os. rewrite (Sw v s B). exact B. }
  assert (Su : supported_tree J L).
  { apply Forall_forall. intros l I v d s E Is. symmetry. destruct (Hpa l v s I Is) as [A B]. cbn [P L retracted]. rewrite (Sw v s B). apply (mass_P kinds G Hg v d s 1 (Hd l v d I E) B). exact (Hs l v s d I Is E). }
  assert (Ev : forall q, wide_mquery kinds G q -> event L (n_vars J) q).
  { clear - Os. intros q [N H]. split; [exact N|]. apply Forall_forall. intros [v s] I. destruct (H v s I) as [A B]. split; [exact A|apply Os; exact B]. }
  assert (Wm : forall q, weight (P L0) J (map (fun vs : var * mset => (fst vs, mopn (snd vs))) q) == mixture J L q).
  { intro q0. unfold weight, mixture. cbn [leaves J]. apply Qsum_map_ext. intros l _. apply Qmult_comp; [reflexivity|].
    induction q0 as [|[v s] q0 IH]; cbn [map fold_right leaf_prob fst snd]; [reflexivity|]. rewrite IH. reflexivity. }
  destruct (infer_spec J L Ht Pt Su q e fail (Ev q Wq) (Ev e We)) as [A B]. pose proof (Wm e) as W1. pose proof (Wm (q ++ e)) as W2. rewrite map_app in W2. fold q' in W2. fold e' in W1, W2. fold L0. rewrite W1.
  split; [exact A|]. intro N. destruct (B N) as (r & E & R). exists r. split; [exact E|]. split; [rewrite W1, W2; exact R|]. rewrite R.
  pose proof (mixture_nonneg J L Pt Su e (Ev e We)) as M0. pose proof (mixture_mono J L Pt Su q e (Ev q Wq) (Ev e We)) as M1.
  assert (M2 : 0 <= mixture J L (q ++ e)).
  { unfold mixture. apply Qsum_map_nonneg. intros l I. destruct (tree_leaf J L Pt Su l I) as [Pl Sl].
    assert (Le : forall a b, a == b -> 0 <= b -> 0 <= a) by (intros a b -> H; exact H).
    apply Qmult_le_0_compat; [apply Pl|]. apply (Le _ _ (leaf_prob_app L l q e)). apply Qmult_le_0_compat; apply (leaf_prob_nonneg L (n_vars J) l Pl); [apply (proj2 (Ev q Wq))|apply (proj2 (Ev e We))]. }
  assert (M3 : 0 < mixture J L e) by (destruct (Qlt_le_dec 0 (mixture J L e)); [assumption|exfalso; apply N; lra]).
  assert (Fin : forall x y, 0 <= x -> x <= y -> 0 < y -> 0 <= x / y <= 1) by (intros x y X Y Z; split; [apply Qle_shift_div_l; [exact Z|lra]|apply Qle_shift_div_r; [exact Z|lra]]).
  exact (Fin _ _ M2 M1 M3).
Qed.
