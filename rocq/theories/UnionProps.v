(** C39: inference with unions of intervals, as query or as evidence. *)
Require Import ZArith QArith Lqa Bool List Arith Lia Permutation.
Require Import Verif.Base Verif.FloatLine Verif.NumBase Verif.IntervalModel Verif.IntervalSpec Verif.IntervalExact Verif.FunctionModel Verif.DiscreteModel Verif.NumericModel Verif.NumericSpec
  Verif.NumericProps Verif.TreeModel Verif.TreeSpec Verif.TreeApply Verif.TreeInfer Verif.TreeDiscrete Verif.NumericTree Verif.MixedTree Verif.MixedProps Verif.UnionInfer.
Import ListNotations.
Open Scope Q_scope.

(** ** Specification

    The probability of a union is the sum over its parts; the parts are in ascending
    order, so that no two of them have a member in common. *)
Inductive umass : mdist -> mset -> Q -> Prop :=
| um_plain : forall d s q, mass d s q -> umass d s q
| um_union : forall p l qs q, Forall2 (fun c r => mass (inl p) (inl (NC c)) r) l qs -> q == Qsum qs -> umass (inl p) (inl (NR l)) q.
(** An interval, a union of intervals or a set of values. *)
Definition usuits (G : grid) (k : kind) (s : mset) : Prop :=
  match k, s with
  | None, inl (NC c) => on_grid G c
  | None, inl (NR l) => Forall (on_grid G) l /\ IntervalSpec.ascending l
  | Some D, inr s => forall x, In x s -> (x < n_values D)%nat
  | _, _ => False
  end.
Definition wf_uquery (kinds : list kind) (G : var -> grid) (q : list (var * mset)) : Prop :=
  NoDup (map fst q) /\ forall v s, In (v, s) q -> (v < length kinds)%nat /\ usuits (G v) (nth v kinds None) s.

(** ** Proof *)
Definition up (d : mdist) (s : mset) : Q :=
  match d, s with
  | inl p, inl (NC c) => np p c
  | inl p, inl (NR l) => np_union p l
  | inr d, inr s => pm (d_params d) s
  | _, _ => 0
  end.
Lemma up_union : forall p o, up (inl p) (inl o) == np_union p (as_list o).
Proof. intros p [c|l]; cbn [up as_list]; [|reflexivity]. unfold np_union. cbn. lra. Qed.
Lemma usuits_numeric : forall G o, usuits G None (inl o) <-> union_on G o.
Proof.
  intros G [c|l]; unfold usuits, union_on; cbn [as_list]; [|reflexivity]. split; [intro H; split; [constructor; [exact H|constructor]|constructor; constructor]|]. intros [H _]. exact (Forall_inv H).
Qed.

Section Union.
  Variable kinds : list kind.
  Variable G : var -> grid.
  Hypothesis GG : forall v, gridded (G v).
  Let L := LM kinds G GG.

  Definition LX : extended L.
  Proof.
    refine (@Extended _ _ L (fun v s => usuits (G v) (nth v kinds None) s) up _ _ _ _); unfold L, LM; cbn [okd oks P mixed_measured numeric_measured discrete_measured].
    - intros v d s Od Os. unfold is_numeric in Od. destruct (nth v kinds None) as [D|] eqn:K; destruct d as [p|d], s as [o|s]; cbn [on] in Od; try (destruct o; contradiction); try contradiction; try (destruct Od; discriminate).
      + destruct Od as [_ Od]. rewrite (domain_of kinds v D K) in Od. apply (p_ok _ (discrete_measured (domains kinds)) v); cbn [okd oks discrete_measured]; rewrite (domain_of kinds v D K); [exact Od|apply Forall_forall; exact Os].
      + destruct Od as [_ Od]. cbn [d_p mixed numeric]. destruct (p_union (G v) p o Od (proj1 (usuits_numeric _ o) Os)) as (q & E & Q). exists q. split; [exact E|]. rewrite up_union. exact Q.
    - intros v d s t Od Os Ot One. unfold is_numeric in Od, Ot. destruct (nth v kinds None) as [D|] eqn:K; destruct d as [p|d], s as [o|s]; cbn [on] in Od; try (destruct o; contradiction); try contradiction; try (destruct Od; discriminate);
        destruct t as [t|t]; cbn [on] in Ot; try (destruct Ot; discriminate).
      + destruct Od as [_ Od], Ot as [_ Ot]. set (M := discrete_measured (domains kinds)). assert (Od' : okd M v d) by (exact Od). assert (Ot' : oks M v t) by exact Ot.
        assert (Os' : oks M v s) by (cbn [oks M discrete_measured]; rewrite (domain_of kinds v D K); apply Forall_forall; exact Os).
        destruct (p_ok _ M v d (inter discrete s t) Od' (oks_inter _ M v s t Os' Ot')) as (q & E & Q). exists q. split; [exact E|]. rewrite Q. apply (P_sure _ M v d s t Od' Os' Ot'). exact One.
      + destruct Od as [_ Od], Ot as (_ & c & -> & Gc). apply (usuits_numeric _ o) in Os. cbn [inter d_p mixed numeric].
        destruct (union_cut (G v) (GG v) p Od o Os c Gc One) as [U E]. destruct (p_union (G v) p _ Od U) as (q & Eq & Q). exists q. split; [exact Eq|]. rewrite Q, E, up_union. reflexivity.
    - intros v d s t Od Os Ot One Dj. unfold is_numeric in Od, Ot. destruct (nth v kinds None) as [D|] eqn:K; destruct d as [p|d], s as [o|s]; cbn [on] in Od; try (destruct o; contradiction); try contradiction; try (destruct Od; discriminate);
        destruct t as [t|t]; cbn [on] in Ot; try (destruct Ot; discriminate).
      + destruct Od as [_ Od], Ot as [_ Ot]. set (M := discrete_measured (domains kinds)). assert (Od' : okd M v d) by (exact Od). assert (Ot' : oks M v t) by exact Ot.
        assert (Os' : oks M v s) by (cbn [oks M discrete_measured]; rewrite (domain_of kinds v D K); apply Forall_forall; exact Os).
        change (up (inr d) (inr s)) with (P M d s). rewrite <- (P_sure _ M v d s t Od' Os' Ot' One). destruct Dj as [Dj|Dj]; [apply (P_disj _ M v); assumption|]. rewrite (P_comm _ M v d s t Od' Os' Ot'). apply (P_disj _ M v); assumption.
      + destruct Od as [_ Od], Ot as (_ & c & -> & Gc). apply (usuits_numeric _ o) in Os. rewrite up_union. exact (union_apart (G v) (GG v) p Od o Os c Gc One Dj).
    - intros v d s Od Os. unfold is_numeric in Od. destruct (nth v kinds None) as [D|] eqn:K; destruct d as [p|d], s as [o|s]; cbn [on] in Od; try (destruct o; contradiction); try contradiction; try (destruct Od; discriminate).
      + destruct Od as [_ Od]. set (M := discrete_measured (domains kinds)). assert (Od' : okd M v d) by (exact Od).
        assert (Os' : oks M v s) by (cbn [oks M discrete_measured]; rewrite (domain_of kinds v D K); apply Forall_forall; exact Os). change (up (inr d) (inr s)) with (P M d s). split; [apply (P_nonneg _ M v); assumption|].
        pose proof (oks_full _ M v) as Of. rewrite <- (P_full _ M v d Od'). rewrite <- (P_sure _ M v d s (dfull (domains kinds) v) Od' Os' Of (P_full _ M v d Od')). rewrite (P_comm _ M v d s _ Od' Os' Of). apply (P_le _ M v); assumption.
      + destruct Od as [_ Od]. apply (usuits_numeric _ o) in Os. pose proof (union_range (G v) (GG v) p Od o Os) as [A B]. pose proof (up_union p o) as E. split; rewrite E; assumption.
  Defined.
  Lemma up_umass : forall v d s, fits (G v) (nth v kinds None) d -> usuits (G v) (nth v kinds None) s -> umass d s (up d s).
  Proof.
    intros v d s Fd Us. destruct s as [[c|l]|s].
    - apply um_plain. pose proof (P_mass kinds G GG v d (inl (NC c)) Fd) as H. destruct d as [p|d]; [exact (H Us)|]. unfold fits in Fd. unfold usuits in Us. destruct (nth v kinds None); contradiction.
    - unfold fits in Fd. unfold usuits in Us. destruct (nth v kinds None) eqn:K; [contradiction|]. destruct d as [p|d]; [|contradiction]. apply um_union with (qs := map (np p) l); [|reflexivity].
      destruct Us as [Us _]. induction Us as [|c l Gc Us IH]; cbn [map]; constructor; [|exact IH]. pose proof (P_mass kinds G GG v (inl p) (inl (NC c))) as H. rewrite K in H. exact (H Fd Gc).
    - apply um_plain. pose proof (P_mass kinds G GG v d (inr s) Fd) as H. destruct d as [p|d]; [unfold fits in Fd; unfold usuits in Us; destruct (nth v kinds None); contradiction|exact (H Us)].
  Qed.
End Union.

Lemma union_infer : forall kinds G (J : mtree), wf_mixed kinds G J ->
  (forall v d s, fits (G v) (nth v kinds None) d -> usuits (G v) (nth v kinds None) s -> umass d s (up d s)) /\
  forall q e fail, wf_uquery kinds G q -> wf_uquery kinds G e ->
      (weight up J e == 0 -> infer J q e fail = if fail then Err ValueError else Ok None) /\
      (~ weight up J e == 0 -> exists r, infer J q e fail = Ok (Some r) /\ r == weight up J (q ++ e) / weight up J e /\ 0 <= r <= 1).
Proof.
  intros kinds G J W. split; [exact (up_umass kinds G (mx_grid _ _ _ W))|].
  intros q e fail Wq We. destruct W as [Hv Hf Ht Hg Hl Hd Hp Hpa Hs]. destruct J as [n fl inn lv rt prs]. cbn [n_vars full leaves] in *. subst n. subst fl.
  set (J := JPT (length kinds) (whole kinds) inn lv rt prs : mtree) in *. set (L := LM kinds G Hg). set (X := LX kinds G Hg).
  assert (Pt : proper_tree J L).
  { apply Forall_forall. intros l I. split; [apply Hl, I|]. split; [intros v d E; apply fits_okd; exact (Hd l v d I E)|]. split; [apply Hp, I|].
    intros v s Is. destruct (Hpa l v s I Is) as [A B]. split; [exact A|apply suits_oks; exact B]. }
  assert (Su : supported_tree J L).
  { apply Forall_forall. intros l I v d s E Is. symmetry. destruct (Hpa l v s I Is) as [A B]. apply (mass_P kinds G Hg v d s 1 (Hd l v d I E) B). exact (Hs l v s d I Is E). }
  assert (Ev : forall q, wf_uquery kinds G q -> xevent J L X q).
  { clear. intros q [N H]. split; [exact N|]. apply Forall_forall. intros [v s] I. exact (H v s I). }
  assert (Wm : forall a, weight up J a == xmixture J L X a).
  { intro a. unfold weight, xmixture. apply Qsum_map_ext. intros l _. apply Qmult_comp; [reflexivity|]. induction a as [|[v s] a IH]; cbn [fold_right xprob fst snd]; [reflexivity|]. rewrite IH. reflexivity. }
  destruct (xinfer J L X Ht Pt Su q e fail (Ev q Wq) (Ev e We)) as [A B]. pose proof (Wm e) as W1. pose proof (Wm (q ++ e)) as W2. rewrite W1. split; [exact A|].
  intro N. destruct (B N) as (r & E & R & Rg). exists r. split; [exact E|]. split; [rewrite W1, W2; exact R|exact Rg].
Qed.

(** ** C39: infer, with unions of intervals *)
Theorem C39_infer_union_partial : forall kinds G (J : mtree), wf_mixed kinds G J ->
  exists pr : mdist -> mset -> Q,
    (forall v d s, fits (G v) (nth v kinds None) d -> usuits (G v) (nth v kinds None) s -> umass d s (pr d s)) /\
    forall q e fail, wf_uquery kinds G q -> wf_uquery kinds G e -> (forall v, In v (map fst q) -> ~ In v (map fst e)) ->
      (weight pr J e == 0 -> infer J q e fail = if fail then Err ValueError else Ok None) /\
      (~ weight pr J e == 0 -> exists r, infer J q e fail = Ok (Some r) /\ r == weight pr J (q ++ e) / weight pr J e /\ 0 <= r <= 1).
Proof. intros kinds G J W. exists up. destruct (union_infer kinds G J W) as [A B]. split; [exact A|]. intros q e fail Wq We _. exact (B q e fail Wq We). Qed.
Print Assumptions C39_infer_union_partial.

(** Splitting an interval into the parts of a union does not change the answer: a union
    with the members of an interval is as likely as the interval. *)
Lemma union_np : forall G p l c, gridded G -> ok_numeric G p -> Forall (on_grid G) l -> IntervalSpec.ascending l -> on_grid G c -> (forall x, rs_mem x l <-> cs_mem x c) -> np_union p l == np p c.
Proof.
  intros G p l c GG Op Gl Al Gc M. destruct (setup G GG p Op (NR l) (conj Gl Al) c Gc) as (B & at_ & _ & _ & Go & Gb & A). cbn [as_list] in Go.
  rewrite (np_inu p B at_ A l Go Al), (at_np _ _ _ A c Gb). apply amass_ext. intros a _. apply eq_iff_eq_true. rewrite (inu_mem l (fst a) (good_wf _ _ Go)), (inb_mem c (fst a) (proj1 Gc)). apply M.
Qed.
Definition same_answer (a b : res (option Q)) : Prop := match a, b with Ok (Some x), Ok (Some y) => x == y | _, _ => a = b end.
Lemma same_eq : forall a b c, a = c -> b = c -> same_answer a b.
Proof. intros a b c -> ->. unfold same_answer. destruct c as [[x|]|]; reflexivity. Qed.
Lemma same_some : forall a b x y, a = Ok (Some x) -> b = Ok (Some y) -> x == y -> same_answer a b.
Proof. intros a b x y -> -> E. exact E. Qed.
Theorem C39_infer_split : forall kinds G (J : mtree) v l c q e fail, wf_mixed kinds G J -> (v < length kinds)%nat -> nth v kinds None = None ->
  Forall (on_grid (G v)) l -> IntervalSpec.ascending l -> on_grid (G v) c -> (forall x, rs_mem x l <-> cs_mem x c) ->
  wf_uquery kinds G q -> wf_uquery kinds G e -> ~ In v (map fst q) ->
  same_answer (infer J ((v, inl (NR l)) :: q) e fail) (infer J ((v, inl (NC c)) :: q) e fail).
Proof.
  intros kinds G J v l c q e fail W V K Gl Al Gc M Wq We Nv. destruct (union_infer kinds G J W) as [_ H].
  assert (Add : forall s, usuits (G v) None s -> wf_uquery kinds G ((v, s) :: q)).
  { intros s Us. split; [constructor; [exact Nv|apply Wq]|]. intros v' s' [E|I]; [|apply Wq, I]. injection E as <- <-. split; [exact V|]. rewrite K. exact Us. }
  pose proof (Add (inl (NR l)) (conj Gl Al)) as W1. pose proof (Add (inl (NC c)) Gc) as W2.
  destruct (H _ _ fail W1 We) as [A1 B1]. destruct (H _ _ fail W2 We) as [A2 B2].
  destruct (Qeq_dec (weight up J e) 0) as [Z|N].
  - exact (same_eq _ _ _ (A1 Z) (A2 Z)).
  - destruct (B1 N) as (r & E & R & _). destruct (B2 N) as (r' & E' & R' & _). apply (same_some _ _ _ _ E E'). rewrite R, R'. apply Qmult_comp; [|reflexivity].
    unfold weight. apply Qsum_map_ext. intros lf I. cbn [app fold_right fst snd]. destruct (nth_error (l_dists lf) v) as [d|] eqn:Ed; [|reflexivity]. pose proof (mx_dists _ _ _ W lf v d I Ed) as Fd. rewrite K in Fd. destruct d as [p|d]; [|destruct Fd].
    cbn [up]. rewrite (union_np (G v) p l c (mx_grid _ _ _ W v) Fd Gl Al Gc M). reflexivity.
Qed.
Print Assumptions C39_infer_split.

(** ** Example: x below 0.5 or x at least 1.5, given the first label. *)
Definition below_half : cs := CS (- ORD_INF) (1022 * 2 ^ 52) EXC EXC.
Definition around : list cs := [below_half; above].
Example C39_union_example : wf_mixed mx_kinds mx_G mx /\ wf_uquery mx_kinds mx_G [(0%nat, inl (NR around))] /\ wf_uquery mx_kinds mx_G [(1%nat, inr [0%nat])] /\
  (exists r, infer mx [(0%nat, inl (NR around))] [(1%nat, inr [0%nat])] true = Ok (Some r) /\ r == 7 # 8) /\
  (exists r, infer mx [(1%nat, inr [0%nat])] [(0%nat, inl (NR around))] true = Ok (Some r) /\ r == 7 # 13).
Proof.
  split; [apply (fitted_mixed (1 # 100) mx_kinds mx_G mx_rows mx), C39_mixed_example|]. split; [|split; [|split]].
  - split; [repeat constructor; intros []|]. intros v s [E|[]]. injection E as <- <-. split; [cbn; lia|]. cbn [usuits mx_kinds nth]. split.
    + constructor; [|constructor; [apply mx_on; cbn; tauto|constructor]]. unfold on_grid, wf, moderate, mx_G, below_half. cbn [lower upper left right]. unfold MID, ORD_INF, ORD_53. split; [repeat split; try lia; intros; try discriminate; lia|right; lia].
    + constructor; [|constructor; constructor]. constructor; [|constructor]. intros x y Hx Hy. unfold cs_mem, below_half, above, MID in *. cbn [lower upper left right] in *. lia.
  - split; [repeat constructor; intros []|]. intros v s [E|[]]. injection E as <- <-. split; [cbn; lia|]. cbn. intros x [<-|[]]. lia.
  - eexists. split; [vm_compute; reflexivity|]. vm_compute. reflexivity.
  - eexists. split; [vm_compute; reflexivity|]. vm_compute. reflexivity.
Qed.
Example C39_split_example : on_grid (mx_G 0%nat) RR /\ (forall x, rs_mem x [below_half; half_up] <-> cs_mem x RR) /\
  same_answer (infer mx [(0%nat, inl (NR [below_half; half_up]))] [(1%nat, inr [0%nat])] true) (infer mx [(0%nat, inl (NC RR))] [(1%nat, inr [0%nat])] true).
Proof.
  split; [|split].
  - split; [apply wf_RR|]. right. split; [left; reflexivity|right; right; right; reflexivity].
  - intro x. unfold rs_mem. split.
    + intros (c & [<-|[<-|[]]] & H); unfold cs_mem, below_half, half_up, RR, finite in *; cbn [lower upper left right] in *; unfold ORD_INF in *; lia.
    + intro H. destruct (Z.lt_ge_cases x (1022 * 2 ^ 52)) as [L|L]; [exists below_half|exists half_up]; (split; [cbn; auto|]); unfold cs_mem, below_half, half_up, RR, finite in *; cbn [lower upper left right] in *; unfold ORD_INF in *; lia.
  - vm_compute. reflexivity.
Qed.
