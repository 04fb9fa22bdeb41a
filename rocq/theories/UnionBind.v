(** C85: queries written with labels, with unions of intervals. *)
Require Import String ZArith QArith Lqa Bool List Arith Lia Permutation.
Require Import Verif.Base Verif.FloatLine Verif.NumBase Verif.VarModel Verif.DiscreteModel Verif.DiscreteProofs Verif.IntervalModel Verif.IntervalSpec Verif.IntervalProofs Verif.IntervalExact Verif.FunctionModel Verif.NumericModel Verif.NumericSpec
  Verif.NumericProps Verif.TreeModel Verif.TreeSpec Verif.TreeApply Verif.TreeInfer Verif.TreeDiscrete Verif.NumericTree Verif.MixedTree Verif.MixedProps Verif.InfBounds Verif.BindModel Verif.BindSpec Verif.BindProofs Verif.BindProps Verif.UnionInfer Verif.UnionProps.
Import ListNotations.
Open Scope Q_scope.

(** ** Closed infinite bounds of single intervals *)
Section Wide.
  Variable kinds : list kind.
  Variable G : var -> grid.
  Hypothesis GG : forall v, gridded (G v).
  Let L := LM kinds G GG.
  Let X := LX kinds G GG.
  Let F := mixed numeric discrete.

  Lemma near_of : forall v c, usuits (G v) (nth v kinds None) (mopn (inl (NC c))) -> nearly (G v) c.
  Proof. intros v c H. cbn [mopn] in H. unfold usuits in H. destruct (nth v kinds None); [contradiction|]. exact H. Qed.
  Lemma path_near : forall v t, oks L v t -> is_numeric kinds v = true -> exists c, t = inl (NC c) /\ on_grid (G v) c.
  Proof. intros v t O N. unfold L, LM in O. cbn [oks mixed_measured numeric_measured discrete_measured] in O. destruct t as [t|t]; cbn [on] in O; destruct O as [O1 O2]; [|congruence]. destruct O2 as (c & -> & H). eauto. Qed.
  Lemma dist_num : forall v d, okd L v d -> is_numeric kinds v = true -> exists p, d = inl p /\ ok_numeric (G v) p.
  Proof. intros v d O N. unfold L, LM in O. cbn [okd mixed_measured numeric_measured discrete_measured] in O. destruct d as [p|d]; cbn [on] in O; destruct O as [O1 O2]; [|congruence]. eauto. Qed.
  Lemma interval_num : forall v c, usuits (G v) (nth v kinds None) (mopn (inl (NC c))) -> is_numeric kinds v = true.
  Proof. intros v c H. cbn [mopn] in H. unfold usuits in H. unfold is_numeric. destruct (nth v kinds None); [contradiction|]. reflexivity. Qed.

  Definition LW : extended L.
  Proof.
    refine (@Extended _ _ L (fun v s => usuits (G v) (nth v kinds None) (mopn s)) (fun d s => up d (mopn s)) _ _ _ _).
    - intros v d s Od Os. destruct (q_p _ X v d (mopn s) Od Os) as (q & E & Q). exists q. split; [|exact Q]. destruct s as [[c|l]|s]; try exact E.
      destruct (dist_num v d Od (interval_num v c Os)) as (p & -> & Op). cbn [d_p mixed numeric mopn p_set] in *. rewrite <- (opn_p (G v) (GG v) p c Op (near_of v c Os)). exact E.
    - intros v d s t Od Os Ot One. destruct (q_cut _ X v d (mopn s) t Od Os Ot One) as (q & E & Q). exists q. split; [|exact Q]. destruct s as [[c|l]|s]; try exact E.
      pose proof (interval_num v c Os) as N. destruct (dist_num v d Od N) as (p & -> & Op). destruct (path_near v t Ot N) as (t' & -> & Gt). pose proof (near_of v c Os) as Nc. pose proof (grid_nearly (G v) t' Gt) as Nt.
      cbn [d_p inter mixed numeric mopn] in *. rewrite n_inter_cut in *. cbn [p_set] in *.
      assert (Oc : opn (cut c t') = cut (opn c) t') by (rewrite (opn_cut (G v) (GG v) c t' Nc Nt); rewrite (opn_wf t' (proj1 Gt)); reflexivity).
      assert (Nn : nearly (G v) (cut c t')) by (unfold nearly; rewrite Oc; apply cut_grid; [exact Nc|exact Gt]).
      rewrite <- (opn_p (G v) (GG v) p _ Op Nn), Oc. exact E.
    - intros v d s t Od Os Ot One Dj. apply (q_disj _ X v d (mopn s) t Od Os Ot One). destruct s as [[c|l]|s]; try exact Dj.
      pose proof (interval_num v c Os) as N. destruct (path_near v t Ot N) as (t' & -> & Gt). pose proof (near_of v c Os) as Nc. pose proof (grid_nearly (G v) t' Gt) as Nt.
      cbn [disj mixed mopn numeric n_disj] in *. unfold cs_intersects_ns in *. cbn [ns_isempty] in *. pose proof (opn_intersects (G v) (GG v) c t' Nc Nt) as I1. pose proof (opn_intersects (G v) (GG v) t' c Nt Nc) as I2. rewrite (opn_wf t' (proj1 Gt)) in I1, I2.
      rewrite I1, I2, (opn_empty (G v) (GG v) c Nc). exact Dj.
    - intros v d s Od Os. exact (q_range _ X v d (mopn s) Od Os).
  Defined.
End Wide.

Definition opened (q : list (var * mset)) : list (var * mset) := map (fun vs => (fst vs, mopn (snd vs))) q.
Definition wide_uquery (kinds : list kind) (G : var -> grid) (q : list (var * mset)) : Prop :=
  NoDup (map fst q) /\ forall v s, In (v, s) q -> (v < length kinds)%nat /\ usuits (G v) (nth v kinds None) (mopn s).
Lemma wide_union_infer : forall kinds G (J : mtree), wf_mixed kinds G J -> forall q e fail, wide_uquery kinds G q -> wide_uquery kinds G e ->
      (weight up J (opened e) == 0 -> infer J q e fail = if fail then Err ValueError else Ok None) /\
      (~ weight up J (opened e) == 0 -> exists r, infer J q e fail = Ok (Some r) /\ r == weight up J (opened q ++ opened e) / weight up J (opened e) /\ 0 <= r <= 1).
Proof.
  intros kinds G J W q e fail Wq We. destruct W as [Hv Hf Ht Hg Hl Hd Hp Hpa Hs]. destruct J as [n fl inn lv rt prs]. cbn [n_vars full leaves] in *. subst n. subst fl.
  set (J := JPT (length kinds) (whole kinds) inn lv rt prs : mtree) in *. set (L := LM kinds G Hg). set (X := LW kinds G Hg).
  assert (Pt : proper_tree J L).
  { apply Forall_forall. intros l I. split; [apply Hl, I|]. split; [intros v d E; apply fits_okd; exact (Hd l v d I E)|]. split; [apply Hp, I|].
    intros v s Is. destruct (Hpa l v s I Is) as [A B]. split; [exact A|apply suits_oks; exact B]. }
  assert (Su : supported_tree J L).
  { apply Forall_forall. intros l I v d s E Is. symmetry. destruct (Hpa l v s I Is) as [A B]. apply (mass_P kinds G Hg v d s 1 (Hd l v d I E) B). exact (Hs l v s d I Is E). }
  assert (Ev : forall q, wide_uquery kinds G q -> xevent J L X q).
  { clear. intros q [N H]. split; [exact N|]. apply Forall_forall. intros [v s] I. exact (H v s I). }
  assert (Wm : forall a, weight up J (opened a) == xmixture J L X a).
  { intro a. unfold weight, xmixture. apply Qsum_map_ext. intros l _. apply Qmult_comp; [reflexivity|]. induction a as [|[v s] a IH]; cbn [opened map fold_right xprob fst snd]; [reflexivity|]. fold (opened a). rewrite IH. reflexivity. }
  destruct (xinfer J L X Ht Pt Su q e fail (Ev q Wq) (Ev e We)) as [A B]. pose proof (Wm e) as W1. pose proof (Wm (q ++ e)) as W2. assert (Ap : opened (q ++ e) = opened q ++ opened e) by apply map_app. rewrite Ap in W2. rewrite W1. split; [exact A|].
  intro N. destruct (B N) as (r & E & R & Rg). exists r. split; [exact E|]. split; [rewrite W1, W2; exact R|exact Rg].
Qed.

Open Scope Z_scope.
(** ** What is written

    The parts of a union: open at infinity, in ascending order also after scaling. *)
Definition apart (scale : Z -> Z) (a b : cs) : Prop :=
  scale (upper a) < scale (lower b) \/ scale (upper a) = scale (lower b) /\ (right a = EXC \/ left b = EXC).
Definition on_line_u (float : Z -> Z) (G : grid) (v : uvar) (a : arg) : Prop :=
  match u_kind v, a with
  | UNum scale _, GUnion l =>
      (forall c, In c l -> G (scale (lower c)) /\ moderate (scale (lower c)) /\ G (scale (upper c)) /\ moderate (scale (upper c)) /\
        - ORD_INF <= lower c < ORD_INF /\ - ORD_INF < upper c <= ORD_INF /\ (lower c = - ORD_INF -> left c = EXC) /\ (upper c = ORD_INF -> right c = EXC)) /\
      ForallOrdPairs (apart scale) l
  | _, _ => on_line float G v a
  end.
Lemma suits_usuits : forall G k s, suits G k s -> usuits G k s.
Proof. intros G [D|] [[c|l]|s]; cbn; auto; contradiction. Qed.
Lemma arg_usuits : forall float vars G v k a s, vars_ok vars -> gridded G -> In v vars -> of_kind v k -> built a -> on_line_u float G v a -> arg_set float v a = Ok s -> usuits G k (mopn s).
Proof.
  intros float vars G v k a s VO GG Iv K B O E. unfold on_line_u in O.
  assert (D : (exists scale bl l, u_kind v = UNum scale bl /\ a = GUnion l) \/ on_line float G v a).
  { destruct (u_kind v) as [sc bl| |] eqn:U; try (right; exact O). destruct a; try (right; exact O). left. exists sc, bl, l. auto. }
  destruct D as [(sc & bl & l & U & ->)|D]; [|apply suits_usuits; exact (arg_suits float vars G v k a s VO GG Iv K B D E)].
  rewrite U in O. destruct (vs_num _ VO v sc bl Iv U) as [S _]. destruct O as [O Ap]. unfold of_kind in K. rewrite U in K. destruct k as [D|]; [contradiction|].
  cbn [built] in B. unfold arg_set, preprocess_arg, label_ok, to_value in E. rewrite U in E. cbn [numeric_arg] in E. rewrite (mapM_id l B) in E. cbn [bind] in E.
  destruct (mapM (scale_interval sc) l) as [r|] eqn:M; [|discriminate]. cbn [bind] in E. injection E as <-. apply mapM_pieces in M. cbn [mopn usuits].
  assert (M' : Forall2 (fun c c' => c' = CS (sc (lower c)) (sc (upper c)) (left c) (right c)) l r).
  { clear - M B S. induction M as [|c c' l r H M IH]; constructor; [|apply IH; intros; apply B; right; assumption]. rewrite (scaled_ok sc c S (B c (or_introl eq_refl))) in H. injection H as <-. reflexivity. }
  clear M. split.
  - clear Ap. induction M' as [|c c' l r Ec M IH]; [constructor|]. subst c'. constructor; [|apply IH; [intros d Id; apply O; right; exact Id|intros d Id; apply B; right; exact Id]].
    destruct (O c (or_introl eq_refl)) as (Gl & Ml & Gu & Mu & Rl & Ru & El & Eu). pose proof (sc_mono _ S _ _ (B c (or_introl eq_refl))) as Mo. destruct (sc_inf _ S) as [S1 S2].
    assert (Fin : forall x, - ORD_INF < x < ORD_INF -> - ORD_INF < sc x < ORD_INF) by (intros x Hx; exact (sc_fin _ S x Hx)). pose proof ord_facts as OF.
    assert (Cl : lower c = - ORD_INF \/ - ORD_INF < sc (lower c) < ORD_INF) by (destruct (Z.eq_dec (lower c) (- ORD_INF)); [left; assumption|right; apply Fin; lia]).
    assert (Cu : upper c = ORD_INF \/ - ORD_INF < sc (upper c) < ORD_INF) by (destruct (Z.eq_dec (upper c) ORD_INF); [left; assumption|right; apply Fin; lia]).
    unfold on_grid, wf. cbn [lower upper left right]. split; [|right; split; assumption]. clear - Mo Ml Mu Cl Cu S1 S2 El Eu OF.
    split; [exact Mo|]. split; [exact Ml|]. split; [exact Mu|]. split; [destruct Cl as [Q|Q]; [rewrite Q, S1; lia|lia]|]. split; [destruct Cu as [Q|Q]; [rewrite Q, S2; lia|lia]|].
    split; intro Q; [apply El; destruct Cl as [Q'|Q']; [exact Q'|lia]|apply Eu; destruct Cu as [Q'|Q']; [exact Q'|lia]].
  - clear O B. revert r M'. induction Ap as [|c l Fc Ap IH]; intros r M'; inversion M' as [|? c' ? r' E M]; subst; constructor; [|apply IH; exact M].
    clear - Fc M. induction M as [|d d' l r -> M IH]; constructor; [|apply IH; exact (Forall_inv_tail Fc)]. pose proof (Forall_inv Fc) as Ad. clear - Ad. unfold apart in Ad. unfold before, cs_mem. cbn [lower upper left right].
    intros x y (_ & _ & Hx) (_ & Hy & _). destruct (right c), (left d); destruct Ad as [Ad|[Ad [Q|Q]]]; try discriminate; lia.
Qed.

(** ** C85: unions of intervals *)
Theorem C85_infer_union_partial : forall kinds G (J : mtree) float vars, wf_mixed kinds G J -> vars_ok vars -> Forall2 of_kind vars kinds ->
  exists pr : mdist -> mset -> Q,
    (forall v d s, fits (G v) (nth v kinds None) d -> usuits (G v) (nth v kinds None) s -> umass d s (pr d s)) /\
    forall query evidence fail, dict_ok vars query -> dict_ok vars evidence ->
      (forall k a, In (k, a) (query ++ evidence) -> a = GNone \/ exists v, In v vars /\ names k v /\ sayable float v a) ->
      (forall i v a, nth_error vars i = Some v -> said query v a \/ said evidence v a -> on_line_u float (G i) v a) ->
      exists q e, meaning float vars query q /\ meaning float vars evidence e /\
        (forall i s, In (i, s) (q ++ e) -> usuits (G i) (nth i kinds None) s) /\
        (weight pr J e == 0 -> infer_dict float vars J query evidence fail = if fail then Err ValueError else Ok None)%Q /\
        (~ weight pr J e == 0 -> exists r, infer_dict float vars J query evidence fail = Ok (Some r) /\ r == weight pr J (q ++ e) / weight pr J e /\ 0 <= r <= 1)%Q.
Proof.
  intros kinds G J float vars W VO FK. exists up. split; [apply (union_infer kinds G J W)|]. pose proof (wide_union_infer kinds G J W) as B. intros query evidence fail Dq De Say Line.
  destruct (C85_accepted float vars query VO Dq) as [q Eq]; [intros k a I; apply Say, in_app_iff; auto|].
  destruct (C85_accepted float vars evidence VO De) as [e Ee]; [intros k a I; apply Say, in_app_iff; auto|].
  assert (Len : length vars = length kinds) by (clear - FK; induction FK; cbn; congruence).
  assert (Kv : forall i v, nth_error vars i = Some v -> of_kind v (nth i kinds None)).
  { clear - FK. induction FK as [|v k vars kinds H FK IH]; intros i w E; [destruct i; discriminate|]. destruct i as [|i]; cbn [nth_error nth] in *; [injection E as <-; exact H|exact (IH i w E)]. }
  assert (Good : forall d x, dict_ok vars d -> query_of float vars d = Ok x -> (forall i v a, nth_error vars i = Some v -> said d v a -> on_line_u float (G i) v a) ->
     wide_uquery kinds G x /\ meaning float vars d (opened x)).
  { intros d x Dd E L. destruct (accepted float vars d VO Dd x E) as (N & _ & C & _). pose proof (C85_meaning float vars d x VO Dd E) as (_ & M2 & M3). split; [split; [exact N|]|split; [unfold opened; rewrite map_map; cbn [fst]; exact N|split]].
    - intros i s I. destruct (C i s I) as (v & a & Ev & S & Es). split; [rewrite <- Len; apply nth_error_Some; congruence|].
      apply (arg_usuits float vars (G i) v (nth i kinds None) a s VO (mx_grid _ _ _ W i) (nth_error_In _ _ Ev) (Kv i v Ev) (said_built vars d Dd v a S) (L i v a Ev S) Es).
    - intros i s I. apply in_map_iff in I. destruct I as ([j s'] & Q & I). cbn [fst snd] in Q. injection Q as <- <-. exact (M2 j s' I).
    - intros i v Ev. destruct (M3 i v Ev) as [X Y]. split.
      + rewrite <- X. split; intros [s I]; [apply in_map_iff in I; destruct I as ([j s'] & Q & I); cbn [fst snd] in Q; injection Q as <- <-; eauto|].
        exists (mopn s). apply in_map_iff. exists (i, s). auto.
      + intros s a I S l T. apply in_map_iff in I. destruct I as ([j s'] & Q & I). cbn [fst snd] in Q. injection Q as <- <-. rewrite holds_mopn. exact (Y s' a I S l T). }
  destruct (Good query q Dq Eq) as [Wq Mq]; [intros; eapply Line; eauto|]. destruct (Good evidence e De Ee) as [We Me]; [intros; eapply Line; eauto|].
  exists (opened q), (opened e). split; [exact Mq|]. split; [exact Me|]. split.
  - intros i s I. unfold opened in I. rewrite <- map_app in I. apply in_map_iff in I. destruct I as ([j s'] & Q & I). cbn [fst snd] in Q. injection Q as <- <-. apply in_app_iff in I. destruct I as [I|I]; [apply (proj2 Wq j s' I)|apply (proj2 We j s' I)].
  - unfold infer_dict. rewrite Eq, Ee. cbn [bind]. exact (B q e fail Wq We).
Qed.
Print Assumptions C85_infer_union_partial.

(** Below 0.5 or at least 1.5, given the label "a". *)
Definition u_query : list (key uvar * arg) := [(KVar ex_x, GUnion around)].
Example C85_union_example : dict_ok [ex_x; ex_s] u_query /\ said u_query ex_x (GUnion around) /\ on_line_u (fun z => z) (mx_G 0%nat) ex_x (GUnion around) /\
  exists r, infer_dict (fun z => z) [ex_x; ex_s] mx u_query ex_evidence true = Ok (Some r) /\ (r == 7 # 8)%Q.
Proof.
  split; [|split; [|split]].
  - constructor; [intros v a [E|[]]; injection E as <- <-; left; reflexivity|intros k c [E|[]]; discriminate|]. intros k l c [E|[]] I. injection E as <- <-. destruct I as [<-|[<-|[]]]; vm_compute; discriminate.
  - exists [], (KVar ex_x), []. split; [reflexivity|]. split; [right; reflexivity|]. split; [discriminate|intros k a []].
  - cbn [on_line_u u_kind ex_x]. split.
    + intros c [<-|[<-|[]]]; unfold mx_G, moderate, below_half, above, MID; cbn [lower upper left right]; unfold ORD_53, ORD_INF; repeat split; try lia; intro; try reflexivity; lia.
    + constructor; [|constructor; constructor]. constructor; [|constructor]. left. cbn [lower upper below_half above]. unfold MID. lia.
  - eexists. split; [vm_compute; reflexivity|]. vm_compute. reflexivity.
Qed.
