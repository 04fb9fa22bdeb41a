(** Posterior distributions, likelihoods and probabilities of leaves in trees over
    numeric, symbolic and integer variables. *)
Require Import ZArith QArith Lqa Bool List Arith Lia Permutation.
Require Import Verif.Base Verif.FloatLine Verif.FloatVal Verif.NumBase Verif.UtilModel Verif.UtilProofs Verif.IntervalModel Verif.IntervalSpec Verif.IntervalProofs Verif.IntervalExact Verif.IntervalDec Verif.RealSetOps Verif.DiscreteModel Verif.DiscreteProofs
  Verif.FunctionModel Verif.FunctionSpec Verif.NumericModel Verif.NumericSpec Verif.NumericReg Verif.NumericFit Verif.NumericProb Verif.NumericClose Verif.NumericProps Verif.NumericProps2 Verif.NumericCut Verif.NumericCrop Verif.NumericCropSpec Verif.NumericProps3 Verif.FunctionPlf Verif.NumericExample
  Verif.TreeModel Verif.TreeSpec Verif.TreeApply Verif.TreeInfer Verif.TreePosterior Verif.TreeDiscrete Verif.NumericTree Verif.MixedTree Verif.MixedProps Verif.EffectProps Verif.MixedPosterior.
Import ListNotations.
Open Scope Q_scope.

(** ** Specification *)

(** The probability of a conjunction in one leaf and, times its prior, the leaf's weight. *)
Definition chance (pr : mdist -> mset -> Q) (l : leaf (mixed numeric discrete)) (q : list (var * mset)) : Q :=
  fold_right (fun vs acc => match nth_error (l_dists l) (fst vs) with Some d => pr d (snd vs) | None => 0 end * acc) 1 q.
Definition share (pr : mdist -> mset -> Q) (l : leaf (mixed numeric discrete)) (q : list (var * mset)) : Q := l_prior l * chance pr l q.
(** The evidence [c] for [v] and the path of [l] leave exactly one number. *)
Definition pinned (l : leaf (mixed numeric discrete)) (v : var) (c : cs) : Prop :=
  exists x, forall y, cs_mem y c /\ (forall c', In (v, inl (NC c')) (l_path l) -> cs_mem y c') <-> y = x.
(** The sum of the shares times a number per leaf, relative to the whole weight. *)
Definition average (pr : mdist -> mset -> Q) (J : mtree) (q : list (var * mset)) (f : leaf (mixed numeric discrete) -> Q) : Q :=
  Qsum (map (fun l => share pr l q * f l) (leaves J)) / weight pr J q.
(** The density of [v] in a leaf. *)
Definition slope_of (l : leaf (mixed numeric discrete)) (v : var) (x : Z) : Q :=
  match nth_error (l_dists l) v with Some (inl p) => density p x | _ => 0 end.

(** ** Proofs *)

Section Restrict.
  Variable kinds : list kind.
  Variable G : var -> grid.
  Variable J : mtree.
  Hypothesis Hf : full J = whole kinds.
  Variable l : leaf (mixed numeric discrete).
  Hypothesis Hp : forall v s, In (v, s) (l_path l) -> (v < length kinds)%nat /\ suits (G v) (nth v kinds None) s.

  Lemma path_numeric : forall v, nth v kinds None = None -> forall p, (forall s, In (v, s) p -> suits (G v) None s) ->
    forall acc : option (vset (mixed numeric discrete)), match acc with Some a => exists c, a = inl (NC c) /\ wf c | None => True end ->
    match fold_left (path_step (F := mixed numeric discrete) (full J) v) p acc with
    | Some a => exists c, a = inl (NC c) /\ wf c /\ forall y, cs_mem y c <->
        match acc with Some (inl (NC c0)) => cs_mem y c0 | _ => finite y end /\ forall c', In (v, inl (NC c')) p -> cs_mem y c'
    | None => acc = None /\ ~ In v (keys p)
    end.
  Proof.
    intros v K. induction p as [|[w s] p IH]; intros Hs acc Ha.
    - cbn [fold_left]. destruct acc as [a|]; [|split; [reflexivity|intros []]]. destruct Ha as (c & -> & W). exists c. split; [reflexivity|]. split; [exact W|]. intro y. cbn. tauto.
    - cbn [fold_left]. unfold path_step at 2. cbn [fst snd]. destruct (Nat.eqb_spec w v) as [->|N].
      + pose proof (Hs s (or_introl eq_refl)) as S0. destruct s as [[c|r]|s]; try contradiction. destruct S0 as [Wc _].
        assert (E : exists c0, match acc with Some a => a | None => full J v end = inl (NC c0) /\ wf c0 /\ forall y, cs_mem y c0 <-> match acc with Some (inl (NC c0)) => cs_mem y c0 | _ => finite y end).
        { destruct acc as [a|]; [destruct Ha as (c0 & -> & W); exists c0; split; [reflexivity|]; split; [exact W|tauto]|].
          exists RR. rewrite Hf. unfold whole, is_numeric. rewrite K. split; [reflexivity|]. split; [apply wf_RR|]. exact RR_mem. }
        destruct E as (c0 & -> & W0 & M0).
        assert (Wc' : wf (cut c0 c)) by (apply cut_wf; assumption).
        specialize (IH (fun s I => Hs s (or_intror I)) (Some (inl (NC (cut c0 c)))) (ex_intro _ _ (conj eq_refl Wc'))).
        cbn [inter mixed numeric]. rewrite n_inter_cut.
        destruct (fold_left (path_step (F := mixed numeric discrete) (full J) v) p _) as [a|]; [|destruct IH; discriminate]. destruct IH as (c1 & -> & W1 & M1). exists c1. split; [reflexivity|]. split; [exact W1|].
        intro y. rewrite M1, (cut_mem c0 c W0 Wc), M0. split; [intros [[A B] C]; split; [exact A|]; intros c' [E|I]; [injection E as <-; exact B|apply C, I]|].
        intros [A B]. split; [split; [exact A|apply B; left; reflexivity]|intros c' I; apply B; right; exact I].
      + specialize (IH (fun s I => Hs s (or_intror I)) acc Ha). destruct (fold_left (path_step (F := mixed numeric discrete) (full J) v) p acc) as [a|].
        * destruct IH as (c & -> & W & M). exists c. split; [reflexivity|]. split; [exact W|]. intro y. rewrite M. split; intros [A B]; (split; [exact A|]).
          -- intros c' [E|I]; [injection E as ? ?; contradiction|apply B, I].
          -- intros c' I. apply B. right. exact I.
        * destruct IH as [E I]. split; [exact E|]. intros [H|H]; [contradiction|exact (I H)].
  Qed.

  Lemma restrict_numeric : forall v c, nth v kinds None = None -> wf c ->
    exists c', restrict J l v (inl (NC c)) = inl (NC c') /\ wf c' /\ forall y, cs_mem y c' <-> cs_mem y c /\ forall b, In (v, inl (NC b)) (l_path l) -> cs_mem y b.
  Proof.
    intros v c K W. unfold restrict. rewrite path_get_fold. pose proof (path_numeric v K (l_path l)) as X.
    specialize (X (fun s I => eq_rect _ (fun k => suits (G v) k s) (proj2 (Hp v s I)) _ K) None Logic.I).
    destruct (fold_left (path_step (F := mixed numeric discrete) (full J) v) (l_path l) None) as [a|].
    - destruct X as (b & -> & Wb & M). exists (cut c b). cbn [inter mixed numeric]. rewrite n_inter_cut. split; [reflexivity|]. split; [apply cut_wf; assumption|].
      intro y. rewrite (cut_mem c b W Wb), M. split; [intros [A [_ B]]; split; assumption|]. intros [A B]. split; [exact A|]. split; [apply A|exact B].
    - destruct X as [_ N]. exists c. split; [reflexivity|]. split; [exact W|]. intro y. split; [|tauto]. intro A. split; [exact A|].
      intros b I. exfalso. apply N. change v with (fst (v, inl (NC b) : mset)). apply in_map, I.
  Qed.
End Restrict.

Lemma lefts_map : forall A B (l : list A), lefts (map (@inl A B) l) = l.
Proof. induction l as [|a l IH]; [reflexivity|]. cbn. unfold lefts in IH. rewrite IH. reflexivity. Qed.
Lemma rights_map : forall A B (l : list B), rights (map (@inr A B) l) = l.
Proof. induction l as [|a l IH]; [reflexivity|]. cbn. unfold rights in IH. rewrite IH. reflexivity. Qed.

Lemma nth_combine : forall A B (l : list A) (r : list B) k a b, nth_error l k = Some a -> nth_error r k = Some b -> nth_error (combine l r) k = Some (a, b).
Proof. intros A B. induction l as [|x l IH]; intros [|y r] [|k] a b; cbn; try discriminate; [intros E1 E2; injection E1 as ->; injection E2 as ->; reflexivity|]. apply IH. Qed.
Lemma Forall2_left : forall A B C (R : A -> C -> Prop) (f : B -> C) la lc, Forall2 (fun a c => exists b, c = f b /\ R a c) la lc -> exists lb, lc = map f lb /\ Forall2 (fun a b => R a (f b)) la lb.
Proof.
  intros A B C R f la lc H. induction H as [|a c la lc (b & -> & H) _ (lb & -> & IH)]; [exists []; split; [reflexivity|constructor]|].
  exists (b :: lb). split; [reflexivity|]. constructor; assumption.
Qed.

Lemma mixture_sum : forall A (f : A -> Q) ls ws ys, length ls = length ws -> Forall2 (fun l y => y == f l) ls ys -> NumericSpec.mixture ws ys == Qsum (map (fun lw => snd lw * f (fst lw)) (combine ls ws)).
Proof.
  intros A f ls ws ys E H. revert ws E. unfold NumericSpec.mixture. induction H as [|l y ls ys H _ IH]; intros [|w ws] E; try discriminate; [reflexivity|].
  cbn [combine map Qsum fst snd]. rewrite IH by (cbn in E; lia). rewrite H. reflexivity.
Qed.


(** What a tree with its contract offers: the measure, the weights and the conditions. *)
Record readied (kinds : list kind) (G : var -> grid) (J : mtree) (pr : mdist -> mset -> Q) (L : @measured (mixed numeric discrete) (full J)) : Prop := {
  rd_pr : pr = P L;
  rd_tree : tree_ok J;
  rd_proper : proper_tree J L;
  rd_support : supported_tree J L;
  rd_okd : forall v d, okd L v d <-> fits (G v) (nth v kinds None) d;
  rd_oks : forall v s, (v < length kinds)%nat -> suits (G v) (nth v kinds None) s -> oks L v s;
  rd_event : forall q, wf_mquery kinds G q -> event L (n_vars J) q;
  rd_weight : forall q, weight pr J q == TreeSpec.mixture J L q;
  rd_suits : forall v s, oks L v s -> suits (G v) (nth v kinds None) s;
  rd_values : forall d s, pr (inr d) (inr s) = pm (d_params d) s;
  rd_np : forall p c, pr (inl p) (inl (NC c)) = np p c;
  rd_chance : forall l q, chance pr l q == leaf_prob L (l_dists l) q;
  rd_share : forall l q, share pr l q == l_prior l * leaf_prob L (l_dists l) q
}.
Lemma ready : forall kinds G J, wf_mixed kinds G J -> exists pr L, readied kinds G J pr L /\
  (forall v d s, fits (G v) (nth v kinds None) d -> suits (G v) (nth v kinds None) s -> mass d s (pr d s)).
Proof.
  intros kinds G J W. destruct W as [Hv Hf Ht Hg Hl Hd Hp Hpa Hs]. destruct J as [n fl inn lv rt prs]. cbn [n_vars full leaves] in *. subst n. subst fl.
  set (J := JPT (length kinds) (whole kinds) inn lv rt prs : mtree) in *. set (L := LM kinds G Hg).
  exists (P L), L. split; [|intros v d s; apply P_mass].
  assert (Ok : forall v d, okd L v d <-> fits (G v) (nth v kinds None) d).
  { intros v d. split; [|apply fits_okd]. unfold L, LM. cbn [okd mixed_measured numeric_measured discrete_measured]. unfold fits, is_numeric.
    destruct (nth v kinds None) as [D|] eqn:E; destruct d as [p|d]; cbn [on]; intros [A B]; try discriminate; [rewrite (domain_of kinds v D E) in B; exact B|exact B]. }
  constructor; try reflexivity; try assumption.
  - apply Forall_forall. intros l I. split; [apply Hl, I|]. split; [intros v d E; apply fits_okd; exact (Hd l v d I E)|]. split; [apply Hp, I|].
    intros v s Is. destruct (Hpa l v s I Is) as [A B]. split; [exact A|apply suits_oks; exact B].
  - apply Forall_forall. intros l I v d s E Is. symmetry. destruct (Hpa l v s I Is) as [A B]. apply (mass_P kinds G Hg v d s 1 (Hd l v d I E) B). exact (Hs l v s d I Is E).
  - intros v s _. apply suits_oks.
  - intros q [N H]. split; [exact N|]. apply Forall_forall. intros [v s] I. destruct (H v s I) as [A B]. split; [exact A|apply suits_oks; exact B].
  - exact (weight_mixture kinds G Hg J eq_refl).
  - intros v s. unfold L, LM. cbn [oks mixed_measured numeric_measured discrete_measured]. unfold suits, is_numeric.
    destruct (nth v kinds None) as [D|] eqn:E; destruct s as [s|s]; cbn [on]; intros [A B]; try discriminate.
    + rewrite (domain_of kinds v D E) in B. intros x I. exact (proj1 (Forall_forall _ _) B x I).
    + destruct B as (c & -> & Gc). exact Gc.
  - intros l q. unfold chance. induction q as [|[v s] q IH]; cbn [fold_right leaf_prob fst snd]; [reflexivity|]. rewrite IH. reflexivity.
  - intros l q. unfold share, chance. apply Qmult_comp; [reflexivity|]. induction q as [|[v s] q IH]; cbn [fold_right leaf_prob fst snd]; [reflexivity|]. rewrite IH. reflexivity.
Qed.

Section Core.
  Variable kinds : list kind.
  Variable G : var -> grid.
  Variable J : mtree.
  Hypothesis W : wf_mixed kinds G J.
  Variable pr : mdist -> mset -> Q.
  Variable L : @measured (mixed numeric discrete) (full J).
  Hypothesis Rd : readied kinds G J pr L.

  Lemma leaf_kind : forall l v d, In l (leaves J) -> nth_error (l_dists l) v = Some d -> fits (G v) (nth v kinds None) d.
  Proof. intros l v d I E. exact (mx_dists _ _ _ W l v d I E). Qed.

  Variable e : list (var * mset).
  Hypothesis We : wf_mquery kinds G e.
  Hypothesis Np : forall l v c, In l (leaves J) -> In (v, inl (NC c)) e -> ~ pinned l v c.

  Lemma like_p : forall l v s d, In l (leaves J) -> In (v, s) e -> nth_error (l_dists l) v = Some d ->
    exists y, d_like (mixed numeric discrete) d (restrict J l v s) = Ok y /\ y == P L d (restrict J l v s).
  Proof.
    intros l v s d Il I E. destruct (tree_leaf J L (rd_proper _ _ _ _ _ Rd) (rd_support _ _ _ _ _ Rd) l Il) as [Pl Sl]. destruct (proj2 We v s I) as [V S0].
    rewrite <- (mx_vars _ _ _ W) in V.
    pose proof (restrict_event L (n_vars J) l Pl Sl J eq_refl v s (rd_oks _ _ _ _ _ Rd v s ltac:(rewrite <- (mx_vars _ _ _ W); exact V) S0) V) as Or.
    pose proof (leaf_kind l v d Il E) as K. destruct (p_ok _ L v d _ (proj2 (rd_okd _ _ _ _ _ Rd v d) K) Or) as (q & Eq & Hq). exists q. split; [|exact Hq].
    rewrite <- Eq. unfold fits in K. unfold suits in S0. destruct (nth v kinds None) as [D|] eqn:Kv; destruct d as [p|d]; try contradiction; destruct s as [[c|r]|s]; try contradiction.
    - match goal with |- context [restrict J l v ?t] => assert (Er : exists s', restrict J l v t = inr s') end.
      { unfold restrict. destruct (path_get (full J) (l_path l) v) as [t|]; [|eexists; reflexivity]. destruct t; eexists; reflexivity. }
      destruct Er as (s' & Er). rewrite Er. reflexivity.
    - destruct (restrict_numeric kinds G J (mx_full _ _ _ W) l (fun v s => mx_path _ _ _ W l v s Il) v c Kv (proj1 S0)) as (c' & Er & Wc & M).
      match goal with |- context [restrict J l v ?t] => replace (restrict J l v t) with (inl (NC c') : vset (mixed numeric discrete)) by (symmetry; exact Er) end. cbn [d_like d_p mixed numeric]. unfold n_like, p_set.
      destruct (cs_size c') as [k|] eqn:Z; [|reflexivity]. destruct (Z.eqb_spec k 1) as [->|N].
      + exfalso. destruct (size_one c' Wc Z) as (x & X). apply (Np l v c Il I). exists x. intro y. rewrite <- M. apply X.
      + destruct k as [|k|k]; try reflexivity. destruct k; try reflexivity. contradiction.
  Qed.

  Variable vs : list var.
  Variable D : var -> leaf (mixed numeric discrete) -> Z -> Q.
  Hypothesis Vs : forall v, In v vs -> (v < length kinds)%nat.
  Hypothesis Num : forall v l, In v vs -> nth v kinds None = None -> In l (leaves J) -> 0 < leaf_prob L (l_dists l) e ->
    exists p, leaf_posterior J l e v = Ok (inl p) /\ component p /\ forall x, finite x -> density p x == D v l x.
  Hypothesis Gr : forall v x, In v vs -> nth v kinds None = None -> finite x -> average pr J e (fun l => D v l x) == 0 \/ 1 # 100000000 < average pr J e (fun l => D v l x).
  Hypothesis Dis : forall v, In v vs -> nth v kinds None <> None -> ~ In v (map fst e).

  Definition contribution (l : leaf (mixed numeric discrete)) (v : var) (d : mdist) : Prop :=
    leaf_posterior J l e v = Ok d /\
    match nth v kinds None with
    | None => exists p, d = inl p /\ component p /\ forall x, finite x -> density p x == D v l x
    | Some Dm => exists d', d = inr d' /\ ok_dist Dm d' /\ nth_error (l_dists l) v = Some d
    end.
  Definition answer (v : var) (d : mdist) : Prop :=
    match nth v kinds None with
    | None => exists q last, d = inl q
        /\ (forall x f lo, finite x -> (x < last)%Z ->
              (forall l p, In l (leaves J) -> 0 < leaf_prob L (l_dists l) e -> leaf_posterior J l e v = Ok (inl p) -> plf_is p x (f l) /\ lost p x == lo l) ->
              plf_is q x (average pr J e (fun l => f l - lo l)))
        /\ (forall x, finite x -> (last <= x)%Z -> plf_is q x 1)
        /\ (exists l p, In l (leaves J) /\ 0 < share pr l e /\ leaf_posterior J l e v = Ok (inl p) /\ finishes p last)
        /\ (forall l p y, In l (leaves J) -> 0 < share pr l e -> leaf_posterior J l e v = Ok (inl p) -> finishes p y -> (y <= last)%Z)
        /\ ((forall l p, In l (leaves J) -> 0 < leaf_prob L (l_dists l) e -> leaf_posterior J l e v = Ok (inl p) -> seamless p) ->
            (exists lo hi, proper_cdf q lo hi) /\ forall x f, finite x ->
              (forall l p, In l (leaves J) -> 0 < leaf_prob L (l_dists l) e -> leaf_posterior J l e v = Ok (inl p) -> plf_is p x (f l)) -> plf_is q x (average pr J e f))
        /\ (exists ls ps ws, (forall l, In l ls -> In l (leaves J) /\ 0 < leaf_prob L (l_dists l) e) /\ Forall2 (fun l p => leaf_posterior J l e v = Ok (inl p)) ls ps /\
              length ps = length ws /\ Forall (fun w => 0 <= w) ws /\ Qsum ws == 1 /\ grained ps ws /\ merge_cdf ps ws = Ok q /\
              forall f, Qsum (map (fun lw => snd lw * f (fst lw)) (combine ls ws)) == average pr J e f)
    | Some Dm => exists d', d = inr d' /\ ok_dist Dm d' /\
        forall s, (forall x, In x s -> (x < n_values Dm)%nat) -> pm (d_params d') s == weight pr J ((v, inr s) :: e) / weight pr J e
    end.

  Lemma leaf_contribution : forall l v, In l (leaves J) -> In v vs -> 0 < leaf_prob L (l_dists l) e ->
    exists d, leaf_posterior J l e v = Ok d /\ contribution l v d.
  Proof.
    intros l v Il Iv Pos. destruct (nth v kinds None) as [Dm|] eqn:K.
    - destruct (tree_leaf J L (rd_proper _ _ _ _ _ Rd) (rd_support _ _ _ _ _ Rd) l Il) as [Pl Sl].
      destruct (pl_dist L (n_vars J) l Pl v ltac:(rewrite (mx_vars _ _ _ W); apply Vs, Iv)) as (d & Hd & Od).
      pose proof (leaf_kind l v d Il Hd) as Fd. rewrite K in Fd. destruct d as [p|d]; [destruct Fd|].
      assert (Ep : leaf_posterior J l e v = Ok (inr d)).
      { unfold leaf_posterior, leaf_dist. rewrite Hd. cbn [bind].
        assert (En : @lookup (vset (mixed numeric discrete)) e v = None) by (apply lookup_none; apply (Dis v Iv); congruence).
        rewrite En. reflexivity. }
      exists (inr d). split; [exact Ep|]. split; [exact Ep|]. rewrite K. exists d. split; [reflexivity|]. split; [exact Fd|exact Hd].
    - destruct (Num v l Iv K Il Pos) as (p & Ep & Sm & Hd). exists (inl p). split; [exact Ep|]. split; [exact Ep|]. rewrite K. exists p. split; [reflexivity|]. split; assumption.
  Qed.

  Lemma average_sum : forall f, average pr J e f == Qsum (map (fun l => l_prior l * leaf_prob L (l_dists l) e * f l) (leaves J)) / TreeSpec.mixture J L e.
  Proof.
    intro f. unfold average. rewrite (rd_weight _ _ _ _ _ Rd e). apply Qmult_comp; [|reflexivity]. apply Qsum_map_ext. intros l _. rewrite (rd_share _ _ _ _ _ Rd l e). reflexivity.
  Qed.

  Lemma merge_answer : forall v ls ds ws, In v vs -> ls <> [] -> (forall l, In l ls -> In l (leaves J) /\ 0 < leaf_prob L (l_dists l) e) ->
    Forall2 (fun l d => contribution l v d) ls ds -> length ls = length ws -> Forall (fun w => 0 <= w) ws -> Qsum ws == 1 ->
    (forall f : leaf (mixed numeric discrete) -> Q, Qsum (map (fun lw => snd lw * f (fst lw)) (combine ls ws)) ==
       Qsum (map (fun l => l_prior l * leaf_prob L (l_dists l) e * f l) (leaves J)) / TreeSpec.mixture J L e) ->
    (forall l, In l (leaves J) -> 0 < leaf_prob L (l_dists l) e -> In l ls) ->
    Forall2 (fun (l : leaf (mixed numeric discrete)) w => w == l_prior l * leaf_prob L (l_dists l) e / TreeSpec.mixture J L e) ls ws ->
    exists d, d_merge (mixed numeric discrete) ds ws = Ok d /\ answer v d.
  Proof.
    intros v ls ds ws Iv Ne Lp C Lw Wn W1 S0 All Wt. assert (Sf : forall f, Qsum (map (fun lw => snd lw * f (fst lw)) (combine ls ws)) == average pr J e f).
    { intro f. rewrite average_sum. apply S0. }
    clear S0. unfold answer. destruct (nth v kinds None) as [Dm|] eqn:K.
    - assert (C' : Forall2 (fun (l : leaf (mixed numeric discrete)) (d : dist (mixed numeric discrete)) => exists b, d = inr b /\ (ok_dist Dm b /\ nth_error (l_dists l) v = Some d)) ls ds).
      { eapply Forall2_impl; [|exact C]. intros l d _ [_ H]. rewrite K in H. destruct H as (b & -> & H). exists b. auto. }
      assert (X : exists bs, ds = map inr bs /\ Forall2 (fun (l : leaf (mixed numeric discrete)) b => ok_dist Dm b /\ nth_error (l_dists l) v = Some (inr b)) ls bs).
      { clear - C'. induction C' as [|l d ls ds (b & -> & H) _ (bs & -> & IH)]; [exists []; split; [reflexivity|constructor]|]. exists (b :: bs). split; [reflexivity|]. constructor; assumption. }
      destruct X as (bs & -> & Fb). assert (Lb : length bs = length ws) by (rewrite <- (Forall2_len _ _ _ _ _ Fb); exact Lw).
      assert (Nb : bs <> []) by (intros ->; inversion Fb; subst; contradiction).
      destruct (dd_merge_ok Dm bs ws Nb Lb) as (d' & Em & Od & Pd); [|exact Wn|exact W1|].
      { clear - Fb. induction Fb as [|l b ls bs [H _] _ IH]; constructor; assumption. }
      exists (inr d'). split.
      { destruct bs as [|b bs]; [contradiction|]. cbn [d_merge mixed map]. change (inr b :: map inr bs) with (map (@inr plf ddist) (b :: bs)). rewrite rights_map. cbn [d_merge discrete]. rewrite Em. reflexivity. }
      exists d'. split; [reflexivity|]. split; [exact Od|]. intros s Bs. rewrite (Pd s).
      transitivity (average pr J e (fun l => match nth_error (l_dists l) v with Some d => pr d (inr s) | None => 0 end)).
      + rewrite <- Sf. assert (Ls : length ls = length bs) by congruence. clear - Fb Lb Ls Rd Bs K W. revert ws Lb. induction Fb as [|l b ls bs [Ob Hb] _ IH]; intros [|w ws] Lb; try discriminate; [reflexivity|].
        cbn [combine map Qsum fst snd]. rewrite IH by (cbn in *; lia). apply Qplus_comp; [|reflexivity]. apply Qmult_comp; [reflexivity|]. rewrite Hb.
        symmetry. rewrite (rd_values _ _ _ _ _ Rd). reflexivity.
      + unfold average. apply Qmult_comp; [|reflexivity]. unfold weight. apply Qsum_map_ext. intros l _. unfold share, chance. cbn [fold_right fst snd]. ring.
    - assert (X : exists ps, ds = map inl ps /\ Forall2 (fun (l : leaf (mixed numeric discrete)) (p : plf) => leaf_posterior J l e v = Ok (inl p) /\ component p /\ forall x, finite x -> density p x == D v l x) ls ps).
      { clear - C K. induction C as [|l d ls ds [Ep H] _ (ps & -> & IH)]; [exists []; split; [reflexivity|constructor]|]. rewrite K in H. destruct H as (p & -> & H). exists (p :: ps). split; [reflexivity|]. constructor; [split; assumption|assumption]. }
      destruct X as (ps & -> & Fp). assert (Lb : length ps = length ws) by (rewrite <- (Forall2_len _ _ _ _ _ Fp); exact Lw).
      assert (Np' : ps <> []) by (intros ->; inversion Fp; subst; contradiction).
      assert (Gd : grained ps ws).
      { intros x Fx. assert (E : NumericSpec.mixture ws (map (fun p => density p x) ps) == average pr J e (fun l => D v l x)).
        { rewrite <- Sf. apply (mixture_sum _ (fun l => D v l x)); [exact Lw|]. clear - Fp Fx. induction Fp as [|l b ls bs (_ & _ & H) _ IH]; constructor; [exact (H x Fx)|exact IH]. }
        rewrite E. apply Gr; assumption. }
      assert (Cp : Forall component ps) by (clear - Fp; induction Fp as [|l b ls bs (_ & H & _) _ IH]; constructor; assumption).
      destruct (C25_jumps_lost ps ws Lb Cp Wn W1 Gd) as (q & la & Em & Fq & Vq & Aq).
      exists (inl q). split.
      { destruct ps as [|b bs]; [contradiction|]. cbn [d_merge mixed map]. change (inl b :: map inl bs) with (map (@inl plf ddist) (b :: bs)). rewrite lefts_map. cbn [d_merge numeric]. rewrite Em. reflexivity. }
      exists q, la. split; [reflexivity|]. split; [|split; [exact Aq|apply and_assoc; split]].
      + intros x f lo Fx Lx H.
        assert (Y : Forall2 (fun p y => plf_is p x y) ps (map f ls) /\ Forall2 (fun l y => y == lo l) ls (map (fun p => lost p x) ps)).
        { clear - H Fp Lp. induction Fp as [|l b ls bs (Ep & _) _ IH]; [split; constructor|]. destruct IH as [I1 I2]; [intros; apply Lp; right; assumption|].
          destruct (Lp l (or_introl eq_refl)) as [A B]. destruct (H l b A B Ep) as [H1 H2]. split; constructor; assumption. }
        destruct Y as [Y1 Y2]. apply (plf_is_wd q x _ _) with (2 := Vq x _ Fx Lx Y1). rewrite <- Sf.
        rewrite (mixture_sum _ f ls ws (map f ls) Lw), (mixture_sum _ lo ls ws _ Lw Y2); [|clear; induction ls; constructor; [reflexivity|assumption]].
        clear. generalize (combine ls ws). induction l as [|a l IH]; cbn [map Qsum]; [ring|]. rewrite <- IH. ring.
      + assert (Mp : 0 <= TreeSpec.mixture J L e) by (apply (mixture_nonneg J L (rd_proper _ _ _ _ _ Rd) (rd_support _ _ _ _ _ Rd) e (rd_event _ _ _ _ _ Rd e We))).
        assert (Pos : Forall2 (fun (l : leaf (mixed numeric discrete)) w => 0 < w <-> 0 < share pr l e) ls ws).
        { assert (Mn : ~ TreeSpec.mixture J L e == 0).
          { intro Z. assert (Z1 : Qsum ws == 0). { clear - Wt Z. induction Wt as [|l w ls ws E _ IH]; cbn [Qsum]; [reflexivity|]. rewrite IH, E, Z. unfold Qdiv. change (/ 0) with 0. ring. } lra. }
          assert (Mp' : 0 < TreeSpec.mixture J L e) by lra. clear - Wt Mp' Rd. induction Wt as [|l w ls ws E _ IH]; constructor; [|exact IH]. rewrite E, (rd_share _ _ _ _ _ Rd). split; intro H.
          - apply (Qmult_lt_r _ _ (/ TreeSpec.mixture J L e)); [apply Qinv_lt_0_compat; exact Mp'|]. rewrite Qmult_0_l. exact H.
          - unfold Qdiv. apply Qmult_lt_0_compat; [exact H|apply Qinv_lt_0_compat; exact Mp']. }
        assert (Zip : forall l p w, In (l, (p, w)) (combine ls (combine ps ws)) -> leaf_posterior J l e v = Ok (inl p) /\ (0 < w <-> 0 < share pr l e)).
        { clear - Fp Pos. revert ws Pos. induction Fp as [|l p ls ps (E & _) _ IH]; intros ws Pos l' p' w' I; [destruct I|]. inversion Pos as [|? w ? ws' Hw Pos']; subst. destruct I as [X|I]; [injection X as <- <- <-; auto|exact (IH ws' Pos' l' p' w' I)]. }
        assert (Lz : length ls = length (combine ps ws)) by (rewrite combine_length; lia).
        destruct Fq as [(p & w & Ipw & Wp & Fin) Up]. split.
        * destruct (In_nth_error _ _ Ipw) as (k & Ek). destruct (nth_error ls k) as [l|] eqn:El; [|exfalso; apply nth_error_None in El; assert (k < length (combine ps ws))%nat by (apply nth_error_Some; congruence); lia].
          destruct (Zip l p w) as [E1 E2]; [apply (nth_error_In _ k); apply nth_combine; assumption|]. exists l, p. split; [apply Lp; eapply nth_error_In; exact El|]. split; [apply E2; exact Wp|]. auto.
        * intros l p' y Il Ps Ep Fy. assert (Il' : In l ls).
          { apply All; [exact Il|]. rewrite (rd_share _ _ _ _ _ Rd) in Ps. destruct (tree_leaf J L (rd_proper _ _ _ _ _ Rd) (rd_support _ _ _ _ _ Rd) l Il) as [Pl _].
            pose proof (leaf_prob_nonneg L (n_vars J) l Pl e (proj2 (rd_event _ _ _ _ _ Rd e We))) as Nn. destruct (Qlt_le_dec 0 (leaf_prob L (l_dists l) e)) as [B|B]; [exact B|]. assert (Z : leaf_prob L (l_dists l) e == 0) by lra. rewrite Z in Ps. lra. }
          destruct (In_nth_error _ _ Il') as (k & Ek). destruct (nth_error (combine ps ws) k) as [[p0 w0]|] eqn:El; [|exfalso; apply nth_error_None in El; assert (k < length ls)%nat by (apply nth_error_Some; congruence); lia].
          destruct (Zip l p0 w0) as [E1 E2]; [apply (nth_error_In _ k); apply nth_combine; assumption|]. rewrite Ep in E1. injection E1 as <-. apply (Up p' w0 y); [eapply nth_error_In; exact El|apply E2; exact Ps|exact Fy].
      + split; [|exists ls, ps, ws; split; [exact Lp|]; split; [clear - Fp; induction Fp as [|l b ls bs (H & _) _ IH]; constructor; assumption|]; auto 8].
        intro Sm. assert (Sm' : Forall seamless ps).
        { clear - Fp Sm Lp. induction Fp as [|l b ls bs (Ep & _) _ IH]; constructor; [|apply IH; intros; apply Lp; right; assumption]. destruct (Lp l (or_introl eq_refl)) as [A B]. exact (Sm l b A B Ep). }
        destruct (C25_mixture_partial ps ws Lb Sm' Wn W1 Gd) as (q' & lo & hi & Em' & Pq & Vq'). rewrite Em in Em'. injection Em' as <-.
        split; [exists lo, hi; exact Pq|]. intros x f Fx H.
        assert (Y : Forall2 (fun p y => plf_is p x y) ps (map f ls)).
        { clear - H Fp Lp. induction Fp as [|l b ls bs (Ep & _) _ IH]; constructor; [|apply IH; intros; apply Lp; right; assumption]. destruct (Lp l (or_introl eq_refl)) as [A B]. exact (H l b A B Ep). }
        apply (plf_is_wd q x _ _) with (2 := Vq' x _ Fx Y). rewrite <- Sf. apply (mixture_sum _ f); [exact Lw|]. clear. induction ls; constructor; [reflexivity|assumption].
  Qed.

  Lemma posterior_core : forall fail,
    (weight pr J e == 0 -> posterior J vs e fail = if fail then Err Unsatisfiability else Ok None) /\
    (~ weight pr J e == 0 -> exists ds, posterior J vs e fail = Ok (Some (combine vs ds)) /\ Forall2 answer vs ds).
  Proof.
    intro fail. pose proof (rd_event _ _ _ _ _ Rd e We) as Ee.
    destruct (posterior_rows J L (rd_tree _ _ _ _ _ Rd) (rd_proper _ _ _ _ _ Rd) (rd_support _ _ _ _ _ Rd) vs e Ee like_p contribution leaf_contribution answer merge_answer fail) as [A B].
    pose proof (rd_weight _ _ _ _ _ Rd e) as Wm. pose proof (mixture_nonneg J L (rd_proper _ _ _ _ _ Rd) (rd_support _ _ _ _ _ Rd) e Ee) as N.
    split; [intro Z; apply A; rewrite <- Wm; exact Z|]. intro Z. apply B. destruct (Qlt_le_dec 0 (TreeSpec.mixture J L e)); [assumption|]. exfalso. apply Z. rewrite Wm. lra.
  Qed.
End Core.

(** ** C40: posterior with numeric variables *)

Lemma posterior_unasked : forall kinds G (J : mtree), wf_mixed kinds G J -> forall pr L, readied kinds G J pr L ->
    forall vs e fail, wf_mquery kinds G e -> (forall v, In v vs -> (v < length kinds)%nat /\ ~ In v (map fst e)) ->
      (* no evidence and path leave a single number *)
      (forall l v c, In l (leaves J) -> In (v, inl (NC c)) e -> ~ pinned l v c) ->
      (* the numeric distributions asked for are continuous, or in a single point *)
      (forall v l p, In v vs -> In l (leaves J) -> nth_error (l_dists l) v = Some (inl p) -> seamless p) ->
      (* the density of the answer is 0 or above 1e-8 *)
      (forall v x, In v vs -> nth v kinds None = None -> finite x -> average pr J e (fun l => slope_of l v x) == 0 \/ 1 # 100000000 < average pr J e (fun l => slope_of l v x)) ->
      (weight pr J e == 0 -> posterior J vs e fail = if fail then Err Unsatisfiability else Ok None) /\
      (~ weight pr J e == 0 -> exists ds, posterior J vs e fail = Ok (Some (combine vs ds)) /\
         Forall2 (fun v d => match nth v kinds None with
           | None => exists q lo hi, d = inl q /\ proper_cdf q lo hi /\
               forall x f, finite x -> (forall l p, In l (leaves J) -> nth_error (l_dists l) v = Some (inl p) -> plf_is p x (f l)) -> plf_is q x (average pr J e f)
           | Some D => exists d', d = inr d' /\ ok_dist D d' /\
               forall s, (forall x, In x s -> (x < n_values D)%nat) -> mass d (inr s) (weight pr J ((v, inr s) :: e) / weight pr J e)
           end) vs ds).
Proof.
  intros kinds G J W pr L Rd. intros vs e fail We Hv Np Sm Gr.
  assert (Ep : forall l v d, In v vs -> nth_error (l_dists l) v = Some d -> leaf_posterior J l e v = Ok d).
  { intros l v d Iv Hd. unfold leaf_posterior, leaf_dist. rewrite Hd. cbn [bind].
    assert (En : @lookup (vset (mixed numeric discrete)) e v = None) by (apply lookup_none; apply (Hv v Iv)). rewrite En. reflexivity. }
  assert (Ld : forall l v, In v vs -> In l (leaves J) -> exists d, nth_error (l_dists l) v = Some d /\ fits (G v) (nth v kinds None) d).
  { intros l v Iv Il. destruct (nth_error (l_dists l) v) as [d|] eqn:E; [exists d; split; [reflexivity|exact (mx_dists _ _ _ W l v d Il E)]|].
    apply nth_error_None in E. rewrite (mx_len _ _ _ W l Il) in E. pose proof (proj1 (Hv v Iv)). lia. }
  destruct (posterior_core kinds G J W pr L Rd e We Np vs (fun v l x => slope_of l v x)) with (fail := fail) as [A B].
  - intros v Iv. apply (Hv v Iv).
  - intros v l Iv K Il _. destruct (Ld l v Iv Il) as (d & Hd & Fd). rewrite K in Fd. destruct d as [p|d]; [|destruct Fd]. exists p. split; [exact (Ep l v _ Iv Hd)|].
    split; [apply seamless_component, (Sm v l p Iv Il Hd)|]. intros x _. unfold slope_of. rewrite Hd. reflexivity.
  - exact Gr.
  - intros v Iv _. apply (Hv v Iv).
  - split; [exact A|]. intro N. destruct (B N) as (ds & E & F2). exists ds. split; [exact E|].
    assert (F2' : Forall2 (fun v d => In v vs /\ answer kinds J pr L e v d) vs ds).
    { clear - F2. assert (G : forall us, (forall v, In v us -> In v vs) -> forall ds, Forall2 (answer kinds J pr L e) us ds -> Forall2 (fun v d => In v vs /\ answer kinds J pr L e v d) us ds).
      { intros us I ds0 H. induction H; constructor; [split; [apply I; left; reflexivity|assumption]|apply IHForall2; intros; apply I; right; assumption]. }
      apply G; [auto|exact F2]. }
    eapply Forall2_impl; [|exact F2']. intros v d _ [Iv H]. unfold answer in H. destruct (nth v kinds None) as [Dm|] eqn:K.
    + destruct H as (d' & -> & Od & Hs). exists d'. split; [reflexivity|]. split; [exact Od|]. intros s Bs. apply mass_values. rewrite <- (Hs s Bs). apply pm_sum.
    + destruct H as (q & la & -> & _ & _ & _ & _ & H & _). destruct H as [(lo & hi & Pq) Vq].
      { intros l p Il _ El. destruct (Ld l v Iv Il) as (d & Hd & Fd). rewrite (Ep l v _ Iv Hd) in El. injection El as ->. exact (Sm v l p Iv Il Hd). }
      exists q, lo, hi. split; [reflexivity|]. split; [exact Pq|]. intros x f Fx Hx. apply Vq; [exact Fx|]. intros l p Il _ El.
      destruct (Ld l v Iv Il) as (d & Hd & Fd). rewrite (Ep l v _ Iv Hd) in El. injection El as ->. exact (Hx l p Il Hd).
Qed.

(** Unasked evidence.  [pr] is the probability of [mass]. *)
Theorem C40_posterior_mixed_partial : forall kinds G (J : mtree), wf_mixed kinds G J ->
  exists pr : mdist -> mset -> Q,
    (forall v d s, fits (G v) (nth v kinds None) d -> suits (G v) (nth v kinds None) s -> mass d s (pr d s)) /\
    forall vs e fail, wf_mquery kinds G e -> (forall v, In v vs -> (v < length kinds)%nat /\ ~ In v (map fst e)) ->
      (* no evidence and path leave a single number *)
      (forall l v c, In l (leaves J) -> In (v, inl (NC c)) e -> ~ pinned l v c) ->
      (* the numeric distributions asked for are continuous, or in a single point *)
      (forall v l p, In v vs -> In l (leaves J) -> nth_error (l_dists l) v = Some (inl p) -> seamless p) ->
      (* the density of the answer is 0 or above 1e-8 *)
      (forall v x, In v vs -> nth v kinds None = None -> finite x -> average pr J e (fun l => slope_of l v x) == 0 \/ 1 # 100000000 < average pr J e (fun l => slope_of l v x)) ->
      (weight pr J e == 0 -> posterior J vs e fail = if fail then Err Unsatisfiability else Ok None) /\
      (~ weight pr J e == 0 -> exists ds, posterior J vs e fail = Ok (Some (combine vs ds)) /\
         Forall2 (fun v d => match nth v kinds None with
           | None => exists q lo hi, d = inl q /\ proper_cdf q lo hi /\
               forall x f, finite x -> (forall l p, In l (leaves J) -> nth_error (l_dists l) v = Some (inl p) -> plf_is p x (f l)) -> plf_is q x (average pr J e f)
           | Some D => exists d', d = inr d' /\ ok_dist D d' /\
               forall s, (forall x, In x s -> (x < n_values D)%nat) -> mass d (inr s) (weight pr J ((v, inr s) :: e) / weight pr J e)
           end) vs ds).
Proof. intros kinds G J W. destruct (ready kinds G J W) as (pr & L & Rd & Ms). exists pr. split; [exact Ms|]. exact (posterior_unasked kinds G J W pr L Rd). Qed.
Print Assumptions C40_posterior_mixed_partial.

(** The value of the posterior's cdf at [x] is what [infer] answers for "at most [x]". *)
Lemma mass_cdf : forall p x y, finite x -> mass (inl p) (inl (NC (CS (- ORD_INF) x EXC INC))) y -> (forall z, p = dirac z -> finite z) -> plf_is p x y.
Proof.
  intros p x y Fx M Op. pose proof ord_facts as O. assert (Mx : cs_mem x (CS (- ORD_INF) x EXC INC)) by (unfold cs_mem; cbn [lower upper left right]; unfold finite in *; lia).
  inversion M as [? ? ? N|? ? z ya yb ? L I A B E|z ? ? I E|z ? ? I E|]; subst.
  - exfalso. exact (N x Mx).
  - cbn [lower upper] in A, B. destruct A as [[_ A]|[[A _]|[A _]]]; [|exfalso; discriminate A|exfalso; destruct A as [A _]; discriminate A].
    destruct B as [[B _]|[[B _]|[_ B]]]; [exfalso; unfold finite in Fx; lia..|]. apply (plf_is_wd p x yb); [rewrite E, A; ring|exact B].
  - assert (Fz : finite z) by (apply Op; reflexivity). apply (plf_is_wd _ x 1); [symmetry; exact E|]. apply (pc_right _ _ _ (dirac_proper z Fz)); [exact Fx|]. unfold cs_mem in I. cbn [lower upper left right] in I. lia.
  - assert (Fz : finite z) by (apply Op; reflexivity). apply (plf_is_wd _ x 0); [symmetry; exact E|]. apply (pc_left _ _ _ (dirac_proper z Fz)); [exact Fx|].
    destruct (Z.lt_ge_cases x z) as [H|H]; [exact H|]. exfalso. apply I. clear - H Fz. unfold finite in Fz. unfold cs_mem, finite. cbn [lower upper left right]. unfold ORD_INF in *. lia.
Qed.

Theorem C40_posterior_cdf_infer : forall kinds G (J : mtree), wf_mixed kinds G J ->
  exists pr : mdist -> mset -> Q,
    (forall v d s, fits (G v) (nth v kinds None) d -> suits (G v) (nth v kinds None) s -> mass d s (pr d s)) /\
    forall v e fail, wf_mquery kinds G e -> (v < length kinds)%nat -> ~ In v (map fst e) -> nth v kinds None = None ->
      (forall l v c, In l (leaves J) -> In (v, inl (NC c)) e -> ~ pinned l v c) ->
      (forall l p, In l (leaves J) -> nth_error (l_dists l) v = Some (inl p) -> seamless p) ->
      (forall x, finite x -> average pr J e (fun l => slope_of l v x) == 0 \/ 1 # 100000000 < average pr J e (fun l => slope_of l v x)) ->
      ~ weight pr J e == 0 ->
      exists q, posterior J [v] e fail = Ok (Some [(v, inl q)]) /\
        forall x, G v x -> (Z.abs x < ORD_53)%Z -> exists r, infer J [(v, inl (NC (CS (- ORD_INF) x EXC INC)))] e fail = Ok (Some r) /\ plf_is q x r.
Proof.
  intros kinds G J W. destruct (ready kinds G J W) as (pr & L & Rd & Ms). exists pr. split; [exact Ms|]. intros v e fail We Lv Nv K Np Sm Gr N.
  destruct (posterior_unasked kinds G J W pr L Rd [v] e fail We) as [_ B].
  - intros v' [<-|[]]. auto.
  - exact Np.
  - intros v' l p [<-|[]]. apply Sm.
  - intros v' x [<-|[]] _. apply Gr.
  - destruct (B N) as (ds & E & F2). inversion F2 as [|? d ? ds' Ha F3]; subst. inversion F3; subst. rewrite K in Ha. destruct Ha as (q & lo & hi & -> & _ & Vq).
    exists q. split; [exact E|]. intros x Gx Bx. pose proof ord_facts as O. assert (Fx : finite x) by (unfold finite, ORD_53, ORD_INF in *; lia).
    set (c := CS (- ORD_INF) x EXC INC). assert (Gc : on_grid (G v) c).
    { split; [unfold wf, moderate, c; cbn [lower upper left right]; unfold finite in Fx; unfold ORD_INF, ORD_53 in *; repeat split; try lia; try (left; lia); try (right; lia); intros; try reflexivity; lia|].
      right. split; [apply (g_inf _ (mx_grid _ _ _ W v))|exact Gx]. }
    assert (Wq : wf_mquery kinds G [(v, inl (NC c))]).
    { split; [repeat constructor; intros []|]. intros v' s [X|[]]. injection X as <- <-. split; [exact Lv|]. rewrite K. exact Gc. }
    destruct (infer_spec J L (rd_tree _ _ _ _ _ Rd) (rd_proper _ _ _ _ _ Rd) (rd_support _ _ _ _ _ Rd) [(v, inl (NC c))] e fail (rd_event _ _ _ _ _ Rd _ Wq) (rd_event _ _ _ _ _ Rd e We)) as [_ C].
    destruct C as (r & Er & R); [intro Z; apply N; rewrite (rd_weight _ _ _ _ _ Rd e); exact Z|]. exists r. split; [exact Er|].
    apply (plf_is_wd q x (average pr J e (fun l => match nth_error (l_dists l) v with Some d => pr d (inl (NC c)) | None => 0 end))).
    + rewrite R. unfold average. rewrite (rd_weight _ _ _ _ _ Rd e). apply Qmult_comp; [|reflexivity]. rewrite <- (rd_weight _ _ _ _ _ Rd). unfold weight. apply Qsum_map_ext. intros l _. unfold share, chance. cbn [app fold_right fst snd]. rewrite <- Qmult_assoc. apply Qmult_comp; [reflexivity|]. apply Qmult_comm.
    + apply Vq; [exact Fx|]. intros l p Il Hd. rewrite Hd. pose proof (mx_dists _ _ _ W l v (inl p) Il Hd) as Fp. rewrite K in Fp. apply mass_cdf; [exact Fx| |].
      * apply (Ms v); rewrite K; assumption.
      * intros z ->. destruct Fp as [S|(z' & Ez & Mz)]; [|unfold dirac in Ez; injection Ez as <-; unfold finite, ORD_53, ORD_INF in *; lia]. exfalso. destruct S as [S _]. destruct (ln_first _ S) as (i & r0 & Er0 & Lr). apply (f_equal (@length _)) in Er0. cbn in Er0. lia.
Qed.
Print Assumptions C40_posterior_cdf_infer.

(** The same for all distributions, also fitted ones: the cdf is the average of what
    merging (C25) leaves of the leaves', and 1 from the last bound of any of them on. *)
Theorem C40_posterior_jumps : forall kinds G (J : mtree), wf_mixed kinds G J ->
  exists pr : mdist -> mset -> Q,
    (forall v d s, fits (G v) (nth v kinds None) d -> suits (G v) (nth v kinds None) s -> mass d s (pr d s)) /\
    forall vs e fail, wf_mquery kinds G e -> (forall v, In v vs -> (v < length kinds)%nat /\ ~ In v (map fst e)) ->
      (* no evidence and path leave a single number *)
      (forall l v c, In l (leaves J) -> In (v, inl (NC c)) e -> ~ pinned l v c) ->
      (* any numeric distribution that can be merged, see C25_fitted *)
      (forall v l p, In v vs -> In l (leaves J) -> nth_error (l_dists l) v = Some (inl p) -> component p) ->
      (* the density of the answer is 0 or above 1e-8 *)
      (forall v x, In v vs -> nth v kinds None = None -> finite x -> average pr J e (fun l => slope_of l v x) == 0 \/ 1 # 100000000 < average pr J e (fun l => slope_of l v x)) ->
      (weight pr J e == 0 -> posterior J vs e fail = if fail then Err Unsatisfiability else Ok None) /\
      (~ weight pr J e == 0 -> exists ds, posterior J vs e fail = Ok (Some (combine vs ds)) /\
         Forall2 (fun v d => match nth v kinds None with
           | None => exists q last, d = inl q /\
               (forall x f, finite x -> (x < last)%Z -> (forall l p, In l (leaves J) -> nth_error (l_dists l) v = Some (inl p) -> plf_is p x (f l)) ->
                  plf_is q x (average pr J e (fun l => f l - match nth_error (l_dists l) v with Some (inl p) => lost p x | _ => 0 end))) /\
               (forall x, finite x -> (last <= x)%Z -> plf_is q x 1) /\
               (exists l p, In l (leaves J) /\ 0 < share pr l e /\ nth_error (l_dists l) v = Some (inl p) /\ finishes p last) /\
               (forall l p y, In l (leaves J) -> 0 < share pr l e -> nth_error (l_dists l) v = Some (inl p) -> finishes p y -> (y <= last)%Z)
           | Some D => exists d', d = inr d' /\ ok_dist D d' /\
               forall s, (forall x, In x s -> (x < n_values D)%nat) -> mass d (inr s) (weight pr J ((v, inr s) :: e) / weight pr J e)
           end) vs ds).
Proof.
  intros kinds G J W. destruct (ready kinds G J W) as (pr & L & Rd & Ms). exists pr. split; [exact Ms|]. intros vs e fail We Hv Np Sm Gr.
  assert (Ep : forall l v d, In v vs -> nth_error (l_dists l) v = Some d -> leaf_posterior J l e v = Ok d).
  { intros l v d Iv Hd. unfold leaf_posterior, leaf_dist. rewrite Hd. cbn [bind].
    assert (En : @lookup (vset (mixed numeric discrete)) e v = None) by (apply lookup_none; apply (Hv v Iv)). rewrite En. reflexivity. }
  assert (Ld : forall l v, In v vs -> In l (leaves J) -> exists d, nth_error (l_dists l) v = Some d /\ fits (G v) (nth v kinds None) d).
  { intros l v Iv Il. destruct (nth_error (l_dists l) v) as [d|] eqn:E; [exists d; split; [reflexivity|exact (mx_dists _ _ _ W l v d Il E)]|].
    apply nth_error_None in E. rewrite (mx_len _ _ _ W l Il) in E. pose proof (proj1 (Hv v Iv)). lia. }
  destruct (posterior_core kinds G J W pr L Rd e We Np vs (fun v l x => slope_of l v x)) with (fail := fail) as [A B].
  - intros v Iv. apply (Hv v Iv).
  - intros v l Iv K Il _. destruct (Ld l v Iv Il) as (d & Hd & Fd). rewrite K in Fd. destruct d as [p|d]; [|destruct Fd]. exists p. split; [exact (Ep l v _ Iv Hd)|].
    split; [exact (Sm v l p Iv Il Hd)|]. intros x _. unfold slope_of. rewrite Hd. reflexivity.
  - exact Gr.
  - intros v Iv _. apply (Hv v Iv).
  - split; [exact A|]. intro N. destruct (B N) as (ds & E & F2). exists ds. split; [exact E|].
    assert (F2' : Forall2 (fun v d => In v vs /\ answer kinds J pr L e v d) vs ds).
    { clear - F2. assert (G : forall us, (forall v, In v us -> In v vs) -> forall ds, Forall2 (answer kinds J pr L e) us ds -> Forall2 (fun v d => In v vs /\ answer kinds J pr L e v d) us ds).
      { intros us I ds0 H. induction H; constructor; [split; [apply I; left; reflexivity|assumption]|apply IHForall2; intros; apply I; right; assumption]. }
      apply G; [auto|exact F2]. }
    eapply Forall2_impl; [|exact F2']. intros v d _ [Iv H]. unfold answer in H. destruct (nth v kinds None) as [Dm|] eqn:K.
    + destruct H as (d' & -> & Od & Hs). exists d'. split; [reflexivity|]. split; [exact Od|]. intros s Bs. apply mass_values. rewrite <- (Hs s Bs). apply pm_sum.
    + destruct H as (q & la & -> & V1 & V2 & V3 & V4 & _). exists q, la. split; [reflexivity|]. split; [|split; [exact V2|split]].
      * intros x f Fx Lx Hx. apply V1; [exact Fx|exact Lx|]. intros l p Il _ El.
        destruct (Ld l v Iv Il) as (d & Hd & Fd). rewrite (Ep l v _ Iv Hd) in El. injection El as ->. split; [exact (Hx l p Il Hd)|]. rewrite Hd. reflexivity.
      * destruct V3 as (l & p & Il & Ps & El & Fin). exists l, p. destruct (Ld l v Iv Il) as (d & Hd & Fd). rewrite (Ep l v _ Iv Hd) in El. injection El as ->. auto.
      * intros l p y Il Ps Hd Fy. apply (V4 l p y Il Ps); [exact (Ep l v _ Iv Hd)|exact Fy].
Qed.
Print Assumptions C40_posterior_jumps.

(** The density of a continuous cdf is its difference quotient. *)
Lemma slope_quotient : forall q x y y', spread_cdf q -> tiling q -> finite x -> finite (x + 1) -> plf_is q x y -> plf_is q (x + 1) y' ->
  density q x == (y' - y) / (dval (x + 1) - dval x).
Proof.
  intros q x y y' Sq Tq Fx Fx' Y Y'. pose proof (sp_chain _ Sq) as C. pose proof (sp_affine _ Sq) as A.
  apply plf_is_at in Y. destruct Y as (f & Ef & Y). apply plf_is_at in Y'. destruct Y' as (g & Eg & Y').
  destruct (plf_at_in q x f Fx Ef) as (i & Ii & Mi). destruct (chain_in _ _ _ _ _ C Ii) as (B1 & B2 & _).
  assert (Bx : (lower i <= x < upper i)%Z).
  { destruct Mi as (_ & M1 & M2). destruct (in_split _ _ Ii) as (pre & post & Eq). rewrite Eq in C. apply chain_app_inv in C. destruct C as (b & _ & Ei & _). rewrite Ei in M1, M2. cbn [left right lower upper] in M1, M2.
    rewrite Ei. cbn [lower upper]. destruct (b =? - ORD_INF)%Z; lia. }
  assert (Af : affine f) by exact (plf_at_affine q x f A Ef). assert (Ag : affine g) by exact (plf_at_affine q (x + 1) g A Eg).
  assert (H' : height f (dval (x + 1)) == y').
  { destruct (Z.eq_dec (x + 1) (upper i)) as [E|E].
    - destruct (in_split _ _ Ii) as (pre & post & Eq). destruct post as [|[j h] post].
      { exfalso. rewrite Eq in C. apply chain_app_inv in C. destruct C as (b & _ & Ei & Li & Ce). cbn [chain] in Ce. unfold finite in Fx'. lia. }
      pose proof Tq as T0. rewrite Eq in T0. destruct (tiling_split _ _ _ _ _ _ T0) as (y0 & Y1 & Y2). rewrite <- E in Y1, Y2.
      assert (Ij : In (j, h) q) by (rewrite Eq; apply in_or_app; right; right; left; reflexivity).
      assert (Ej : plf_at q (x + 1) = Some h).
      { apply (chain_at q (- ORD_INF) ORD_INF j h (x + 1) C ltac:(lia) ltac:(lia) Ij Fx'). rewrite Eq in C. apply chain_app_inv in C. destruct C as (b & _ & Ei & Li & Ej & Lj & _). rewrite Ej. cbn [lower upper]. lia. }
      rewrite Eg in Ej. injection Ej as <-. apply fn_is_height in Y1; [|exact Af]. apply fn_is_height in Y2; [|exact Ag]. apply fn_is_height in Y'; [|exact Ag]. rewrite Y1, <- Y2. exact Y'.
    - assert (Ej : plf_at q (x + 1) = Some f) by (apply (chain_at q (- ORD_INF) ORD_INF i f (x + 1) C ltac:(lia) ltac:(lia) Ii Fx'); lia).
      rewrite Eg in Ej. injection Ej as ->. apply fn_is_height in Y'; [exact Y'|exact Af]. }
  apply fn_is_height in Y; [|exact Af]. unfold density. rewrite Ef. unfold height in Y, H'. rewrite <- Y, <- H'. pose proof (dval_lt x (x + 1) ltac:(lia)). field. lra.
Qed.
Lemma slope_last : forall q, spread_cdf q -> density q (ORD_INF - 1) == 0.
Proof.
  intros q Sq. unfold density. pose proof ord_facts as O. assert (Fx : finite (ORD_INF - 1)) by (unfold finite; lia).
  destruct (plf_at q (ORD_INF - 1)) as [f|] eqn:E; [|reflexivity]. destruct (plf_at_in q _ f Fx E) as (i & Ii & Mi). pose proof (plf_at_affine q _ f (sp_affine _ Sq) E) as Af.
  destruct f as [|z|m k|? ? ?]; try reflexivity. pose proof (sp_rise _ Sq) as R. rewrite Forall_forall in R. destruct (R _ Ii) as (_ & _ & Fu). cbn [fst] in Fu.
  destruct Mi as (_ & _ & Mi). pose proof (sp_chain _ Sq) as C. destruct (in_split _ _ Ii) as (pre & post & Eq). rewrite Eq in C. apply chain_app_inv in C. destruct C as (b & _ & Ei & _).
  rewrite Ei in Mi. cbn [right upper] in Mi. unfold finite in Fu. lia.
Qed.

(** The cdf of a leaf under the restriction to [a, b], given the cdf [f] of the leaf. *)
Definition cut_off (a b : Z) (ya yb : Q) (f : Z -> Q) (x : Z) : Q :=
  if (x <? a)%Z then 0 else if (b <=? x)%Z then 1 else (f x - ya) / (yb - ya).

(** Evidence on the variable itself, which is on the path of all leaves where the evidence
    is possible.  [r l] is what the evidence and the path of [l] leave, [f l] is the cdf
    of the leaf, [ya] and [yb] its values at the least and largest number in [r l]. *)
Theorem C40_posterior_restricted_partial : forall kinds G (J : mtree), wf_mixed kinds G J ->
  exists pr : mdist -> mset -> Q,
    (forall v d s, fits (G v) (nth v kinds None) d -> suits (G v) (nth v kinds None) s -> mass d s (pr d s)) /\
    forall v c e fail (r : leaf (mixed numeric discrete) -> cs) (ya yb : leaf (mixed numeric discrete) -> Q) (f : leaf (mixed numeric discrete) -> Z -> Q),
      wf_mquery kinds G e -> In (v, inl (NC c)) e ->
      (forall l v c, In l (leaves J) -> In (v, inl (NC c)) e -> ~ pinned l v c) ->
      (forall l, In l (leaves J) -> 0 < chance pr l e ->
         In v (map fst (l_path l)) /\ restrict J l v (inl (NC c)) = inl (NC (r l)) /\
         exists p, nth_error (l_dists l) v = Some (inl p) /\ spread_cdf p /\ tiling p /\ Forall wf (ivs p) /\ roomy p (r l) /\
           (forall x, finite x -> plf_is p x (f l x)) /\
           cdf_at p (lowermost (r l)) (ya l) /\ cdf_at p (uppermost (r l)) (yb l) /\ ya l < yb l) ->
      let g := fun l x => cut_off (lowermost (r l)) (uppermost (r l)) (ya l) (yb l) (f l) x in
      (* the density of the answer is 0 or above 1e-8 *)
      (forall x, finite x -> finite (x + 1) -> let d := average pr J e (fun l => (g l (x + 1)%Z - g l x) / (dval (x + 1) - dval x)) in d == 0 \/ 1 # 100000000 < d) ->
      (weight pr J e == 0 -> posterior J [v] e fail = if fail then Err Unsatisfiability else Ok None) /\
      (~ weight pr J e == 0 -> exists q lo hi, posterior J [v] e fail = Ok (Some [(v, inl q)]) /\ proper_cdf q lo hi /\
         forall x, finite x -> plf_is q x (average pr J e (fun l => g l x))).
Proof.
  intros kinds G J W. destruct (ready kinds G J W) as (pr & L & Rd & Ms). exists pr. split; [exact Ms|]. intros v c e fail r ya yb f We Ie Np H g Gr.
  pose proof ord_facts as O. destruct (proj2 We v _ Ie) as [Lv Sc].
  assert (K : nth v kinds None = None) by (unfold suits in Sc; destruct (nth v kinds None); [destruct Sc|reflexivity]). rewrite K in Sc.
  assert (Ch : forall l, 0 < leaf_prob L (l_dists l) e -> 0 < chance pr l e) by (intros l Hl; rewrite (rd_chance _ _ _ _ _ Rd); exact Hl).
  (* the restriction of a leaf *)
  assert (Crop : forall l, In l (leaves J) -> 0 < leaf_prob L (l_dists l) e ->
    exists q, leaf_posterior J l e v = Ok (inl q) /\ spread_cdf q /\ tiling q /\ forall x, finite x -> plf_is q x (g l x)).
  { intros l Il Pos. destruct (H l Il (Ch l Pos)) as (Ip & Er & p & Hd & Sp & Tp & Wp & Ro & Vp & Ha & Hb & Lt).
    destruct (restrict_numeric kinds G J (mx_full _ _ _ W) l (fun v s => mx_path _ _ _ W l v s Il) v c K (proj1 Sc)) as (c' & Er' & Wc & Mc).
    assert (Ec : c' = r l). { assert (X : inl (NC c') = inl (NC (r l)) :> vset (mixed numeric discrete)) by (transitivity (restrict J l v (inl (NC c))); [symmetry; exact Er'|exact Er]). injection X. auto. } subst c'.
    destruct (tree_leaf J L (rd_proper _ _ _ _ _ Rd) (rd_support _ _ _ _ _ Rd) l Il) as [Pl Sl].
    assert (Ne : cs_isempty (r l) = false).
    { destruct (cs_isempty (r l)) eqn:E; [|reflexivity]. exfalso. rewrite (leaf_prob_zero L l e v (inl (NC c)) (inl p) Ie Hd) in Pos; [lra|].
      assert (Os : oks L v (inl (NC c))) by (apply (rd_oks _ _ _ _ _ Rd); [exact Lv|rewrite K; exact Sc]).
      rewrite <- (restrict_prob L (n_vars J) l Pl Sl J eq_refl v (inl p) (inl (NC c)) Hd Os).
      pose proof (restrict_event L (n_vars J) l Pl Sl J eq_refl v (inl (NC c)) Os ltac:(rewrite (mx_vars _ _ _ W); exact Lv)) as Or.
      pose proof (mx_dists _ _ _ W l v (inl p) Il Hd) as Fp. destruct (p_ok _ L v (inl p) _ (proj2 (rd_okd _ _ _ _ _ Rd v (inl p)) Fp) Or) as (q & Eq & <-).
      rewrite Er in Eq. cbn [d_p mixed numeric] in Eq. unfold p_set in Eq. rewrite K in Fp. pose proof (np_empty (G v) p (r l) Fp Wc E) as Z. unfold np in Z. rewrite Eq in Z. exact Z. }
    assert (Cn : continuous_in p (r l)) by (intros pre i f0 j g0 post Eq _; rewrite Eq in Tp; exact (tiling_split _ _ _ _ _ _ Tp)).
    destruct (C24_crop_partial p (r l) (ya l) (yb l) Sp Cn Wp Wc Ne Ro Ha Hb Lt) as (q & Eq & Sq & Tq & V1 & V2 & V3).
    exists q. split; [|split; [exact Sq|split; [exact Tq|]]].
    - unfold leaf_posterior, leaf_dist. rewrite Hd. cbn [bind].
      assert (En : @lookup (vset (mixed numeric discrete)) e v = Some (inl (NC c))) by (apply in_lookup; [apply We|exact Ie]). rewrite En.
      unfold restrict in Er. destruct (path_get (full J) (l_path l) v) as [t|] eqn:Ep; [|exfalso; apply path_get_none in Ep; exact (Ep Ip)].
      assert (Ec : d_crop (mixed numeric discrete) (inl p) (inl (NC (r l))) = Ok (inl q)).
      { cbn [d_crop mixed numeric]. unfold crop_set, crop_interval. destruct (cs_size (r l)) as [k|] eqn:Z; [|rewrite Eq; reflexivity]. destruct (Z.eqb_spec k 1) as [->|N].
        - exfalso. destruct (EffectProps.size_one (r l) Wc Z) as (x & X). apply (Np l v c Il Ie). exists x. intro y. rewrite <- Mc. apply X.
        - destruct k as [|k|k]; try (rewrite Eq; reflexivity). destruct k; try (rewrite Eq; reflexivity). contradiction. }
      refine (eq_trans _ Ec). f_equal. exact Er.
    - intros x Fx. unfold g, cut_off. destruct (Z.ltb_spec x (lowermost (r l))) as [A|A]; [apply V1; assumption|]. destruct (Z.leb_spec (uppermost (r l)) x) as [B|B]; [apply V3; assumption|].
      apply V2; [exact Fx|lia|apply Vp; exact Fx]. }
  destruct (posterior_core kinds G J W pr L Rd e We Np [v] (fun v l x => if (x =? ORD_INF - 1)%Z then 0 else (g l (x + 1)%Z - g l x) / (dval (x + 1) - dval x))) with (fail := fail) as [A B].
  - intros v' [<-|[]]. exact Lv.
  - intros v' l [<-|[]] _ Il Pos. destruct (Crop l Il Pos) as (q & Eq & Sq & Tq & Vq). exists q. split; [exact Eq|]. split; [right; exact Sq|].
    intros x Fx. destruct (Z.eqb_spec x (ORD_INF - 1)) as [->|N]; [apply slope_last; exact Sq|]. assert (Fx' : finite (x + 1)) by (unfold finite in *; lia).
    apply slope_quotient; try assumption; apply Vq; assumption.
  - intros v' x [<-|[]] _ Fx. destruct (Z.eqb_spec x (ORD_INF - 1)) as [->|N]; [|apply Gr; [exact Fx|unfold finite in *; lia]].
    left. unfold average. rewrite (Qsum_map_ext _ _ (fun _ => 0)) by (intros; ring). assert (Z : forall A (l : list A), Qsum (map (fun _ => 0) l) == 0) by (intros A l; induction l as [|a l IH]; cbn [map Qsum]; [reflexivity|rewrite IH; reflexivity]).
    rewrite Z. unfold Qdiv. ring.
  - intros v' [<-|[]] N. contradiction.
  - split; [exact A|]. intro N. destruct (B N) as (ds & E & F2). inversion F2 as [|? d ? ds' Ha F3]; subst. inversion F3; subst. unfold answer in Ha. rewrite K in Ha.
    destruct Ha as (q & la & -> & _ & _ & _ & _ & Hq & _). destruct Hq as [(lo & hi & Pq) Vq].
    { intros l p Il Pos El. destruct (Crop l Il Pos) as (q' & Eq & Sq & Tq & _). rewrite Eq in El. injection El as <-. right. split; assumption. }
    exists q, lo, hi. split; [exact E|]. split; [exact Pq|]. intros x Fx. apply (Vq x (fun l => g l x) Fx). intros l p Il Pos El.
    destruct (Crop l Il Pos) as (q' & Eq & _ & _ & V). rewrite Eq in El. injection El as <-. apply V. exact Fx.
Qed.
Print Assumptions C40_posterior_restricted_partial.

(** ** C55: likelihood with numeric variables

    What a variable contributes: the slope of the cdf, for all the probability in one
    point the indicator of that point, the parameter of a value. *)
Inductive factor : mdist -> Z + nat -> Q -> Prop :=
| factor_slope : forall p x f q, line_cdf p -> plf_at p x = Some f -> q == steepness f -> factor (inl p) (inl x) q
| factor_here : forall x q, q == 1 -> factor (inl (dirac x)) (inl x) q
| factor_elsewhere : forall x y q, x <> y -> q == 0 -> factor (inl (dirac x)) (inl y) q
| factor_value : forall d x y q, nth_error (d_params d) x = Some y -> q == y -> factor (inr d) (inr x) q.
(** A row of values of the kinds of the variables. *)
Definition row_ok (kinds : list kind) (row : list (Z + nat)) : Prop :=
  Forall2 (fun k x => match k, x with None, inl x => finite x | Some D, inr x => (x < n_values D)%nat | _, _ => False end) kinds row.
Fixpoint product (l : list Q) : Q := match l with [] => 1 | x :: l => x * product l end.

Lemma slopes_find : forall p x, match find (fun s : cs * dens => piece_has (fst s) x) (slopes p) with Some s => exists f, plf_at p x = Some f /\ snd s = DFin (steepness f) | None => plf_at p x = None end.
Proof.
  induction p as [|[i f] p IH]; intro x; cbn [slopes map find plf_at fst snd]; [reflexivity|]. destruct (piece_has i x); [exists f; auto|]. exact (IH x).
Qed.
Lemma line_lik : forall p x, line_cdf p -> finite x -> exists f, plf_at p x = Some f /\ d_lik numeric p x = Ok (steepness f).
Proof.
  intros p x L Fx. cbn [d_lik numeric]. unfold density_at. destruct (ln_first _ L) as (i & r & Ep & Lr).
  rewrite (density_spec p (ln_affine _ L)) by (rewrite Ep; cbn; lia). cbn [bind]. pose proof (slopes_find p x) as S0.
  destruct (ln_proper _ L) as (lo & hi & Pr). destruct (pc_range _ _ _ Pr x Fx) as (y & Y & _). apply plf_is_at in Y. destruct Y as (f & Ef & _).
  destruct (find _ (slopes p)) as [s|]; [|congruence]. destruct S0 as (g & Eg & Es). exists g. split; [exact Eg|]. rewrite Es. reflexivity.
Qed.
Lemma point_lik : forall x y, (Z.abs x < ORD_53)%Z -> finite y -> d_lik numeric (dirac x) y = Ok (if (x =? y)%Z then 1 else 0).
Proof.
  intros x y Bx Fy. cbn [d_lik numeric]. unfold density_at. rewrite (dirac_pdf x Bx). cbn [bind find fst snd]. pose proof ord_facts as O.
  assert (H : forall l u fl, (- ORD_INF <= l)%Z -> (u <= ORD_INF)%Z -> piece_has (CS l u fl EXC) y = match fl with INC => (l <=? y)%Z | EXC => (l <? y)%Z end && (y <? u)%Z).
  { intros l u fl _ _. rewrite piece_has_finite by exact Fy. apply Bool.eq_true_iff_eq. rewrite (contains_value_spec _ _ Fy), andb_true_iff, Z.ltb_lt. unfold cs_mem. cbn [lower upper left right].
    destruct fl; rewrite ?Z.leb_le, ?Z.ltb_lt; tauto. }
  unfold finite in Fy. rewrite !H by (unfold ORD_53, ORD_INF in *; lia).
  destruct (Z.eqb_spec x y) as [<-|N]; [replace (x <? x)%Z with false by (symmetry; apply Z.ltb_ge; lia); rewrite andb_false_r; replace (x <=? x)%Z with true by (symmetry; apply Z.leb_le; lia); replace (x <? x + 1)%Z with true by (symmetry; apply Z.ltb_lt; lia); reflexivity|].
  destruct (Z.ltb_spec y x) as [A|A].
  - replace (- ORD_INF <? y)%Z with true by (symmetry; apply Z.ltb_lt; lia). reflexivity.
  - rewrite andb_false_r. replace (y <? x + 1)%Z with false by (symmetry; apply Z.ltb_ge; lia). rewrite andb_false_r. replace (x + 1 <=? y)%Z with true by (symmetry; apply Z.leb_le; lia).
    replace (y <? ORD_INF)%Z with true by (symmetry; apply Z.ltb_lt; lia). reflexivity.
Qed.

Lemma factor_ok : forall G k d x, fits G k d -> match k, x with None, inl x => finite x | Some D, inr x => (x < n_values D)%nat | _, _ => False end ->
  exists q, d_lik (mixed numeric discrete) d x = Ok q /\ factor d x q.
Proof.
  intros G k d x Fd Fx. destruct k as [D|], d as [p|d], x as [x|x]; try contradiction.
  - cbn [d_lik mixed discrete]. destruct Fd as (_ & Ln & _). unfold pget. destruct (nth_error (d_params d) x) as [y|] eqn:E; [|apply nth_error_None in E; lia].
    exists y. split; [reflexivity|]. eapply factor_value; [exact E|reflexivity].
  - destruct Fd as [S|(z & -> & Bz)].
    + destruct (line_lik p x (proj1 S) Fx) as (f & Ef & El). exists (steepness f). split; [cbn [d_lik mixed]; exact El|]. eapply factor_slope; [exact (proj1 S)|exact Ef|reflexivity].
    + exists (if (z =? x)%Z then 1 else 0). split; [cbn [d_lik mixed]; apply point_lik; assumption|]. destruct (Z.eqb_spec z x) as [<-|N]; [apply factor_here; reflexivity|apply factor_elsewhere; [exact N|reflexivity]].
Qed.

Theorem C55_likelihood_mixed : forall kinds G (J : mtree) row, wf_mixed kinds G J -> row_ok kinds row ->
  exists r (fac : leaf (mixed numeric discrete) -> var -> Q), likelihood J row = Ok r /\
    (forall l v d x, In l (leaves J) -> nth_error (l_dists l) v = Some d -> nth_error row v = Some x -> factor d x (fac l v)) /\
    r == Qsum (map (fun l => l_prior l * product (map (fac l) (seq 0 (length kinds)))) (leaves J)).
Proof.
  intros kinds G J row W R.
  set (fac := fun (l : leaf (mixed numeric discrete)) v => match nth_error (l_dists l) v, nth_error row v with Some d, Some x => match d_lik (mixed numeric discrete) d x with Ok q => q | Err _ => 0 end | _, _ => 0 end).
  assert (Lf : forall l, In l (leaves J) -> mul_lik (l_dists l) row = Ok (product (map (fac l) (seq 0 (length kinds)))) /\
    forall v d x, nth_error (l_dists l) v = Some d -> nth_error row v = Some x -> factor d x (fac l v)).
  { intros l Il. pose proof (mx_len _ _ _ W l Il) as Ln. assert (H : Forall2 (fun d x => exists q, d_lik (mixed numeric discrete) d x = Ok q /\ factor d x q) (l_dists l) row).
    { pose proof (fun v d => mx_dists _ _ _ W l v d Il) as Fd. clear - Ln R Fd.
      assert (Go : forall ks ds row k, length ds = length ks -> Forall2 (fun k x => match k, x with None, inl x => finite x | Some D, inr x => (x < n_values D)%nat | _, _ => False end) ks row ->
        (forall v d, nth_error ds v = Some d -> fits (G (k + v)%nat) (nth v ks None) d) -> Forall2 (fun (d : dist (mixed numeric discrete)) (x : value (mixed numeric discrete)) => exists q, d_lik (mixed numeric discrete) d x = Ok q /\ factor d x q) ds row).
      { induction ks as [|k0 ks IH]; intros [|d ds] row0 k Len R0 H; cbn in Len; try discriminate; inversion R0 as [|? x ? row1 Hx R1]; subst; constructor.
        - apply (factor_ok (G (k + 0)%nat) k0); [exact (H 0%nat d eq_refl)|exact Hx].
        - apply (IH ds row1 (S k)); [lia|exact R1|]. intros v d' E. specialize (H (S v) d' E). cbn [nth] in H. replace (S k + v)%nat with (k + S v)%nat by lia. exact H. }
      apply (Go kinds (l_dists l) row 0%nat); [exact Ln|exact R|]. intros v d E. exact (Fd v d E). }
    split.
    - rewrite <- Ln. unfold fac. clear - H. 
      assert (Go : forall k (ds : list (dist (mixed numeric discrete))) (row : list (value (mixed numeric discrete))) (fc : nat -> Q), Forall2 (fun d x => exists q, d_lik (mixed numeric discrete) d x = Ok q /\ factor d x q) ds row ->
        (forall v d x, nth_error ds v = Some d -> nth_error row v = Some x -> d_lik (mixed numeric discrete) d x = Ok (fc (k + v)%nat)) ->
        mul_lik (F := mixed numeric discrete) ds row = Ok (product (map fc (seq k (length ds))))).
      { intros k ds row0 fc H0. revert k. induction H0 as [|d x ds row1 (q & Eq & _) _ IH]; intros k Hf; [reflexivity|]. cbn [mul_lik length seq map product].
        rewrite (Hf 0%nat d x eq_refl eq_refl). cbn [bind]. rewrite (IH (S k)); [cbn [bind]; rewrite Nat.add_0_r; reflexivity|]. intros v d' x' E1 E2. specialize (Hf (S v) d' x' E1 E2). replace (S k + v)%nat with (k + S v)%nat by lia. exact Hf. }
      apply (Go 0%nat _ _ _ H). intros v d x E1 E2. cbn [Nat.add].
      destruct (Forall2_nth _ _ _ _ _ v d H E1) as (x' & E3 & q & Eq & _). assert (x' = x) by (assert (X : Some x' = Some x) by (etransitivity; [symmetry; exact E3|exact E2]); injection X; auto). subst x'.
      replace (nth_error (l_dists l) v) with (Some d) by (symmetry; exact E1). replace (nth_error row v) with (Some x) by (symmetry; exact E2). rewrite Eq. reflexivity.
    - intros v d x E1 E2. destruct (Forall2_nth _ _ _ _ _ v d H E1) as (x' & E3 & q & Eq & Fq). assert (x' = x) by (assert (X : Some x' = Some x) by (etransitivity; [symmetry; exact E3|exact E2]); injection X; auto). subst x'.
      unfold fac. rewrite E1, E2. rewrite Eq. exact Fq. }
  assert (Lo : forall ls, (forall l, In l ls -> In l (leaves J)) -> exists r, lik_loop ls row = Ok r /\ r == Qsum (map (fun l => l_prior l * product (map (fac l) (seq 0 (length kinds)))) ls)).
  { induction ls as [|l ls IH]; intro I; [exists 0; split; reflexivity|]. destruct (Lf l (I l (or_introl eq_refl))) as [El _]. destruct IH as (r & Er & R0); [intros; apply I; right; assumption|].
    cbn [lik_loop]. rewrite El. cbn [bind]. rewrite Er. cbn [bind map Qsum]. eexists. split; [reflexivity|]. rewrite R0. reflexivity. }
  destruct (Lo (leaves J) (fun l I => I)) as (r & Er & R0). exists r, fac. split; [exact Er|]. split; [|exact R0]. intros l v d x Il. exact (proj2 (Lf l Il) v d x).
Qed.
Print Assumptions C55_likelihood_mixed.

(** ** Continuous cdfs have no jumps at any bound *)
Lemma tiling_smooth : forall G p, spread_cdf p -> tiling p -> (exists i m c, In (i, FLin m c) p /\ (lower i + 1 < upper i)%Z) -> smooth G p.
Proof.
  intros G p S T (i0 & m0 & c0 & I0 & W0). pose proof ord_facts as O. pose proof (sp_chain _ S) as C. pose proof (sp_rise _ S) as R. rewrite Forall_forall in R. split.
  - constructor; [exact C|exact (sp_affine _ S)| | | |].
    + destruct (sp_first _ S) as (i & r & E). exists i, r. split; [exact E|]. pose proof (sp_len _ S) as Ln. rewrite E in Ln. cbn in Ln. lia.
    + destruct (sp_proper _ S) as (lo & hi & _ & H). exists lo, hi. exact H.
    + apply Forall_forall. intros [i f] I. specialize (R _ I). cbn [snd] in R |- *. destruct f as [|v|m c|? ? ?]; cbn [steepness]; try lra.
    + exists i0, (FLin m0 c0). split; [exact I0|]. split; [|exact W0]. cbn. specialize (R _ I0). cbn in R. apply R.
  - intros i f y y' Ii Z Hy Hy'. left.
    assert (Af : affine f) by (pose proof (sp_affine _ S) as A; unfold affines in A; rewrite Forall_forall in A; exact (A _ Ii)).
    destruct f as [|v|m c|? ? ?]; try contradiction; [|exfalso; specialize (R _ Ii); cbn in R, Z; lra].
    destruct (in_split _ _ Ii) as (pre & post & Eq). destruct (chain_in _ _ _ _ _ C Ii) as (B1 & B2 & B3).
    assert (Y1 : y == v).
    { destruct Hy as [[E Y]|[[E _]|[F Y]]]; [|exfalso; lia|].
      - destruct pre as [|[j g] pre]; [|exfalso; rewrite Eq in C; cbn [app chain] in C; destruct C as (_ & L & C); apply chain_app_inv in C; destruct C as (b & C1 & Ei & _); pose proof (chain_le _ _ _ C1); rewrite Ei in E; cbn [lower] in E; lia].
        destruct (sp_first _ S) as (k & r & E'). rewrite Eq in E'. cbn [app] in E'. injection E' as _ -> _. exact Y.
      - apply plf_is_at in Y. destruct Y as (g & Eg & Y). rewrite (chain_at p (- ORD_INF) ORD_INF i (FConst v) (lower i) C ltac:(lia) ltac:(lia) Ii F ltac:(lia)) in Eg. injection Eg as <-. apply fn_is_height in Y; [|exact Af]. rewrite <- Y. unfold height. cbn. ring. }
    assert (Y2 : y' == v).
    { destruct post as [|[j g] post].
      - assert (E : upper i = ORD_INF). { rewrite Eq in C. apply chain_app_inv in C. destruct C as (b & _ & Ei & L & Ce). cbn [chain] in Ce. lia. }
        destruct Hy' as [[E' _]|[[_ Y]|[F _]]]; [exfalso; lia| |exfalso; unfold finite in F; lia]. rewrite Y.
        destruct (sp_proper _ S) as (lo & hi & Fh & Pp). set (x := Z.max hi (lower i)).
        assert (Fx : finite x) by (clear - Fh B1 E O; unfold finite in *; unfold x; lia).
        pose proof (pc_right _ _ _ Pp x Fx ltac:(unfold x; lia)) as V. apply plf_is_at in V. destruct V as (g & Eg & V).
        rewrite (chain_at p (- ORD_INF) ORD_INF i (FConst v) x C ltac:(lia) ltac:(lia) Ii Fx) in Eg by (clear - Fx E; unfold finite in Fx; unfold x in *; lia). injection Eg as <-. apply fn_is_height in V; [|exact Af]. rewrite <- V. unfold height. cbn. ring.
      - assert (T0 := T). rewrite Eq in T0. destruct (tiling_split _ _ _ _ _ _ T0) as (z & Z1 & Z2).
        assert (Ij : In (j, g) p) by (rewrite Eq; apply in_or_app; right; right; left; reflexivity).
        assert (Ag : affine g) by (pose proof (sp_affine _ S) as A; unfold affines in A; rewrite Forall_forall in A; exact (A _ Ij)).
        assert (Ej : j = CS (upper i) (upper j) (left j) (right j) /\ (upper i < upper j)%Z).
        { rewrite Eq in C. apply chain_app_inv in C. destruct C as (b & _ & Ei & Li & Ej & Lj & _). split; [rewrite Ej; cbn; reflexivity|exact Lj]. }
        destruct Ej as [Ej Lj]. destruct (chain_in _ _ _ _ _ C Ij) as (B4 & B5 & B6).
        destruct Hy' as [[E' _]|[[E' _]|[F Y]]]; [exfalso; lia|exfalso; lia|].
        apply plf_is_at in Y. destruct Y as (g' & Eg & Y). rewrite (chain_at p (- ORD_INF) ORD_INF j g (upper i) C ltac:(lia) ltac:(lia) Ij F) in Eg by (rewrite Ej; cbn; lia). injection Eg as <-.
        apply fn_is_height in Y; [|exact Ag]. apply fn_is_height in Z1; [|exact Af]. apply fn_is_height in Z2; [|exact Ag]. rewrite <- Y, Z2, <- Z1. unfold height. cbn. ring. }
    rewrite Y1, Y2. reflexivity.
Qed.

(** ** Examples

    Leaf 1: the uniform distribution on [0, 1); leaf 2: always 2. *)
Definition ramp : plf := NumericExample.unit_cdf.
Definition quarter : Z := (1021 * 2 ^ 52)%Z.
Definition cx_G (v : var) : grid := fun x => (x = - ORD_INF \/ x = quarter \/ x = HALF \/ x = MID \/ x = ORD_INF)%Z.
Definition cx_l1 : leaf (mixed numeric discrete) :=
  Leaf (F := mixed numeric discrete) 1 (Some 0%nat) (3 # 4) 3 [inl ramp; inr (DDist (SymDom [Some 10%Z; Some 20%Z]) [1 # 3; 2 # 3])] [(0%nat, inl (NC below))].
Definition cx_l2 : leaf (mixed numeric discrete) :=
  Leaf (F := mixed numeric discrete) 2 (Some 0%nat) (1 # 4) 1 [inl (dirac TWO); inr (DDist (SymDom [Some 10%Z; Some 20%Z]) [1; 0])] [(0%nat, inl (NC above))].
Definition cx : mtree := JPT (F := mixed numeric discrete) 2 (whole mx_kinds) [mx_root] [cx_l1; cx_l2] (Some 0%nat) [].
(** A posterior in one numeric variable has the given cdf values. *)
Definition has_values (r : res (option (list (var * dist (mixed numeric discrete))))) (l : list (Z * Q)) : bool :=
  match r with
  | Ok (Some [(_, inl q)]) => forallb (fun xy => match plf_eval q (fst xy) with Ok (Some y) => Qeq_bool y (snd xy) | _ => false end) l
  | _ => false
  end.
Definition inside : cs := CS quarter HALF INC INC.

Lemma cx_order : (0 < quarter)%Z /\ (quarter + 1 < HALF)%Z /\ (HALF + 1 < ONE)%Z /\ (ONE + 1 < MID)%Z /\ (MID + 1 < TWO)%Z /\ (TWO < ORD_53)%Z.
Proof. repeat split; vm_compute; reflexivity. Qed.
Definition ramp_value (x : Z) : Q := if (0 <=? x)%Z then if (x <? ONE)%Z then dval x else 1 else 0.
Lemma ramp_at : forall x, finite x -> plf_is ramp x (ramp_value x).
Proof.
  intros x F. unfold ramp_value. apply (plf_is_of _ _ _ _ (unit_at x F)). destruct (0 <=? x)%Z; [destruct (x <? ONE)%Z|]; eexists; (split; [reflexivity|]); cbn beta; try reflexivity. ring.
Qed.
Lemma ramp_seamless : seamless ramp.
Proof. right. split; [exact unit_spread|exact unit_tiling]. Qed.
Lemma ramp_smooth : forall G, smooth G ramp.
Proof. intro G. apply tiling_smooth; [exact unit_spread|exact unit_tiling|]. exists (CS 0 ONE INC EXC), 1, 0. split; [right; left; reflexivity|vm_compute; reflexivity]. Qed.
Lemma cx_wf : wf_mixed mx_kinds cx_G cx.
Proof.
  pose proof cx_order as (O1 & O2 & O3 & O4 & O5 & O6). pose proof ord_facts as O.
  constructor; try reflexivity.
  - constructor.
    + cbn. repeat constructor; cbn; intuition discriminate.
    + exists 0%nat, (NInner mx_root). repeat split.
    + intros n [<-|[]]. reflexivity.
    + intros n [<-|[]]. cbn. repeat constructor; cbn; intuition discriminate.
    + intros n k c s [<-|[]] Ec Es. destruct k as [|[|k]]; cbn in Ec, Es; [| |destruct k; discriminate]; inversion Ec; inversion Es; subst; eexists _, _; repeat split.
    + intros i m H. destruct i as [|[|[|i]]]; cbn in H; try discriminate; inversion H; subst m; cbn; try reflexivity; exists mx_root; split; try reflexivity; cbn; tauto.
  - intro v. unfold cx_G. constructor; [tauto|]. intros x y Hx Hy. lia.
  - intros l [<-|[<-|[]]]; reflexivity.
  - intros l v d Il E. destruct v as [|[|v]].
    + destruct Il as [<-|[<-|[]]]; cbn [nth_error l_dists cx_l1 cx_l2] in E; injection E as <-; cbn [mx_kinds nth fits]; [left; apply ramp_smooth|right; exists TWO; split; [reflexivity|lia]].
    + destruct Il as [<-|[<-|[]]]; cbn [nth_error l_dists cx_l1 cx_l2] in E; injection E as <-; repeat split; try reflexivity; repeat constructor; vm_compute; discriminate.
    + destruct Il as [<-|[<-|[]]]; destruct v; discriminate E.
  - intros l [<-|[<-|[]]]; cbn; lra.
  - intros l v s [<-|[<-|[]]] [E|[]]; injection E as <- <-; (split; [cbn; lia|]); cbn [mx_kinds nth suits]; unfold on_grid, wf, moderate, cx_G, below, above; cbn [lower upper left right];
      (split; [repeat split; try lia; intros; try discriminate; lia|right; lia]).
  - intros l v s d [<-|[<-|[]]] [E|[]] Ed; injection E as <- <-; cbn [nth_error l_dists cx_l1 cx_l2] in Ed; injection Ed as <-.
    + apply (mass_interval ramp below 0%Z 0 1); [exact (proj1 (ramp_smooth (fun _ => True)))|unfold cs_mem, finite, below; cbn [lower upper left right]; lia|left; split; reflexivity| |reflexivity].
      right; right. unfold below. cbn [upper]. assert (F : finite MID) by (unfold finite; lia). split; [exact F|]. pose proof (ramp_at MID F) as V. unfold ramp_value in V. destruct (Z.leb_spec 0 MID); [|lia]. destruct (Z.ltb_spec MID ONE); [lia|exact V].
    + apply mass_inside; [unfold cs_mem, finite, above; cbn [lower upper left right]; lia|reflexivity].
Qed.
(** The probability of a set of values. *)
Lemma cx_values : forall pr : mdist -> mset -> Q, (forall v d s, fits (cx_G v) (nth v mx_kinds None) d -> suits (cx_G v) (nth v mx_kinds None) s -> mass d s (pr d s)) ->
  forall l d, In l (leaves cx) -> nth_error (l_dists l) 1 = Some d -> forall s, (forall x, In x s -> (x < 2)%nat) -> mass d (inr s) (pr d (inr s)).
Proof.
  intros pr H l d Il Ed s Bs. apply (H 1%nat); [exact (mx_dists _ _ _ cx_wf l 1%nat d Il Ed)|]. cbn. exact Bs.
Qed.

Example C40_posterior_mixed_example : wf_mixed mx_kinds cx_G cx /\ let e := [(1%nat, inr [0%nat])] in
  wf_mquery mx_kinds cx_G e /\ (forall l v c, In l (leaves cx) -> In (v, inl (NC c)) e -> ~ pinned l v c) /\
  (forall v l p, In v [0%nat] -> In l (leaves cx) -> nth_error (l_dists l) v = Some (inl p) -> seamless p) /\
  (forall pr : mdist -> mset -> Q, (forall v d s, fits (cx_G v) (nth v mx_kinds None) d -> suits (cx_G v) (nth v mx_kinds None) s -> mass d s (pr d s)) ->
     weight pr cx e == 1 # 2 /\
     forall v x, In v [0%nat] -> finite x -> average pr cx e (fun l => slope_of l v x) == 0 \/ 1 # 100000000 < average pr cx e (fun l => slope_of l v x)) /\
  has_values (posterior cx [0%nat] e true) [(HALF, 1 # 4); (ONE, 1 # 2); (TWO, 1)] = true.
Proof.
  pose proof cx_order as (O1 & O2 & O3 & O4 & O5 & O6). pose proof ord_facts as O.
  split; [exact cx_wf|]. cbv zeta. split; [|split; [|split; [|split]]].
  - split; [repeat constructor; intros []|]. intros v s [E|[]]. injection E as <- <-. split; [cbn; lia|]. intros x [<-|[]]. cbn. lia.
  - intros l v c _ [E|[]]. discriminate E.
  - intros v l p [<-|[]] [<-|[<-|[]]] E; cbn [nth_error l_dists cx_l1 cx_l2] in E; injection E as <-; [exact ramp_seamless|]. left. exists TWO. split; [unfold finite; lia|reflexivity].
  - intros pr H.
    assert (V1 : pr (inr (DDist (SymDom [Some 10%Z; Some 20%Z]) [1 # 3; 2 # 3])) (inr [0%nat]) == 1 # 3).
    { pose proof (cx_values pr H cx_l1 _ (or_introl eq_refl) eq_refl [0%nat] ltac:(intros x [<-|[]]; lia)) as M. inversion M as [| | | |? ? ? E]; subst. rewrite E. reflexivity. }
    assert (V2 : pr (inr (DDist (SymDom [Some 10%Z; Some 20%Z]) [1; 0])) (inr [0%nat]) == 1).
    { pose proof (cx_values pr H cx_l2 _ (or_intror (or_introl eq_refl)) eq_refl [0%nat] ltac:(intros x [<-|[]]; lia)) as M. inversion M as [| | | |? ? ? E]; subst. rewrite E. reflexivity. }
    assert (Ew : weight pr cx [(1%nat, inr [0%nat])] == 1 # 2).
    { unfold weight, cx. cbn [leaves map Qsum fold_right fst snd l_dists cx_l1 cx_l2 nth_error l_prior]. rewrite V1, V2. reflexivity. }
    split; [exact Ew|]. intros v x [<-|[]] Fx. unfold average. rewrite Ew. unfold cx. cbn [leaves map Qsum]. unfold share, chance. cbn [fold_right fst snd l_dists cx_l1 cx_l2 nth_error l_prior].
    rewrite V1, V2. unfold slope_of. cbn [nth_error l_dists cx_l1 cx_l2]. rewrite (dirac_density TWO x) by (unfold finite; lia || exact Fx). unfold ramp. rewrite (unit_density x Fx).
    destruct (0 <=? x)%Z; [destruct (x <? ONE)%Z|]; [right|left|left]; vm_compute; reflexivity.
  - vm_compute. reflexivity.
Qed.

Example C40_posterior_restricted_example : let e := [(0%nat, inl (NC inside))] in
  wf_mquery mx_kinds cx_G e /\ (forall l v c, In l (leaves cx) -> In (v, inl (NC c)) e -> ~ pinned l v c) /\
  restrict cx cx_l1 0%nat (inl (NC inside)) = inl (NC inside) /\ In 0%nat (map fst (l_path cx_l1)) /\
  spread_cdf ramp /\ tiling ramp /\ Forall wf (ivs ramp) /\ roomy ramp inside /\ cdf_at ramp (lowermost inside) (1 # 4) /\ cdf_at ramp (uppermost inside) (1 # 2) /\
  (forall pr : mdist -> mset -> Q, (forall v d s, fits (cx_G v) (nth v mx_kinds None) d -> suits (cx_G v) (nth v mx_kinds None) s -> mass d s (pr d s)) ->
     chance pr cx_l2 e == 0 /\ chance pr cx_l1 e == 1 # 4 /\
     forall x, finite x -> finite (x + 1) -> let g := cut_off quarter HALF (1 # 4) (1 # 2) ramp_value in
       let d := average pr cx e (fun _ => (g (x + 1)%Z - g x) / (dval (x + 1) - dval x)) in d == 0 \/ 1 # 100000000 < d) /\
  has_values (posterior cx [0%nat] e true) [(quarter, 0); ((1021 * 2 ^ 52 + 2 ^ 51)%Z, 1 # 2); (HALF, 1)] = true.
Proof.
  pose proof cx_order as (O1 & O2 & O3 & O4 & O5 & O6). pose proof ord_facts as O. cbv zeta.
  assert (Sq : suits (cx_G 0%nat) None (inl (NC inside))).
  { unfold suits, on_grid, wf, moderate, cx_G, inside; cbn [lower upper left right]. split; [repeat split; try lia; intros; try discriminate; lia|right; lia]. }
  assert (Hq : cdf_at ramp quarter (1 # 4)).
  { right; right. assert (F : finite quarter) by (unfold finite; lia). split; [exact F|]. pose proof (ramp_at quarter F) as V. unfold ramp_value in V. destruct (Z.leb_spec 0 quarter); [|lia]. destruct (Z.ltb_spec quarter ONE); [|lia].
    apply (plf_is_wd _ _ _ _) with (2 := V). vm_compute. reflexivity. }
  assert (Hh : cdf_at ramp HALF (1 # 2)).
  { right; right. assert (F : finite HALF) by (unfold finite; lia). split; [exact F|]. pose proof (ramp_at HALF F) as V. unfold ramp_value in V. destruct (Z.leb_spec 0 HALF); [|lia]. destruct (Z.ltb_spec HALF ONE); [|lia].
    apply (plf_is_wd _ _ _ _) with (2 := V). vm_compute. reflexivity. }
  split; [|split; [|split; [|split; [|split; [|split; [|split; [|split; [|split; [|split; [|split]]]]]]]]]].
  - split; [repeat constructor; intros []|]. intros v s [E|[]]. injection E as <- <-. split; [cbn; lia|exact Sq].
  - intros l v c Il [E|[]] (x & X). injection E as <- <-. destruct Il as [<-|[<-|[]]].
    + assert (In1 : forall y, (quarter <= y <= HALF)%Z -> y = x).
      { intros y By. apply X. split; [unfold cs_mem, finite, inside; cbn [lower upper left right]; lia|]. intros c' [E|[]]. injection E as <-. unfold cs_mem, finite, below; cbn [lower upper left right]. lia. }
      pose proof (In1 quarter ltac:(lia)). pose proof (In1 HALF ltac:(lia)). lia.
    + destruct (proj2 (X x) eq_refl) as [M1 M2]. specialize (M2 above (or_introl eq_refl)). unfold cs_mem, inside in M1. unfold cs_mem, above in M2. cbn [lower upper left right] in M1, M2. lia.
  - vm_compute. reflexivity.
  - left. reflexivity.
  - exact unit_spread.
  - exact unit_tiling.
  - apply C24_example.
  - apply C24_example.
  - exact Hq.
  - exact Hh.
  - intros pr H. assert (C2 : chance pr cx_l2 [(0%nat, inl (NC inside))] == 0).
    { unfold chance. cbn [fold_right fst snd l_dists cx_l2 nth_error]. assert (M : mass (inl (dirac TWO)) (inl (NC inside)) (pr (inl (dirac TWO)) (inl (NC inside)))).
      { apply (H 0%nat); [|exact Sq]. right. exists TWO. split; [reflexivity|lia]. }
      inversion M as [? ? ? N E|? ? z ya yb ? L I A B E|z ? ? I E|z ? ? I E|]; subst; try (rewrite E; ring).
      * exfalso. destruct (ln_first _ L) as (i & r & Er & Lr). apply (f_equal (@length _)) in Er. cbn in Er. lia.
      * exfalso. unfold cs_mem, inside in I. cbn [lower upper left right] in I. lia. }
    assert (C1 : chance pr cx_l1 [(0%nat, inl (NC inside))] == 1 # 4).
    { unfold chance. cbn [fold_right fst snd l_dists cx_l1 nth_error]. assert (M : mass (inl ramp) (inl (NC inside)) (pr (inl ramp) (inl (NC inside)))).
      { apply (H 0%nat); [|exact Sq]. left. apply ramp_smooth. }
      inversion M as [? ? ? N E|? ? z ya yb ? L I A B E|z ? ? I E|z ? ? I E|]; subst.
      * exfalso. apply (N HALF). unfold cs_mem, finite, inside; cbn [lower upper left right]; lia.
      * rewrite E. rewrite (cdf_at_fun _ _ _ _ A Hq), (cdf_at_fun _ _ _ _ B Hh). reflexivity. }
    split; [exact C2|]. split; [exact C1|]. intros x Fx Fx'. cbv zeta.
    assert (Ew : weight pr cx [(0%nat, inl (NC inside))] == 3 # 16).
    { change (weight pr cx [(0%nat, inl (NC inside))]) with (Qsum [l_prior cx_l1 * chance pr cx_l1 [(0%nat, inl (NC inside))]; l_prior cx_l2 * chance pr cx_l2 [(0%nat, inl (NC inside))]]). cbn [Qsum]. rewrite C1, C2. reflexivity. }
    set (d := (cut_off quarter HALF (1 # 4) (1 # 2) ramp_value (x + 1) - cut_off quarter HALF (1 # 4) (1 # 2) ramp_value x) / (dval (x + 1) - dval x)).
    assert (Ea : average pr cx [(0%nat, inl (NC inside))] (fun _ => d) == d).
    { unfold average. rewrite Ew. cbn [cx leaves map Qsum]. unfold share. rewrite C1, C2. cbn [l_prior cx_l1 cx_l2]. unfold Qdiv. change (/ (3 # 16)) with (16 # 3). ring. }
    rewrite Ea. pose proof (dval_lt x (x + 1) ltac:(lia)) as Dl. assert (D4 : dval quarter == 1 # 4) by (vm_compute; reflexivity). assert (D2 : dval HALF == 1 # 2) by (vm_compute; reflexivity).
    assert (Ed : d == 0 \/ d == 4).
    { unfold d, cut_off, ramp_value. destruct (Z.ltb_spec (x + 1) quarter), (Z.ltb_spec x quarter); try lia.
      - left. unfold Qdiv. ring.
      - assert (x + 1 = quarter)%Z as -> by lia. destruct (Z.leb_spec HALF quarter); [lia|]. destruct (Z.leb_spec 0 quarter); [|lia]. destruct (Z.ltb_spec quarter ONE); [|lia]. left. rewrite D4. unfold Qdiv. ring.
      - destruct (Z.leb_spec HALF (x + 1)), (Z.leb_spec HALF x); try lia.
        + left. unfold Qdiv. ring.
        + assert (E : (x + 1 = HALF)%Z) by lia. rewrite E in *. rewrite D2 in *. destruct (Z.leb_spec 0 x); [|lia]. destruct (Z.ltb_spec x ONE); [|lia]. right. field. lra.
        + destruct (Z.leb_spec 0 (x + 1)), (Z.leb_spec 0 x); try lia. destruct (Z.ltb_spec (x + 1) ONE), (Z.ltb_spec x ONE); try lia. right. field. lra. }
    destruct Ed as [Ed|Ed]; rewrite Ed; [left; reflexivity|right; reflexivity].
  - vm_compute. reflexivity.
Qed.

(** Fitted leaves: samples 0, 0, 1 (in leaf 1) have a jump at 0, which the posterior
    loses.  [infer] says 5/8 (C39_mixed_example, for at least 1/2), the posterior's cdf
    puts 3/8 - 1/4 below 1/2. *)
Theorem C40_posterior_fitted_refuted : exists kinds G rows (J : mtree) v x, fitted_tree (1 # 100) kinds G rows J /\ G v x /\ (Z.abs x < ORD_53)%Z /\
  match posterior J [v] [] true, infer J [(v, inl (NC (CS (- ORD_INF) x EXC INC)))] [] true with
  | Ok (Some [(_, inl q)]), Ok (Some r) => negb (has_values (posterior J [v] [] true) [(x, r)]) && has_values (posterior J [v] [] true) [(x, 3 # 16)] && Qeq_bool r (9 # 16) | _, _ => false end = true.
Proof.
  exists mx_kinds, mx_G, mx_rows, mx, 0%nat, HALF. split; [exact (proj1 C39_mixed_example)|]. split; [right; left; reflexivity|]. split; [vm_compute; reflexivity|]. vm_compute. reflexivity.
Qed.
Print Assumptions C40_posterior_fitted_refuted.

Example C40_posterior_jumps_example : (forall v l p, In v [0%nat] -> In l (leaves mx) -> nth_error (l_dists l) v = Some (inl p) -> component p) /\
  has_values (posterior mx [0%nat] [(1%nat, inr [0%nat])] true) [(0%Z, 0); (HALF, 1 # 8); (TWO, 1)] = true.
Proof.
  split; [|vm_compute; reflexivity]. intros v l p [<-|[]] [<-|[<-|[]]] E; cbn [nth_error l_dists mx_l1 mx_l2] in E; injection E as <-.
  - destruct (C25_fitted (1 # 100) [0; 0; 1023 * 2 ^ 52]%Z) as (p & lo & hi & E & C & _); [discriminate|repeat constructor|]. unfold fit1 in *. match goal with |- component ?t => replace t with p; [exact C|] end. generalize E. clear. intro E. apply (f_equal (fun r => match r with Ok p => p | Err _ => [] end)) in E. symmetry. exact E.
  - destruct (C25_fitted (1 # 100) [1024 * 2 ^ 52]%Z) as (p & lo & hi & E & C & _); [discriminate|repeat constructor|]. unfold fit1 in *. match goal with |- component ?t => replace t with p; [exact C|] end. generalize E. clear. intro E. apply (f_equal (fun r => match r with Ok p => p | Err _ => [] end)) in E. symmetry. exact E.
Qed.

Example C55_mixed_example : wf_mixed mx_kinds cx_G cx /\ row_ok mx_kinds [inl HALF; inr 1%nat] /\
  match likelihood cx [inl HALF; inr 1%nat], likelihood cx [inl TWO; inr 0%nat] with Ok r, Ok r' => Qeq_bool r (1 # 2) && Qeq_bool r' (1 # 4) | _, _ => false end = true.
Proof. split; [exact cx_wf|]. split; [repeat constructor; cbn; lia|]. vm_compute. reflexivity. Qed.
