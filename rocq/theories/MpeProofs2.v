(** From the distributions to the enumeration; the first k; non-termination;
    the leaves of a tree. *)
Require Import QArith Lqa List Bool Arith Lia Permutation Sorted Morphisms.
Require Import Verif.Base Verif.NumBase Verif.MpeModel Verif.MpeSpec Verif.MpeProofs.
Import ListNotations.
Open Scope Q_scope.

(** ** Sorting *)
Section Sorting.
  Variable V : Type.
  Lemma insert_w_perm : forall (x : V * Q) l, Permutation (insert_w V x l) (x :: l).
  Proof.
    intros x l. induction l as [|y l IH]; cbn; [apply Permutation_refl|].
    destruct (Qltb (snd y) (snd x)); [apply Permutation_refl|].
    eapply perm_trans; [apply perm_skip; exact IH|apply perm_swap].
  Qed.
  Lemma insert_w_sorted : forall (x : V * Q) l, StronglySorted (fun a b => snd b <= snd a) l -> StronglySorted (fun a b => snd b <= snd a) (insert_w V x l).
  Proof.
    intros x l. induction l as [|y l IH]; intro H; cbn [insert_w].
    - constructor; constructor.
    - unfold Qltb. destruct (Qltb_spec (snd y) (snd x)) as [L|L].
      + constructor; [exact H|]. apply StronglySorted_inv in H. destruct H as [_ F]. constructor; [lra|].
        eapply Forall_impl; [|exact F]. cbn. intros z Hz. lra.
      + apply StronglySorted_inv in H. destruct H as [H F]. constructor; [apply IH; exact H|].
        eapply Permutation_Forall; [symmetry; apply insert_w_perm|]. constructor; [lra|exact F].
  Qed.
  Lemma sort_w_gen : forall l m, StronglySorted (fun a b : V * Q => snd b <= snd a) m ->
    Permutation (fold_left (fun m x => insert_w V x m) l m) (l ++ m) /\
    StronglySorted (fun a b : V * Q => snd b <= snd a) (fold_left (fun m x => insert_w V x m) l m).
  Proof.
    induction l as [|x l IH]; intros m H; cbn [fold_left app].
    - split; [apply Permutation_refl|exact H].
    - destruct (IH (insert_w V x m) (insert_w_sorted x m H)) as [P S']. split; [|exact S'].
      eapply perm_trans; [exact P|]. eapply perm_trans; [apply Permutation_app_head; apply insert_w_perm|].
      symmetry. apply Permutation_middle.
  Qed.
  Lemma sort_w_perm : forall l, Permutation (sort_w V l) l.
  Proof. intro l. unfold sort_w. pose proof (proj1 (sort_w_gen l [] (SSorted_nil _))) as P. rewrite app_nil_r in P. exact P. Qed.
  Lemma sort_w_sorted : forall l, StronglySorted (fun a b => snd b <= snd a) (sort_w V l).
  Proof. intro l. apply (sort_w_gen l [] (SSorted_nil _)). Qed.
  Lemma filter_sorted : forall A (R : A -> A -> Prop) f l, StronglySorted R l -> StronglySorted R (filter f l).
  Proof.
    intros A R f l H. induction H as [|x l H IH F]; cbn; [constructor|].
    destruct (f x); [|exact IH]. constructor; [exact IH|]. apply Forall_forall. intros y I. apply filter_In in I.
    eapply Forall_forall in F; [exact F|apply I].
  Qed.
End Sorting.

Lemma insert_v_perm : forall len x l, Permutation (insert_v len x l) (x :: l).
Proof.
  intros len x l. induction l as [|y l IH]; cbn [insert_v]; [apply Permutation_refl|].
  destruct (len x <? len y)%nat; [apply Permutation_refl|].
  eapply perm_trans; [apply perm_skip; exact IH|apply perm_swap].
Qed.
Lemma order_by_perm : forall len xs, Permutation (order_by len xs) xs.
Proof.
  intros len xs. unfold order_by.
  assert (G : forall m, Permutation (fold_left (fun m x => insert_v len x m) xs m) (xs ++ m)).
  { induction xs as [|x xs IH]; intro m; cbn; [apply Permutation_refl|].
    eapply perm_trans; [apply IH|]. eapply perm_trans; [apply Permutation_app_head; apply insert_v_perm|].
    symmetry. apply Permutation_middle. }
  pose proof (G []) as P. rewrite app_nil_r in P. exact P.
Qed.

Lemma qmaxl_spec : forall l x, x <= qmaxl x l /\ (forall y, In y l -> y <= qmaxl x l) /\ (qmaxl x l = x \/ In (qmaxl x l) l).
Proof.
  induction l as [|z l IH]; intro x; cbn [qmaxl fold_left].
  - split; [lra|]. split; [contradiction|left; reflexivity].
  - fold (qmaxl (if Qltb x z then z else x) l). unfold Qltb. destruct (Qltb_spec x z) as [L|L].
    + destruct (IH z) as (A & B & C). split; [lra|]. split.
      * intros y [<-|I]; [exact A|apply B; exact I].
      * right. destruct C as [->|C]; [left; reflexivity|right; exact C].
    + destruct (IH x) as (A & B & C). split; [exact A|]. split.
      * intros y [<-|I]; [lra|apply B; exact I].
      * destruct C as [C|C]; [left; exact C|right; right; exact C].
Qed.

Lemma nth_map_d : forall A B (f : A -> B) l i a b, (i < length l)%nat -> nth i (map f l) b = f (nth i l a).
Proof. intros A B f l. induction l as [|x l IH]; intros [|i] a b H; cbn in *; try lia; [reflexivity|]. apply IH. lia. Qed.
Lemma mapM_len : forall A B (f : A -> res B) l r, mapM f l = Ok r -> Forall2 (fun x y => f x = Ok y) l r.
Proof.
  intros A B f l. induction l as [|x l IH]; intros r H; cbn in H.
  - injection H as <-. constructor.
  - destruct (f x) as [y|e] eqn:E; cbn in H; [|discriminate]. destruct (mapM f l) as [ys|e]; cbn in H; [|discriminate].
    injection H as <-. constructor; [exact E|]. apply IH. reflexivity.
Qed.

Lemma F2_length : forall A B (R : A -> B -> Prop) l m, Forall2 R l m -> length l = length m.
Proof. intros A B R l m H. induction H; cbn; congruence. Qed.
Lemma skipn_S : forall A n (l : list A), skipn (S n) l = tl (skipn n l).
Proof. intros A n. induction n as [|n IH]; intros [|x l]; try reflexivity. cbn [skipn]. destruct n; [destruct l; reflexivity|]. exact (IH l). Qed.
Lemma F2_cons : forall A B (R : A -> B -> Prop) x l y m, Forall2 R (x :: l) (y :: m) -> R x y /\ Forall2 R l m.
Proof. intros A B R x l y m H. inversion H; subst. split; assumption. Qed.

Section Init.
  Variable V : Type.
  Variable veqb : V -> V -> bool.
  Hypothesis veqb_ok : forall a b, veqb a b = true <-> a = b.

  (** Dictionaries. *)
  Lemma vput_in : forall d v q u r, In (u, r) (vput V veqb d v q) -> (u = v /\ r = q) \/ In (u, r) d.
  Proof.
    induction d as [|[u p] d IH]; intros v q u' r I; cbn in I.
    - destruct I as [E|[]]. injection E as <- <-. left. split; reflexivity.
    - destruct (veqb v u) eqn:E.
      + apply veqb_ok in E. subst u. destruct I as [E|I]; [injection E as <- <-; left; split; reflexivity|right; right; exact I].
      + destruct I as [I|I]; [right; left; exact I|]. apply IH in I. destruct I as [I|I]; [left; exact I|right; right; exact I].
  Qed.
  Lemma vput_keys : forall d v q u, In u (map fst (vput V veqb d v q)) <-> u = v \/ In u (map fst d).
  Proof.
    induction d as [|[u p] d IH]; intros v q u'; cbn.
    - split; intros [H|[]]; left; congruence.
    - destruct (veqb v u) eqn:E; cbn.
      + apply veqb_ok in E. subst u. split; [tauto|]. intros [->|H]; [left; reflexivity|exact H].
      + rewrite IH. tauto.
  Qed.
  Lemma vput_nodup : forall d v q, NoDup (map fst d) -> NoDup (map fst (vput V veqb d v q)).
  Proof.
    induction d as [|[u p] d IH]; intros v q H; cbn in *.
    - constructor; [intros []|constructor].
    - apply NoDup_cons_iff in H. destruct H as [N H]. destruct (veqb v u) eqn:E; cbn.
      + constructor; assumption.
      + constructor; [|apply IH; exact H]. rewrite vput_keys. intros [->|I]; [|contradiction].
        assert (veqb v v = true) by (apply veqb_ok; reflexivity). congruence.
  Qed.
  Lemma domain_spec : forall d, NoDup (map fst (domain_of V veqb d)) /\
    (forall v, In v (map fst (domain_of V veqb d)) <-> exists q, In (v, q) (k_mpe V d)) /\
    (forall v q, In (v, q) (domain_of V veqb d) -> In (v, q) (k_mpe V d)).
  Proof.
    intro d. unfold domain_of.
    assert (G : forall l m, NoDup (map fst m) ->
      let r := fold_left (fun m vq => vput V veqb m (fst vq) (snd vq)) l m in
      NoDup (map fst r) /\ (forall v, In v (map fst r) <-> In v (map fst m) \/ exists q, In (v, q) l) /\
      (forall v q, In (v, q) r -> In (v, q) m \/ In (v, q) l)).
    { induction l as [|[v q] l IH]; intros m H; cbn [fold_left fst snd].
      - repeat split; try assumption; try tauto. intros [I|(q & [])]. exact I.
      - destruct (IH _ (vput_nodup m v q H)) as (A & B & C). repeat split; [exact A| | |].
        + intro I. apply B in I. destruct I as [I|(r & I)].
          * apply vput_keys in I. destruct I as [->|I]; [right; exists q; left; reflexivity|left; exact I].
          * right. exists r. right. exact I.
        + intro I. apply B. destruct I as [I|(r & [E|I])].
          * left. apply vput_keys. right. exact I.
          * injection E as -> ->. left. apply vput_keys. left. reflexivity.
          * right. exists r. exact I.
        + intros u r I. apply C in I. destruct I as [I|I]; [|right; right; exact I].
          apply vput_in in I. destruct I as [[-> ->]|I]; [right; left; reflexivity|left; exact I]. }
    destruct (G (k_mpe V d) [] (NoDup_nil _)) as (A & B & C). repeat split; try assumption.
    - intro I. apply B in I. destruct I as [[]|I]. exact I.
    - intro I. apply B. right. exact I.
    - intros v q I. apply C in I. destruct I as [[]|I]. exact I.
  Qed.
  Lemma vget_in : forall d v, In v (map fst d) -> exists q, vget V veqb d v = Ok q /\ In (v, q) d.
  Proof.
    induction d as [|[u p] d IH]; intros v I; [destruct I|]. cbn.
    destruct (veqb v u) eqn:E.
    - apply veqb_ok in E. subst u. exists p. split; [reflexivity|left; reflexivity].
    - destruct I as [<-|I].
      + cbn in E. assert (veqb u u = true) by (apply veqb_ok; reflexivity). congruence.
      + destruct (IH v I) as (q & A & B). exists q. split; [exact A|right; exact B].
  Qed.

  (** The distributions the solver is given: every state has a positive likelihood,
      which is its mass. *)
  Definition sound (d : dist V) : Prop := k_mpe V d <> [] /\ forall v q, In (v, q) (k_mpe V d) -> 0 < q /\ mass V d v == q.

  Variable div : Q.
  Hypothesis div_pos : 0 < div.
  Definition factor (d : dist V) : Q := if numeric V d then div else 1.
  Lemma factor_pos : forall d, 0 < factor d.
  Proof. intro d. unfold factor. destruct (numeric V d); [exact div_pos|reflexivity]. Qed.

  Lemma weight_mass : forall d v, weight_of V div d v * factor d == mass V d v.
  Proof. intros d v. unfold weight_of, factor. destruct (numeric V d); [field; lra|ring]. Qed.

  Lemma con_spec : forall d, sound d ->
    let c := constraints_of V veqb div d in
    StronglySorted (fun a b => snd b <= snd a) c /\
    (forall v w, In (v, w) c -> 0 < w /\ w = weight_of V div d v) /\
    NoDup (map fst c) /\ (forall v, In v (map fst c) <-> exists q, In (v, q) (k_mpe V d)) /\ c <> [].
  Proof.
    intros d (NE & S') c. destruct (domain_spec d) as (A & B & C).
    set (l := map (fun vq => (fst vq, weight_of V div d (fst vq))) (domain_of V veqb d)) in *.
    assert (Fp : forall vw, In vw l -> 0 < snd vw).
    { intros [v w] I. unfold l in I. apply in_map_iff in I. destruct I as ([u q] & E & I). cbn in E. injection E as -> <-.
      apply C in I. destruct (S' _ _ I) as [P M]. cbn.
      pose proof (weight_mass d v) as W. pose proof (factor_pos d). rewrite M in W.
      destruct (Qlt_le_dec 0 (weight_of V div d v)) as [L|L]; [exact L|]. nra. }
    assert (F : c = sort_w V l).
    { unfold c, constraints_of. fold l. apply filter_all. intros vw I. apply negb_true_iff.
      destruct (Qeqb_spec (snd vw) 0) as [E|E]; [|reflexivity].
      assert (0 < snd vw); [|lra]. apply Fp. eapply Permutation_in; [apply sort_w_perm|exact I]. }
    assert (P : Permutation c l) by (rewrite F; apply sort_w_perm).
    assert (Pk : Permutation (map fst c) (map fst (domain_of V veqb d))).
    { eapply perm_trans; [apply Permutation_map; exact P|]. unfold l. rewrite map_map. cbn. apply Permutation_refl. }
    split; [rewrite F; apply sort_w_sorted|]. split; [|split; [|split]].
    - intros v w I. pose proof (Permutation_in _ P I) as J. split; [apply (Fp (v, w)); exact J|].
      unfold l in J. apply in_map_iff in J. destruct J as ([u q] & E & _). cbn in E. injection E as <- <-. reflexivity.
    - eapply Permutation_NoDup; [symmetry; exact Pk|exact A].
    - intro v. rewrite <- B. split; intro I; (eapply Permutation_in; [|exact I]); [exact Pk|symmetry; exact Pk].
    - intro E0. destruct (k_mpe V d) as [|[v q] r] eqn:Ek; [contradiction|].
      assert (I : In v (map fst (domain_of V veqb d))) by (apply B; exists q; left; reflexivity).
      apply (Permutation_in _ (Permutation_sym Pk)) in I. rewrite E0 in I. destruct I.
  Qed.

  (** Lower bounds. *)
  Lemma lb_skip : forall xs bs x, ~ In x xs -> lb_get (lower_bounds xs bs) x = 1.
  Proof.
    induction xs as [|y xs IH]; intros bs x N; cbn; [destruct bs; reflexivity|].
    destruct bs as [|b bs]; cbn; [reflexivity|].
    destruct (Nat.eqb_spec x y) as [->|]; [exfalso; apply N; left; reflexivity|]. apply IH. intro I. apply N. right. exact I.
  Qed.
  Definition prodb (bs : list Q) : Q := fold_right (fun b m => m * b) 1 bs.
  Lemma lb_at : forall pre x post bs, length bs = length (pre ++ x :: post) -> ~ In x pre ->
    lb_get (lower_bounds (pre ++ x :: post) bs) x = prodb (skipn (S (length pre)) bs).
  Proof.
    induction pre as [|y pre IH]; intros x post bs L N; destruct bs as [|b bs]; try (cbn in L; discriminate).
    - cbn. rewrite Nat.eqb_refl. reflexivity.
    - cbn [app lower_bounds lb_get length skipn]. destruct (Nat.eqb_spec x y) as [->|]; [exfalso; apply N; left; reflexivity|].
      apply IH; [cbn in L; lia|]. intro I. apply N. right. exact I.
  Qed.

  (** ** The solver built by [init] meets the assumptions of the search *)
  Variable ds : list (dist V).
  Hypothesis ds_sound : Forall sound ds.
  Let cs := map (constraints_of V veqb div) ds.
  Let xs := order_of V cs.

  Lemma xs_perm : Permutation xs (seq 0 (length cs)).
  Proof. apply order_by_perm. Qed.
  Lemma xs_lt : forall x, In x xs -> (x < length ds)%nat.
  Proof.
    intros x I. apply (Permutation_in _ xs_perm) in I. apply in_seq in I. unfold cs in I. rewrite map_length in I. lia.
  Qed.
  Variable d0 : dist V.
  Lemma cs_nth : forall x, (x < length ds)%nat -> nth x cs [] = constraints_of V veqb div (nth x ds d0).
  Proof. intros x L. unfold cs. apply nth_map_d. exact L. Qed.
  Lemma sound_nth : forall x, (x < length ds)%nat -> sound (nth x ds d0).
  Proof. intros x L. eapply Forall_forall in ds_sound; [exact ds_sound|]. apply nth_In. exact L. Qed.

  Lemma best_spec : forall c, c <> [] -> exists b, best V c = Ok b /\ (forall v w, In (v, w) c -> w <= b) /\ (exists v, In (v, b) c).
  Proof.
    intros [|[v w] c] N; [contradiction|]. cbn. eexists. split; [reflexivity|].
    destruct (qmaxl_spec (map snd c) w) as (A & B & C). split.
    - intros u r [E|I]; [injection E as <- <-; exact A|]. apply B. apply (in_map snd) in I. exact I.
    - destruct C as [->|C]; [exists v; left; reflexivity|]. apply in_map_iff in C. destruct C as ([u r] & <- & I). exists u. right. exact I.
  Qed.
  Lemma bests : exists bs, mapM (fun x => best V (nth x cs [])) xs = Ok bs /\
    Forall2 (fun x b => (forall v w, In (v, w) (nth x cs []) -> w <= b) /\ 0 < b) xs bs.
  Proof.
    assert (G : forall l, (forall x, In x l -> In x xs) -> exists bs, mapM (fun x => best V (nth x cs [])) l = Ok bs /\
      Forall2 (fun x b => (forall v w, In (v, w) (nth x cs []) -> w <= b) /\ 0 < b) l bs).
    { induction l as [|x l IH]; intro H.
      - exists []. split; [reflexivity|constructor].
      - destruct IH as (bs & E & F); [intros; apply H; right; assumption|].
        pose proof (xs_lt x (H x (or_introl eq_refl))) as L.
        destruct (con_spec _ (sound_nth x L)) as (_ & P & _ & _ & NE). rewrite <- (cs_nth x L) in P, NE.
        destruct (best_spec _ NE) as (b & Eb & Mb & v & Ib).
        exists (b :: bs). split; [cbn; rewrite Eb; cbn; rewrite E; reflexivity|].
        constructor; [|exact F]. split; [exact Mb|]. apply (P v b Ib). }
    apply G. auto.
  Qed.

  Lemma Forall2_skipn : forall A B (R : A -> B -> Prop) n l m, Forall2 R l m -> Forall2 R (skipn n l) (skipn n m).
  Proof. intros A B R n. induction n as [|n IH]; intros l m H; [exact H|]. destruct H; cbn; [constructor|]. apply IH. assumption. Qed.
  Lemma prodb_pos : forall l bs (P : nat -> Q -> Prop), Forall2 (fun x b => P x b /\ 0 < b) l bs -> 0 < prodb bs.
  Proof.
    intros l bs P H. induction H as [|x b l bs [_ Hb] H IH]; [reflexivity|]. cbn [prodb fold_right]. fold (prodb bs).
    apply Qmult_lt_0_compat; assumption.
  Qed.

  Theorem init_ok : forall bs, mapM (fun x => best V (nth x cs [])) xs = Ok bs ->
    Forall2 (fun x b => (forall v w, In (v, w) (nth x cs []) -> w <= b) /\ 0 < b) xs bs ->
    let s := Solver V (map (numeric V) ds) (map (domain_of V veqb) ds) cs (lower_bounds xs bs) in
    (forall x v w, In (v, w) (con V s x) -> 0 < w) /\
    (forall x, StronglySorted (fun a b => snd b <= snd a) (con V s x)) /\
    (forall x, In x (order V s) -> con V s x <> []) /\
    (forall pre x, order V s = pre ++ [x] -> lb_get (lb V s) x == 1) /\
    (forall pre x y post v w, order V s = pre ++ x :: y :: post -> In (v, w) (con V s y) -> w * lb_get (lb V s) y <= lb_get (lb V s) x) /\
    (forall x, In x (order V s) -> 0 < lb_get (lb V s) x) /\
    (forall x v w, In (v, w) (con V s x) -> exists q, vget V veqb (nth x (domains V s) []) v = Ok q /\ q == w * factor (nth x ds d0)).
  Proof.
    intros bs E F s. change (order V s) with xs. change (lb V s) with (lower_bounds xs bs).
    assert (Cn : forall x, (x < length ds)%nat -> con V s x = constraints_of V veqb div (nth x ds d0)) by (intros x L; apply cs_nth; exact L).
    assert (Lt : forall x vw, In vw (con V s x) -> (x < length ds)%nat).
    { intros x vw I. destruct (le_lt_dec (length ds) x) as [L|L]; [|exact L]. unfold con in I. cbn in I.
      rewrite nth_overflow in I; [destruct I|]. unfold cs. rewrite map_length. exact L. }
    assert (Len : length bs = length xs) by (symmetry; eapply F2_length; exact F).
    assert (ND : NoDup xs) by (eapply Permutation_NoDup; [symmetry; exact xs_perm|apply seq_NoDup]).
    assert (At : forall pre x post, xs = pre ++ x :: post -> lb_get (lower_bounds xs bs) x = prodb (skipn (S (length pre)) bs)).
    { intros pre x post S0. rewrite S0 at 1. apply lb_at; [rewrite Len, S0; reflexivity|].
      rewrite S0 in ND. apply NoDup_remove_2 in ND. intro I. apply ND. apply in_or_app. left. exact I. }
    split; [|split; [|split; [|split; [|split; [|split]]]]].
    - intros x v w I. pose proof (Lt _ _ I) as L. rewrite (Cn x L) in I. destruct (con_spec _ (sound_nth x L)) as (_ & P & _). apply (P v w I).
    - intro x. destruct (le_lt_dec (length ds) x) as [L|L].
      + unfold con. cbn. rewrite nth_overflow; [constructor|]. unfold cs. rewrite map_length. exact L.
      + rewrite (Cn x L). apply (con_spec _ (sound_nth x L)).
    - intros x I. pose proof (xs_lt x I) as L. rewrite (Cn x L). apply (con_spec _ (sound_nth x L)).
    - intros pre x S0. rewrite (At _ _ _ S0). rewrite skipn_all2; [reflexivity|]. rewrite Len, S0, app_length. cbn. lia.
    - intros pre x y post v w S0 I. rewrite (At _ _ _ S0).
      assert (S1 : xs = (pre ++ [x]) ++ y :: post) by (rewrite S0, <- app_assoc; reflexivity).
      rewrite (At _ _ _ S1). rewrite app_length. cbn [length]. rewrite Nat.add_1_r.
      pose proof (Forall2_skipn _ _ _ (S (length pre)) _ _ F) as F'.
      assert (K : skipn (S (length pre)) xs = y :: post).
      { rewrite S1. rewrite skipn_app. rewrite app_length. cbn [length]. rewrite Nat.add_1_r, Nat.sub_diag.
        rewrite skipn_all2 by (rewrite app_length; cbn; lia). reflexivity. }
      rewrite K in F'.
      destruct (skipn (S (length pre)) bs) as [|b bs'] eqn:Eb; [inversion F'|].
      assert (Eb' : skipn (S (S (length pre))) bs = bs').
      { rewrite skipn_S, Eb. reflexivity. }
      rewrite Eb'. apply F2_cons in F'. destruct F' as [[Hy Hb] F']. cbn [prodb fold_right]. fold (prodb bs').
      rewrite (Qmult_comm (prodb bs') b). apply Qmult_le_compat_r.
      + apply (Hy v w). exact I.
      + pose proof (prodb_pos _ _ _ F'). lra.
    - intros x I. apply in_split in I. destruct I as (pre & post & S0). rewrite (At _ _ _ S0).
      apply (prodb_pos (skipn (S (length pre)) xs) _ (fun x b => forall v w, In (v, w) (nth x cs []) -> w <= b)). apply Forall2_skipn. exact F.
    - intros x v w I. pose proof (Lt _ _ I) as L. rewrite (Cn x L) in I. pose proof (sound_nth x L) as Sx.
      destruct (con_spec _ Sx) as (_ & P & _ & Ks & _). destruct (P v w I) as (_ & ->).
      pose proof (proj1 (Ks v) (in_map fst _ _ I)) as J.
      destruct (domain_spec (nth x ds d0)) as (_ & B & C).
      apply B in J. destruct (vget_in _ _ J) as (q & Eq & Iq). exists q. split.
      + change (domains V s) with (map (domain_of V veqb) ds). rewrite (nth_map_d _ _ _ _ _ d0) by exact L. exact Eq.
      + apply C in Iq. destruct Sx as [_ Sx]. destruct (Sx v q Iq) as [_ M]. rewrite weight_mass, M. reflexivity.
  Qed.
End Init.
