(** The branch-and-bound search visits every combination once, in order. *)
Require Import QArith Lqa List Bool Arith Lia Permutation Sorted Morphisms.
Require Import Verif.Base Verif.NumBase Verif.MpeModel Verif.MpeSpec.
Import ListNotations.
Open Scope Q_scope.

Lemma hpush_perm : forall A (b : A -> A -> bool) x h, Permutation (hpush b x h) (x :: h).
Proof.
  intros A b x h. induction h as [|y h IH]; cbn; [apply Permutation_refl|].
  destruct (b x y); [apply Permutation_refl|].
  eapply perm_trans; [apply perm_skip; exact IH|apply perm_swap].
Qed.
Lemma hpush_forall : forall A (b : A -> A -> bool) (P : A -> Prop) x h, P x -> Forall P h -> Forall P (hpush b x h).
Proof.
  intros A b P x h Hx Hh. eapply Permutation_Forall; [symmetry; apply hpush_perm|]. constructor; assumption.
Qed.
Lemma Permutation_flat_map_local : forall A B (f : A -> list B) l l', Permutation l l' -> Permutation (flat_map f l) (flat_map f l').
Proof. intros. apply Permutation_flat_map. assumption. Qed.

Section Proofs.
  Variable V : Type.
  Variable veqb : V -> V -> bool.
  Variable s : solver V.
  Notation asg := (asg V).
  Notation node := (node V).
  Notation sol := (sol V).
  Let ord := order V s.
  Let cn := con V s.

  Hypothesis Hperm : Permutation ord (seq 0 (nvars V s)).
  Hypothesis Hkept : forall pre x post, ord = pre ++ x :: post -> post <> [] -> nth x (kept V s) false = true.
  Hypothesis Hpos : forall x v w, In (v, w) (cn x) -> 0 < w.
  Hypothesis Hsort : forall x, StronglySorted (fun a b => snd b <= snd a) (cn x).
  Hypothesis Hne : forall x, In x ord -> cn x <> [].
  Hypothesis Hlast : forall pre x, ord = pre ++ [x] -> lb_get (lb V s) x == 1.
  Hypothesis Hlb : forall pre x y post v w, ord = pre ++ x :: y :: post -> In (v, w) (cn y) -> w * lb_get (lb V s) y <= lb_get (lb V s) x.
  Hypothesis Hlbpos : forall x, In x ord -> 0 < lb_get (lb V s) x.

  Lemma ord_nodup : NoDup ord.
  Proof. eapply Permutation_NoDup; [symmetry; exact Hperm|apply seq_NoDup]. Qed.

  Inductive wrel : asg -> Q -> Prop :=
  | w_nil : forall q, q == 1 -> wrel [] q
  | w_snoc : forall a r x v w q, wrel a r -> In (v, w) (cn x) -> q == r * w -> wrel (a ++ [(x, v)]) q.

  Lemma wrel_pos : forall a q, wrel a q -> 0 < q.
  Proof.
    intros a q H. induction H as [q E|a r x v w q H IH I E].
    - lra.
    - rewrite E. apply Hpos in I. nra.
  Qed.
  Lemma wrel_eq : forall a q q', wrel a q -> q == q' -> wrel a q'.
  Proof.
    intros a q q' H E. destruct H as [q E'|a r x v w q H I E'].
    - apply w_nil. rewrite <- E. exact E'.
    - apply w_snoc with r w; try assumption. rewrite <- E. exact E'.
  Qed.

  (** All completions over a list of variables. *)
  Fixpoint comps (xs : list nat) : list asg :=
    match xs with
    | [] => [[]]
    | x :: xs' => flat_map (fun vw => map (cons (x, fst vw)) (comps xs')) (cn x)
    end.
  Fixpoint after (l : list nat) (x : nat) : list nat :=
    match l with [] => [] | y :: l' => if (x =? y)%nat then l' else after l' x end.
  Fixpoint csize (xs : list nat) : nat :=
    match xs with [] => 0 | x :: xs' => length (cn x) * (1 + csize xs') end.
  Definition under (n : node) : list asg :=
    match n_var V n with
    | None => []
    | Some x => flat_map (fun vw => map (fun c => n_old V n ++ (x, fst vw) :: c) (comps (after ord x))) (n_vals V n)
    end.
  Definition size (n : node) : nat :=
    match n_var V n with None => 0 | Some x => length (n_vals V n) * (1 + csize (after ord x)) end.

  Lemma after_app : forall pre x post, ~ In x pre -> after (pre ++ x :: post) x = post.
  Proof.
    induction pre as [|y pre IH]; intros x post N; cbn.
    - rewrite Nat.eqb_refl. reflexivity.
    - destruct (Nat.eqb_spec x y) as [->|]; [exfalso; apply N; left; reflexivity|]. apply IH. intro I. apply N. right. exact I.
  Qed.
  Lemma ord_split : forall pre x post, ord = pre ++ x :: post -> ~ In x pre /\ ~ In x post /\ after ord x = post.
  Proof.
    intros pre x post E. pose proof ord_nodup as D. rewrite E in D. apply NoDup_remove_2 in D.
    split; [|split]; try (intro I; apply D; apply in_or_app; auto).
    rewrite E. apply after_app. intro I. apply D. apply in_or_app. left. exact I.
  Qed.

  Record node_ok (n : node) (pre : list nat) (x : nat) (post : list nat) : Prop := {
    ok_split : ord = pre ++ x :: post;
    ok_var : n_var V n = Some x;
    ok_old : map fst (n_old V n) = pre;
    ok_vals : exists p, cn x = p ++ n_vals V n;
    ok_wrel : wrel (n_old V n) (n_act V n) }.
  Definition good (n : node) : Prop := n_vals V n <> [] /\ exists pre x post, node_ok n pre x post.

  Lemma filter_all : forall A (f : A -> bool) l, (forall x, In x l -> f x = true) -> filter f l = l.
  Proof.
    intros A f l. induction l as [|x l IH]; intro H; cbn; [reflexivity|].
    rewrite (H x) by (left; reflexivity). f_equal. apply IH. intros; apply H; right; assumption.
  Qed.
  Lemma filter_none : forall A (f : A -> bool) l, (forall x, In x l -> f x = false) -> filter f l = [].
  Proof.
    intros A f l. induction l as [|x l IH]; intro H; cbn; [reflexivity|].
    rewrite (H x) by (left; reflexivity). apply IH. intros; apply H; right; assumption.
  Qed.
  Lemma aput_fresh : forall a x (v : V), ~ In x (map fst a) -> aput V a x v = a ++ [(x, v)].
  Proof.
    induction a as [|[y u] a IH]; intros x v N; cbn; [reflexivity|].
    destruct (Nat.eqb_spec x y) as [->|]; [exfalso; apply N; left; reflexivity|].
    rewrite IH; [reflexivity|]. intro I. apply N. right. exact I.
  Qed.
  Lemma kept_prefix : forall pre x post y, ord = pre ++ x :: post -> In y pre -> nth y (kept V s) false = true.
  Proof.
    intros pre x post y E I. apply in_split in I. destruct I as (p1 & p2 & ->).
    apply (Hkept p1 y (p2 ++ x :: post)).
    - rewrite E, <- app_assoc. reflexivity.
    - destruct p2; discriminate.
  Qed.
  Lemma assign_ok : forall n pre x post v, node_ok n pre x post -> assign V s (n_old V n) x v = n_old V n ++ [(x, v)].
  Proof.
    intros n pre x post v K. unfold assign, deep_copy. rewrite filter_all.
    - apply aput_fresh. rewrite (ok_old _ _ _ _ K). apply (proj1 (ord_split _ _ _ (ok_split _ _ _ _ K))).
    - intros [y u] I. cbn. apply (kept_prefix pre x post). { exact (ok_split _ _ _ _ K). }
      rewrite <- (ok_old _ _ _ _ K). apply (in_map fst) in I. exact I.
  Qed.
  Lemma mem_spec : forall (a : asg) x, mem V a x = true <-> In x (map fst a).
  Proof.
    intros a x. unfold mem. rewrite existsb_exists. split.
    - intros ([y v] & I & E). apply Nat.eqb_eq in E. cbn in E. subst y. apply (in_map fst) in I. exact I.
    - intro I. apply in_map_iff in I. destruct I as ([y v] & E & I). exists (y, v). split; [exact I|]. cbn in *. apply Nat.eqb_eq. exact E.
  Qed.
  Lemma goal_spec : forall a, is_goal V s a = true <-> (forall x, In x ord -> In x (map fst a)).
  Proof.
    intro a. unfold is_goal. rewrite forallb_forall. split; intros H x I.
    - apply mem_spec, H. eapply Permutation_in; [exact Hperm|exact I].
    - apply mem_spec, H. eapply Permutation_in; [symmetry; exact Hperm|exact I].
  Qed.
  Lemma goal_ok : forall n pre x post v, node_ok n pre x post ->
    is_goal V s (n_old V n ++ [(x, v)]) = match post with [] => true | _ => false end.
  Proof.
    intros n pre x post v K. pose proof (ok_split _ _ _ _ K) as E.
    assert (M : map fst (n_old V n ++ [(x, v)]) = pre ++ [x]) by (rewrite map_app, (ok_old _ _ _ _ K); reflexivity).
    destruct post as [|y post].
    - apply goal_spec. intros z I. rewrite M. rewrite E in I. exact I.
    - apply not_true_is_false. intro G. apply goal_spec with (x := y) in G.
      + rewrite M in G. pose proof ord_nodup as D. rewrite E in D.
        replace (pre ++ x :: y :: post) with ((pre ++ [x]) ++ y :: post) in D by (rewrite <- app_assoc; reflexivity).
        apply NoDup_remove_2 in D. apply D. apply in_or_app. left. exact G.
      + rewrite E. apply in_or_app. right. right. left. reflexivity.
  Qed.
  Lemma mk_node_ok : forall a pre y post, ord = pre ++ y :: post -> map fst a = pre -> forall act, mk_node V s a act = Node V a (Some y) (cn y) act.
  Proof.
    intros a pre y post E M act. unfold mk_node. fold ord. rewrite E.
    pose proof ord_nodup as D. rewrite E in D.
    rewrite filter_app. rewrite filter_none.
    - cbn [app]. cbn [filter]. destruct (mem V a y) eqn:Y.
      + apply mem_spec in Y. rewrite M in Y. apply NoDup_remove_2 in D. exfalso. apply D. apply in_or_app. left. exact Y.
      + reflexivity.
    - intros z I. rewrite <- M in I. apply mem_spec in I. rewrite I. reflexivity.
  Qed.

  (** ** Steps of the search *)

  Lemma flat_map_map : forall A B C (g : A -> B) (f : B -> list C) l, flat_map f (map g l) = flat_map (fun x => f (g x)) l.
  Proof. intros. induction l as [|x l IH]; cbn; [reflexivity|]. rewrite IH. reflexivity. Qed.
  Lemma map_flat_map : forall A B C (g : B -> C) (f : A -> list B) l, map g (flat_map f l) = flat_map (fun x => map g (f x)) l.
  Proof. intros. induction l as [|x l IH]; cbn; [reflexivity|]. rewrite map_app, IH. reflexivity. Qed.

  Lemma state_ok : forall n pre x post v w vs, node_ok n pre x post -> n_vals V n = (v, w) :: vs ->
    n_state V s n = Some (n_old V n ++ [(x, v)]).
  Proof.
    intros n pre x post v w vs K E. unfold n_state. rewrite (ok_var _ _ _ _ K), E. f_equal. apply (assign_ok n pre x post); assumption.
  Qed.
  Lemma next_ok : forall n pre x post, node_ok n pre x post -> node_ok (n_next V n) pre x post.
  Proof.
    intros n pre x post [A B C D E]. constructor; cbn; try assumption.
    destruct D as (p & D). destruct (n_vals V n) as [|vw vs].
    - exists p. exact D.
    - exists (p ++ [vw]). rewrite D, <- app_assoc. reflexivity.
  Qed.
  Lemma live_ok : forall n pre x post, node_ok n pre x post -> n_live V s n = match n_vals V n with [] => false | _ => true end.
  Proof.
    intros n pre x post K. unfold n_live, n_state. rewrite (ok_var _ _ _ _ K). destruct (n_vals V n) as [|[v w] vs]; reflexivity.
  Qed.
  Lemma vals_in : forall n pre x post v w, node_ok n pre x post -> In (v, w) (n_vals V n) -> In (v, w) (cn x).
  Proof.
    intros n pre x post v w K I. destruct (ok_vals _ _ _ _ K) as (p & ->). apply in_or_app. right. exact I.
  Qed.
  Lemma in_ord : forall pre x post, ord = pre ++ x :: post -> In x ord.
  Proof. intros pre x post ->. apply in_elt. Qed.

  Lemma cost_pos : forall n, good n -> 0 < n_cost V s n.
  Proof.
    intros n (N & pre & x & post & K). unfold n_cost, n_step. rewrite (ok_var _ _ _ _ K).
    destruct (n_vals V n) as [|[v w] vs] eqn:E; [contradiction|].
    pose proof (wrel_pos _ _ (ok_wrel _ _ _ _ K)).
    assert (0 < w) by (apply (Hpos x v), (vals_in n pre x post); [exact K|rewrite E; left; reflexivity]).
    pose proof (Hlbpos x (in_ord _ _ _ (ok_split _ _ _ _ K))).
    apply Qmult_lt_0_compat; [apply Qmult_lt_0_compat; assumption|assumption].
  Qed.
  Lemma next_cost : forall n, good n -> n_vals V (n_next V n) <> [] -> n_cost V s (n_next V n) <= n_cost V s n.
  Proof.
    intros n (N & pre & x & post & K) N'. unfold n_cost, n_step. cbn. rewrite (ok_var _ _ _ _ K).
    cbn in N'. destruct (n_vals V n) as [|[v w] vs] eqn:E; [contradiction|]. cbn in *.
    destruct vs as [|[v' w'] vs]; [contradiction|].
    assert (w' <= w).
    { destruct (ok_vals _ _ _ _ K) as (p & D). rewrite E in D. pose proof (Hsort x) as S'. rewrite D in S'. clear -S'.
      induction p as [|a p IH]; cbn in S'.
      - apply StronglySorted_inv in S'. destruct S' as [_ F]. inversion F; subst. assumption.
      - apply StronglySorted_inv in S'. apply IH. apply S'. }
    pose proof (wrel_pos _ _ (ok_wrel _ _ _ _ K)).
    pose proof (Hlbpos x (in_ord _ _ _ (ok_split _ _ _ _ K))).
    apply Qmult_le_compat_r; [|lra]. rewrite (Qmult_comm _ w'), (Qmult_comm _ w). apply Qmult_le_compat_r; lra.
  Qed.
  Lemma next_good : forall n, good n -> n_vals V (n_next V n) <> [] -> good (n_next V n).
  Proof. intros n (N & pre & x & post & K) N'. split; [exact N'|]. exists pre, x, post. apply next_ok. exact K. Qed.

  (** Expanding a node that is no goal. *)
  Lemma expand_ok : forall n pre x y post v w vs, node_ok n pre x (y :: post) -> n_vals V n = (v, w) :: vs ->
    let m := mk_node V s (n_old V n ++ [(x, v)]) (n_act V n * n_step V n) in
    good m /\ n_cost V s m <= n_cost V s n /\
    size m = csize (y :: post) /\ under m = map (fun c => n_old V n ++ (x, v) :: c) (comps (y :: post)).
  Proof.
    intros n pre x y post v w vs K E m. subst m.
    pose proof (ok_split _ _ _ _ K) as S0.
    assert (S1 : ord = (pre ++ [x]) ++ y :: post) by (rewrite S0, <- app_assoc; reflexivity).
    assert (M : map fst (n_old V n ++ [(x, v)]) = pre ++ [x]) by (rewrite map_app, (ok_old _ _ _ _ K); reflexivity).
    rewrite (mk_node_ok _ _ _ _ S1 M).
    assert (I : In (v, w) (cn x)) by (apply (vals_in n pre x (y :: post)); [exact K|rewrite E; left; reflexivity]).
    assert (Ny : cn y <> []) by (apply Hne, (in_ord _ _ _ S1)).
    assert (A : after ord y = post) by (apply (ord_split _ _ _ S1)).
    split; [|split; [|split]].
    - split; [exact Ny|]. exists (pre ++ [x]), y, post. constructor; cbn; try assumption; try reflexivity.
      + exists []. reflexivity.
      + apply w_snoc with (n_act V n) w; [exact (ok_wrel _ _ _ _ K)|exact I|]. unfold n_step. rewrite E. reflexivity.
    - unfold n_cost, n_step. cbn. rewrite (ok_var _ _ _ _ K), E.
      destruct (cn y) as [|[v' w'] vs'] eqn:Ey; [contradiction|].
      assert (L : w' * lb_get (lb V s) y <= lb_get (lb V s) x).
      { apply (Hlb pre x y post v' w' S0). rewrite Ey. left. reflexivity. }
      assert (0 < n_act V n * w).
      { pose proof (wrel_pos _ _ (ok_wrel _ _ _ _ K)). pose proof (Hpos _ _ _ I). apply Qmult_lt_0_compat; assumption. }
      rewrite <- Qmult_assoc. rewrite (Qmult_comm _ (w' * _)), (Qmult_comm _ (lb_get (lb V s) x)). apply Qmult_le_compat_r; [exact L|lra].
    - unfold size. cbn. rewrite A. reflexivity.
    - unfold under. cbn. rewrite A. rewrite map_flat_map. apply flat_map_ext. intros [v' w']. cbn. rewrite map_map.
      apply map_ext. intro c. rewrite <- app_assoc. reflexivity.
  Qed.

  Lemma under_split : forall n pre x post v w vs, node_ok n pre x post -> n_vals V n = (v, w) :: vs ->
    under n = map (fun c => n_old V n ++ (x, v) :: c) (comps post) ++ under (n_next V n).
  Proof.
    intros n pre x post v w vs K E. unfold under. cbn. rewrite (ok_var _ _ _ _ K), E. cbn.
    replace (after ord x) with post by (symmetry; apply (ord_split _ _ _ (ok_split _ _ _ _ K))). reflexivity.
  Qed.
  Lemma size_split : forall n pre x post v w vs, node_ok n pre x post -> n_vals V n = (v, w) :: vs ->
    size n = (1 + csize post + size (n_next V n))%nat.
  Proof.
    intros n pre x post v w vs K E. unfold size. cbn. rewrite (ok_var _ _ _ _ K), E. cbn.
    replace (after ord x) with post by (symmetry; apply (ord_split _ _ _ (ok_split _ _ _ _ K))). lia.
  Qed.
  Lemma comps_nonempty : forall xs, (forall x, In x xs -> In x ord) -> comps xs <> [].
  Proof.
    induction xs as [|x xs IH]; intro H; cbn; [discriminate|].
    pose proof (Hne x (H x (or_introl eq_refl))) as N.
    assert (comps xs <> []) by (apply IH; intros; apply H; right; assumption).
    destruct (cn x) as [|vw vs]; [contradiction|]. cbn. destruct (comps xs); [contradiction|]. discriminate.
  Qed.
  Lemma under_nonempty : forall n, good n -> under n <> [].
  Proof.
    intros n (N & pre & x & post & K). destruct (n_vals V n) as [|[v w] vs] eqn:E; [contradiction|].
    rewrite (under_split _ _ _ _ _ _ _ K E).
    assert (comps post <> []).
    { apply comps_nonempty. intros y I. rewrite (ok_split _ _ _ _ K). apply in_or_app. right. right. exact I. }
    destruct (comps post); [contradiction|]. discriminate.
  Qed.

  (** ** The inner loop *)
  Definition sizes (l : list node) : nat := list_sum (map size l).
  Lemma sizes_cons : forall n l, sizes (n :: l) = (size n + sizes l)%nat.
  Proof. reflexivity. Qed.
  Definition sol_ok (x : sol) : Prop := wrel (s_asg V x) (s_cost V x).
  Definition sols_sorted (l : list sol) : Prop := StronglySorted (fun a b => s_cost V b <= s_cost V a) l.
  Definition ub_ok (sols : list sol) (ub : Q) : Prop := match sols with [] => ub == 0 | x :: _ => ub == s_cost V x end.

  Lemma sol_push_sorted : forall x h, sols_sorted h -> sols_sorted (hpush (sol_before V) x h).
  Proof.
    intros x h. induction h as [|y h IH]; intro S'; cbn.
    - constructor; constructor.
    - unfold sol_before at 1, Qltb. destruct (Qltb_spec (s_cost V y) (s_cost V x)) as [L|L].
      + constructor; [exact S'|]. constructor; [lra|]. apply StronglySorted_inv in S'. destruct S' as [_ F].
        eapply Forall_impl; [|exact F]. cbn. intros z Hz. lra.
      + apply StronglySorted_inv in S'. destruct S' as [S' F]. constructor; [apply IH; exact S'|].
        apply hpush_forall; [lra|exact F].
  Qed.
  Lemma sol_push_ub : forall x h ub, ub_ok h ub -> ub <= s_cost V x -> ub_ok (hpush (sol_before V) x h) (s_cost V x).
  Proof.
    intros x h ub U L. destruct h as [|y h]; cbn.
    - reflexivity.
    - cbn in U. unfold sol_before, Qltb. destruct (Qltb_spec (s_cost V y) (s_cost V x)); cbn; [reflexivity|]. lra.
  Qed.

  Lemma search_ok : forall fuel fr pr sols ub B,
    (sizes fr < fuel)%nat ->
    Forall good fr -> Forall good pr -> Forall sol_ok sols -> sols_sorted sols -> ub_ok sols ub ->
    Forall (fun n => n_cost V s n < ub) pr ->
    Forall (fun n => n_cost V s n <= B) fr -> Forall (fun x => s_cost V x <= B) sols ->
    exists pr' sols' ub', search V fuel s fr pr sols ub = Ok (pr', sols', ub') /\
      (sizes pr' <= sizes fr + sizes pr)%nat /\
      Forall good pr' /\ Forall sol_ok sols' /\ sols_sorted sols' /\ ub_ok sols' ub' /\
      Forall (fun n => n_cost V s n < ub') pr' /\ Forall (fun x => s_cost V x <= B) sols' /\ 
      Permutation (map (s_asg V) sols' ++ flat_map under pr') (map (s_asg V) sols ++ flat_map under fr ++ flat_map under pr).
  Proof.
    induction fuel as [|fuel IH]; intros fr pr sols ub B F Gf Gp Os Ss U Cp Bf Bs; [lia|].
    destruct fr as [|n fr]; cbn [search].
    { exists pr, sols, ub. repeat split; try assumption; try reflexivity. }
    apply Forall_cons_iff in Gf. destruct Gf as [Gn Gf]. apply Forall_cons_iff in Bf. destruct Bf as [Bn Bf].
    pose proof (cost_pos _ Gn) as Cn.
    pose proof Gn as (N & pre & x & post & K).
    destruct (n_vals V n) as [|[v w] vs] eqn:E; [contradiction|]. clear N.
    rewrite (state_ok _ _ _ _ _ _ _ K E). rewrite (goal_ok _ _ _ _ v K).
    rewrite (live_ok _ _ _ _ (next_ok _ _ _ _ K)).
    set (fr' := if match n_vals V (n_next V n) with [] => false | _ => true end then n_next V n :: fr else fr).
    assert (G' : Forall good fr' /\ Forall (fun m => n_cost V s m <= B) fr' /\ (sizes fr' <= size (n_next V n) + sizes fr)%nat /\
                 flat_map under fr' = under (n_next V n) ++ flat_map under fr).
    { unfold fr'. pose proof (next_good n Gn) as NG. pose proof (next_cost n Gn) as NC.
      destruct (n_vals V (n_next V n)) as [|vw vs'] eqn:E'.
      - repeat split; try assumption; [lia|]. unfold under at 2. cbn. cbn in E'. rewrite E'. destruct (n_var V n); reflexivity.
      - assert (NE : vw :: vs' <> []) by discriminate. specialize (NG NE). specialize (NC NE).
        repeat split.
        + constructor; assumption.
        + constructor; [lra|assumption].
        + rewrite sizes_cons. lia. }
    destruct G' as (G' & B' & Z' & F'). clearbody fr'.
    pose proof (size_split _ _ _ _ _ _ _ K E) as Zn. pose proof (under_split _ _ _ _ _ _ _ K E) as Un.
    assert (PR : sizes (hpush (node_before V s) n pr) = (size n + sizes pr)%nat).
    { rewrite <- sizes_cons. apply Permutation_list_sum, Permutation_map, hpush_perm. }
    assert (PU : Permutation (flat_map under (hpush (node_before V s) n pr)) (under n ++ flat_map under pr)).
    { exact (Permutation_flat_map_local _ _ under _ _ (hpush_perm _ _ n pr)). }
    rewrite sizes_cons in F |- *.
    assert (F1 : (sizes fr < fuel)%nat) by lia.
    destruct post as [|y post].
    - destruct (Qleb_spec ub (n_cost V s n)) as [L|L].
      + (* a solution *)
        destruct (IH fr' pr (hpush (sol_before V) (Sol V (n_old V n ++ [(x, v)]) (n_cost V s n)) sols) (n_cost V s n) B)
          as (pr' & sols' & ub' & E' & R1 & R2 & R3 & R4 & R5 & R6 & R7 & R8); try assumption.
        * cbn in Zn. lia.
        * apply hpush_forall; [|exact Os]. unfold sol_ok. cbn.
          apply w_snoc with (n_act V n) w; [exact (ok_wrel _ _ _ _ K)|apply (vals_in n pre x []); [exact K|rewrite E; left; reflexivity]|].
          unfold n_cost, n_step. rewrite (ok_var _ _ _ _ K), E. rewrite (Hlast pre x (ok_split _ _ _ _ K)). ring.
        * apply sol_push_sorted. exact Ss.
        * apply (sol_push_ub (Sol V (n_old V n ++ [(x, v)]) (n_cost V s n)) sols ub); [exact U|exact L].
        * eapply Forall_impl; [|exact Cp]. cbn. intros m Hm. lra.
        * apply hpush_forall; [exact Bn|exact Bs].
        * exists pr', sols', ub'. repeat split; try assumption.
          { cbn in Zn. lia. }
          eapply perm_trans; [exact R8|].
          eapply perm_trans; [apply Permutation_app_tail; apply Permutation_map; apply hpush_perm|].
          cbn [map app s_asg]. rewrite F'. cbn [flat_map]. rewrite Un. cbn [comps map app].
          rewrite <- !app_assoc. cbn [app]. apply Permutation_middle.
      + (* pruned *)
        destruct (IH fr (hpush (node_before V s) n pr) sols ub B)
          as (pr' & sols' & ub' & E' & R1 & R2 & R3 & R4 & R5 & R6 & R7 & R8); try assumption.
        * apply hpush_forall; assumption.
        * apply hpush_forall; [lra|assumption].
        * exists pr', sols', ub'. repeat split; try assumption.
          { lia. }
          eapply perm_trans; [exact R8|]. apply Permutation_app_head. cbn [flat_map].
          eapply perm_trans; [apply Permutation_app_head; exact PU|].
          rewrite !app_assoc. apply Permutation_app_tail. apply Permutation_app_comm.
    - unfold Qltb. destruct (Qltb_spec (n_cost V s n) ub) as [L|L]; destruct (Qltb_spec 0 (n_cost V s n)) as [L'|L']; cbn [andb]; try lra.
      + destruct (IH fr (hpush (node_before V s) n pr) sols ub B)
          as (pr' & sols' & ub' & E' & R1 & R2 & R3 & R4 & R5 & R6 & R7 & R8); try assumption.
        * apply hpush_forall; assumption.
        * apply hpush_forall; [lra|assumption].
        * exists pr', sols', ub'. repeat split; try assumption.
          { lia. }
          eapply perm_trans; [exact R8|]. apply Permutation_app_head. cbn [flat_map].
          eapply perm_trans; [apply Permutation_app_head; exact PU|].
          rewrite !app_assoc. apply Permutation_app_tail. apply Permutation_app_comm.
      + destruct (expand_ok _ _ _ _ _ _ _ _ K E) as (X1 & X2 & X3 & X4).
        set (m := mk_node V s (n_old V n ++ [(x, v)]) (n_act V n * n_step V n)) in *. clearbody m.
        destruct (IH (m :: fr') pr sols ub B)
          as (pr' & sols' & ub' & E' & R1 & R2 & R3 & R4 & R5 & R6 & R7 & R8); try assumption.
        * rewrite sizes_cons, X3. lia.
        * constructor; assumption.
        * constructor; [lra|assumption].
        * exists pr', sols', ub'. repeat split; try assumption.
          { rewrite sizes_cons, X3 in R1. lia. }
          eapply perm_trans; [exact R8|]. apply Permutation_app_head. apply Permutation_app_tail.
          cbn [flat_map]. rewrite X4, F', Un. rewrite app_assoc. apply Permutation_refl.
  Qed.

  (** ** Yielding the solutions at the bound *)
  Variable fac : nat -> Q.
  Hypothesis Hlik : forall x v w, In (v, w) (cn x) -> exists q, vget V veqb (nth x (domains V s) []) v = Ok q /\ q == w * fac x.

  Lemma likelihood_snoc : forall a x v la q,
    likelihood V veqb s a = Ok la -> vget V veqb (nth x (domains V s) []) v = Ok q ->
    exists l, likelihood V veqb s (a ++ [(x, v)]) = Ok l /\ l == la * q.
  Proof.
    induction a as [|[y u] a IH]; intros x v la q H1 H2; cbn [likelihood app] in *.
    - injection H1 as <-. rewrite H2. cbn [bind]. eexists. split; [reflexivity|]. ring.
    - destruct (vget V veqb (nth y (domains V s) []) u) as [p|e]; cbn [bind] in *; [|discriminate].
      destruct (likelihood V veqb s a) as [r|e]; cbn [bind] in *; [|discriminate]. injection H1 as <-.
      destruct (IH x v r q eq_refl H2) as (l & -> & L). cbn [bind]. eexists. split; [reflexivity|]. rewrite L. ring.
  Qed.
  Lemma likelihood_ok : forall a q, wrel a q ->
    exists l, likelihood V veqb s a = Ok l /\ l == q * product (map fac (map fst a)).
  Proof.
    intros a q H. induction H as [q E|a r x v w q H IH I E].
    - exists 1. split; [reflexivity|]. cbn [map product fold_right]. rewrite E. ring.
    - destruct IH as (la & E1 & E2). destruct (Hlik _ _ _ I) as (p & E3 & E4).
      destruct (likelihood_snoc _ _ _ _ _ E1 E3) as (l & E5 & E6). exists l. split; [exact E5|].
      rewrite E6, E2, E4, E. rewrite !map_app. cbn [map fst].
      assert (P : forall l1 l2, product (l1 ++ l2) == product l1 * product l2).
      { intros l1 l2. induction l1 as [|z l1 IHl]; unfold product in *; cbn [app fold_right]; [ring|rewrite IHl; ring]. }
      rewrite P. unfold product. cbn [map fold_right]. ring.
  Qed.

  Definition yields (x : sol) (al : asg * Q) : Prop := fst al = s_asg V x /\ likelihood V veqb s (s_asg V x) = Ok (snd al).

  Lemma emit_ok : forall sols ub, Forall sol_ok sols ->
    exists out rest, emit V veqb s sols ub None = Ok (out, rest, None, false) /\
      (exists done, sols = done ++ rest /\ Forall2 yields done out /\ Forall (fun x => s_cost V x == ub) done) /\
      match rest with [] => True | x :: _ => ~ s_cost V x == ub end.
  Proof.
    induction sols as [|x sols IH]; intros ub O; cbn.
    - exists [], []. split; [reflexivity|]. split; [|exact I]. exists []. repeat split; constructor.
    - apply Forall_cons_iff in O. destruct O as [Ox O].
      destruct (Qeqb_spec (s_cost V x) ub) as [E|E].
      + destruct (likelihood_ok _ _ Ox) as (l & El & _). rewrite El. cbn.
        destruct (IH ub O) as (out & rest & -> & (done & -> & D1 & D2) & R). cbn.
        exists ((s_asg V x, l) :: out), rest. split; [reflexivity|]. split; [|exact R].
        exists (x :: done). repeat split; constructor; try assumption. split; [reflexivity|exact El].
      + exists [], (x :: sols). split; [reflexivity|]. split; [|exact E]. exists []. repeat split; constructor.
  Qed.

  Lemma sorted_app : forall A (R : A -> A -> Prop) l1 l2, StronglySorted R (l1 ++ l2) ->
    StronglySorted R l1 /\ StronglySorted R l2 /\ (forall x y, In x l1 -> In y l2 -> R x y).
  Proof.
    intros A R l1 l2. induction l1 as [|a l1 IH]; cbn; intro H.
    - repeat split; [constructor|exact H|contradiction].
    - apply StronglySorted_inv in H. destruct H as [H F]. destruct (IH H) as (H1 & H2 & H3). apply Forall_app in F. destruct F as [F1 F2].
      repeat split; [constructor; assumption|exact H2|]. intros x y [->|I] J; [|apply H3; assumption].
      eapply Forall_forall in F2; eassumption.
  Qed.
  Lemma app_sorted : forall A (R : A -> A -> Prop) l1 l2, StronglySorted R l1 -> StronglySorted R l2 ->
    (forall x y, In x l1 -> In y l2 -> R x y) -> StronglySorted R (l1 ++ l2).
  Proof.
    intros A R l1 l2 H1 H2 H. induction H1 as [|a l1 H1 IH F]; cbn; [exact H2|].
    constructor.
    - apply IH. intros; apply H; [right|]; assumption.
    - apply Forall_app. split; [exact F|]. apply Forall_forall. intros y J. apply H; [left; reflexivity|exact J].
  Qed.

  Lemma rounds_ok : forall fuel fr sols ub B,
    (sizes fr + length (map (s_asg V) sols ++ flat_map under fr) < fuel)%nat ->
    Forall good fr -> Forall sol_ok sols -> sols_sorted sols -> ub_ok sols ub ->
    Forall (fun n => n_cost V s n <= B) fr -> Forall (fun x => s_cost V x <= B) sols ->
    exists out done, rounds V veqb fuel s fr sols ub None = Ok out /\
      Forall2 yields done out /\ Forall sol_ok done /\ sols_sorted done /\ Forall (fun x => s_cost V x <= B) done /\
      Permutation (map (s_asg V) done) (map (s_asg V) sols ++ flat_map under fr).
  Proof.
    induction fuel as [|fuel IH]; intros fr sols ub B F Gf Os Ss U Bf Bs; [lia|].
    assert (C : (fr = [] /\ sols = []) \/ (map (s_asg V) sols ++ flat_map under fr <> [] /\
      rounds V veqb (S fuel) s fr sols ub None =
        (do r <- search V (S fuel) s fr [] sols ub;
            let '(pruned, sols1, ub1) := r in
            do e <- emit V veqb s sols1 ub1 None;
            let '(out, sols2, k', stop) := e in
            if stop : bool then Ok out
            else
              do more <- rounds V veqb fuel s pruned sols2 (match sols2 with [] => 0 | x :: _ => s_cost V x end) k';
              Ok (out ++ more)))).
    { destruct fr as [|n fr]; destruct sols as [|x sols]; [left; split; reflexivity| | |]; right; (split; [|reflexivity]).
      - discriminate.
      - apply Forall_cons_iff in Gf. destruct Gf as [Gn _]. pose proof (under_nonempty n Gn) as N. cbn. destruct (under n); [contradiction|discriminate].
      - discriminate. }
    destruct C as [[-> ->]|[N ->]].
    { exists [], []. cbn. repeat split; constructor. }
    assert (F0 : (sizes fr < S fuel)%nat) by lia.
    destruct (search_ok (S fuel) fr [] sols ub B F0 Gf (Forall_nil _) Os Ss U (Forall_nil _) Bf Bs)
      as (pr & sols1 & ub1 & -> & R1 & R2 & R3 & R4 & R5 & R6 & R7 & R8).
    cbn [bind flat_map] in *. rewrite app_nil_r in R8.
    destruct (emit_ok sols1 ub1 R3) as (out & rest & -> & (done & -> & D1 & D2) & D3). cbn [bind].
    apply Forall_app in R3. destruct R3 as [R3a R3b].
    destruct (sorted_app _ _ _ _ R4) as (S1 & S2 & S3).
    apply Forall_app in R7. destruct R7 as [R7a R7b].
    (* something was yielded *)
    assert (ND : done <> []).
    { intros ->. cbn [app] in *. destruct rest as [|x rest].
      - cbn in R5. assert (pr = []).
        { destruct pr as [|n pr]; [reflexivity|]. apply Forall_cons_iff in R2, R6. pose proof (cost_pos _ (proj1 R2)). destruct R6. lra. }
        subst pr. cbn in R8. apply Permutation_nil in R8. contradiction.
      - apply D3. cbn in R5. rewrite R5. reflexivity. }
    assert (U1 : forall x, In x done -> s_cost V x == ub1) by (intros x I; eapply Forall_forall in D2; eassumption).
    assert (RB : Forall (fun x => s_cost V x <= ub1) rest).
    { apply Forall_forall. intros y J. destruct done as [|x done]; [contradiction|].
      pose proof (S3 x y (or_introl eq_refl) J). pose proof (U1 x (or_introl eq_refl)). lra. }
    assert (UB : ub1 <= B).
    { destruct done as [|x done]; [contradiction|]. apply Forall_cons_iff in R7a. rewrite <- (U1 x (or_introl eq_refl)). apply R7a. }
    pose proof (Permutation_length R8) as PL. rewrite !app_length, !map_length, app_length in PL.
    assert (LD : (length done <> 0)%nat) by (destruct done; [contradiction|discriminate]).
    destruct (IH pr rest (match rest with [] => 0 | x :: _ => s_cost V x end) ub1) as (out2 & done2 & -> & Q1 & Q2 & Q3 & Q4 & Q5); try assumption.
    - rewrite !app_length, !map_length in *. change (sizes []) with 0%nat in R1. lia.
    - destruct rest; cbn; reflexivity.
    - eapply Forall_impl; [|exact R6]. cbn. intros n Hn. lra.
    - cbn [bind]. exists (out ++ out2), (done ++ done2). split; [reflexivity|]. split; [apply Forall2_app; assumption|].
      split; [apply Forall_app; split; assumption|]. split; [|split].
      + apply app_sorted; [exact S1|exact Q3|]. intros x y I J. rewrite (U1 x I). eapply Forall_forall in Q4; eassumption.
      + apply Forall_app. split; [exact R7a|]. eapply Forall_impl; [|exact Q4]. cbn. intros x Hx. lra.
      + eapply perm_trans; [|exact R8]. rewrite !map_app, <- app_assoc. apply Permutation_app_head. exact Q5.
  Qed.

  (** ** The whole solver *)
  Theorem solve_all : ord <> [] -> exists N, forall fuel, (N <= fuel)%nat ->
    exists out done, solve V veqb fuel s 0 = Ok out /\
      Forall2 yields done out /\ Forall sol_ok done /\ sols_sorted done /\
      Permutation (map (s_asg V) done) (comps ord).
  Proof.
    intro NE. assert (X : forall o, o <> [] -> exists x post, o = [] ++ x :: post :> list nat).
    { intros [|x post] H; [contradiction|]. exists x, post. reflexivity. }
    destruct (X ord NE) as (x & post & S0). clear X.
    pose proof (mk_node_ok [] [] x post S0 eq_refl 1) as M.
    assert (G : good (mk_node V s [] 1)).
    { rewrite M. split; cbn; [apply Hne, (in_ord _ _ _ S0)|]. exists [], x, post. constructor; cbn; try assumption; try reflexivity.
      - exists []. reflexivity.
      - apply w_nil. reflexivity. }
    assert (Un : under (mk_node V s [] 1) = comps (x :: post)).
    { rewrite M. unfold under. cbn. replace (after ord x) with post by (symmetry; apply (ord_split _ _ _ S0)). reflexivity. }
    exists (S (sizes [mk_node V s [] 1] + length (map (s_asg V) [] ++ flat_map under [mk_node V s [] 1])))%nat.
    intros fuel Hf.
    destruct (rounds_ok fuel [mk_node V s [] 1] [] 0 (n_cost V s (mk_node V s [] 1))) as (out & done & E & D1 & D2 & D3 & _ & D5).
    - lia.
    - constructor; [exact G|constructor].
    - constructor.
    - constructor.
    - cbn. reflexivity.
    - constructor; [lra|constructor].
    - constructor.
    - exists out, done. repeat split; try assumption.
      cbn [flat_map map app] in D5. rewrite app_nil_r, Un in D5. rewrite S0. exact D5.
  Qed.
End Proofs.
