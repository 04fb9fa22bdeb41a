(** C83 for trees: trees.py:2393-2448 (postprocess_leaves), which [learn] calls by default
    (trees.py:1845-1846). *)
Require Import QArith ZArith Bool List Arith Lia.
Require Import Verif.Base Verif.FloatLine Verif.FloatVal Verif.NumBase Verif.IntervalModel Verif.DiscreteModel Verif.FunctionModel Verif.NumericModel
  Verif.TreeModel Verif.TreeDiscrete Verif.NumericTree Verif.MixedTree Verif.MixedProps Verif.ImpurityModel Verif.ImpurityProps Verif.LearnModel Verif.LearnProps Verif.LearnMixed Verif.LearnMixedProps Verif.GapModel Verif.GapProps.
Import ListNotations.
Open Scope nat_scope.

Notation mleaf := (leaf (mixed numeric discrete)).
(** trees.py:2405-2448 for one variable; a path is made of intervals (trees.py:1577-1607), for
    anything else [lower] does not exist. *)
Definition close_dist (n : nat) (path : var -> option mset) (v : var) (d : mdist) : res mdist :=
  match d, path v with
  | inl p, Some (inl (NC c)) => do q <- close_gaps p c n; Ok (inl q)
  | inl _, Some _ => Err AttributeError
  | _, _ => Ok d
  end.
Fixpoint close_dists (n : nat) (path : var -> option mset) (v : var) (ds : list mdist) : res (list mdist) :=
  match ds with [] => Ok [] | d :: ds => do d' <- close_dist n path v d; do ds' <- close_dists n path (S v) ds; Ok (d' :: ds') end.
Definition close_leaf (n : nat) (fl : var -> mset) (l : mleaf) : res mleaf :=
  do ds <- close_dists n (path_get (F := mixed numeric discrete) fl (l_path l)) 0 (l_dists l);
  Ok (Leaf (F := mixed numeric discrete) (l_idx l) (l_parent l) (l_prior l) (l_samples l) ds (l_path l)).
(** trees.py:2387-2391 (total_samples) *)
Definition total_samples (J : mtree) : nat := list_sum (map (fun l : mleaf => l_samples l) (leaves J)).
Definition close_tree (J : mtree) : res mtree :=
  do ls <- mapM (close_leaf (total_samples J) (full J)) (leaves J);
  Ok (JPT (F := mixed numeric discrete) (n_vars J) (full J) (innernodes J) ls (root J) (priors J)).
(** [learn] with close_convex_gaps=True *)
Definition learn_closed epsilon val inf neg1 D imp kinds mid mi md N : res mtree :=
  do J <- learn_mixed epsilon val inf neg1 D imp kinds mid mi md N; close_tree J.

(** Closing the gaps changes distributions of numeric variables on the path of their leaf and
    nothing else. *)
Theorem C83_tree_partial : forall J J', close_tree J = Ok J' ->
  n_vars J' = n_vars J /\ innernodes J' = innernodes J /\ root J' = root J /\ priors J' = priors J /\
  Forall2 (fun l l' : mleaf => l_idx l' = l_idx l /\ l_parent l' = l_parent l /\ l_prior l' = l_prior l /\ l_samples l' = l_samples l /\ l_path l' = l_path l /\ length (l_dists l') = length (l_dists l) /\
    forall v d, nth_error (l_dists l) v = Some d -> exists d', nth_error (l_dists l') v = Some d' /\
      match d, path_get (F := mixed numeric discrete) (full J) (l_path l) v with
      | inl p, Some (inl (NC c)) => exists q, close_gaps p c (list_sum (map (fun l : mleaf => l_samples l) (leaves J))) = Ok q /\ d' = inl q
      | _, _ => d' = d
      end) (leaves J) (leaves J').
Proof.
  intros J J' E. unfold close_tree in E. change (total_samples J) with (list_sum (map (fun l : mleaf => l_samples l) (leaves J))) in E. set (n := list_sum (map (fun l : mleaf => l_samples l) (leaves J))) in *. clearbody n. destruct (mapM (close_leaf n (full J)) (leaves J)) as [ls|] eqn:Em; [|discriminate]. cbn [bind] in E. injection E as <-. cbn [n_vars innernodes root priors leaves]. repeat (split; [reflexivity|]).
  assert (Ds : forall path ds k ds', close_dists n path k ds = Ok ds' -> length ds' = length ds /\ forall v d, nth_error ds v = Some d -> exists d', nth_error ds' v = Some d' /\
      match d, path (k + v) with inl p, Some (inl (NC c)) => exists q, close_gaps p c n = Ok q /\ d' = inl q | _, _ => d' = d end).
  { intros path. induction ds as [|d ds IH]; intros k ds' E; cbn [close_dists] in E; [injection E as <-; split; [reflexivity|]; intros [|v] d E; discriminate|].
    destruct (close_dist n path k d) as [d'|] eqn:Ed; [|discriminate]. cbn [bind] in E. destruct (close_dists n path (S k) ds) as [ds0|] eqn:E0; [|discriminate]. cbn [bind] in E. injection E as <-.
    destruct (IH (S k) ds0 E0) as (Ln & H). split; [cbn [length]; rewrite Ln; reflexivity|]. intros [|v] e Ee.
    - injection Ee as <-. exists d'. split; [reflexivity|]. rewrite Nat.add_0_r. unfold close_dist in Ed. destruct d as [p|dd]; [|injection Ed as <-; reflexivity].
      destruct (path k) as [[[c|l]|s]|]; try discriminate; [|injection Ed as <-; reflexivity]. destruct (close_gaps p c n) as [q|]; [|discriminate]. injection Ed as <-. exists q. auto.
    - destruct (H v e Ee) as (e' & E1 & E2). exists e'. split; [exact E1|]. replace (k + S v) with (S k + v) by lia. exact E2. }
  revert ls Em. induction (leaves J) as [|l r IH]; intros ls Em; cbn [mapM] in Em; [injection Em as <-; constructor|].
  destruct (close_leaf n (full J) l) as [l'|] eqn:El; [|discriminate]. cbn [bind] in Em. destruct (mapM (close_leaf n (full J)) r) as [r'|] eqn:Er; [|discriminate]. cbn [bind] in Em. injection Em as <-.
  constructor; [|apply IH; reflexivity]. unfold close_leaf in El. destruct (close_dists n _ 0 (l_dists l)) as [ds|] eqn:Ed; [|discriminate]. cbn [bind] in El. injection El as <-. cbn [l_idx l_parent l_prior l_samples l_path l_dists].
  repeat (split; [reflexivity|]). destruct (Ds _ _ _ _ Ed) as (Ln & H). split; [exact Ln|]. exact H.
Qed.
Print Assumptions C83_tree_partial.

(** A table with the rows (1.0, "a"), (1.0, "a"), (4.0, "b"), (4.0, "b"), where the number is to
    predict the symbol.  The tree splits the numbers in two leaves; after closing the gaps, the
    rows with 4.0 have the likelihood 0. *)
Definition top_data : nat -> nat -> Z := table [[num 0; 0]; [num 0; 0]; [num 2; num 0]; [num 2; num 0]]%Z.
Definition top_imp := from_tree 2 (Nat.eqb 1) (fun _ => 2) (fun _ => false) [1] [0] (fun _ => [1]) 2.
Definition top_learn : res mtree := learn_mixed (1 # 20) dval (fun x => Z.abs x =? ORD_INF)%Z (- num 0)%Z top_data top_imp n_kinds up_mid 0 None 4.
Definition top_closed : res mtree := learn_closed (1 # 20) dval (fun x => Z.abs x =? ORD_INF)%Z (- num 0)%Z top_data top_imp n_kinds up_mid 0 None 4.

Lemma top_trainable : trainable dval (- num 0)%Z top_data top_imp n_kinds n_G up_mid 4.
Proof.
  constructor.
  - intros a b L. apply dval_lt. exact L.
  - vm_compute. reflexivity.
  - intros r v Lr Lv K. destruct v as [|[|v]]; [|discriminate|cbn in Lv; lia]. destruct r as [|[|[|[|r]]]]; [..|lia]; vm_compute; reflexivity.
  - intros r v d Lr Lv K. destruct v as [|[|v]]; [discriminate| |cbn in Lv; lia]. injection K as <-. destruct r as [|[|[|[|r]]]]; [exists 0|exists 0|exists 1|exists 1|lia]; (split; [cbn; lia|vm_compute; reflexivity]).
  - intros v Iv. vm_compute in Iv. destruct Iv as [<-|[]]. split; [cbn; lia|left; reflexivity].
  - intros v Iv. vm_compute in Iv. destruct Iv.
  - intros r r' v Lr Lr' Lv K L. destruct v as [|[|v]]; [|discriminate|cbn in Lv; lia].
    assert (M : forall a b, (a < b)%Z -> (a < up_mid a b <= b)%Z). { intros a b Lab. unfold up_mid. pose proof (Z.div_mod (a + b + 1) 2 ltac:(lia)). pose proof (Z.mod_pos_bound (a + b + 1) 2 ltac:(lia)). lia. }
    split; [apply M, L|]. unfold n_G. revert L. destruct r as [|[|[|[|r]]]]; [..|lia]; (destruct r' as [|[|[|[|r']]]]; [..|lia]); intro L; try (vm_compute in L; discriminate L); vm_compute; tauto.
  - intro v. unfold n_G. constructor; [tauto|]. intros x y Hx Hy. unfold num in *. change (2 ^ 51)%Z with 2251799813685248%Z in *. change (2 ^ 52)%Z with 4503599627370496%Z in *. unfold ORD_INF in *. lia.
  - intros v x Lv K Gx. destruct v as [|[|v]]; [|discriminate|cbn in Lv; lia]. unfold n_G in Gx. destruct Gx as [->|[->|[->|[->| ->]]]]; vm_compute; lia.
Qed.
(** C82 does not hold when the gaps are closed, which is the default: learning succeeds, all
    rows are possible before closing the gaps, and the last row is impossible afterwards. *)
Theorem C82_closed_refuted : exists epsilon val inf neg1 D imp kinds G mid mi md N J r,
  trainable val neg1 D imp kinds G mid N /\ learn_closed epsilon val inf neg1 D imp kinds mid mi md N = Ok J /\ r < N /\
  exists p, likelihood J (data_row val D kinds r) = Ok p /\ (p == 0)%Q.
Proof.
  assert (H : from top_closed (lik (data_row dval top_data n_kinds 3)) = Some 0%Q) by (vm_compute; reflexivity).
  unfold from in H. destruct top_closed as [J|e] eqn:E; [|discriminate]. unfold lik in H. destruct (likelihood J (data_row dval top_data n_kinds 3)) as [p|e] eqn:Ep; [|discriminate]. injection H as Hp.
  exists (1 # 20)%Q, dval, (fun x => Z.abs x =? ORD_INF)%Z, (- num 0)%Z, top_data, top_imp, n_kinds, n_G, up_mid, 0%Q, None, 4, J, 3.
  split; [exact top_trainable|]. split; [exact E|]. split; [lia|]. exists p. split; [exact Ep|]. rewrite <- (Qred_correct p), Hp. reflexivity.
Qed.
Print Assumptions C82_closed_refuted.
Definition top_show := match top_closed with Ok J => map (fun l : leaf (mixed numeric discrete) => (l_idx l, l_path l, l_samples l)) (leaves J) | Err _ => [] end.
Example C83_tree_example :
  top_show = [(1, [(0, inl (NC (CS (- ORD_INF) (num 1) EXC EXC)))], 2); (2, [(0, inl (NC (CS (num 1) ORD_INF INC EXC)))], 2)] /\
  map (fun r => from top_learn (lik (data_row dval top_data n_kinds r))) (seq 0 4) = [Some (1 # 2)%Q; Some (1 # 2)%Q; Some (1 # 2)%Q; Some (1 # 2)%Q] /\
  map (fun r => from top_closed (lik (data_row dval top_data n_kinds r))) (seq 0 4) = [Some (1 # 2)%Q; Some (1 # 2)%Q; Some 0%Q; Some 0%Q].
Proof. vm_compute. repeat split. Qed.
