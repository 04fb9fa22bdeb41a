(** What the queries leave behind: [posterior] crops the distributions of the tree's own
    leaves, and cropping a numeric distribution to a point changes that distribution in
    place.  The answers are those of TreeModel.v; here is the state of the tree after
    a call, and sequences of calls. *)
Require Import ZArith QArith Bool List Arith Lia.
Require Import Verif.Base Verif.NumBase Verif.UtilModel Verif.IntervalModel Verif.NumericModel Verif.TreeModel Verif.NumericTree Verif.MixedTree Verif.TreeDiscrete.
Import ListNotations.
Open Scope Q_scope.

Section Effect.
  Context {F : family}.
  (** The receiver after [d._crop(s)]: numeric.py:362-403 with 176-184 for numeric
      distributions; multinomial.py and integer.py build a new object. *)
  Variable spoil : dist F -> vset F -> dist F.

  (** The entry of a variable map is the same object with new content. *)
  Fixpoint set_nth {A} (k : nat) (x : A) (l : list A) : list A :=
    match l, k with
    | [], _ => []
    | _ :: l', O => x :: l'
    | y :: l', S k => y :: set_nth k x l'
    end.

  (** trees.py:1168-1175: the loop over the requested variables in one leaf; the flag
      tells whether it ended without an exception. *)
  Fixpoint crop_vars (J : jpt F) (e : assignment F) (vs : list var) (l : leaf F) : leaf F * bool :=
    match vs with
    | [] => (l, true)
    | v :: vs' =>
        match leaf_dist l v, lookup e v, path_get (full J) (l_path l) v with
        | Err _, _, _ => (l, false)
        | Ok d, Some s, Some p =>
            let l' := with_dists l (set_nth v (spoil d (inter F s p)) (l_dists l)) in
            match d_crop F d (inter F s p) with
            | Ok _ => crop_vars J e vs' l'
            | Err _ => (l', false)
            end
        | Ok _, _, _ => crop_vars J e vs' l
        end
    end.
  (** trees.py:1136-1175: the leaves after the loop over the leaves. *)
  Fixpoint crop_leaves (J : jpt F) (e : assignment F) (vs : list var) (ls : list (leaf F)) : list (leaf F) :=
    match ls with
    | [] => []
    | l :: ls' =>
        match leaf_likelihood J l e 1 with
        | Err _ => l :: ls'
        | Ok None => l :: crop_leaves J e vs ls'
        | Ok (Some _) =>
            let (l', go) := crop_vars J e vs l in
            l' :: (if go then crop_leaves J e vs ls' else ls')
        end
    end.
  (** trees.py:1097-1197: the tree after [posterior]. *)
  Definition posterior_after (J : jpt F) (vs : list var) (e : assignment F) : jpt F :=
    if negb (known J e) then J
    else match apply J e with
         | Err _ => J
         | Ok ls => with_nodes J (innernodes J) (fold_left (fun acc l => set_leaf l acc) (crop_leaves J e vs ls) (leaves J))
         end.

  (** The calls of the query interface and their answers.  [mpe], [k_mpe] and sampling
      are left out. *)
  Inductive request :=
  | Infer (q e : assignment F) (fail_on_unsatisfiability : bool)
  | Posterior (vs : list var) (e : assignment F) (fail_on_unsatisfiability : bool)
  | Expectation (vs : option (list var)) (e : assignment F) (fail_on_unsatisfiability : bool)
  | Moment (vs : list var) (order : nat) (center : list (var * Q)) (e : assignment F) (fail_on_unsatisfiability : bool)
  | Pdf (w : list (var * value F))
  | Likelihood (row : list (value F))
  | Encode (row : list (value F)).
  Inductive answer :=
  | Number (r : res Q)
  | Chance (r : res (option Q))
  | Distributions (r : res (option (list (var * dist F))))
  | Expectations (r : res (option (list (var * (Q + vset F)))))
  | Moments (r : res (option (list (var * Q))))
  | LeafNumber (r : res nat).

  (** trees.py:1011-1094, 1097-1197, 1199-1246, 2522-2562, 972-1009, 1888-1930, 957-970. *)
  Definition ask (J : jpt F) (r : request) : answer :=
    match r with
    | Infer q e fail => Chance (infer J q e fail)
    | Posterior vs e fail => Distributions (posterior J vs e fail)
    | Expectation vs e fail => Expectations (expectation J vs e fail)
    | Moment vs order center e fail => Moments (moment J vs order center e fail)
    | Pdf w => Number (pdf J w)
    | Likelihood row => Number (likelihood J row)
    | Encode row => LeafNumber (encode J row)
    end.
  (** [expectation] and [moment] call [posterior] (trees.py:1226-1231, 2545); the other
      methods only read the tree. *)
  Definition after (J : jpt F) (r : request) : jpt F :=
    match r with
    | Posterior vs e _ => posterior_after J vs e
    | Expectation vs e _ => posterior_after J (expectation_vars J vs e) e
    | Moment vs _ _ e _ => posterior_after J vs e
    | _ => J
    end.
  (** A sequence of calls on one tree: the answers and the tree at the end. *)
  Fixpoint session (J : jpt F) (rs : list request) : list answer * jpt F :=
    match rs with
    | [] => ([], J)
    | r :: rs' => let (a, K) := session (after J r) rs' in (ask J r :: a, K)
    end.

  (** ** Calls that leave no trace *)

  (** The variables whose distributions a call crops, and its evidence. *)
  Definition crops (J : jpt F) (r : request) : list var * assignment F :=
    match r with
    | Posterior vs e _ => (vs, e)
    | Expectation vs e _ => (expectation_vars J vs e, e)
    | Moment vs _ _ e _ => (vs, e)
    | _ => ([], [])
    end.
  Definition harmless (J : jpt F) (r : request) : Prop :=
    forall l v d s p, In l (leaves J) -> In v (fst (crops J r)) -> nth_error (l_dists l) v = Some d ->
      lookup (snd (crops J r)) v = Some s -> path_get (full J) (l_path l) v = Some p -> spoil d (inter F s p) = d.

  Lemma set_nth_same : forall A (l : list A) k x, nth_error l k = Some x -> set_nth k x l = l.
  Proof.
    induction l as [|y l I]; intros [|k] x E; try discriminate; cbn in E |- *.
    - injection E as ->. reflexivity.
    - rewrite (I _ _ E). reflexivity.
  Qed.
  Lemma with_dists_same : forall l : leaf F, with_dists l (l_dists l) = l.
  Proof. intros []. reflexivity. Qed.

  Lemma crop_vars_same : forall J e vs l,
    (forall v d s p, In v vs -> nth_error (l_dists l) v = Some d -> lookup e v = Some s -> path_get (full J) (l_path l) v = Some p -> spoil d (inter F s p) = d) ->
    fst (crop_vars J e vs l) = l.
  Proof.
    intros J e vs l. induction vs as [|v vs I]; intro H; [reflexivity|]. cbn [crop_vars].
    assert (K : fst (crop_vars J e vs l) = l) by (apply I; intros w d s p W; apply H; right; exact W).
    unfold leaf_dist. destruct (nth_error (l_dists l) v) as [d|] eqn:D; [|reflexivity].
    destruct (lookup e v) as [s|] eqn:L; [|exact K]. destruct (path_get (full J) (l_path l) v) as [p|] eqn:E; [|exact K].
    rewrite (H v d s p (or_introl eq_refl) D L E), (set_nth_same _ _ _ _ D), with_dists_same.
    destruct (d_crop F d (inter F s p)); [exact K|reflexivity].
  Qed.
  Lemma crop_leaves_same : forall J e vs ls,
    (forall l v d s p, In l ls -> In v vs -> nth_error (l_dists l) v = Some d -> lookup e v = Some s -> path_get (full J) (l_path l) v = Some p -> spoil d (inter F s p) = d) ->
    crop_leaves J e vs ls = ls.
  Proof.
    intros J e vs ls. induction ls as [|l ls I]; intro H; [reflexivity|]. cbn [crop_leaves].
    assert (K : crop_leaves J e vs ls = ls) by (apply I; intros m v d s p M; apply H; right; exact M).
    destruct (leaf_likelihood J l e 1) as [[x|]|]; [|rewrite K; reflexivity|reflexivity].
    pose proof (crop_vars_same J e vs l (fun v d s p => H l v d s p (or_introl eq_refl))) as V.
    destruct (crop_vars J e vs l) as [l' go]. cbn [fst] in V. subst l'. rewrite K. destruct go; reflexivity.
  Qed.

  Lemma set_leaf_same : forall (l : leaf F) ls, NoDup (map l_idx ls) -> In l ls -> set_leaf l ls = ls.
  Proof.
    intros l ls N I. unfold set_leaf. rewrite <- (map_id ls) at 2. apply map_ext_in. intros m M.
    destruct (Nat.eqb_spec (l_idx m) (l_idx l)) as [E|_]; [|reflexivity].
    clear - N I M E. induction ls as [|a ls IH]; [contradiction|]. cbn [map] in N. inversion N as [|? ? A B]. subst.
    destruct I as [->|I], M as [->|M]; [reflexivity| | |apply IH; assumption].
    - exfalso. apply A. rewrite <- E. apply in_map. exact M.
    - exfalso. apply A. rewrite E. apply in_map. exact I.
  Qed.
  Lemma set_leaves_same : forall ms ls : list (leaf F), NoDup (map l_idx ls) -> (forall m, In m ms -> In m ls) ->
    fold_left (fun acc l => set_leaf l acc) ms ls = ls.
  Proof.
    induction ms as [|m ms I]; intros ls N H; [reflexivity|]. cbn [fold_left].
    rewrite (set_leaf_same m ls N (H m (or_introl eq_refl))). apply I; [exact N|]. intros x X. apply H. right. exact X.
  Qed.

  Lemma apply_loop_in : forall J q fuel fr ls, apply_loop fuel J q fr = Ok ls -> forall l, In l ls -> In l (leaves (J : jpt F)).
  Proof.
    intros J q. induction fuel as [|fuel I]; intros [|o fr] ls E l L; cbn [apply_loop] in E; try discriminate; try (injection E as <-; contradiction).
    destruct o as [i|]; [|discriminate]. unfold get_node in E. destruct (get_inner J i) as [n|] eqn:G.
    - exact (I _ _ E l L).
    - destruct (get_leaf J i) as [m|] eqn:M; [|discriminate]. destruct (apply_loop fuel J q fr) as [ms|] eqn:R; [|discriminate].
      cbn [bind] in E. injection E as <-. destruct L as [<-|L]; [|exact (I _ _ R l L)].
      unfold get_leaf in M. apply find_some in M. exact (proj1 M).
  Qed.
  Lemma apply_in : forall (J : jpt F) q ls, apply J q = Ok ls -> forall l, In l ls -> In l (leaves J).
  Proof.
    intros J q ls. unfold apply. destruct (negb (known J q)); [discriminate|]. destruct (root J); [|discriminate]. apply apply_loop_in.
  Qed.

  Lemma posterior_after_same : forall (J : jpt F) vs e, NoDup (map l_idx (leaves J)) ->
    (forall l v d s p, In l (leaves J) -> In v vs -> nth_error (l_dists l) v = Some d -> lookup e v = Some s -> path_get (full J) (l_path l) v = Some p -> spoil d (inter F s p) = d) ->
    posterior_after J vs e = J.
  Proof.
    intros J vs e N H. unfold posterior_after. destruct (negb (known J e)); [reflexivity|].
    destruct (apply J e) as [ls|] eqn:A; [|reflexivity].
    rewrite crop_leaves_same by (intros l v d s p L; apply H; exact (apply_in J e ls A l L)).
    rewrite (set_leaves_same ls (leaves J) N (apply_in J e ls A)). destruct J. reflexivity.
  Qed.
  Lemma after_same : forall (J : jpt F) r, NoDup (map l_idx (leaves J)) -> harmless J r -> after J r = J.
  Proof. intros J [] N H; cbn [after]; try reflexivity; apply posterior_after_same; assumption. Qed.
  Lemma session_same : forall rs (J : jpt F), NoDup (map l_idx (leaves J)) -> Forall (harmless J) rs -> session J rs = (map (ask J) rs, J).
  Proof.
    induction rs as [|r rs I]; intros J N H; [reflexivity|]. inversion H as [|? ? A B]. subst. cbn [session map].
    rewrite (after_same J r N A), (I J N B). reflexivity.
  Qed.

End Effect.
Arguments request : clear implicits.
Arguments answer : clear implicits.

(** ** The receiver after cropping, by kind of variable *)

(** multinomial.py:282-313 and integer.py: [_crop] returns a new distribution
    (C28_crop_leaves_receiver); numeric.py:362-403 changes the receiver. *)
Definition keep {F : family} (d : dist F) (s : vset F) : dist F := d.
Definition mspoil {F : family} (d : dist (mixed numeric F)) (s : vset (mixed numeric F)) : dist (mixed numeric F) :=
  match d, s with inl d, inl s => inl (crop_after d s) | _, _ => d end.
