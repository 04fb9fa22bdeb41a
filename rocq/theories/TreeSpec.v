(** Specifications for the tree layer: what a leaf distribution is expected to
    satisfy, when the node dictionaries form a tree, and the probability measure
    which a tree represents. *)
Require Import QArith Bool List Arith.
Require Import Verif.Base Verif.NumBase Verif.TreeModel.
Import ListNotations.
Open Scope Q_scope.

(** ** Contract of the leaf distributions

    [okd v d]: [d] is a proper distribution of variable [v]; [oks v s]: [s] is an
    admissible event of variable [v]; [P d s]: the probability of [s] under [d].
    [measured] is what [infer] needs, [lawful] adds what the posterior, conditional
    trees and pruning need.  [TreeDiscrete.v] proves the contracts for symbolic and
    integer variables, [NumericTree.v] the first one for numeric variables. *)
Record measured {F : family} (full : var -> vset F) := Measured {
  okd : var -> dist F -> Prop;
  oks : var -> vset F -> Prop;
  P : dist F -> vset F -> Q;
  oks_full : forall v, oks v (full v);
  oks_inter : forall v a b, oks v a -> oks v b -> oks v (inter F a b);
  p_ok : forall v d s, okd v d -> oks v s -> exists q, d_p F d s = Ok q /\ q == P d s;
  P_nonneg : forall v d s, okd v d -> oks v s -> 0 <= P d s;
  P_full : forall v d, okd v d -> P d (full v) == 1;
  P_le : forall v d a b, okd v d -> oks v a -> oks v b -> P d (inter F a b) <= P d a;
  P_comm : forall v d a b, okd v d -> oks v a -> oks v b -> P d (inter F a b) == P d (inter F b a);
  P_assoc : forall v d a b c, okd v d -> oks v a -> oks v b -> oks v c ->
    P d (inter F (inter F a b) c) == P d (inter F a (inter F b c));
  P_idem : forall v d a b, okd v d -> oks v a -> oks v b -> P d (inter F (inter F a b) b) == P d (inter F a b);
  P_disj : forall v d a b, okd v d -> oks v a -> oks v b -> disj F a b = true -> P d (inter F a b) == 0;
  P_sure : forall v d a b, okd v d -> oks v a -> oks v b -> P d b == 1 -> P d (inter F a b) == P d a
}.
Arguments okd {F full} _.
Arguments oks {F full} _.
Arguments P {F full} _.

Record lawful {F : family} (full : var -> vset F) := Lawful {
  probabilities :> measured full;
  prob_ok : forall v d s, okd probabilities v d -> oks probabilities v s -> exists q, d_prob F d s = Ok q /\ q == P probabilities d s;
  like_ok : forall v d s, okd probabilities v d -> oks probabilities v s -> exists q, d_like F d s = Ok q /\ q == P probabilities d s;
  crop_ok : forall v d s, okd probabilities v d -> oks probabilities v s -> 0 < P probabilities d s ->
    exists d', d_crop F d s = Ok d' /\ okd probabilities v d' /\ forall t, oks probabilities v t -> P probabilities d' t == P probabilities d (inter F t s) / P probabilities d s;
  crop_unsat : forall v d s, okd probabilities v d -> oks probabilities v s -> P probabilities d s == 0 -> d_crop F d s = Err Unsatisfiability;
  merge_ok : forall v ds ws, ds <> [] -> length ds = length ws -> Forall (okd probabilities v) ds ->
    Forall (fun w => 0 <= w) ws -> Qsum ws == 1 ->
    exists d', d_merge F ds ws = Ok d' /\ okd probabilities v d' /\
      forall s, oks probabilities v s -> P probabilities d' s == Qsum (map (fun dw => snd dw * P probabilities (fst dw) s) (combine ds ws))
}.

Section Spec.
  Context {F : family}.

  Definition n_idx (m : node F) : nat := match m with NInner n => i_idx n | NLeaf l => l_idx l end.
  Definition n_parent (m : node F) : option nat := match m with NInner n => i_parent n | NLeaf l => l_parent l end.
  Definition n_path (m : node F) : list (var * vset F) := match m with NInner n => i_path n | NLeaf l => l_path l end.

  (** ** The node dictionaries form a tree

      Distinct node numbers; a root without parent; every child entry points to a
      node whose parent is this node and whose path extends this node's path by
      the corresponding split; every node is the child of its parent. *)
  Record tree_ok (J : jpt F) : Prop := TreeOk {
    ids : NoDup (map i_idx (innernodes J) ++ map l_idx (leaves J));
    root_ok : exists r m, root J = Some r /\ get_node J r = Some m /\ n_parent m = None /\ n_path m = [];
    lengths : forall n, In n (innernodes J) -> length (i_children n) = length (i_splits n);
    child_once : forall n, In n (innernodes J) -> NoDup (i_children n);
    child_ok : forall n k c s, In n (innernodes J) -> nth_error (i_children n) k = Some c -> nth_error (i_splits n) k = Some s ->
      exists i m, c = Some i /\ get_node J i = Some m /\ n_parent m = Some (i_idx n) /\
                  n_path m = i_path n ++ [(i_var n, s)];
    parent_ok : forall i m, get_node J i = Some m ->
      match n_parent m with
      | None => root J = Some i
      | Some p => exists n, get_inner J p = Some n /\ In (Some i) (i_children n)
      end
  }.

  (** A path is compatible with a query if no split on it is disjoint from the
      value which the query demands of the split's variable. *)
  Definition compatible (q : assignment F) (p : list (var * vset F)) : Prop :=
    forall v s e, In (v, s) p -> lookup q v = Some e -> disj F e s = false.

  (** ** Well-formed leaves *)

  Definition proper_leaf {fl} (L : measured fl) (n : nat) (l : leaf F) : Prop :=
    length (l_dists l) = n /\
    (forall v d, nth_error (l_dists l) v = Some d -> okd L v d) /\
    0 <= l_prior l /\
    (forall v s, In (v, s) (l_path l) -> (v < n)%nat /\ oks L v s).

  (** The leaf's distributions give no mass to values excluded by its path. *)
  Definition supported_leaf {fl} (L : measured fl) (l : leaf F) : Prop :=
    forall v d s, nth_error (l_dists l) v = Some d -> In (v, s) (l_path l) -> P L d s == 1.

  Definition proper_tree (J : jpt F) (L : measured (full J)) : Prop :=
    Forall (proper_leaf L (n_vars J)) (leaves J).
  Definition supported_tree (J : jpt F) (L : measured (full J)) : Prop :=
    Forall (supported_leaf L) (leaves J).

  (** Admissible assignment: known variables, each at most once, admissible events. *)
  Definition event {fl} (L : measured fl) (n : nat) (q : assignment F) : Prop :=
    NoDup (keys q) /\ Forall (fun vs => (fst vs < n)%nat /\ oks L (fst vs) (snd vs)) q.

  (** ** The measure represented by a tree: a mixture of products *)

  Fixpoint leaf_prob {fl} (L : measured fl) (ds : list (dist F)) (q : assignment F) : Q :=
    match q with
    | [] => 1
    | (v, s) :: q' => match nth_error ds v with Some d => P L d s | None => 0 end * leaf_prob L ds q'
    end.
  Definition mixture (J : jpt F) (L : measured (full J)) (q : assignment F) : Q :=
    Qsum (map (fun l => l_prior l * leaf_prob L (l_dists l) q) (leaves J)).

  (** The conjunction of two assignments: both constraints on a shared variable. *)
  Definition meet (q e : assignment F) : assignment F :=
    map (fun vs => match lookup e (fst vs) with Some ev => (fst vs, inter F (snd vs) ev) | None => vs end) q ++
    filter (fun vs => negb (existsb (Nat.eqb (fst vs)) (keys q))) e.

  Definition disjoint_keys (q e : assignment F) : Prop := forall v, In v (keys q) -> ~ In v (keys e).
End Spec.
