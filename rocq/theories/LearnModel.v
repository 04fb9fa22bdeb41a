(** Model of learning, trees.py:1531-1640 (c45) and 1739-1853 (learn).

    The data matrix is as in ImpurityModel.v: [D r v] is the ordinal of the double in
    row [r] and column [v], after [_preprocess_data]; symbolic and integer columns
    hold value indices.  The array [self.indices] is a list which every call of [c45]
    rearranges between [start] and [end].  Fitting a distribution to a column of some
    rows is a function argument, as is [mid a b], the double computed for
    [(a + b) / 2].  Logging and [keep_samples] are not modelled. *)
Require Import QArith Qround ZArith Bool List Arith.
Require Import Verif.Base Verif.NumBase Verif.TreeModel Verif.ImpurityModel.
Import ListNotations.
Open Scope Q_scope.

(** Symbolic and integer variables with their number of values, numeric variables. *)
Inductive kind := Symbolic (size : nat) | Numeric | Integer (size : nat).

(** The value sets which [c45] creates as splits: a set of value indices, an interval
    (-inf, m) or an interval [m, inf). *)
Inductive split_set := Values (s : list nat) | Below (m : Z) | From (m : Z).

(** min_samples_leaf as passed to JPT(): an int or a float. *)
Inductive sample_limit := IntLimit (n : Z) | FloatLimit (q : Q).

(** trees.py:1797-1805: the number of samples which a leaf must have. *)
Definition resolve_limit (l : sample_limit) (n : nat) : Q :=
  match l with
  | IntLimit z => inject_Z z
  | FloatLimit q => if Qltb 0 q && Qltb q 1 then inject_Z (Z.max 1 (Qfloor (q * Qn n))) else q
  end.
(** trees.py:760: [max_depth or float('inf')]; [None] is infinity. *)
Definition resolve_depth (d : option nat) : option nat := match d with Some (S k) => Some (S k) | _ => None end.

Section Learn.
  Context {F : family}.
  Variable val : Z -> Q.
  Variable inf : Z -> bool.
  Variable neg1 : Z.
  Variable D : nat -> nat -> Z.
  Variable imp : impurity.
  Variable kinds : list kind.
  Variable mk : split_set -> vset F.
  Variable mid : Z -> Z -> Z.
  Variable fit : list nat -> var -> res (dist F).
  Variable min_improvement : Q.
  Variable max_depth : option nat.

  (** A call of [c45] in the queue: start, end, parent and child index, depth. *)
  Record call := Call { c_start : nat; c_end : nat; c_parent : option (nat * nat); c_depth : nat }.
  Record state := State { s_tree : jpt F; s_indices : list nat; s_queue : list call }.

  (** [int(data[r, v])] *)
  Definition int_at (r v : nat) : nat := symbol_at val D r v.

  (** trees.py:1577-1607: the splits of a decision node on [v]; [a] and [b] are the rows
      at the split position and after it. *)
  Definition make_splits (v a b : nat) : res (list split_set) :=
    match nth_error kinds v with
    | None => Err IndexError
    | Some (Symbolic n) =>
        let x := int_at a v in Ok [Values [x]; Values (filter (fun y => negb (Nat.eqb y x)) (seq 0 n))]
    | Some Numeric => let m := mid (D a v) (D b v) in Ok [Below m; From m]
    | Some (Integer n) =>
        let x := int_at b v in
        if Nat.ltb x n then Ok [Values (firstn x (seq 0 n)); Values (skipn x (seq 0 n))] else Err ValueError
    end.

  Definition depth_allows (d : nat) : bool := match max_depth with None => true | Some m => Nat.ltb d m end.
  Definition gain_allows (g : option Q) : bool := match g with None => false | Some g => Qle_bool min_improvement g end.

  (** trees.py:277-286 (set_child): the parent with its new child [i], and the child's path. *)
  Definition link (J : jpt F) (parent : option (nat * nat)) (i : nat) : res (jpt F * list (var * vset F)) :=
    match parent with
    | None => Ok (J, [])
    | Some (p, k) =>
        match get_inner J p with
        | None => Err KeyError
        | Some n =>
            match nth_error (i_splits n) k with
            | None => Err IndexError
            | Some s =>
                let n' := Inner (i_idx n) (i_parent n) (i_var n) (i_splits n) (list_upd (i_children n) k (Some i)) (i_samples n) (i_path n) in
                Ok (with_nodes J (set_inner n' (innernodes J)) (leaves J), i_path n ++ [(i_var n, s)])
            end
        end
    end.
  (** trees.py:1639-1640 *)
  Definition set_root (J : jpt F) (i : nat) : jpt F :=
    JPT (n_vars J) (full J) (innernodes J) (leaves J) (match root J with None => Some i | r => r end) (priors J).
  Definition parent_idx (p : option (nat * nat)) : option nat := option_map fst p.

  (** trees.py:1531-1640 (c45).  The new node is linked to its parent when it is created;
      the code links it at the end of the call, before the next call is taken from the queue. *)
  Definition c45 (N : nat) (c : call) (st : state) : res state :=
    let m := (c_end c - c_start c)%nat in
    let rows := firstn m (skipn (c_start c) (s_indices st)) in
    do s <- compute_best_split val inf neg1 D imp rows;
    let indices := firstn (c_start c) (s_indices st) ++ slice s ++ skipn (c_end c) (s_indices st) in
    let J := s_tree st in
    let i := n_nodes J in
    if gain_allows (gain s) && depth_allows (c_depth c) then
      match best_var s, best_split_pos s with
      | Some v, Some p =>
          match nth_error indices (c_start c + p), nth_error indices (c_start c + p + 1) with
          | Some a, Some b =>
              do sp <- make_splits v a b;
              do Jp <- link J (c_parent c) i;
              let J := fst Jp in
              let n := Inner i (parent_idx (c_parent c)) v (map mk sp) [None; None] m (snd Jp) in
              let J := set_root (with_nodes J (innernodes J ++ [n]) (leaves J)) i in
              let cut := (c_start c + p + 1)%nat in
              Ok (State J indices (s_queue st ++ [Call (c_start c) cut (Some (i, 0%nat)) (S (c_depth c));
                                                  Call cut (c_end c) (Some (i, 1%nat)) (S (c_depth c))]))
          | _, _ => Err IndexError
          end
      | _, _ => Err TypeError
      end
    else
      do ds <- mapM (fit (firstn m (skipn (c_start c) indices))) (seq 0 (length kinds));
      do Jp <- link J (c_parent c) i;
      let J := fst Jp in
      let l := Leaf i (parent_idx (c_parent c)) (Qn m / Qn N) m ds (snd Jp) in
      Ok (State (set_root (with_nodes J (innernodes J) (leaves J ++ [l])) i) indices (s_queue st)).

  (** trees.py:1842-1843 *)
  Fixpoint run (fuel N : nat) (st : state) : res (jpt F) :=
    match s_queue st with
    | [] => Ok (s_tree st)
    | c :: q =>
        match fuel with
        | O => Err OutOfFuel
        | S fuel => do st' <- c45 N c (State (s_tree st) (s_indices st) q); run fuel N st'
        end
    end.

  (** trees.py:1739-1853 (learn) with [close_convex_gaps = False]; [full] are the whole
      domains.  Every call removes a non-empty block from the queue or divides it, which
      bounds the number of calls by [2 * N] (theorem). *)
  Definition learn (full : var -> vset F) (N : nat) : res (jpt F) :=
    if Nat.eqb N 0 then Err ValueError
    else
      do ps <- mapM (fit (seq 0 N)) (seq 0 (length kinds));
      run (2 * N) N (State (JPT (length kinds) full [] [] None ps) (seq 0 N) [Call 0 N None 0]).

  (** trees.py:2393-2448 (postprocess_leaves, [close_convex_gaps = True]): only the
      distributions of the leaves change. *)
  Definition postprocess (post : leaf F -> list (dist F)) (J : jpt F) : jpt F :=
    with_nodes J (innernodes J)
      (map (fun l => Leaf (l_idx l) (l_parent l) (l_prior l) (l_samples l) (post l) (l_path l)) (leaves J)).
End Learn.
