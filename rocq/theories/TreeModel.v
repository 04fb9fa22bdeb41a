(** Model of the joint probability tree, trees.py: nodes, paths, [apply] and the
    exact inference functions.

    The nodes of a tree live in two dictionaries, [innernodes] and [leaves],
    keyed by node number; a reference to a node object is its number.  The
    model keeps exactly these two dictionaries (as lists in insertion order)
    and runs the loops of the code on them.

    The leaf distributions are a parameter: a [family] collects the operations
    on value sets and distributions which trees.py calls.  [TreeDiscrete.v]
    instantiates it with the symbolic and integer distributions. *)
Require Import QArith Bool List Arith.
Require Import Verif.Base Verif.NumBase Verif.UtilModel.
Import ListNotations.
Open Scope Q_scope.

(** Variables are the positions in [JPT.variables]. *)
Definition var := nat.

Record family := Family {
  value : Type;                            (* scalar values, e.g. in pdf() *)
  vset : Type;                             (* value sets: events and splits *)
  dist : Type;                             (* leaf distributions *)
  inter : vset -> vset -> vset;            (* a.intersection(b) *)
  disj : vset -> vset -> bool;             (* a.isdisjoint(b) *)
  single : value -> vset;                  (* {v} resp. ContinuousSet(v, v) *)
  v_in : vset -> value -> bool;            (* the membership test of Node.contains *)
  d_p : dist -> vset -> res Q;             (* d._p(s) *)
  d_prob : dist -> vset -> res Q;          (* one factor of Leaf.probability *)
  d_like : dist -> vset -> res Q;          (* l_var in JPT.posterior *)
  d_pdf : dist -> value -> res Q;          (* d.pdf(v) *)
  d_lik : dist -> value -> res Q;          (* one factor of Leaf.parallel_likelihood *)
  d_crop : dist -> vset -> res dist;       (* d._crop(s) *)
  d_merge : list dist -> list Q -> res dist; (* type(d).merge(ds, ws) *)
  d_mpe : dist -> res (vset * Q);          (* d.mpe(), infinities already capped *)
  d_expectation : dist -> res (Q + vset);  (* d.expectation(): a number, or a set of symbols *)
  d_moment : nat -> Q -> dist -> res Q;    (* d.moment(order, center) *)
  d_jaccard : dist -> dist -> option Q     (* jaccard_similarity; None is NaN *)
}.

Section Tree.
  Context {F : family}.
  Notation vset := (vset F).
  Notation dist := (dist F).
  Notation value := (value F).

  (** An assignment of value sets to variables (VariableMap/ValueAssignment). *)
  Definition assignment := list (var * vset).
  Fixpoint lookup {A} (q : list (var * A)) (v : var) : option A :=
    match q with
    | [] => None
    | (v', s) :: q' => if Nat.eqb v' v then Some s else lookup q' v
    end.
  Definition keys {A} (q : list (var * A)) : list var := map fst q.

  (** trees.py:79-89, 189-202 (DecisionNode). [None] is a child not yet set. *)
  Record inner := Inner {
    i_idx : nat;
    i_parent : option nat;
    i_var : var;
    i_splits : list vset;
    i_children : list (option nat);
    i_samples : nat;
    i_path : list (var * vset)
  }.
  (** trees.py:79-89, 346-355 (Leaf).  [distributions] has one entry per variable
      of the tree, in the order of the variables (trees.py:1617-1622); the
      sample indices are not modelled. *)
  Record leaf := Leaf {
    l_idx : nat;
    l_parent : option nat;
    l_prior : Q;
    l_samples : nat;
    l_dists : list dist;
    l_path : list (var * vset)
  }.
  (** trees.py:702-776 (JPT), as far as inference is concerned. [full v] is the
      whole domain of [v]: set(range(n_values)) or R (trees.py:97-99). *)
  Record jpt := JPT {
    n_vars : nat;
    full : var -> vset;
    innernodes : list inner;
    leaves : list leaf;
    root : option nat;
    priors : list dist
  }.

  Definition get_inner (J : jpt) (i : nat) : option inner := find (fun n => Nat.eqb (i_idx n) i) (innernodes J).
  Definition get_leaf (J : jpt) (i : nat) : option leaf := find (fun l => Nat.eqb (l_idx l) i) (leaves J).

  (** trees.py:787-789 (allnodes): a ChainMap looks into [innernodes] first. *)
  Inductive node := NInner (n : inner) | NLeaf (l : leaf).
  Definition get_node (J : jpt) (i : nat) : option node :=
    match get_inner J i with
    | Some n => Some (NInner n)
    | None => match get_leaf J i with Some l => Some (NLeaf l) | None => None end
    end.

  (** trees.py:91-101 (Node.path), at one variable: [None] if the variable is not
      on the path. *)
  Definition path_get (fl : var -> vset) (p : list (var * vset)) (v : var) : option vset :=
    fold_left (fun acc vs =>
      if Nat.eqb (fst vs) v
      then Some (inter F (match acc with Some a => a | None => fl v end) (snd vs))
      else acc) p None.

  (** trees.py:361-373 (Leaf.applies). *)
  Definition applies (J : jpt) (l : leaf) (q : assignment) : bool :=
    forallb (fun vs =>
      match path_get (full J) (l_path l) (fst vs) with
      | Some p => negb (disj F p (snd vs))
      | None => true
      end) q.

  (** trees.py:1482-1529 (apply).  [fringe] is the deque: [popleft] takes the head,
      [appendleft] pushes to the front, so the selected children end up in reverse
      order.  A child that was never set is a [None] without attributes. *)
  Definition follow (q : assignment) (v : var) (s : vset) : bool :=
    match lookup q v with None => true | Some e => negb (disj F e s) end.
  Definition selected (q : assignment) (n : inner) : list (option nat) :=
    map fst (filter (fun cs => follow q (i_var n) (snd cs)) (combine (i_children n) (i_splits n))).
  Fixpoint apply_loop (fuel : nat) (J : jpt) (q : assignment) (fringe : list (option nat)) : res (list leaf) :=
    match fringe with
    | [] => Ok []
    | o :: rest =>
        match fuel with
        | O => Err OutOfFuel
        | S fuel =>
            match o with
            | None => Err AttributeError
            | Some i =>
                match get_node J i with
                | None => Err KeyError
                | Some (NLeaf l) => do ls <- apply_loop fuel J q rest; Ok (l :: ls)
                | Some (NInner n) => apply_loop fuel J q (rev (selected q n) ++ rest)
                end
            end
        end
    end.
  (** Every node is visited at most once (theorem), which bounds the loop. *)
  Definition n_nodes (J : jpt) : nat := length (innernodes J) + length (leaves J).
  Definition known (J : jpt) (q : assignment) : bool := forallb (fun vs => Nat.ltb (fst vs) (n_vars J)) q.
  Definition apply (J : jpt) (q : assignment) : res (list leaf) :=
    if negb (known J q) then Err TypeError
    else match root J with
         | None => Err AttributeError (* RuntimeError: 'JPT not fitted yet.' *)
         | Some r => apply_loop (n_nodes J) J q [Some r]
         end.

  Definition leaf_dist (l : leaf) (v : var) : res dist :=
    match nth_error (l_dists l) v with Some d => Ok d | None => Err KeyError end.

  (** [value.intersection(leaf.path[var])] if the variable is on the path. *)
  Definition restrict (J : jpt) (l : leaf) (v : var) (s : vset) : vset :=
    match path_get (full J) (l_path l) v with Some p => inter F s p | None => s end.

  (** trees.py:1063-1067 and 1073-1078: the factors of one leaf. *)
  Fixpoint mul_p (J : jpt) (l : leaf) (q : assignment) (p_m : Q) : res Q :=
    match q with
    | [] => Ok p_m
    | (v, s) :: q' =>
        do d <- leaf_dist l v;
        do x <- d_p F d (restrict J l v s);
        mul_p J l q' (p_m * x)
    end.
  Fixpoint infer_loop (J : jpt) (q e : assignment) (ls : list leaf) (p_q p_e : Q) : res (Q * Q) :=
    match ls with
    | [] => Ok (p_q, p_e)
    | l :: ls' =>
        do p_m <- mul_p J l e 1;
        let p_m := p_m * l_prior l in
        if applies J l q
        then do p_mq <- mul_p J l q p_m; infer_loop J q e ls' (p_q + p_mq) (p_e + p_m)
        else infer_loop J q e ls' p_q (p_e + p_m)
    end.
  (** trees.py:1011-1094 (infer) on value assignments; 1466-1480
      (_check_variable_assignment). *)
  Definition infer (J : jpt) (q e : assignment) (fail_on_unsatisfiability : bool) : res (option Q) :=
    if negb (known J q) then Err ValueError
    else if negb (known J e) then Err ValueError
    else
      do ls <- apply J e;
      do pq_pe <- infer_loop J q e ls 0 0;
      if Qeq_bool (snd pq_pe) 0
      then if fail_on_unsatisfiability then Err ValueError else Ok None
      else Ok (Some (fst pq_pe / snd pq_pe)).

  (** trees.py:1139-1163 (posterior): the likelihood of the evidence in one leaf;
      [None] if the evidence conflicts with the leaf ([report_inconsistencies]
      only collects the reasons and is not modelled). *)
  Fixpoint leaf_likelihood (J : jpt) (l : leaf) (e : assignment) (acc : Q) : res (option Q) :=
    match e with
    | [] => Ok (Some acc)
    | (v, s) :: e' =>
        do d <- leaf_dist l v;
        do x <- d_like F d (restrict J l v s);
        if Qeq_bool x 0 then Ok None else leaf_likelihood J l e' (acc * x)
    end.
  (** trees.py:1168-1175: the distribution of one variable in one leaf. *)
  Definition leaf_posterior (J : jpt) (l : leaf) (e : assignment) (v : var) : res dist :=
    do d <- leaf_dist l v;
    match lookup e v with
    | None => Ok d
    | Some s =>
        match path_get (full J) (l_path l) v with
        | Some p => d_crop F d (inter F s p)
        | None => Ok d
        end
    end.
  (** trees.py:1136-1175: the loop over the leaves: weights and, per leaf, the
      distributions of the requested variables. *)
  Fixpoint posterior_loop (J : jpt) (vs : list var) (e : assignment) (ls : list leaf) : res (list (Q * list dist)) :=
    match ls with
    | [] => Ok []
    | l :: ls' =>
        do x <- leaf_likelihood J l e 1;
        match x with
        | None => posterior_loop J vs e ls'
        | Some x =>
            do ds <- mapM (leaf_posterior J l e) vs;
            do r <- posterior_loop J vs e ls';
            Ok ((x * l_prior l, ds) :: r)
        end
    end.
  Definition column (rows : list (Q * list dist)) (k : nat) : list dist :=
    flat_map (fun r => match nth_error (snd r) k with Some d => [d] | None => [] end) rows.
  (** trees.py:1097-1197 (posterior), for distinct variables [vs]. *)
  Definition posterior (J : jpt) (vs : list var) (e : assignment) (fail_on_unsatisfiability : bool)
    : res (option (list (var * dist))) :=
    if negb (known J e) then Err ValueError
    else
      do ls <- apply J e;
      do rows <- posterior_loop J vs e ls;
      match normalized (map fst rows) false false 0 with
      | Err ValueError => if fail_on_unsatisfiability then Err Unsatisfiability else Ok None
      | Err x => Err x
      | Ok ws =>
          do ds <- mapM (fun k => d_merge F (column rows k) ws) (seq 0 (length vs));
          Ok (Some (combine vs ds))
      end.

  (** trees.py:1199-1246 (expectation): by default all variables; an empty list
      means the variables without evidence. *)
  Definition expectation_vars (J : jpt) (vs : option (list var)) (e : assignment) : list var :=
    let vs := match vs with Some vs => vs | None => seq 0 (n_vars J) end in
    match vs with
    | [] => filter (fun v => negb (existsb (Nat.eqb v) (keys e))) (seq 0 (n_vars J))
    | _ => vs
    end.
  Definition expectation (J : jpt) (vs : option (list var)) (e : assignment) (fail_on_unsatisfiability : bool)
    : res (option (list (var * (Q + vset)))) :=
    do ps <- posterior J (expectation_vars J vs e) e fail_on_unsatisfiability;
    match ps with
    | None => if fail_on_unsatisfiability then Err Unsatisfiability else Ok None
    | Some ps =>
        do r <- mapM (fun vd => do x <- d_expectation F (snd vd); Ok (fst vd, x)) ps;
        Ok (Some r)
    end.

  (** trees.py:2522-2562 (moment): [vs] are the numeric and integer variables,
      [center] the centres given (0 by default). *)
  Definition moment (J : jpt) (vs : list var) (order : nat) (center : list (var * Q)) (e : assignment)
      (fail_on_unsatisfiability : bool) : res (option (list (var * Q))) :=
    do ps <- posterior J vs e fail_on_unsatisfiability;
    match ps with
    | None => Ok None
    | Some ps =>
        do r <- mapM (fun vd =>
          do x <- d_moment F order (match lookup center (fst vd) with Some c => c | None => 0 end) (snd vd);
          Ok (fst vd, x)) ps;
        Ok (Some r)
    end.

  (** trees.py:972-1009 (pdf) of a partial assignment of scalars. *)
  Fixpoint mul_pdf (l : leaf) (w : list (var * value)) : res Q :=
    match w with
    | [] => Ok 1
    | (v, x) :: w' => do d <- leaf_dist l v; do y <- d_pdf F d x; do r <- mul_pdf l w'; Ok (y * r)
    end.
  Fixpoint pdf_loop (w : list (var * value)) (ls : list leaf) : res Q :=
    match ls with
    | [] => Ok 0
    | l :: ls' => do x <- mul_pdf l w; do r <- pdf_loop w ls'; Ok (l_prior l * x + r)
    end.
  Definition pdf (J : jpt) (w : list (var * value)) : res Q :=
    let sets := map (fun vx => (fst vx, single F (snd vx))) w in
    if negb (known J sets) then Err ValueError
    else do ls <- apply J sets; pdf_loop w ls.

  (** trees.py:551-603 (parallel_likelihood) for one row, 1888-1930 (likelihood):
      here every leaf contributes, whatever its path. *)
  Fixpoint mul_lik (ds : list dist) (row : list value) : res Q :=
    match ds, row with
    | [], _ => Ok 1
    | _ :: _, [] => Err IndexError
    | d :: ds', x :: row' => do y <- d_lik F d x; do r <- mul_lik ds' row'; Ok (y * r)
    end.
  Fixpoint lik_loop (ls : list leaf) (row : list value) : res Q :=
    match ls with
    | [] => Ok 0
    | l :: ls' => do x <- mul_lik (l_dists l) row; do r <- lik_loop ls' row; Ok (l_prior l * x + r)
    end.
  Definition likelihood (J : jpt) (row : list value) : res Q := lik_loop (leaves J) row.

  (** trees.py:167-183 (contains) for one row, 957-970 (encode): the number of the
      last leaf that contains the row, 0 if none does. *)
  Definition contains (J : jpt) (path : list (var * vset)) (row : list value) : res bool :=
    fold_right (fun v acc =>
      do b <- acc;
      match path_get (full J) path v, nth_error row v with
      | Some p, Some x => Ok (v_in F p x && b)
      | None, _ => Ok b
      | Some _, None => Err IndexError
      end) (Ok true) (nodup Nat.eq_dec (keys path)).
  Fixpoint encode_loop (J : jpt) (row : list value) (ls : list leaf) (acc : nat) : res nat :=
    match ls with
    | [] => Ok acc
    | l :: ls' => do b <- contains J (l_path l) row; encode_loop J row ls' (if b then l_idx l else acc)
    end.
  Definition encode (J : jpt) (row : list value) : res nat := encode_loop J row (leaves J) O.

  (** trees.py:465-504 (Leaf.probability). *)
  Fixpoint leaf_probability (l : leaf) (q : assignment) (acc : Q) : res Q :=
    match q with
    | [] => Ok acc
    | (v, s) :: q' =>
        do d <- leaf_dist l v;
        do x <- d_prob F d s;
        leaf_probability l q' (acc * x)
    end.

  (** ** Updates of the node dictionaries *)

  Definition set_inner (n : inner) (ns : list inner) : list inner :=
    map (fun m => if Nat.eqb (i_idx m) (i_idx n) then n else m) ns.
  Definition set_leaf (l : leaf) (ls : list leaf) : list leaf :=
    map (fun m => if Nat.eqb (l_idx m) (l_idx l) then l else m) ls.
  Definition del_inner (i : nat) (ns : list inner) : list inner := filter (fun m => negb (Nat.eqb (i_idx m) i)) ns.
  Definition del_leaf (i : nat) (ls : list leaf) : list leaf := filter (fun m => negb (Nat.eqb (l_idx m) i)) ls.
  Definition with_nodes (J : jpt) (ns : list inner) (ls : list leaf) : jpt :=
    JPT (n_vars J) (full J) ns ls (root J) (priors J).
  Definition with_root (J : jpt) (r : option nat) : jpt :=
    JPT (n_vars J) (full J) (innernodes J) (leaves J) r (priors J).
  Definition with_priors (J : jpt) (ps : list dist) : jpt :=
    JPT (n_vars J) (full J) (innernodes J) (leaves J) (root J) ps.
  Definition with_prior (l : leaf) (p : Q) : leaf :=
    Leaf (l_idx l) (l_parent l) p (l_samples l) (l_dists l) (l_path l).
  Definition with_dists (l : leaf) (ds : list dist) : leaf :=
    Leaf (l_idx l) (l_parent l) (l_prior l) (l_samples l) ds (l_path l).

  (** [children.index(node)]: the nodes have distinct numbers, so equality of
      nodes (trees.py:207-219, 439-445) is equality of numbers. *)
  Fixpoint child_index (cs : list (option nat)) (i : nat) : option nat :=
    match cs with
    | [] => None
    | Some c :: cs' => if Nat.eqb c i then Some O else option_map S (child_index cs' i)
    | None :: cs' => option_map S (child_index cs' i)
    end.
  Fixpoint del_nth {A} (k : nat) (l : list A) : list A :=
    match l, k with
    | [], _ => []
    | _ :: l', O => l'
    | x :: l', S k => x :: del_nth k l'
    end.

  (** ** conditional_jpt, trees.py:2184-2302 *)

  (** trees.py:2259-2269: unlink a removed node from its parent and queue the
      parent; a removed root leaves the tree empty. *)
  Definition unlink (J : jpt) (i : nat) (parent : option nat) (fringe : list nat) : res (jpt * list nat) :=
    do Jf <- match parent with
             | None => Ok (J, fringe)
             | Some p =>
                 match get_inner J p with
                 | None => Err KeyError
                 | Some n =>
                     match child_index (i_children n) i with
                     | None => Err ValueError
                     | Some k =>
                         let n' := Inner (i_idx n) (i_parent n) (i_var n) (del_nth k (i_splits n))
                                     (del_nth k (i_children n)) (i_samples n) (i_path n) in
                         Ok (with_nodes J (set_inner n' (innernodes J)) (leaves J), fringe ++ [p])
                     end
                 end
             end;
    let (J, fringe) := (Jf : jpt * list nat) in
    match root J with
    | Some r => if Nat.eqb r i then Ok (with_root J None, fringe) else Ok (J, fringe)
    | None => Ok (J, fringe)
    end.

  (** The children as queue entries; [None] in the queue has no [idx]. *)
  Fixpoint all_some {A} (l : list (option A)) : option (list A) :=
    match l with
    | [] => Some []
    | None :: _ => None
    | Some x :: l' => match all_some l' with Some r => Some (x :: r) | None => None end
    end.

  (** trees.py:2216-2269: the exploration loop. *)
  Fixpoint cond_loop (fuel : nat) (e : assignment) (J : jpt) (fringe : list nat) : res jpt :=
    match fringe with
    | [] => Ok J
    | i :: rest =>
        match fuel with
        | O => Err OutOfFuel
        | S fuel =>
            match get_node J i with
            | None => cond_loop fuel e J rest
            | Some (NInner n) =>
                match i_children n with
                | [] =>
                    do Jf <- unlink (with_nodes J (del_inner i (innernodes J)) (leaves J)) i (i_parent n) rest;
                    cond_loop fuel e (fst Jf) (snd Jf)
                | [_; _] =>
                    match all_some (i_children n) with
                    | None => Err AttributeError
                    | Some cs => cond_loop fuel e J (rev cs ++ rest)
                    end
                | _ => cond_loop fuel e J rest
                end
            | Some (NLeaf l) =>
                do x <- leaf_probability l e 1;
                if Qltb 0 x
                then cond_loop fuel e (with_nodes J (innernodes J) (set_leaf (with_prior l (l_prior l * x)) (leaves J))) rest
                else
                  do Jf <- unlink (with_nodes J (innernodes J) (del_leaf i (leaves J))) i (l_parent l) rest;
                  cond_loop fuel e (fst Jf) (snd Jf)
            end
        end
    end.

  Fixpoint list_upd {A} (l : list A) (i : nat) (x : A) : list A :=
    match l, i with
    | [], _ => []
    | _ :: l', O => x :: l'
    | y :: l', S i => y :: list_upd l' i x
    end.

  (** trees.py:618-634 (conditional_leaf) and 2293-2296: crop the distributions of
      the evidence variables. *)
  Fixpoint crop_dists (ds : list dist) (e : assignment) : res (list dist) :=
    match e with
    | [] => Ok ds
    | (v, s) :: e' =>
        match nth_error ds v with
        | None => Err KeyError
        | Some d => do d' <- d_crop F d s; crop_dists (list_upd ds v d') e'
        end
    end.
  Definition conditional_leaf (l : leaf) (e : assignment) : res leaf :=
    do ds <- crop_dists (l_dists l) e; Ok (with_dists l ds).

  (** trees.py:2184-2302 (conditional_jpt) on value assignments.  [self.copy()] is
      the identity here: the model's trees are immutable values (the copy is made
      through JSON, see TreeJson.v).  The loop bound suffices (theorem). *)
  Definition conditional_jpt (J : jpt) (e : assignment) (fail_on_unsatisfiability : bool) : res (option jpt) :=
    match e with
    | [] => Ok (Some J)
    | _ :: _ =>
        match root J with
        | None => Err AttributeError
        | Some r =>
            do J1 <- cond_loop (2 * n_nodes J) e J [r];
            let mass := match root J1 with
                        | None => 0
                        | Some _ => Qsum (map l_prior (leaves J1))
                        end in
            if Qeq_bool mass 0
            then if fail_on_unsatisfiability then Err Unsatisfiability else Ok None
            else
              do ls <- mapM (fun l => conditional_leaf (with_prior l (l_prior l / mass)) e) (leaves J1);
              let J2 := with_nodes J1 (innernodes J1) ls in
              do ps <- posterior J2 (seq 0 (n_vars J2)) [] true;
              match ps with
              | None => Ok (Some (with_priors J2 []))
              | Some ps => Ok (Some (with_priors J2 (map snd ps)))
              end
        end
    end.

  (** trees.py:2318-2331 (normalize). *)
  Definition normalize (J : jpt) : res jpt :=
    let mass := Qsum (map l_prior (leaves J)) in
    if Qeq_bool mass 0 then Err Unsatisfiability
    else Ok (with_nodes J (innernodes J) (map (fun l => with_prior l (l_prior l / mass)) (leaves J))).

  (** trees.py:2304-2317 (multiply_by_leaf_prior). *)
  Definition multiply_by_leaf_prior (J : jpt) (prior : list (nat * Q)) : res jpt :=
    do ls <- mapM (fun l => match lookup prior (l_idx l) with
                            | None => Err KeyError
                            | Some x => Ok (with_prior l (l_prior l * x))
                            end) (leaves J);
    normalize (with_nodes J (innernodes J) ls).

  (** ** Most probable explanation *)

  (** trees.py:636-662 (Leaf.mpe): value sets per variable and the likelihood. *)
  Fixpoint mpe_dists (ds : list dist) (acc : Q) : res (list vset * Q) :=
    match ds with
    | [] => Ok ([], acc)
    | d :: ds' =>
        do sx <- d_mpe F d;
        do r <- mpe_dists ds' (acc * snd sx);
        Ok (fst sx :: fst r, snd r)
    end.
  Definition leaf_mpe (l : leaf) : res (list vset * Q) := mpe_dists (l_dists l) (l_prior l).

  (** [max] of a non-empty list. *)
  Fixpoint maxQ (x : Q) (l : list Q) : Q :=
    match l with [] => x | y :: l' => maxQ (if Qltb x y then y else x) l' end.

  (** trees.py:1248-1295 (mpe): ValueError for [max] of an empty list. *)
  Definition mpe (J : jpt) (e : assignment) (fail_on_unsatisfiability : bool)
    : res (option (list (list vset) * Q)) :=
    if negb (known J e) then Err ValueError
    else
      do C <- conditional_jpt J e fail_on_unsatisfiability;
      match C with
      | None => Ok None
      | Some C =>
          do maxima <- mapM leaf_mpe (leaves C);
          match maxima with
          | [] => Err ValueError
          | m :: ms =>
              let highest := maxQ (snd m) (map snd ms) in
              Ok (Some (map fst (filter (fun m => Qeq_bool (snd m) highest) maxima), highest))
          end
      end.

  (** ** Pruning, trees.py:2584-2678, without [approximate] *)

  (** [np.mean]: NaN ([None]) for an empty list or with a NaN entry. *)
  Definition mean (l : list (option Q)) : option Q :=
    match l with
    | [] => None
    | _ => match all_some l with Some r => Some (Qsum r / Qn (length r)) | None => None end
    end.
  Definition similarity (J : jpt) (n : inner) (l r : leaf) : option Q :=
    mean (map (fun v => match nth_error (l_dists l) v, nth_error (l_dists r) v with
                        | Some a, Some b => d_jaccard F a b
                        | _, _ => None
                        end)
              (filter (fun v => negb (Nat.eqb v (i_var n))) (seq 0 (n_vars J)))).

  Definition max_idx (J : jpt) : nat :=
    fold_right Nat.max O (map i_idx (innernodes J) ++ map l_idx (leaves J)).

  (** trees.py:277-286 (set_child) for a leaf. *)
  Definition set_child_leaf (J : jpt) (p : inner) (k : nat) (l : leaf) : res (inner * leaf) :=
    match nth_error (i_splits p) k with
    | None => Err IndexError
    | Some s =>
        Ok (Inner (i_idx p) (i_parent p) (i_var p) (i_splits p) (list_upd (i_children p) k (Some (l_idx l)))
                  (i_samples p) (i_path p),
            Leaf (l_idx l) (l_parent l) (l_prior l) (l_samples l) (l_dists l) (i_path p ++ [(i_var p, s)]))
    end.

  (** trees.py:2636-2676: merge two leaves into one. *)
  Definition merge_dists (ds ds' : list dist) (ws : list Q) (n : nat) : res (list dist) :=
    mapM (fun v => match nth_error ds v, nth_error ds' v with
                   | Some a, Some b => d_merge F [a; b] ws
                   | _, _ => Err KeyError
                   end) (seq 0 n).
  Definition merge_leaves (J : jpt) (n : inner) (l r : leaf) : res (jpt * option nat) :=
    do ws <- normalized [l_prior l; l_prior r] false false 0;
    do ds <- merge_dists (l_dists l) (l_dists r) ws (n_vars J);
    let lf := Leaf (S (max_idx J)) (i_parent n) (l_prior l + l_prior r) (l_samples l + l_samples r) ds [] in
    let ls := del_leaf (l_idx r) (del_leaf (l_idx l) (leaves J)) in
    let ns := del_inner (i_idx n) (innernodes J) in
    match i_parent n with
    | None => Ok (with_root (with_nodes J ns (ls ++ [lf])) (Some (l_idx lf)), None)
    | Some p =>
        match find (fun m => Nat.eqb (i_idx m) p) ns with
        | None => Err KeyError
        | Some pn =>
            match child_index (i_children pn) (i_idx n) with
            | None => Err ValueError
            | Some k =>
                do pl <- set_child_leaf J pn k lf;
                Ok (with_nodes J (set_inner (fst pl) ns) (ls ++ [snd pl]), Some p)
            end
        end
    end.

  (** trees.py:2609-2678: the loop.  [left, right = node.children] precedes the test
      whether the node still exists; a deleted node has the two leaves as children
      with which it was merged, so the unpacking succeeds and the node is skipped. *)
  Fixpoint prune_loop (fuel : nat) (threshold : Q) (J : jpt) (queue : list nat) : res jpt :=
    match queue with
    | [] => Ok J
    | i :: rest =>
        match fuel with
        | O => Err OutOfFuel
        | S fuel =>
            match get_inner J i with
            | None => prune_loop fuel threshold J rest
            | Some n =>
                match i_children n with
                | [Some a; Some b] =>
                    match get_inner J a, get_inner J b, get_leaf J a, get_leaf J b with
                    | None, None, Some l, Some r =>
                        match similarity J n l r with
                        | None => prune_loop fuel threshold J rest
                        | Some x =>
                            if Qltb x threshold then prune_loop fuel threshold J rest
                            else
                              do Jp <- merge_leaves J n l r;
                              match snd Jp with
                              | None => prune_loop fuel threshold (fst Jp) rest
                              | Some p => prune_loop fuel threshold (fst Jp) (rest ++ [p])
                              end
                        end
                    | _, _, _, _ => prune_loop fuel threshold J rest
                    end
                | _ => Err ValueError
                end
            end
        end
    end.
  (** Every merge removes an inner node and queues at most one. *)
  Definition prune (J : jpt) (threshold : Q) : res jpt :=
    prune_loop (2 * length (innernodes J)) threshold J (map i_idx (innernodes J)).
End Tree.
Arguments jpt : clear implicits.
Arguments leaf : clear implicits.
Arguments inner : clear implicits.
Arguments node : clear implicits.
Arguments assignment : clear implicits.
