(** Model of the k-MPE solver: src/jpt/inference/mpe.py, the heap of
    src/jpt/base/utils.py, and the enumeration over leaves JPT.kmpe (src/jpt/trees.py).

    Simplifications, valid for the whole file.
    - The code adds costs [-log w].  The model multiplies the weights [w] themselves:
      exact logarithms are an order-reversing isomorphism, so "cost a <= cost b" is
      "weight b <= weight a", the cost 0 is the weight 1 and the cost [inf] is the
      weight 0.  Rounding of the floating-point sums is not modelled.
    - Infinite densities (point distributions) are not modelled.
    - Variables are numbered in the order in which the distributions are listed
      (variables with different names). *)
Require Import QArith List Bool Arith Lia Permutation.
Require Import Verif.Base Verif.NumBase.
Import ListNotations.
Open Scope Q_scope.

(** base/utils.py (Heap: __init__, push, pop, __getitem__ 0): the entries are
    compared by (key, insertion index), a total order without ties, so [pop] and
    [heap[0]] give the entry with the smallest key that was pushed first.  The model
    keeps the entries in that order.  [before a b]: the key of a is smaller than
    that of b. *)
Section Heap.
  Variable A : Type.
  Variable before : A -> A -> bool.
  Fixpoint hpush (x : A) (h : list A) : list A :=
    match h with [] => [x] | y :: h' => if before x y then x :: h else y :: hpush x h' end.
  Definition heapify (l : list A) : list A := fold_left (fun h x => hpush x h) l [].
End Heap.
Arguments hpush {A}. Arguments heapify {A}.

Section Mpe.
  (** Explanation states of a single variable: number sets or sets of values. *)
  Variable V : Type.
  Variable veqb : V -> V -> bool.

  (** What the solver asks of a distribution: [k_mpe], the list of (state, likelihood)
      pairs of [_k_mpe()]; [mass], for a numeric distribution the density at
      [any_point()] of the state, otherwise the probability [_p] of the state;
      [numeric], whether it is a numeric one. *)
  Record dist := Dist { numeric : bool; k_mpe : list (V * Q); mass : V -> Q }.

  (** Python dictionaries keyed by states. *)
  Fixpoint vget (d : list (V * Q)) (v : V) : res Q :=
    match d with [] => Err KeyError | (u, q) :: d' => if veqb v u then Ok q else vget d' v end.
  Fixpoint vput (d : list (V * Q)) (v : V) (q : Q) : list (V * Q) :=
    match d with [] => [(v, q)] | (u, p) :: d' => if veqb v u then (u, q) :: d' else (u, p) :: vput d' v q end.

  (** mpe.py:126-128: the dictionary of the explanation states of one variable. *)
  Definition domain_of (d : dist) : list (V * Q) :=
    fold_left (fun m vq => vput m (fst vq) (snd vq)) (k_mpe d) [].

  (** mpe.py:130-139: the largest density of the numeric distributions ([_mpe]
      of a distribution without explanation cannot be unpacked), or 1. *)
  Fixpoint max_densities (ds : list dist) : res (list Q) :=
    match ds with
    | [] => Ok []
    | d :: ds' =>
        if numeric d then
          match k_mpe d with
          | [] => Err TypeError
          | vq :: _ => do r <- max_densities ds'; Ok (snd vq :: r)
          end
        else max_densities ds'
    end.
  Definition qmaxl (x : Q) (l : list Q) : Q := fold_left (fun m y => if Qltb m y then y else m) l x.
  Definition divisor_of (given : option Q) (ds : list dist) : res Q :=
    do ls <- max_densities ds;
    match given with
    | Some q => Ok q
    | None => match ls with [] => Ok 1 | l :: ls' => Ok (qmaxl l ls') end
    end.

  (** mpe.py:141-164: the states of one variable by ascending cost (stable), those
      of infinite cost removed. *)
  Fixpoint insert_w (x : V * Q) (l : list (V * Q)) : list (V * Q) :=
    match l with [] => [x] | y :: l' => if Qltb (snd y) (snd x) then x :: l else y :: insert_w x l' end.
  Definition sort_w (l : list (V * Q)) : list (V * Q) := fold_left (fun m x => insert_w x m) l [].
  Definition weight_of (div : Q) (d : dist) (v : V) : Q := if numeric d then mass d v / div else mass d v.
  Definition constraints_of (div : Q) (d : dist) : list (V * Q) :=
    filter (fun vw => negb (Qeq_bool (snd vw) 0)) (sort_w (map (fun vq => (fst vq, weight_of div d (fst vq))) (domain_of d))).

  (** mpe.py:190-204 (variable_order): stable ascending by number of states. *)
  Fixpoint insert_v (len : nat -> nat) (x : nat) (l : list nat) : list nat :=
    match l with [] => [x] | y :: l' => if (len x <? len y)%nat then x :: l else y :: insert_v len x l' end.
  Definition order_by (len : nat -> nat) (xs : list nat) : list nat := fold_left (fun m x => insert_v len x m) xs [].

  (** The solver object: per variable whether its states survive the deep copy of
      a VariableMap (variables.py:685-696: number sets do, frozensets are dropped),
      the dictionary [domains], the dictionary [constraints]; and the bounds [lb]. *)
  Record solver := Solver { kept : list bool; domains : list (list (V * Q)); constraints : list (list (V * Q)); lb : list (nat * Q) }.
  Definition con (s : solver) (x : nat) : list (V * Q) := nth x (constraints s) [].
  Definition nvars (s : solver) : nat := length (constraints s).
  Definition order_of (cs : list (list (V * Q))) : list nat :=
    order_by (fun x => length (nth x cs [])) (seq 0 (length cs)).
  Definition order (s : solver) : list nat := order_of (constraints s).

  (** mpe.py:166-176: for each variable the least cost of all later ones;
      [min] of an empty list is a ValueError. *)
  Definition best (c : list (V * Q)) : res Q :=
    match c with [] => Err ValueError | (_, w) :: c' => Ok (qmaxl w (map snd c')) end.
  Fixpoint lower_bounds (xs : list nat) (bs : list Q) : list (nat * Q) :=
    match xs, bs with
    | x :: xs', _ :: bs' => (x, fold_right (fun b m => m * b) 1 bs') :: lower_bounds xs' bs'
    | _, _ => []
    end.
  Definition init (given : option Q) (ds : list dist) : res solver :=
    do div <- divisor_of given ds;
    let cs := map (constraints_of div) ds in
    let xs := order_of cs in
    do bs <- mapM (fun x => best (nth x cs [])) xs;
    Ok (Solver (map numeric ds) (map domain_of ds) cs (lower_bounds xs bs)).

  (** Assignments: dictionaries from variables to states. *)
  Definition asg := list (nat * V).
  Definition mem (a : asg) (x : nat) : bool := existsb (fun xv => (fst xv =? x)%nat) a.
  Fixpoint aput (a : asg) (x : nat) (v : V) : asg :=
    match a with [] => [(x, v)] | (y, u) :: a' => if (x =? y)%nat then (y, v) :: a' else (y, u) :: aput a' x v end.
  (** mpe.py:23-26, variables.py:685-696 (copy(deep=True)). *)
  Definition deep_copy (s : solver) (a : asg) : asg := filter (fun xv => nth (fst xv) (kept s) false) a.
  (** mpe.py:28-32 (assign). *)
  Definition assign (s : solver) (a : asg) (x : nat) (v : V) : asg := aput (deep_copy s a) x v.

  (** mpe.py:40-51 (BnBNode): [n_vals] are the state being tried and those still
      to be tried, [n_act] is the actual cost. *)
  Record node := Node { n_old : asg; n_var : option nat; n_vals : list (V * Q); n_act : Q }.
  Definition mk_node (s : solver) (a : asg) (act : Q) : node :=
    match filter (fun x => negb (mem a x)) (order s) with
    | [] => Node a None [] act
    | x :: _ => Node a (Some x) (con s x) act
    end.
  (** mpe.py:53-60: the current state; None when all were tried. *)
  Definition n_state (s : solver) (n : node) : option asg :=
    match n_var n, n_vals n with
    | Some x, (v, _) :: _ => Some (assign s (n_old n) x v)
    | _, _ => None
    end.
  Definition n_step (n : node) : Q := match n_vals n with [] => 1 | (_, w) :: _ => w end.
  Fixpoint lb_get (l : list (nat * Q)) (x : nat) : Q :=
    match l with [] => 1 | (y, b) :: l' => if (x =? y)%nat then b else lb_get l' x end.
  (** mpe.py:80-82 (cost). *)
  Definition n_cost (s : solver) (n : node) : Q :=
    n_act n * n_step n * match n_var n with Some x => lb_get (lb s) x | None => 1 end.
  (** mpe.py:84-86, 183-188 (free_variables, is_goal_state). *)
  Definition is_goal (s : solver) (a : asg) : bool := forallb (mem a) (seq 0 (nvars s)).
  Definition n_next (n : node) : node := Node (n_old n) (n_var n) (tl (n_vals n)) (n_act n).
  Definition n_live (s : solver) (n : node) : bool := match n_state s n with None => false | Some _ => true end.

  (** mpe.py:89-93 (BnBSolution). *)
  Record sol := Sol { s_asg : asg; s_cost : Q }.
  Definition sol_before (a b : sol) : bool := Qltb (s_cost b) (s_cost a).
  Definition node_before (s : solver) (a b : node) : bool := Qltb (n_cost s b) (n_cost s a).

  (** mpe.py:230-250: the depth-first search until the fringe is empty. *)
  Fixpoint search (fuel : nat) (s : solver) (fringe pruned : list node) (sols : list sol) (ub : Q)
    : res (list node * list sol * Q) :=
    match fuel with
    | O => Err OutOfFuel
    | S fuel' =>
        match fringe with
        | [] => Ok (pruned, sols, ub)
        | n :: fr =>
            match n_state s n with
            | None => Err AttributeError
            | Some a =>
                let n' := n_next n in
                let fr' := if n_live s n' then n' :: fr else fr in
                if is_goal s a then
                  if Qle_bool ub (n_cost s n) then
                    search fuel' s fr' pruned (hpush sol_before (Sol a (n_cost s n)) sols) (n_cost s n)
                  else search fuel' s fr (hpush (node_before s) n pruned) sols ub
                else if Qltb (n_cost s n) ub && Qltb 0 (n_cost s n) then
                  search fuel' s fr (hpush (node_before s) n pruned) sols ub
                else search fuel' s (mk_node s a (n_act n * n_step n) :: fr') pruned sols ub
            end
        end
    end.

  (** mpe.py:178-181 (likelihood). *)
  Fixpoint likelihood (s : solver) (a : asg) : res Q :=
    match a with
    | [] => Ok 1
    | (x, v) :: a' => do q <- vget (nth x (domains s) []) v; do r <- likelihood s a'; Ok (q * r)
    end.

  (** mpe.py:251-256: yield the solutions at the bound; [k] solutions are still
      wanted, [None] for all.  The result tells whether the generator returned. *)
  Fixpoint emit (s : solver) (sols : list sol) (ub : Q) (k : option nat) : res (list (asg * Q) * list sol * option nat * bool) :=
    match sols with
    | [] => Ok ([], [], k, false)
    | x :: sols' =>
        if Qeq_bool (s_cost x) ub then
          do l <- likelihood s (s_asg x);
          match k with
          | None => do r <- emit s sols' ub None; let '(o, rest, k', stop) := r in Ok ((s_asg x, l) :: o, rest, k', stop)
          | Some (S O) | Some O => Ok ([(s_asg x, l)], sols', Some O, true)
          | Some (S k') => do r <- emit s sols' ub (Some k'); let '(o, rest, k2, stop) := r in Ok ((s_asg x, l) :: o, rest, k2, stop)
          end
        else Ok ([], sols, k, false)
    end.

  (** mpe.py:229-260: the outer loop. *)
  Fixpoint rounds (fuel : nat) (s : solver) (fringe : list node) (sols : list sol) (ub : Q) (k : option nat) : res (list (asg * Q)) :=
    match fuel with
    | O => Err OutOfFuel
    | S fuel' =>
        match fringe, sols with
        | [], [] => Ok []
        | _, _ =>
            do r <- search fuel s fringe [] sols ub;
            let '(pruned, sols1, ub1) := r in
            do e <- emit s sols1 ub1 k;
            let '(out, sols2, k', stop) := e in
            if stop : bool then Ok out
            else
              do more <- rounds fuel' s pruned sols2 (match sols2 with [] => 0 | x :: _ => s_cost x end) k';
              Ok (out ++ more)
        end
    end.

  (** mpe.py:206-227 (solve); [k = 0] asks for all solutions. *)
  Definition solve (fuel : nat) (s : solver) (k : nat) : res (list (asg * Q)) :=
    rounds fuel s [mk_node s [] 1] [] 0 (match k with O => None | _ => Some k end).

  (** trees.py:1322-1359 (kmpe), for the leaves of the tree conditioned on the
      evidence: the divisor is the largest density of all leaves; every leaf has a
      solver; a heap keyed by the likelihood holds the next solution of each one.
      The generators are represented by the lists of what they yield; the first
      [next] of an exhausted one raises StopIteration, which is a RuntimeError. *)
  Definition tree_divisor (leaves : list (list dist)) : res (option Q) :=
    do ls <- max_densities (concat leaves);
    Ok (match ls with [] => None | l :: ls' => Some (qmaxl l ls') end).
  Definition stream := ((asg * Q) * list (asg * Q))%type.
  Definition stream_before (a b : stream) : bool := Qltb (snd (fst a)) (snd (fst b)).
  Fixpoint enumerate (fuel : nat) (h : list stream) (k : option nat) : list (asg * Q) :=
    match fuel, k, h with
    | S fuel', (None | Some (S _)), ((x, rest) :: h') =>
        x :: enumerate fuel' (match rest with [] => h' | y :: rest' => hpush stream_before (y, rest') h' end)
                       (match k with Some (S k') => Some k' | _ => None end)
    | _, _, _ => []
    end.
  Definition head_of (l : list (asg * Q)) : res stream := match l with [] => Err RuntimeError | x :: l' => Ok (x, l') end.
  Definition kmpe (fuel : nat) (leaves : list (list dist)) (k : nat) : res (list (asg * Q)) :=
    do div <- tree_divisor leaves;
    do outs <- mapM (fun ds => do s <- init div ds; solve fuel s 0) leaves;
    do hs <- mapM head_of outs;
    Ok (enumerate (length (concat outs)) (heapify stream_before hs) (match k with O => None | _ => Some k end)).
End Mpe.
