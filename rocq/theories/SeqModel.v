(** Model of src/jpt/sequential_trees.py (SequentialJPT): estimation of the
    transition model, grounding and independent marginals. *)
Require Import QArith String List Arith Bool DecimalString Decimal DecimalNat.
Require Import Verif.Base Verif.NumBase Verif.UtilModel Verif.TreeModel.
Import ListNotations.
Open Scope Q_scope.

(** ** Transitions *)

(** sequential_trees.py:108: sliding_window_view(encoded, (2,)); a window longer
    than the sequence is a ValueError. *)
Fixpoint windows (l : list nat) : list (nat * nat) :=
  match l with
  | a :: ((b :: _) as l') => (a, b) :: windows l'
  | _ => []
  end.
Definition transitions (encoded : list nat) : res (list (nat * nat)) :=
  match encoded with
  | [] | [_] => Err ValueError
  | _ => Ok (windows encoded)
  end.

(** sequential_trees.py:100-126 (second half of fit): the encoding of a row by the
    template tree is the parameter [encode]; [leaf_idx] are the keys of the
    dictionary of leaves in insertion order.  Without any sequence the data is
    [None] and subscripting it a TypeError. *)
Definition transition_data {R} (encode : R -> nat) (sequences : list (list R)) : res (list (nat * nat)) :=
  match sequences with
  | [] => Err TypeError
  | _ => do ts <- mapM (fun s => transitions (map encode s)) sequences; Ok (concat ts)
  end.
Definition pair_count (data : list (nat * nat)) (i j : nat) : nat :=
  length (filter (fun ab => (fst ab =? i)%nat && (snd ab =? j)%nat) data).
Definition transition_model {R} (encode : R -> nat) (leaf_idx : list nat) (sequences : list (list R)) : res (list (list Q)) :=
  do data <- transition_data encode sequences;
  Ok (map (fun i => map (fun j => inject_Z (Z.of_nat (pair_count data i j)) / inject_Z (Z.of_nat (length data))) leaf_idx) leaf_idx).

(** sequential_trees.py:86-92: the leaves of the new tree are written into the
    dictionary of leaves of the template, which is not emptied before. *)
Fixpoint put_leaf {L} (d : list (nat * L)) (i : nat) (l : L) : list (nat * L) :=
  match d with [] => [(i, l)] | (j, m) :: d' => if (i =? j)%nat then (j, l) :: d' else (j, m) :: put_leaf d' i l end.
Definition adopt_leaves {L} (template expanded : list (nat * L)) : list (nat * L) :=
  fold_left (fun d il => put_leaf d (fst il) (snd il)) expanded template.

(** ** Names of time steps *)

(** "t%s" % t *)
Definition step_name (t : nat) : string := String.append "t" (NilEmpty.string_of_uint (Nat.to_uint t)).

(** Comparison of Python strings (code points of ASCII strings). *)
Fixpoint str_leb (a b : string) : bool :=
  match a, b with
  | EmptyString, _ => true
  | _, EmptyString => false
  | String c a', String d b' =>
      let x := Ascii.nat_of_ascii c in let y := Ascii.nat_of_ascii d in
      if (x <? y)%nat then true else if (y <? x)%nat then false else str_leb a' b'
  end.
(** sorted(items, key=itemgetter(0)): stable. *)
Fixpoint insert_named {A} (x : string * A) (l : list (string * A)) : list (string * A) :=
  match l with [] => [x] | y :: l' => if str_leb (fst x) (fst y) then x :: l else y :: insert_named x l' end.
Definition sort_named {A} (l : list (string * A)) : list (string * A) := fold_right insert_named [] l.

Fixpoint insert_nat (x : nat) (l : list nat) : list nat :=
  match l with [] => [x] | y :: l' => if (x <=? y)%nat then x :: l else y :: insert_nat x l' end.
Definition sort_nat (l : list nat) : list nat := fold_right insert_nat [] l.

Section Seq.
  Context {F : family}.
  Notation jpt := (@jpt F).
  Notation assignment := (@assignment F).

  (** The factor graph: the variables in the order of creation, the pairs of
      variables with a transition factor, the prior factors. *)
  Record graph := Graph { g_vars : list string; g_links : list (string * string); g_priors : list (string * list Q) }.

  (** sequential_trees.py:202-208: the priors of the leaves that remain, at the
      positions of the leaves of the template. *)
  Definition prior_vector (J C : jpt) : list Q :=
    map (fun l => match get_leaf C (l_idx l) with Some l' => l_prior l' | None => 0 end) (leaves J).

  (** sequential_trees.py:151-218 (ground), for value assignments. *)
  Fixpoint condition_all (J : jpt) (es : list assignment) : res (list jpt) :=
    match es with
    | [] => Ok []
    | e :: es' =>
        do c <- conditional_jpt J e true;
        match c with
        | None => Err AttributeError
        | Some C => do cs <- condition_all J es'; Ok (C :: cs)
        end
    end.
  Definition ground (J : jpt) (es : list assignment) : res (graph * list jpt) :=
    do cs <- condition_all J es;
    Ok (Graph (map step_name (seq 0 (length es)))
              (map (fun t => (step_name t, step_name (S t))) (seq 0 (length es - 1)))
              (combine (map step_name (seq 0 (length es))) (map (prior_vector J) cs)), cs).

  (** sequential_trees.py:281-341 (independent_marginals), for value assignments.
      [lbp g] are the marginals found by belief propagation on the graph [g] with
      the transition model, one per variable in the order of creation. *)
  Definition leaf_distribution (lbp : graph -> list (list Q)) (g : graph) : res (list (string * list Q)) :=
    mapM (fun nd => do d <- normalized (snd nd) false false (1 # 10); Ok (fst nd, d)) (combine (g_vars g) (lbp g)).
  Fixpoint adjust (J : jpt) (ds : list (string * list Q)) (cs : list jpt) : res (list jpt) :=
    match ds, cs with
    | (_, d) :: ds', C :: cs' =>
        do T <- multiply_by_leaf_prior C (combine (sort_nat (map l_idx (leaves J))) d);
        do Ts <- adjust J ds' cs';
        Ok (T :: Ts)
    | _, _ => Ok []
    end.
  Definition independent_marginals (lbp : graph -> list (list Q)) (J : jpt) (es : list assignment) : res (list jpt) :=
    do gc <- ground J es;
    do ds <- leaf_distribution lbp (fst gc);
    adjust J (sort_named ds) (snd gc).
End Seq.
