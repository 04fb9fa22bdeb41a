(** Model of base/utils.py (normalized, list2intset, Heap), base/sampling.py
    (RouletteWheelSampler) and base/cutils.pxd (linspace).  Numbers are exact
    rationals. *)
Require Import QArith Qabs ZArith Bool List.
Require Import Verif.Base Verif.NumBase.
Import ListNotations.
Open Scope Q_scope.

(** utils.py:344-346: the sign of a number, 1 for zero ([ifnot(np.sign(v), 1)]). *)
Definition sign1 (v : Q) : Q := if Qltb v 0 then -1 else 1.

(** The least element of a list ([min]); [None] for the empty list. *)
Fixpoint Qmin_list (l : list Q) : option Q :=
  match l with
  | [] => None
  | x :: l' => match Qmin_list l' with
               | None => Some x
               | Some m => Some (if Qltb m x then m else x)
               end
  end.

(** utils.py:352-370: the loop.  [None] stands for the branch that returns a
    copy of the input.  An empty [min(...)] is a ValueError in Python. *)
Fixpoint normalize_loop (fuel : nat) (identity_on_zeros : bool) (zeros : Q) (ret : list Q) : res (option (list Q)) :=
  match fuel with
  | O => Err OutOfFuel
  | S fuel =>
      let z := Qsum ret in
      if Qeq_bool z 0 then
        if identity_on_zeros then Ok None else Err ValueError
      else
        let ret := map (fun v => v / z) ret in
        if negb (Qeq_bool zeros 0) then
          match Qmin_list ret with
          | None => Err ValueError
          | Some m =>
              if Qeq_bool m 0 then
                match Qmin_list (filter (fun v => Qltb 0 v) ret) with
                | None => Err ValueError
                | Some p => normalize_loop fuel identity_on_zeros zeros
                              (map (fun v => if Qeq_bool v 0 then p * zeros else v) ret)
                end
              else Ok (Some ret)
          end
        else Ok (Some ret)
  end.

(** utils.py:306-379 (normalized), for a list (for a dict the same values are
    produced key by key).  Three rounds of the loop are enough for
    [0 <= zeros] (theorem). *)
Definition normalized (dist : list Q) (identity_on_zeros allow_neg : bool) (zeros : Q) : res (list Q) :=
  if negb (forallb (fun e => Qle_bool 0 e) dist) && negb allow_neg then Err ValueError
  else
    do r <- normalize_loop 3 identity_on_zeros zeros (map Qabs dist);
    match r with
    | None => Ok dist
    | Some ret => Ok (map (fun vs => fst vs * snd vs) (combine ret (map sign1 dist)))
    end.

(** utils.py:377-378: for a numpy array the result is cast back to the dtype of
    the input; for an integer dtype that truncates towards zero. *)
Definition normalized_int_array (dist : list Z) : res (list Z) :=
  do r <- normalized (map inject_Z dist) false false 0;
  Ok (map (fun q => Z.quot (Qnum q) (Zpos (Qden q))) r).

(** sampling.py:23 (np.cumsum). *)
Fixpoint cumsum_from (acc : Q) (ws : list Q) : list Q :=
  match ws with
  | [] => []
  | w :: ws' => (acc + w) :: cumsum_from (acc + w) ws'
  end.
Definition cumsum := cumsum_from 0.

(** sampling.py:34-36: the first field whose upper bound is not exceeded;
    [None] when the loop ends without returning. *)
Fixpoint first_bound (i : nat) (bs : list Q) (x : Q) : option nat :=
  match bs with
  | [] => None
  | b :: bs' => if Qle_bool x b then Some i else first_bound (S i) bs' x
  end.

(** sampling.py:29-36 (index): [_upperbounds[-1]] of an empty array raises
    IndexError too. *)
Definition roulette_index (ws : list Q) (x : Q) : res (option nat) :=
  let bs := cumsum ws in
  match rev bs with
  | [] => Err IndexError
  | total :: _ =>
      if negb (Qle_bool 0 x && Qle_bool x total) then Err IndexError
      else Ok (first_bound 0 bs x)
  end.

(** sampling.py:15-24 (constructor) with [normalize]: the weights used.
    Division by a zero sum yields NaNs in numpy; it is ZeroDivisionError here. *)
Definition roulette_weights {A} (elements : list A) (ws : list Q) (normalize : bool) : res (list Q) :=
  if negb (Nat.eqb (length elements) (length ws)) then Err ValueError
  else if normalize then
    (if Qeq_bool (Qsum ws) 0 then Err ZeroDivisionError
     else Ok (map (fun w => w / Qsum ws) ws))
  else Ok ws.

(** sampling.py:26-27 (__getitem__): indexing with [None] is a TypeError. *)
Definition roulette_get {A} (elements : list A) (ws : list Q) (x : Q) : res A :=
  do i <- roulette_index ws x;
  match i with
  | None => Err TypeError
  | Some i => match nth_error elements i with Some a => Ok a | None => Err IndexError end
  end.

(** utils.py:288-303 (list2intset): the integers from the first to the second bound. *)
Definition list2intset (bounds : list Z) : res (list Z) :=
  match bounds with
  | [lo; hi] => Ok (map (fun k => lo + Z.of_nat k)%Z (seq 0 (Z.to_nat (hi + 1 - lo))))
  | _ => Err ValueError
  end.

(** cutils.pxd:293-318 (linspace), for [num >= 0]. *)
Fixpoint linspace_loop (k : nat) (val space : Q) : list Q :=
  match k with O => [] | S k => val :: linspace_loop k (val + space) space end.
Definition linspace (start stop : Q) (num : nat) : list Q :=
  match num with
  | 1%nat => [(stop - start) / 2]
  | _ => linspace_loop num start ((stop - start) / (Qn num - 1))
  end.

(** utils.py:453-530 (Heap).  The functions of Python's heapq module are
    arguments; entries are [(key, index, item)] compared lexicographically.
    Keys are integers here (only their order matters); as long as indices are
    distinct, items are never compared. *)
Section Heap.
  Variable item : Type.
  Variable key : item -> Z.
  Variable inc : Z.

  Definition hentry : Type := (Z * Z) * item.
  Variable heappush : list hentry -> hentry -> list hentry.
  Variable heappop : list hentry -> option (hentry * list hentry).
  Variable heapify : list hentry -> list hentry.

  Record heap := Heap { hdata : list hentry; hindex : Z }.

  (** utils.py:476-490 (__init__) with [count(0, inc)] (utils.py:445-449). *)
  Fixpoint enum (i : Z) (l : list item) : list hentry :=
    match l with [] => [] | x :: l' => ((key x, i), x) :: enum (i + inc)%Z l' end.
  Definition heap_init (data : list item) : heap :=
    match data with
    | [] => Heap [] 0
    | _ => Heap (heapify (enum 0 data)) (Z.of_nat (length data) * inc)
    end.

  (** utils.py:492-497 (push). *)
  Definition heap_push (h : heap) (x : item) : heap :=
    Heap (heappush (hdata h) ((key x, hindex h), x)) (hindex h + inc)%Z.

  (** utils.py:499-500 (pop): IndexError on an empty heap. *)
  Definition heap_pop (h : heap) : res (item * heap) :=
    match heappop (hdata h) with
    | None => Err IndexError
    | Some (e, d) => Ok (snd e, Heap d (hindex h))
    end.

  (** utils.py:508-509 (__delitem__) for a non-negative position. *)
  Definition heap_del (h : heap) (i : nat) : res heap :=
    match nth_error (hdata h) i with
    | None => Err IndexError
    | Some _ => Ok (Heap (firstn i (hdata h) ++ skipn (S i) (hdata h)) (hindex h))
    end.

  (** utils.py:523-530 (index), items compared by an equality test. *)
  Fixpoint heap_index_loop (eqb : item -> item -> bool) (i : nat) (d : list hentry) (x : item) : res nat :=
    match d with
    | [] => Err ValueError
    | e :: d' => if eqb (snd e) x then Ok i else heap_index_loop eqb (S i) d' x
    end.
  Definition heap_index (eqb : item -> item -> bool) (h : heap) (x : item) : res nat :=
    heap_index_loop eqb 0 (hdata h) x.

  (** A history of pushes and pops, with the popped items. *)
  Inductive hop := Push (x : item) | Pop.
  Fixpoint heap_run (h : heap) (ops : list hop) : res (list item * heap) :=
    match ops with
    | [] => Ok ([], h)
    | Push x :: ops' => heap_run (heap_push h x) ops'
    | Pop :: ops' =>
        do xh <- heap_pop h;
        do r <- heap_run (snd xh) ops';
        Ok (fst xh :: fst r, snd r)
    end.
End Heap.
