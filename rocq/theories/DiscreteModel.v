(** Model of the categorical distributions, distributions/univariate/
    multinomial.py and integer.py.  Numbers are exact rationals; a parameter
    vector is a list indexed by value. *)
Require Import QArith Qabs ZArith Bool List Arith.
Require Import Verif.Base Verif.NumBase Verif.UtilModel.
Import ListNotations.
Open Scope Q_scope.

(** ** Label and value spaces *)
Section Domain.
  Variable L : Type.
  Variable Leqb : L -> L -> bool.

  Definition memb (l : L) (ls : list L) : bool := existsb (Leqb l) ls.

  (** multinomial.py:645-654 (SymbolicType): the labels, or ValueError for an
      empty list or duplicates.  The dicts [values] and [labels] map the i-th
      label to i and back. *)
  Fixpoint has_dup (ls : list L) : bool :=
    match ls with [] => false | l :: ls' => memb l ls' || has_dup ls' end.
  Definition SymbolicType (labels : list L) : res (list L) :=
    match labels with
    | [] => Err ValueError
    | _ => if has_dup labels then Err ValueError else Ok labels
    end.

  (** Lookup in the [values] dict: position of a label. *)
  Fixpoint value_of (labels : list L) (l : L) : option nat :=
    match labels with
    | [] => None
    | l' :: ls => if Leqb l' l then Some O else option_map S (value_of ls l)
    end.

  (** multinomial.py:50-72 and integer.py:170-191 (value2label), for a single
      value and for a collection. *)
  Definition value2label1 (labels : list L) (v : nat) : res L :=
    match nth_error labels v with Some l => Ok l | None => Err ValueError end.
  Definition value2label (labels : list L) (vs : list nat) : res (list L) :=
    if forallb (fun v => Nat.ltb v (length labels)) vs then mapM (value2label1 labels) vs else Err ValueError.

  (** multinomial.py:74-96 and integer.py:194-215 (label2value). *)
  Definition label2value1 (labels : list L) (l : L) : res nat :=
    match value_of labels l with Some v => Ok v | None => Err ValueError end.
  Definition label2value (labels : list L) (ls : list L) : res (list nat) :=
    if forallb (fun l => memb l labels) ls then mapM (label2value1 labels) ls else Err ValueError.

  (** distributions/utils.py:203-210 (OrderedDictProxy.__eq__), on item lists. *)
  Fixpoint proxy_eq (a b : list L) : bool :=
    match a, b with
    | x :: a', y :: b' => Leqb x y && proxy_eq a' b'
    | _, _ => true
    end.
End Domain.

(** integer.py:571-581 (IntegerType): the labels lmin..lmax. *)
Definition IntegerType (lmin lmax : Z) : res (list Z) :=
  if (lmax <? lmin)%Z then Err ValueError
  else Ok (map (fun k => lmin + Z.of_nat k)%Z (seq 0 (Z.to_nat (lmax - lmin + 1)))).

(** ** Probabilities *)

Definition pget (params : list Q) (v : nat) : res Q :=
  match nth_error params v with Some p => Ok p | None => Err IndexError end.

(** multinomial.py:237-260 (_p): the event becomes a set. *)
Definition mn_p (params : list Q) (event : list nat) : res Q :=
  do ps <- mapM (pget params) (nodup Nat.eq_dec event); Ok (Qsum ps).

(** integer.py:245-256 (_p): values outside [vmin, vmax] are a ValueError. *)
Definition int_p (params : list Q) (event : list nat) : res Q :=
  if forallb (fun v => Nat.ltb v (length params)) event then mn_p params event else Err ValueError.

(** ** Fitting: multinomial.py:402-414, integer.py:387-402 (_fit) *)
Fixpoint add_at (params : list Q) (v : nat) (x : Q) : res (list Q) :=
  match params, v with
  | [], _ => Err IndexError
  | p :: ps, O => Ok (p + x :: ps)
  | p :: ps, S v => do ps' <- add_at ps v x; Ok (p :: ps')
  end.
Fixpoint fit_loop (x : Q) (params : list Q) (data : list nat) : res (list Q) :=
  match data with
  | [] => Ok params
  | v :: data' => do ps <- add_at params v x; fit_loop x ps data'
  end.
Definition fit (n_values : nat) (data : list nat) : res (list Q) :=
  fit_loop (1 / Qn (length data)) (repeat 0 n_values) data.

(** multinomial.py:416-423, integer.py:404-410 (set). *)
Definition set_params (n_values : nat) (params : list Q) : res (list Q) :=
  if Nat.eqb n_values (length params) then Ok params else Err ValueError.

(** multinomial.py:262-280 (create_dirac_impulse). *)
Definition dirac (n_values v : nat) : res (list Q) := add_at (repeat 0 n_values) v 1.

(** ** Cropping *)

Definition nmem (v : nat) (vs : list nat) : bool := existsb (Nat.eqb v) vs.
Definition zero_outside (params : list Q) (restriction : list nat) : list Q :=
  map (fun vp => if nmem (fst vp) restriction then snd vp else 0) (combine (seq 0 (length params)) params).

(** multinomial.py:368-386 (_crop) for a collection. *)
Definition mn_crop (params : list Q) (restriction : list nat) : res (list Q) :=
  let ps := zero_outside params restriction in
  if Qeq_bool (Qsum ps) 0 then Err Unsatisfiability
  else Ok (map (fun p => p / Qsum ps) ps).

(** multinomial.py:372-373: a single value (not a collection). *)
Definition mn_crop_single (params : list Q) (v : nat) : res (list Q) := dirac (length params) v.

(** integer.py:316-330 (_crop); a single value is made a one-element set. *)
Definition int_crop (params : list Q) (restriction : list nat) : res (list Q) :=
  match normalized (zero_outside params restriction) false false 0 with
  | Ok ps => set_params (length params) ps
  | Err ValueError => Err Unsatisfiability
  | Err e => Err e
  end.

(** ** Mixtures *)

Definition vadd (a b : list Q) : list Q := map (fun xy => fst xy + snd xy) (combine a b).
Definition vscale (c : Q) (a : list Q) : list Q := map (fun x => x * c) a.

(** multinomial.py:450-481, integer.py:332-351 (merge), for distributions of one
    type with [n] values ([n_values] is read from the first distribution).
    Adding vectors of different length is a ValueError in numpy. *)
Fixpoint merge_loop (acc : list Q) (dws : list (list Q * Q)) : res (list Q) :=
  match dws with
  | [] => Ok acc
  | (d, w) :: dws' =>
      if Nat.eqb (length acc) (length d) then merge_loop (vadd acc (vscale w d)) dws' else Err ValueError
  end.
Definition merge (n : nat) (ds : list (list Q)) (ws : list Q) : res (list Q) :=
  match ds with
  | [] => Err IndexError
  | _ :: _ =>
      if Qltb (1 # 10000000000) (Qabs (1 - Qsum ws)) then Err ValueError
      else
        do params <- merge_loop (repeat 0 n) (combine ds ws);
        if Qltb (Qabs (Qsum params)) (1 # 10000000000) then Err Unsatisfiability
        else set_params n params
  end.

(** multinomial.py:425-448, integer.py:353-366 (update). *)
Definition update (n : nat) (self : option (list Q)) (d : list Q) (w : Q) : res (list Q) :=
  if negb (Qle_bool 0 w && Qle_bool w 1) then Err ValueError
  else
    let ps := match self with None => repeat 0 n | Some ps => ps end in
    if Nat.eqb (length ps) (length d) then Ok (vadd (vscale (1 - w) ps) (vscale w d)) else Err ValueError.

(** ** Most probable explanations: multinomial.py:323-339, integer.py:272-294 *)

(** The set of the non-zero likelihoods. *)
Fixpoint qset (l : list Q) : list Q :=
  match l with
  | [] => []
  | x :: l' => if existsb (Qeq_bool x) l' then qset l' else x :: qset l'
  end.
(** [sorted(..., reverse=True)]. *)
Fixpoint insert_desc (x : Q) (l : list Q) : list Q :=
  match l with
  | [] => [x]
  | y :: l' => if Qle_bool y x then x :: l else y :: insert_desc x l'
  end.
Definition sort_desc (l : list Q) : list Q := fold_right insert_desc [] l.
Definition states_of (params : list Q) (p : Q) : list nat :=
  map fst (filter (fun vp => Qeq_bool (snd vp) p) (combine (seq 0 (length params)) params)).
Definition k_mpe (params : list Q) (k : option nat) : list (list nat * Q) :=
  let likelihoods := qset (filter (fun p => negb (Qeq_bool p 0)) params) in
  let sorted := firstn (match k with Some k => k | None => length likelihoods end) (sort_desc likelihoods) in
  map (fun p => (states_of params p, p)) sorted.

(** multinomial.py:315-321, integer.py:301-306 (_mpe/mpe): [first] of an empty
    list is [None], whose unpacking is a TypeError. *)
Definition mpe (params : list Q) : res (list nat * Q) :=
  match k_mpe params (Some 1%nat) with
  | [] => Err TypeError
  | x :: _ => Ok x
  end.

(** ** Comparisons *)

Definition qmin (x y : Q) : Q := if Qltb y x then y else x.
Definition qmax (x y : Q) : Q := if Qltb x y then y else x.

(** multinomial.py:141-152, integer.py:471-478 (jaccard_similarity).  A zero
    denominator (NaN in numpy) is ZeroDivisionError. *)
Definition jaccard (a b : list Q) : res Q :=
  let i := Qsum (map (fun xy => qmin (fst xy) (snd xy)) (combine a b)) in
  let u := Qsum (map (fun xy => qmax (fst xy) (snd xy)) (combine a b)) in
  if Qeq_bool u 0 then Err ZeroDivisionError else Ok (i / u).

(** multinomial.py:352-366, integer.py:441-453 (kl_divergence). *)
Definition kl_divergence (a b : list Q) : Q :=
  Qsum (map (fun xy => fst xy * Qabs (fst xy - snd xy)) (combine a b)).

(** ** Integer distributions *)

Record idist := IDist { lmin : Z; lmax : Z; iparams : list Q }.

Definition ilabels (d : idist) : list Z :=
  map (fun k => lmin d + Z.of_nat k)%Z (seq 0 (Z.to_nat (lmax d - lmin d + 1))).

(** integer.py:242-243 (p) for a single label. *)
Definition int_p1 (d : idist) (l : Z) : res Q :=
  do v <- label2value1 Z Z.eqb (ilabels d) l; int_p (iparams d) [v].

(** integer.py:93-111 (add).  The types of both operands exist, hence
    [lmin <= lmax] holds for each. *)
Fixpoint sumM (l : list (res Q)) : res Q :=
  match l with [] => Ok 0 | x :: l' => do a <- x; do b <- sumM l'; Ok (a + b) end.
Definition int_add (a b : idist) : res idist :=
  do labels <- IntegerType (lmin a + lmin b) (lmax a + lmax b);
  do dist <- mapM (fun z => sumM (map (fun k =>
       do pa <- int_p1 a k;
       do pb <- (if (lmin b <=? z - k)%Z && (z - k <=? lmax b)%Z then int_p1 b (z - k) else Ok 0);
       Ok (pa * pb)) (ilabels a))) labels;
  do ps <- set_params (length labels) dist;
  Ok (IDist (lmin a + lmin b) (lmax a + lmax b) ps).

(** integer.py:258-260 (expectation): [zip(probabilities, values)] pairs each
    probability with its label. *)
Definition int_expectation (d : idist) : Q :=
  Qsum (map (fun pl => fst pl * inject_Z (snd pl)) (combine (iparams d) (ilabels d))).

(** integer.py:458-468 (moment). *)
Definition int_moment (d : idist) (order : nat) (center : Q) : Q :=
  Qsum (map (fun lp => Qpower (inject_Z (fst lp) - center) (Z.of_nat order) * snd lp) (combine (ilabels d) (iparams d))).

(** integer.py:264-266 (variance). *)
Definition int_variance (d : idist) : Q :=
  let e := int_expectation d in
  Qsum (map (fun lp => (inject_Z (fst lp) - e) * (inject_Z (fst lp) - e) * snd lp) (combine (ilabels d) (iparams d))).

(** ** Label-space API: multinomial.py:215-235 (p), 388-400 (crop), 341-348
    (k_mpe), distribution.py:93-94 (sample); integer.py:230-243, 296-314, 368-385. *)
Section LabelApi.
  Variable L : Type.
  Variable Leqb : L -> L -> bool.
  Variable labels : list L.

  Definition sym_p (params : list Q) (event : list L) : res Q :=
    do vs <- label2value L Leqb labels event; mn_p params vs.
  Definition sym_crop (params : list Q) (restriction : list L) : res (list Q) :=
    do vs <- label2value L Leqb labels restriction; mn_crop params vs.
  Definition sym_crop_single (params : list Q) (l : L) : res (list Q) :=
    do v <- label2value1 L Leqb labels l; mn_crop_single params v.
  Definition sym_k_mpe (params : list Q) (k : option nat) : res (list (list L * Q)) :=
    mapM (fun sp => do ls <- value2label L labels (fst sp); Ok (ls, snd sp)) (k_mpe params k).
  Definition lab_fit (data : list L) : res (list Q) :=
    do vs <- mapM (label2value1 L Leqb labels) data; fit (length labels) vs.
  Definition num_p (params : list Q) (event : list L) : res Q :=
    do vs <- label2value L Leqb labels event; int_p params vs.
  Definition num_crop (params : list Q) (restriction : list L) : res (list Q) :=
    do vs <- mapM (label2value1 L Leqb labels) restriction; int_crop params vs.
  (** distribution.py:93-97, integer.py:230-234: one sample, for an outcome [u] of
      [random.uniform(0, total)]; sampling.py:54-56, 72-84 (wchoice, wsample). *)
  Definition lab_sample (params : list Q) (u : Q) : res L :=
    do ws <- roulette_weights (seq 0 (length labels)) params false;
    do v <- roulette_get (seq 0 (length labels)) ws u;
    value2label1 L labels v.
End LabelApi.

(** ** Objects: a distribution refers to its parameter array *)

Definition store := list (list Q).
Definition deref (st : store) (r : nat) : list Q := nth r st [].
Definition alloc (st : store) (a : list Q) : store * nat := (st ++ [a], length st).
Fixpoint list_set {A} (l : list A) (i : nat) (x : A) : list A :=
  match l, i with
  | [], _ => []
  | _ :: l', O => x :: l'
  | y :: l', S i => y :: list_set l' i x
  end.
Definition assign (st : store) (r : nat) (a : list Q) : store := list_set st r a.

(** multinomial.py:375-379: the in-place loop on the copy. *)
Fixpoint crop_loop (st : store) (r : nat) (restriction : list nat) (idxs : list nat) : store :=
  match idxs with
  | [] => st
  | i :: idxs' =>
      crop_loop (if nmem i restriction then st else assign st r (list_set (deref st r) i 0)) r restriction idxs'
  end.
Definition obj_crop (st : store) (r : nat) (restriction : list nat) : store * res nat :=
  let '(st1, c) := alloc st (deref st r) in
  let st2 := crop_loop st1 c restriction (seq 0 (length (deref st r))) in
  if Qeq_bool (Qsum (deref st2 c)) 0 then (st2, Err Unsatisfiability)
  else
    let '(st3, c') := alloc st2 (map (fun p => p / Qsum (deref st2 c)) (deref st2 c)) in
    (st3, Ok c').

(** multinomial.py:425-448: two in-place updates of the receiver's array. *)
Definition obj_update (st : store) (r d : nat) (w : Q) : store * res nat :=
  if negb (Qle_bool 0 w && Qle_bool w 1) then (st, Err ValueError)
  else
    let st1 := assign st r (vscale (1 - w) (deref st r)) in
    if Nat.eqb (length (deref st1 r)) (length (deref st1 d))
    then (assign st1 r (vadd (deref st1 r) (vscale w (deref st1 d))), Ok r)
    else (st1, Err ValueError).
