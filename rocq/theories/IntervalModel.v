(** Model of src/jpt/base/intervals.pyx: ContinuousSet and RealSet.

    Bounds are doubles as ordinals (FloatLine).  NaN bounds are excluded, and
    the border flags are the two values the module defines (the int32 fields
    could hold other integers; nothing in the module writes any).  String
    parsing/printing, sampling by NumPy, linspace and rounding are modelled
    elsewhere or not at all (see DESIGN.md). *)
Require Import ZArith Bool List Lia.
Require Import Verif.Base Verif.FloatLine.
Import ListNotations.
Open Scope Z_scope.

(** intervals.pyx:33-34: [_INC = 1], [_EXC = 2]. *)
Inductive flag : Type := INC | EXC.

Definition flag_eqb (a b : flag) : bool :=
  match a, b with INC, INC | EXC, EXC => true | _, _ => false end.

(** The integer value of a flag; intervals.pyx:33-34. *)
Definition flag_val (f : flag) : Z := match f with INC => 1 | EXC => 2 end.

(** Python's [max]/[min] on flags (EXC = 2 is the larger). *)
Definition flag_max (a b : flag) : flag := match a with EXC => EXC | INC => b end.
Definition flag_min (a b : flag) : flag := match a with INC => INC | EXC => b end.

(** [_INC if f == _EXC else _EXC] *)
Definition flag_flip (f : flag) : flag := match f with EXC => INC | INC => EXC end.

(** intervals.pyx:560, fields from intervals.pxd:79-82. *)
Record cs : Type := CS { lower : Z; upper : Z; left : flag; right : flag }.

(** intervals.pyx:588-603 (__init__); NaN excluded. *)
Definition mk_cs (lo hi : Z) (l r : flag) : res cs :=
  if hi <? lo then Err ValueError else Ok (CS lo hi l r).

(** intervals.pyx:655-660 (itype): CLOSED = 2, HALFOPEN = 3, OPEN = 4. *)
Definition itype (s : cs) : Z := flag_val (right s) + flag_val (left s).

(** intervals.pyx:673-678 (isclosed). *)
Definition isclosed (s : cs) : bool := itype s =? 2.

(** intervals.pyx:662-671 (isempty). *)
Definition cs_isempty (s : cs) : bool :=
  if upper s <? lower s then false
  else if lower s =? upper s then negb (isclosed s)
  else (upper s <=? plus_eps (lower s)) && (itype s =? 4).

(** intervals.pyx:680-699 (isninf, ispinf, isinf). *)
Definition cs_isninf (s : cs) : bool := isinf (lower s).
Definition cs_ispinf (s : cs) : bool := isinf (upper s).
Definition cs_isinf (s : cs) : bool := cs_ispinf s || cs_isninf s.

(** intervals.pyx:39-40, 701-727 (EMPTY, R, emptyset, allnumbers). *)
Definition EMPTY : cs := CS 0 0 EXC EXC.
Definition RR : cs := CS (- ORD_INF) ORD_INF EXC EXC.

(** intervals.pyx:1109-1119 (uppermost, lowermost; also the properties [max]
    and [min], 1121-1127). *)
Definition uppermost (s : cs) : Z :=
  match right s with INC => upper s | EXC => minus_eps (upper s) end.
Definition lowermost (s : cs) : Z :=
  match left s with INC => lower s | EXC => plus_eps (lower s) end.

(** intervals.pyx:919-938 (intersects), the ContinuousSet/ContinuousSet case. *)
Definition cs_intersects (self other : cs) : bool :=
  if cs_isempty other then false
  else if (upper self <? lower other) || (upper other <? lower self) then false
  else if (lower self =? upper other) &&
          (flag_eqb (right other) EXC || flag_eqb (left self) EXC) then false
  else if (upper self =? lower other) &&
          (flag_eqb (right self) EXC || flag_eqb (left other) EXC) then false
  else true.

(** intervals.pyx:940-946 (isdisjoint). *)
Definition cs_isdisjoint (self other : cs) : bool := negb (cs_intersects self other).

(** intervals.pyx:865-871 (contains_value). *)
Definition cs_contains_value (self : cs) (v : Z) : bool :=
  cs_intersects self (CS v v INC INC).

(** intervals.pyx:873-905 (contains_interval), the ContinuousSet case. *)
Definition cs_contains_interval (self other : cs) (proper : bool) : bool :=
  if cs_isempty self then false
  else if (lowermost other <? lowermost self) || (uppermost self <? uppermost other)
  then false
  else if (lower self =? lower other) && flag_eqb (left self) EXC && flag_eqb (left other) INC
  then false
  else if (lower self =? lower other) && flag_eqb (left self) (left other) && proper
  then false
  else if (upper self =? upper other) && flag_eqb (right self) EXC && flag_eqb (right other) INC
  then false
  else if (upper self =? upper other) && flag_eqb (right self) (right other) && proper
  then false
  else true.

(** intervals.pyx:907-917 (contiguous). *)
Definition cs_contiguous (self other : cs) : bool :=
  if (lower self =? upper other) && (flag_val (right other) + flag_val (left self) =? 3)
  then true
  else if (upper self =? lower other) && (flag_val (right self) + flag_val (left other) =? 3)
  then true
  else false.

(** intervals.pyx:983-994 (the optional border arguments of [intersection]);
    [None] is the default 0. *)
Definition set_left (s : cs) (fl : option flag) : cs :=
  match fl, left s with
  | Some INC, EXC => CS (plus_eps (lower s)) (upper s) INC (right s)
  | Some EXC, INC => CS (minus_eps (lower s)) (upper s) EXC (right s)
  | _, _ => s
  end.
Definition set_right (s : cs) (fr : option flag) : cs :=
  match fr, right s with
  | Some INC, EXC => CS (lower s) (minus_eps (upper s)) (left s) INC
  | Some EXC, INC => CS (lower s) (plus_eps (upper s)) (left s) EXC
  | _, _ => s
  end.

(** intervals.pyx:948-995 (intersection). *)
Definition cs_intersection_lr (self other : cs) (fl fr : option flag) : res cs :=
  if negb (cs_intersects self other) then Ok EMPTY
  else
    do r0 <- mk_cs (Z.max (lower self) (lower other))
                   (Z.min (upper self) (upper other)) INC INC;
    let l := if lower other =? lower self then flag_max (left self) (left other)
             else if lower other <? lower self then left self else left other in
    let r := if upper other =? upper self then flag_max (right self) (right other)
             else if upper self <? upper other then right self else right other in
    Ok (set_right (set_left (CS (lower r0) (upper r0) l r) fl) fr).

Definition cs_intersection (self other : cs) : res cs :=
  cs_intersection_lr self other None None.

(** intervals.pyx:997-1016 (boundaries). *)
Definition cs_boundaries (self : cs) (fl fr : option flag) : cs :=
  set_right (set_left self fl) fr.

(** intervals.pyx:1164-1180 (ends): as [boundaries], but infinite bounds stay. *)
Definition cs_ends (self : cs) (fl fr : option flag) : cs :=
  let s1 := match fl, left self with
            | Some EXC, INC =>
                CS (if isfinite (lower self) then minus_eps (lower self) else lower self)
                   (upper self) EXC (right self)
            | Some INC, EXC =>
                CS (if isfinite (lower self) then plus_eps (lower self) else lower self)
                   (upper self) INC (right self)
            | _, _ => self
            end in
  match fr, right s1 with
  | Some EXC, INC =>
      CS (lower s1) (if isfinite (upper s1) then plus_eps (upper s1) else upper s1)
         (left s1) EXC
  | Some INC, EXC =>
      CS (lower s1) (if isfinite (upper s1) then minus_eps (upper s1) else upper s1)
         (left s1) INC
  | _, _ => s1
  end.

(** A NumberSet is one of the two classes; intervals.pyx:45, 125, 560. *)
Inductive nset : Type :=
| NC (c : cs)
| NR (l : list cs).

(** intervals.pyx:1034-1074 (difference), the ContinuousSet case. *)
Definition cs_difference (self other : cs) : res nset :=
  if cs_isempty other then Ok (NC self)
  else if cs_contains_interval other self false then Ok (NC EMPTY)
  else if cs_contains_interval self other true then
    do a <- mk_cs (lower self) (lower other) (left self) (flag_flip (left other));
    do b <- mk_cs (upper other) (upper self) (flag_flip (right other)) (right self);
    Ok (NR [a; b])
  else if cs_intersects self other then
    if cs_contains_value self (uppermost other)
       && negb (uppermost self =? uppermost other)
    then Ok (NC (CS (upper other) (upper self) (flag_flip (right other)) (right self)))
    else if cs_contains_value self (lowermost other)
            && negb (lowermost self =? lowermost other)
    then Ok (NC (CS (lower self) (lower other) (left self) (flag_flip (left other))))
    else Ok (NC self)
  else Ok (NC self).

(** intervals.pyx:1076-1081 (complement). *)
Definition cs_complement (self : cs) : res nset := cs_difference RR self.

(** intervals.pyx:1083-1092 (size); [None] is [np.inf].  [np.nextafter(a, b)]
    moves one step towards [b]. *)
Definition cs_size (s : cs) : option Z :=
  if cs_isempty s then Some 0
  else if (lower s =? upper s)
          || (((if lower s <? upper s then lower s + 1 else lower s - 1) =? upper s)
              && (itype s =? 3))
  then Some 1
  else None.

(** intervals.pyx:1094-1107 (fst); [None] is NaN. *)
Definition cs_fst (s : cs) : option Z :=
  if cs_isempty s then None
  else if negb (lower s =? - ORD_INF)
       then match left s with INC => Some (lower s) | EXC => Some (plus_eps (lower s)) end
       else Some FLT_MIN.

(** intervals.pyx:1136-1159 (chop), the loop over the sorted points. *)
Fixpoint chop_loop (rem : cs) (points : list Z) : res (list cs) :=
  match points with
  | [] => Ok (if negb (cs_isempty rem) then [rem] else [])
  | p :: ps =>
      if negb (cs_contains_value rem p) then chop_loop rem ps
      else
        do cut <- mk_cs (lower rem) p (left rem) EXC;
        let rem' := CS p (upper rem) INC (right rem) in
        let out := if negb (cs_isempty cut) then [cut] else [] in
        if cs_isempty rem' then Ok out
        else do rest <- chop_loop rem' ps; Ok (out ++ rest)
  end.

(** Python's [sorted] on numbers: any stable sort by [<=]; insertion sort. *)
Fixpoint insert_by {A} (key : A -> Z) (x : A) (l : list A) : list A :=
  match l with
  | [] => [x]
  | y :: l' => if key x <=? key y then x :: l else y :: insert_by key x l'
  end.
Fixpoint sort_by {A} (key : A -> Z) (l : list A) : list A :=
  match l with
  | [] => []
  | x :: l' => insert_by key x (sort_by key l')
  end.

Definition cs_chop (self : cs) (points : list Z) : res (list cs) :=
  chop_loop self (sort_by (fun p => p) points).

(** intervals.pyx:1182-1191 (xmirror). *)
Definition cs_xmirror (s : cs) : cs := CS (- upper s) (- lower s) (right s) (left s).

(** intervals.pyx:1213-1219 (__eq__ between ContinuousSets). *)
Definition cs_eq (a b : cs) : bool :=
  ((lowermost a =? lowermost b) && (uppermost a =? uppermost b))
  || (cs_isempty a && cs_isempty b).

(** intervals.pyx:1299-1302 (__hash__): the hashed tuple. *)
Definition cs_hashkey (s : cs) : Z * Z * flag * flag :=
  (lower s, upper s, left s, right s).

(** intervals.pyx:1221-1237 (comparator). *)
Definition cs_comparator (a b : cs) : res Z :=
  if uppermost a <? lowermost b then Ok (-1)
  else if uppermost b <? lowermost a then Ok 1
  else Err ValueError.

(** intervals.pyx:761-775 (any_point), the branches without float
    multiplication; [None] marks the midpoint branch, which is not modelled. *)
Definition cs_any_point (s : cs) : option Z :=
  if cs_ispinf s && cs_isninf s then Some 0
  else if cs_isninf s then Some (minus_eps (uppermost s))
  else if cs_ispinf s then Some (plus_eps (lowermost s))
  else None.

(* ------------------------------------------------------------------------ *)
(** * RealSet *)

(** intervals.pyx:164-172, 294-304 (__contains__, contains_value). *)
Fixpoint rs_contains_value (l : list cs) (v : Z) : bool :=
  match l with
  | [] => false
  | s :: l' => if cs_contains_value s v then true else rs_contains_value l' v
  end.

(** intervals.pyx:350-369 (isempty). *)
Fixpoint rs_isempty (l : list cs) : bool :=
  match l with
  | [] => true
  | s :: l' => if negb (cs_isempty s) then false else rs_isempty l'
  end.

(** intervals.pyx:306-318 (contains_interval) for a ContinuousSet argument. *)
Fixpoint rs_contains_cs (l : list cs) (o : cs) : bool :=
  match l with
  | [] => false
  | s :: l' => if cs_contains_interval s o false then true else rs_contains_cs l' o
  end.
(** ... and for any NumberSet. *)
Definition rs_contains_interval (l : list cs) (o : nset) : bool :=
  match o with
  | NR ol => forallb (rs_contains_cs l) ol
  | NC c => rs_contains_cs l c
  end.

(** [RealSet([other])] for a ContinuousSet, the identity for a RealSet. *)
Definition as_list (o : nset) : list cs :=
  match o with NC c => [c] | NR l => l end.

(** [NumberSet.isempty()]. *)
Definition ns_isempty (o : nset) : bool :=
  match o with NC c => cs_isempty c | NR l => rs_isempty l end.

(** intervals.pyx:387-413 (intersects, isdisjoint). *)
Definition rs_intersects (l : list cs) (o : nset) : bool :=
  existsb (fun s => existsb (fun s' => cs_intersects s s') (as_list o)) l.
Definition rs_isdisjoint (l : list cs) (o : nset) : bool := negb (rs_intersects l o).

(** intervals.pyx:473-478: subtract [head] from every element of the tail. *)
Fixpoint subtract_all (head : cs) (tail : list cs) : res (list cs) :=
  match tail with
  | [] => Ok []
  | s :: tl =>
      do d <- cs_difference s head;
      do ds <- subtract_all head tl;
      Ok (as_list d ++ ds)
  end.

(** intervals.pyx:468-478: the [while tail] loop; [acc] is reversed. *)
Fixpoint disjoin_loop (fuel : nat) (tail : list cs) : res (list cs) :=
  match tail with
  | [] => Ok []
  | head :: tl =>
      match fuel with
      | O => Err OutOfFuel
      | S n =>
          do tl' <- subtract_all head tl;
          do rest <- disjoin_loop n tl';
          Ok (if negb (cs_isempty head) then head :: rest else rest)
      end
  end.

(** intervals.pyx:482-488: merging contiguous neighbours; [cur] is
    [intervals[-1]]. *)
Fixpoint merge_loop (cur : cs) (l : list cs) : list cs :=
  match l with
  | [] => [cur]
  | s :: l' =>
      if cs_contiguous cur s
      then merge_loop (CS (lower cur) (upper s) (left cur) (right s)) l'
      else cur :: merge_loop s l'
  end.

(** intervals.pyx:458-491 (simplify).  The loop runs at most [2^n - 1] times
    for [n] constituents (proved in RealSetProofs). *)
Definition rs_simplify (l : list cs) : res nset :=
  do pieces <- disjoin_loop (Nat.pow 2 (length l)) l;
  match sort_by upper pieces with
  | [] => Ok (NC EMPTY)
  | h :: tl =>
      match merge_loop h tl with
      | [c] => Ok (NC c)
      | m => Ok (NR m)
      end
  end.

(** [NumberSet.simplify()]; intervals.pyx:1161-1162 for ContinuousSet. *)
Definition ns_simplify (o : nset) : res nset :=
  match o with NC c => Ok (NC c) | NR l => rs_simplify l end.

(** intervals.pyx:500-506 (union). *)
Definition rs_union (l : list cs) (o : nset) : res nset := rs_simplify (l ++ as_list o).

(** intervals.pyx:415-432 (intersection): [subset_j.intersection(subset_i)]. *)
Definition rs_intersection (l : list cs) (o : nset) : res nset :=
  do r <- mapM (fun ij => cs_intersection (snd ij) (fst ij)) (list_prod l (as_list o));
  rs_simplify r.

(** intervals.pyx:517-523: subtract all constituents of [other] from one
    interval; the second value collects the pieces inserted into the queue
    (in their final queue order). *)
Fixpoint diff_inner (s : cs) (others : list cs) (q : list cs) : res (cs * list cs) :=
  match others with
  | [] => Ok (s, q)
  | o :: os =>
      do d <- cs_difference s o;
      match d with
      | NC c => diff_inner c os q
      | NR (a :: b :: _) => diff_inner a os (b :: q)
      | NR _ => Err IndexError
      end
  end.

(** intervals.pyx:515-524: the [while q] loop. *)
Fixpoint diff_loop (fuel : nat) (q others : list cs) : res (list cs) :=
  match q with
  | [] => Ok []
  | s :: q' =>
      match fuel with
      | O => Err OutOfFuel
      | S n =>
          do sq <- diff_inner s others q';
          do rest <- diff_loop n (snd sq) others;
          Ok (fst sq :: rest)
      end
  end.

(** intervals.pyx:508-525 (difference).  The loop runs at most
    [#self * (#other + 1)] times (proved in RealSetProofs). *)
Definition rs_difference (l : list cs) (o : nset) : res nset :=
  if ns_isempty o then Ok (NR l)
  else
    do r <- diff_loop (length l * S (length (as_list o))) l (as_list o);
    rs_simplify r.

(** intervals.pyx:527-528 (complement). *)
Definition rs_complement (l : list cs) : res nset :=
  do d <- rs_difference [RR] (NR l); ns_simplify d.

(** intervals.pyx:1034-1074 (ContinuousSet.difference) for any argument. *)
Definition cs_difference_ns (self : cs) (o : nset) : res nset :=
  match o with
  | NC c => cs_difference self c
  | NR l => if rs_isempty l then Ok (NC self) else rs_difference [self] (NR l)
  end.

(** intervals.pyx:1018-1032 (ContinuousSet.union). *)
Definition cs_union (self other : cs) : res nset :=
  if negb (cs_intersects self other) && negb (cs_contiguous self other) then
    if cs_isempty self then Ok (NC other)
    else rs_union [self] (NR [other])
  else
    let l := if lower self =? lower other then flag_min (left self) (left other)
             else if lower self <? lower other then left self else left other in
    let r := if upper self =? upper other then flag_min (right self) (right other)
             else if upper other <? upper self then right self else right other in
    do c <- mk_cs (Z.min (lower self) (lower other)) (Z.max (upper self) (upper other)) l r;
    Ok (NC c).

(** intervals.pyx:919-938 (ContinuousSet.intersects) for any argument. *)
Definition cs_intersects_ns (self : cs) (o : nset) : bool :=
  if ns_isempty o then false
  else match o with
       | NC c => cs_intersects self c
       | NR l => rs_intersects l (NC self)
       end.

(** intervals.pyx:534-545 (xmirror). *)
Definition rs_xmirror (l : list cs) : list cs := rev (map cs_xmirror l).

(** intervals.pyx:371-381 (fst): the least of the constituents' first values. *)
Fixpoint opt_min (l : list (option Z)) : option Z :=
  match l with
  | [] => None
  | None :: l' => opt_min l'
  | Some a :: l' =>
      match opt_min l' with None => Some a | Some b => Some (Z.min a b) end
  end.
Definition rs_fst (l : list cs) : option Z :=
  opt_min (map cs_fst (filter (fun i => negb (cs_isempty i)) l)).

(** intervals.pyx:232-254 (size). *)
Fixpoint opt_sum (l : list (option Z)) : option Z :=
  match l with
  | [] => Some 0
  | a :: l' =>
      match a, opt_sum l' with Some x, Some y => Some (x + y) | _, _ => None end
  end.
Definition rs_size (l : list cs) : res (option Z) :=
  do s <- rs_simplify l;
  match s with
  | NC c => Ok (cs_size c)
  | NR m => Ok (opt_sum (map cs_size m))
  end.

(** Python's list equality, elementwise by [__eq__]. *)
Fixpoint cs_list_eq (a b : list cs) : bool :=
  match a, b with
  | [], [] => true
  | x :: a', y :: b' => cs_eq x y && cs_list_eq a' b'
  | _, _ => false
  end.

(** intervals.pyx:182-191 (RealSet.__eq__). *)
Definition rs_eq (l : list cs) (o : nset) : res bool :=
  if rs_isempty l && ns_isempty o then Ok true
  else
    do s <- rs_simplify l;
    do o' <- match o with NR ol => rs_simplify ol | NC c => Ok (NC c) end;
    match s, o' with
    | NC a, NC b => Ok (cs_eq a b)
    | NR a, NR b => Ok (cs_list_eq a b)
    | _, _ => Ok false
    end.

(** intervals.pyx:530-532 (chop): fails when [simplify] returns a
    ContinuousSet, which has no attribute [intervals]. *)
Definition rs_chop (l : list cs) (points : list Z) : res (list cs) :=
  do s <- rs_simplify l;
  match s with
  | NC _ => Err AttributeError
  | NR m => do r <- mapM (fun c => cs_chop c points) m; Ok (concat r)
  end.

(** The side effect of intervals.pyx:458-491 (simplify) on its receiver.  The
    first head of the loop is the receiver's own first interval object (the
    later heads are fresh results of [difference]); when it is non-empty it
    goes on into the merging phase, where [intervals[-1].upper = ...] writes
    to it.  The tag marks that object. *)
Fixpoint merge_loop_t (cur : bool * cs) (l : list (bool * cs)) : list (bool * cs) :=
  match l with
  | [] => [cur]
  | s :: l' =>
      if cs_contiguous (snd cur) (snd s)
      then merge_loop_t (fst cur, CS (lower (snd cur)) (upper (snd s)) (left (snd cur)) (right (snd s))) l'
      else cur :: merge_loop_t s l'
  end.

Fixpoint tagged (l : list (bool * cs)) : option cs :=
  match l with
  | [] => None
  | (true, c) :: _ => Some c
  | (false, _) :: l' => tagged l'
  end.

(** The receiver's intervals after [simplify]. *)
Definition rs_simplify_receiver (l : list cs) : res (list cs) :=
  match l with
  | [] => Ok []
  | first :: others =>
      do pieces <- disjoin_loop (Nat.pow 2 (length l)) l;
      if cs_isempty first then Ok l
      else
        match pieces with
        | [] => Ok l
        | p :: ps =>
            match sort_by (fun tc => upper (snd tc)) ((true, p) :: map (fun c => (false, c)) ps) with
            | [] => Ok l
            | h :: tl =>
                match tagged (merge_loop_t h tl) with
                | Some c => Ok (c :: others)
                | None => Ok l
                end
            end
        end
  end.
