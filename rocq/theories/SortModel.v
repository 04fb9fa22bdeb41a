(** Model of the sorting and searching primitives, base/cutils.pxd:60-262.

    A pair of C arrays is modelled by two functions from positions to contents.
    Keys are doubles without NaN, given by their ordinals (see FloatLine); only
    comparisons of keys occur.  A pointer increment [Xf += r] is an offset. *)
Require Import ZArith Bool List Arith.
Require Import Verif.Base.
Import ListNotations.

Record arrays := Arr { Xf : nat -> Z; samples : nat -> nat }.

Definition upd {A} (f : nat -> A) (i : nat) (v : A) : nat -> A :=
  fun k => if Nat.eqb k i then v else f k.

(** cutils.pxd:78-90 (swap): both tuple assignments read before they write. *)
Definition swap (a : arrays) (i j : nat) : arrays :=
  Arr (upd (upd (Xf a) i (Xf a j)) j (Xf a i))
      (upd (upd (samples a) i (samples a j)) j (samples a i)).

(** cutils.pxd:93-116 (median3), of the [n] entries from offset [b]. *)
Definition median3 (a : arrays) (b n : nat) : Z :=
  let x := Xf a b in
  let y := Xf a (b + n / 2) in
  let z := Xf a (b + (n - 1)) in
  (if x <? y then
     if y <? z then y else if x <? z then z else x
   else if y <? z then
     if x <? z then x else z
   else y)%Z.

(** cutils.pxd:142-155 (the three-way partition loop of introsort). *)
Fixpoint partition_loop (fuel : nat) (a : arrays) (b : nat) (pivot : Z) (i l r : nat) : res (arrays * nat * nat) :=
  if Nat.ltb i r then
    match fuel with
    | O => Err OutOfFuel
    | S fuel =>
        if (Xf a (b + i) <? pivot)%Z then
          partition_loop fuel (swap a (b + i) (b + l)) b pivot (i + 1) (l + 1) r
        else if (pivot <? Xf a (b + i))%Z then
          partition_loop fuel (swap a (b + i) (b + (r - 1))) b pivot i l (r - 1)
        else partition_loop fuel a b pivot (i + 1) l r
    end
  else Ok (a, l, r).

(** cutils.pxd:163-191 (sift_down). *)
Fixpoint sift_down (fuel : nat) (a : arrays) (b root hend : nat) : res arrays :=
  match fuel with
  | O => Err OutOfFuel
  | S fuel =>
      let child := root * 2 + 1 in
      let m1 := if (Nat.ltb child hend) && (Xf a (b + root) <? Xf a (b + child))%Z then child else root in
      let m2 := if (Nat.ltb (child + 1) hend) && (Xf a (b + m1) <? Xf a (b + (child + 1)))%Z then child + 1 else m1 in
      if Nat.eqb m2 root then Ok a
      else sift_down fuel (swap a (b + root) (b + m2)) b m2 hend
  end.

(** cutils.pxd:205-213 (the heapify loop of heapsort), [start] downwards. *)
Fixpoint heapify_loop (a : arrays) (b start n : nat) : res arrays :=
  do a' <- sift_down (S n) a b start n;
  match start with
  | O => Ok a'
  | S s => heapify_loop a' b s n
  end.

(** cutils.pxd:215-220 (the shrinking loop of heapsort). *)
Fixpoint shrink_loop (a : arrays) (b hend : nat) : res arrays :=
  match hend with
  | O => Ok a
  | S e =>
      do a' <- sift_down (S hend) (swap a b (b + hend)) b 0 hend;
      shrink_loop a' b e
  end.

(** cutils.pxd:194-220 (heapsort); only called with [n > 1]. *)
Definition heapsort (a : arrays) (b n : nat) : res arrays :=
  do a' <- heapify_loop a b ((n - 2) / 2) n;
  shrink_loop a' b (n - 1).

(** cutils.pxd:119-160 (introsort).  The [while] loop and the recursive call are
    one recursion.  [maxd] is an [int] that only decreases; it is a natural
    number here because [maxd <= 0] is the only test made on it. *)
Fixpoint introsort (fuel : nat) (a : arrays) (b n maxd : nat) : res arrays :=
  if Nat.ltb 1 n then
    match maxd with
    | O => heapsort a b n
    | S maxd =>
        match fuel with
        | O => Err OutOfFuel
        | S fuel =>
            let pivot := median3 a b n in
            do alr <- partition_loop n a b pivot 0 0 n;
            let '(a1, l, r) := alr in
            do a2 <- introsort fuel a1 b l maxd;
            introsort fuel a2 (b + r) (n - r) maxd
        end
    end
  else Ok a.

(** cutils.pxd:63-75 (sort).  The depth bound [2 * (int) ld(n)] involves a
    floating-point logarithm; it is an arbitrary argument here. *)
Definition sort (maxd : nat) (a : arrays) (n : nat) : res arrays :=
  if Nat.eqb n 0 then Ok a else introsort n a 0 n maxd.

(** cutils.pxd:232-253 (_bisect).  A read outside the array is [IndexError]
    (undefined behaviour in C). *)
Definition rd (l : list Z) (i : nat) : res Z :=
  match nth_error l i with Some x => Ok x | None => Err IndexError end.

Fixpoint bisect_ (fuel : nat) (X : list Z) (v : Z) (lo hi : nat) : res nat :=
  match fuel with
  | O => Err OutOfFuel
  | S fuel =>
      do xl <- rd X lo;
      if (v <=? xl)%Z then Ok lo else
      do xu <- rd X hi;
      if (xu <=? v)%Z then Ok (hi + 1) else
      if (Nat.eqb (lo + 1) hi && ((xl <? v) && (v <? xu)))%Z%bool then Ok hi else
      let pivot := (lo + hi) / 2 in
      do xp <- rd X pivot;
      if (xp <? v)%Z then bisect_ fuel X v pivot hi else bisect_ fuel X v lo pivot
  end.

(** cutils.pxd:255-262 (bisect).  With [n = 0] the C code reads [Xf[0]] and
    [Xf[-1]]; [n - 1] is truncated here, so that the first read already fails. *)
Definition bisect (X : list Z) (v : Z) : res nat := bisect_ (S (length X)) X v 0 (length X - 1).
