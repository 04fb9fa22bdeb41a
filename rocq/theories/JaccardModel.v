(** Similarity of numeric distributions (numeric.py, functions.pyx). *)
Require Import ZArith QArith Bool List.
Require Import Verif.Base Verif.FloatLine Verif.FloatVal Verif.NumBase Verif.IntervalModel Verif.FunctionModel Verif.NumericModel.
Import ListNotations.
Open Scope Z_scope.

(** Sorting a set of numbers. *)
Fixpoint insert_new (x : Z) (l : list Z) : list Z :=
  match l with
  | [] => [x]
  | y :: l' => if x <? y then x :: l else if x =? y then l else y :: insert_new x l'
  end.
Definition sorted_set (l : list Z) : list Z := fold_right insert_new [] l.

(** functions.pyx:1673-1693 (boundaries); all functions have pieces. *)
Fixpoint transitions (p : pdf_fn) : list Z :=
  match p with
  | (i, _) :: (((j, _) :: _) as r) => (if cs_contiguous i j then [lowermost j] else [uppermost i; lowermost j]) ++ transitions r
  | _ => []
  end.
Definition is_finite (x : Z) : bool := (- ORD_INF <? x) && (x <? ORD_INF).
Definition boundaries (p : pdf_fn) : list Z :=
  sorted_set (filter is_finite (map (fun s : cs * dens => lower (fst s)) (firstn 1 p) ++ transitions p ++ match last (map fst p) RR with CS _ u _ _ => [u] end)).

(** Arithmetic with infinite densities. *)
Definition dens_min (a b : dens) : dens :=
  match a, b with DFin x, DFin y => DFin (if Qle_bool x y then x else y) | DInf, b => b | a, DInf => a end.
Definition dens_max (a b : dens) : dens :=
  match a, b with DFin x, DFin y => DFin (if Qle_bool x y then y else x) | _, _ => DInf end.
Definition dens_add (a b : dens) : dens := match a, b with DFin x, DFin y => DFin (x + y)%Q | _, _ => DInf end.
Definition dens_scale (a : dens) (w : Q) : dens := match a with DFin x => DFin (x * w)%Q | DInf => DInf end.
(** [eval] of a function with constant pieces (functions.pyx:1104-1108). *)
Definition pdf_eval (p : pdf_fn) (x : Z) : res dens :=
  match find (fun s : cs * dens => piece_has (fst s) x) p with Some s => Ok (snd s) | None => Err AttributeError end.

Definition pairs (l : list Z) : list (Z * Z) := combine l (tl l).

Section Jaccard.
  (** The float (a + b) * .5 (intervals.pyx:761-775, any_point of a bounded interval). *)
  Variable mid : Z -> Z -> Z.
  Definition slice (p q : pdf_fn) (ab : Z * Z) : res (dens * dens) :=
    let x := mid (fst ab) (snd ab) in
    let w := (dval (snd ab) - dval (fst ab))%Q in
    do v1 <- pdf_eval p x; do v2 <- pdf_eval q x;
    Ok (dens_scale (dens_min v1 v2) w, dens_scale (dens_max v1 v2) w).
  (** numeric.py:600-623 (Numeric.jaccard_similarity); the distributions are of the same type.
      [None] is NaN.  The points are numpy floats, so that dividing zero by zero is NaN unless
      there is no slice at all: then both sums are the integer 0. *)
  Definition num_jaccard (d1 d2 : plf) : res (option Q) :=
    do e <- plf_eq d1 d2;
    if (e : bool) then Ok (Some 1%Q)
    else
      do p <- pdf_of d1; do q <- pdf_of d2;
      do parts <- mapM (slice p q) (pairs (sorted_set (boundaries p ++ boundaries q)));
      match fold_left dens_add (map fst parts) (DFin 0), fold_left dens_add (map snd parts) (DFin 0) with
      | DFin i, DFin u =>
          if Qeq_bool u 0 then match parts with [] => Err ZeroDivisionError | _ => Ok None end
          else Ok (Some (i / u)%Q)
      | DFin _, DInf => Ok (Some 0%Q)
      | DInf, _ => Ok None
      end.
End Jaccard.
