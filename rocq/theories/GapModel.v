(** Model of [close_convex_gaps]: numeric.py:435-490 (insert_convex_fragments) and
    trees.py:2393-2448 (postprocess_leaves) for one distribution, with
    quantiles.pyx:94-149 (pdf_to_cdf) for densities of finite constants.

    Doubles are ordinals, cdfs piecewise functions, as in NumericModel.v.  The density
    which [from_pdf] caches beside the cdf is not modelled: it differs from the slope of the
    cdf by the factor by which [pdf_to_cdf] stretches the cdf. *)
Require Import QArith Qabs ZArith Bool List.
Require Import Verif.Base Verif.FloatLine Verif.FloatVal Verif.NumBase Verif.IntervalModel Verif.FunctionModel Verif.NumericModel.
Import ListNotations.
Open Scope Z_scope.

(** numeric.py:449-459: the bounds of the new pieces; [if left:] asks whether the interval is empty. *)
Definition gap_ends (gap : option cs) : list Z :=
  match gap with Some c => if cs_isempty c then [] else [lower c; upper c] | None => [] end.
(** numeric.py:461: [ContinuousSet(a, b)] is closed. *)
Fixpoint closed_pairs (points : list Z) : res (list cs) :=
  match points with
  | a :: ((b :: _) as r) => do i <- mk_cs a b INC INC; do is <- closed_pairs r; Ok (i :: is)
  | _ => Ok []
  end.
(** numeric.py:463-464 *)
Definition some_gaps (gap gap' : option cs) : list cs :=
  match gap with Some c => [c] | None => [] end ++ match gap' with Some c => [c] | None => [] end.
(** numeric.py:467-478; [prev] is the function before. *)
Fixpoint gap_functions (gaps : list cs) (prev : fn) (is : list cs) : res (list fn) :=
  match is with
  | [] => Ok []
  | i :: is =>
      match fn_eval prev (dval (lower i)) with
      | None => Err ValueError
      | Some v =>
          do f <- (if existsb (cs_eq i) gaps
                   then lin_from_points (dval (lower i), v) (dval (upper i), (v + 1 / Qn (length gaps))%Q)
                   else Ok (FConst v));
          do fs <- gap_functions gaps f is;
          Ok (f :: fs)
      end
  end.
(** numeric.py:449-483: the cdf of the gaps. *)
Definition gap_cdf (gap gap' : option cs) : res plf :=
  do is <- closed_pairs (- ORD_INF :: gap_ends gap ++ gap_ends gap' ++ [ORD_INF]);
  do fs <- gap_functions (some_gaps gap gap') (FConst 0) (tl is);
  Ok (combine is (FConst 0 :: fs)).
(** numeric.py:435-490; [n] is the number of samples. *)
Definition insert_convex_fragments (p : plf) (gap gap' : option cs) (n : nat) : res plf :=
  do g <- gap_cdf gap gap';
  merge_cdf [p; g] [(1 - 1 / (2 * Qn n))%Q; (1 / (2 * Qn n))%Q].

(** quantiles.pyx:106-126 for finite densities: an unbounded piece of positive density has no integral. *)
Fixpoint integrate (pdf : plf) (head : Q) : res plf :=
  match pdf with
  | [] => Ok []
  | (i, FConst v) :: r =>
      if Qz v then do t <- integrate r head; Ok ((i, FConst head) :: t)
      else if isinf (lower i) || isinf (upper i) then Err ValueError
      else
        let c := (head - v * dval (lower i))%Q in
        do t <- integrate r (v * dval (upper i) + c)%Q;
        Ok ((i, FLin v c) :: t)
  | _ => Err AttributeError
  end.
(** quantiles.pyx:94-149 for finite densities; the last piece must have density 0, so that
    its point does not matter. *)
Definition pdf_to_cdf (pdf : plf) : res plf :=
  do pdf <- plf_rectify pdf;
  do cdf <- integrate pdf 0;
  match snd (last cdf (RR, FUndef)) with
  | FConst v =>
      if Qltb (1 - v) (- (1 # 100000000)) then Err ValueError
      else if Qz v then Err ZeroDivisionError
      else Ok (plf_stretch cdf (1 / v)%Q)
  | _ => Err ValueError
  end.

(** trees.py:2428-2440: a distribution in one point becomes the uniform distribution between
    the ends of the gaps, or the point where there is no gap. *)
Definition spread_point (p : plf) (gap gap' : option cs) : res plf :=
  match p with
  | (i, _) :: (j, _) :: _ =>
      do k <- mk_cs (match gap with Some c => lower c | None => upper i end) (match gap' with Some c => upper c | None => lower j end) INC EXC;
      let width := (dval (uppermost k) - dval (lowermost k))%Q in
      if Qz width then Err ZeroDivisionError
      else do pdf <- plf_overwrite_at [(RR, FConst 0)] k (FConst (1 / width)); pdf_to_cdf pdf
  | _ => Err IndexError
  end.

(** trees.py:2412-2426: the gaps between the bounds of the path and the distribution. *)
Definition gap_below (c : cs) (p : plf) : option cs :=
  let least := upper (fst (hd (RR, FUndef) p)) in
  if (- ORD_INF <? lower c) && (lower c <? least) then Some (CS (lower c) least INC INC) else None.
Definition gap_above (c : cs) (p : plf) : option cs :=
  let largest := upper (fst (nth (length p - 2) p (RR, FUndef))) in
  if (upper c <? ORD_INF) && (largest <? upper c) then Some (CS largest (upper c) INC INC) else None.
(** trees.py:2403-2448 for the distribution [p] of a variable whose path is the interval [c]. *)
Definition close_gaps (p : plf) (c : cs) (n : nat) : res plf :=
  if Nat.eqb (length p) 2 then spread_point p (gap_below c p) (gap_above c p)
  else insert_convex_fragments p (gap_below c p) (gap_above c p) n.
