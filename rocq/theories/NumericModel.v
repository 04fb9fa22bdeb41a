(** Model of numeric distributions: distributions/quantile/cdfreg.pyx,
    distributions/quantile/quantiles.pyx and distributions/univariate/numeric.py.

    A quantile distribution is its cumulative distribution function, a piecewise
    function in the sense of FunctionModel.v: breakpoints are doubles, function
    values and coefficients are exact rationals.  Value and label space coincide
    (no scaling, see ScaleModel.v). *)
Require Import ZArith QArith Qabs Bool List Arith Lia.
Require Import Verif.Base Verif.FloatLine Verif.FloatVal Verif.IntervalModel Verif.NumBase Verif.UtilModel Verif.FunctionModel.
Import ListNotations.
Open Scope Q_scope.

(** ** The CDF regressor *)
Section Regressor.
  (** The two rows of the data array, its number of columns, the squared tolerance
      and the maximal number of splits (cdfreg.pyx:19-22; -1 by default).  The
      abscissae are distinct, so no division by zero occurs. *)
  Variables X Y : nat -> Q.
  Variable n : nat.
  Variable eps : Q.
  Variable max_splits : Z.

  (** cdfreg.pxd:17, libcpp's priority_queue: a descending list, [top] is its head. *)
  Fixpoint pq_push (x : nat) (q : list nat) : list nat :=
    match q with
    | [] => [x]
    | y :: q' => if Nat.leb y x then x :: q else y :: pq_push x q'
    end.

  (** A queued call of [_forward]: start, end, mse, depth. *)
  Record job := Job { j_start : nat; j_end : nat; j_mse : Q; j_depth : nat }.

  (** The running sums of cdfreg.pyx:80-87 and the best split so far with the errors of
      both sides ([None]: best_split = -1). *)
  Record sums := Sums {
    x_sq_left : Q; y_sq_left : Q; xy_left : Q;
    x_sq_right : Q; y_sq_right : Q; xy_right : Q;
    mse_min : Q; best : option (nat * Q * Q)
  }.

  (** cdfreg.pyx:109-141: one candidate. *)
  Definition try_split (start end_ : nat) (s : sums) (split : nat) : sums :=
    let xl := X split - X start in
    let yl := Y split - Y start in
    let xr := X split - X end_ in
    let yr := Y split - Y end_ in
    let m1 := yl / xl in
    let m2 := (0 - yr) / (0 - xr) in
    let nl := Qn (split - start) in
    let nr := Qn (end_ - split) in
    let y2l := y_sq_left s + yl * yl in
    let x2l := x_sq_left s + xl * xl in
    let xyl := xy_left s + xl * yl in
    let el := (y2l - 2 * xyl * m1 + x2l * m1 * m1) / nl in
    let y2r := y_sq_right s - yr * yr in
    let x2r := x_sq_right s - xr * xr in
    let xyr := xy_right s - xr * yr in
    let er := (y2r - 2 * xyr * m2 + x2r * m2 * m2) / nr in
    let ns := Qn (end_ - start) in
    let mse := nl / ns * el + nr / ns * er in
    let b := Qltb (mse_min s) 0 || Qltb mse (mse_min s) in
    Sums x2l y2l xyl x2r y2r xyr (if b then mse else mse_min s) (if b then Some (split, el, er) else best s).

  Definition inside (start end_ : nat) : list nat := seq (S start) (end_ - start - 1).

  (** cdfreg.pyx:63-150 (_forward): the points and the calls added to the queue. *)
  Definition forward (j : job) (points : list nat) : list nat * list job :=
    let a := j_start j in
    let b := j_end j in
    if Nat.ltb (b - a) 2 || ((0 <? max_splits)%Z && (max_splits <=? Z.of_nat (j_depth j))%Z) then (points, [])
    else
      let init := Sums 0 0 0
        (Qsum (map (fun i => (X i - X b) * (X i - X b)) (inside a b)))
        (Qsum (map (fun i => (Y i - Y b) * (Y i - Y b)) (inside a b)))
        (Qsum (map (fun i => (X i - X b) * (Y i - Y b)) (inside a b)))
        (j_mse j) None in
      match best (fold_left (try_split a b) (inside a b) init) with
      | None => (points, [])
      | Some (split, el, er) =>
          (pq_push split points,
           (if Qle_bool eps el then [Job a split el (S (j_depth j))] else [])
           ++ (if Qle_bool eps er then [Job split b er (S (j_depth j))] else []))
      end.

  (** cdfreg.pyx:45-53: the queue. *)
  Fixpoint forward_loop (fuel : nat) (queue : list job) (points : list nat) : res (list nat) :=
    match queue with
    | [] => Ok points
    | j :: rest =>
        match fuel with
        | O => Err OutOfFuel
        | S fuel => let r := forward j points in forward_loop fuel (rest ++ snd r) (fst r)
        end
    end.

  (** cdfreg.pyx:152-186 (_backward), the loop; [pq] is _points, [points] the result.
      The squared errors are summed from [pos] down to [l]. *)
  Fixpoint backward_loop (pq points : list nat) (pos : nat) : res (list nat) :=
    match pq with
    | [] => Ok points
    | p :: pq' =>
        match pq' with
        | [] => Ok (p :: points)
        | l :: _ =>
            match points with
            | [] => Err IndexError
            | r :: _ =>
                let m := (Y r - Y l) / (X r - X l) in
                let c := Y l - m * X l in
                let err := Qsum (map (fun k => (m * X k + c - Y k) * (m * X k + c - Y k)) (seq l (S pos - l))) in
                if Qle_bool eps (err / Qn (S pos - l))
                then backward_loop pq' (p :: points) p
                else backward_loop pq' points pos
            end
        end
    end.

  (** cdfreg.pyx:28-55 (fit), 24-26 (support_points): the selected columns.  With fewer
      than two columns [_backward] reads the top of an empty queue ([IndexError] here,
      undefined behaviour in C++); the only caller, quantiles.pyx:216-218, passes two
      or more.  [2 * n] calls of [_forward] are enough (theorem). *)
  Definition regress : res (list nat) :=
    if Nat.ltb n 2 then Err IndexError
    else
      do pq <- forward_loop (2 * n) [Job 0 (n - 1) (-1) 0] (pq_push (n - 1) [0%nat]);
      match pq with
      | t :: ((pos :: _) as pq') => backward_loop pq' [t] pos
      | _ => Err IndexError
      end.
End Regressor.

(** ** Fitting *)

(** quantiles.pyx:198-206: distinct values with the number of samples up to and including
    them; [acc] is reversed, its head is the last entry written. *)
Fixpoint compress (i : nat) (l : list Z) (acc : list (Z * nat)) : list (Z * nat) :=
  match l with
  | [] => rev acc
  | x :: l' =>
      match acc with
      | (x', c) :: acc' =>
          if (x =? x')%Z then compress (S i) l' ((x', S c) :: acc') else compress (S i) l' ((x, S i) :: acc)
      | [] => compress (S i) l' [(x, S i)]
      end
  end.

(** quantiles.pyx:196-212: the columns of data_buffer. *)
Definition quantile_points (data : list Z) : list (Z * Q) :=
  map (fun xc => (fst xc, (Qn (snd xc) - 1) / (Qn (length data) - 1))) (compress 0 (sort_by (fun x => x) data) []).

(** quantiles.pyx:221-225: the linear pieces between consecutive support points. *)
Fixpoint linear_pieces (pts : list (Z * Q)) : res plf :=
  match pts with
  | p :: ((q :: _) as rest) =>
      do f <- lin_from_points (dval (fst p), snd p) (dval (fst q), snd q);
      do i <- mk_cs (fst p) (fst q) INC EXC;
      do r <- linear_pieces rest;
      Ok ((i, f) :: r)
  | _ => Ok []
  end.
(** quantiles.pyx:227-233: the last interval is extended by one double and followed by
    the constant 1. *)
Fixpoint close_right (p : plf) : res plf :=
  match p with
  | [] => Err IndexError
  | [(i, f)] =>
      let u := plus_eps (upper i) in
      do a <- mk_cs (lower i) u INC EXC;
      do b <- mk_cs u ORD_INF INC EXC;
      Ok [(a, f); (b, FConst 1)]
  | s :: p' => do r <- close_right p'; Ok (s :: r)
  end.

(** quantiles.pyx:234-241: the distribution of a single value. *)
Definition dirac (x : Z) : plf := [(CS (- ORD_INF) x EXC EXC, FConst 0); (CS x ORD_INF INC EXC, FConst 1)].

(** quantiles.pyx:178-195: the samples with the optional additional points.  No samples
    at all: a read outside the buffer. *)
Definition fit_samples (leftmost rightmost : option Z) (rows : list Z) : res (list Z) :=
  if forallb (fun x => match leftmost with Some l => (l <? x)%Z | None => true end
                       && match rightmost with Some r => (x <? r)%Z | None => true end) rows
  then Ok (match leftmost with Some l => [l] | None => [] end ++ rows
           ++ match rightmost with Some r => [r] | None => [] end)
  else Err AssertionError.

Definition nthZ (pts : list (Z * Q)) (i : nat) : Z * Q := nth i pts (0%Z, 0).

(** quantiles.pyx:151-245 (fit) on the column values [rows]; [epsilon] is the tolerance
    (cdfreg.pyx:20 squares it). *)
Definition fit_cdf (epsilon : Q) (leftmost rightmost : option Z) (rows : list Z) : res plf :=
  do data <- fit_samples leftmost rightmost rows;
  let pts := quantile_points data in
  match pts with
  | [] => Err IndexError
  | [p] => Ok (dirac (fst p))
  | p :: _ :: _ =>
      do idx <- regress (fun i => dval (fst (nthZ pts i))) (fun i => snd (nthZ pts i)) (length pts)
                        (epsilon * epsilon) (-1);
      do ps <- linear_pieces (map (nthZ pts) idx);
      match ps with
      | [] => Err IndexError
      | (i, _) :: _ =>
          do r <- close_right ps;
          Ok ((CS (- ORD_INF) (lower i) EXC EXC, FConst 0) :: r)
      end
  end.

(** ** Evaluation *)

(** [f.eval(x)] as a number; NaN counts as an error. *)
Definition eval_num (f : fn) (x : Q) : res Q :=
  match fn_eval f x with Some v => Ok v | None => Err ArithmeticError end.
Definition cdf_num (p : plf) (x : Z) : res Q :=
  match plf_at p x with None => Err AttributeError | Some f => eval_num f (dval x) end.

(** Values of a density: a number or infinity (the density of a single value). *)
Inductive dens := DFin (v : Q) | DInf.
Definition pdf_fn : Type := list (cs * dens).

(** [f.value] of a differentiated piece: only constants have it. *)
Definition value_of_const (f : fn) : res dens := match f with FConst v => Ok (DFin v) | _ => Err AttributeError end.
Definition set_lower (i : cs) (x : Z) : cs := CS x (upper i) (left i) (right i).
Definition set_upper (i : cs) (x : Z) : cs := CS (lower i) x (left i) (right i).

(** quantiles.pyx:341-361 (pdf). *)
Definition pdf_of (cdf : plf) : res pdf_fn :=
  do d <- plf_differentiate cdf;
  do p <- mapM (fun s : cs * fn => do v <- value_of_const (snd s); Ok (fst s, v)) d;
  match p with
  | [(i, v); (j, w)] =>
      do k <- mk_cs (upper i) (plus_eps (upper i)) INC EXC;
      Ok [(i, v); (k, DInf); (set_lower j (plus_eps (lower j)), w)]
  | _ => Ok p
  end.

Definition dens_pos (v : dens) : bool := match v with DFin q => Qltb 0 q | DInf => true end.
Definition dens_zero (v : dens) : bool := match v with DFin q => Qeq_bool q 0 | DInf => false end.

(** functions.pyx:1413-1437 (gt) for [y = 0] and constant pieces: such a function meets
    the constant 0 everywhere or nowhere.  [current] is the lower bound of the open run. *)
Fixpoint gt0_loop (p : pdf_fn) (current : option Z) : list cs :=
  match p with
  | [] => match current with None => [] | Some l => [CS l ORD_INF INC EXC] end
  | (i, v) :: p' =>
      match current with
      | None => if negb (dens_zero v) && dens_pos v then gt0_loop p' (Some (lower i)) else gt0_loop p' None
      | Some l =>
          if dens_zero v || negb (dens_pos v) then CS l (lower i) INC EXC :: gt0_loop p' None
          else gt0_loop p' (Some l)
      end
  end.
Definition gt0 (p : pdf_fn) : list cs := gt0_loop p None.

(** numeric.py:267-286 (_p) for an interval.  [not probmass] returns the truth value of
    [probspace in value] (intervals.pyx:1201-1211). *)
Definition p_interval (cdf : plf) (value : cs) : res Q :=
  do pdf <- pdf_of cdf;
  let probspace := gt0 pdf in
  if rs_isdisjoint probspace (NC value) then Ok 0
  else
    do a <- (if (upper value =? ORD_INF)%Z then Ok 1 else cdf_num cdf (upper value));
    do b <- (if (lower value =? - ORD_INF)%Z then Ok 0 else cdf_num cdf (lower value));
    let probmass := a - b in
    if Qeq_bool probmass 0
    then Ok (if forallb (fun i => cs_contains_interval value i false) probspace then 1 else 0)
    else Ok probmass.
(** ... for a number and for a RealSet. *)
Definition p_number (cdf : plf) (x : Z) : res Q := p_interval cdf (CS x x INC INC).
Fixpoint sum_res (l : list (res Q)) : res Q :=
  match l with [] => Ok 0 | x :: l' => do a <- x; do b <- sum_res l'; Ok (a + b) end.
Definition p_set (cdf : plf) (o : nset) : res Q :=
  match o with
  | NC c => p_interval cdf c
  | NR l => sum_res (map (p_interval cdf) l)
  end.

(** ** Cropping *)

(** quantiles.pyx:264-303: the loop over the cropped pieces.  [out] is the new cdf in
    reverse, [f_] the previous piece. *)
Fixpoint crop_pieces (alpha : Q) (ps : plf) (f_ : fn) (out : plf) : res plf :=
  match ps with
  | [] => Ok out
  | (i, f) :: ps' =>
      match out with
      | [] => Err IndexError
      | (j, g) :: out' =>
          do e <- fn_eq f (FConst 0);
          if (e : bool) then crop_pieces alpha ps' f_ ((set_upper j (upper i), g) :: out')
          else
            do y <- eval_num g (dval (lower i));
            do a <- eval_num f (dval (lower i));
            do b <- eval_num f_ (dval (lower i));
            let c := (a - b) * alpha in
            do k <- mk_cs (lower i) (upper i) INC EXC;
            let upper_ := minus_eps (upper i) in
            match f, (match cs_size i with Some 1%Z => true | _ => false end) with
            | FConst _, _ | _, true => crop_pieces alpha ps' f ((k, FConst (y + c)) :: out)
            | FLin m _, false =>
                if Qz alpha then Err ZeroDivisionError
                else
                  do h <- lin_from_points (dval (lower i), y + c)
                            (dval upper_, m / alpha * (dval upper_ - dval (lower i)) + y + c);
                  crop_pieces alpha ps' f ((set_lower k (upper j), h) :: out)
            | _, false => Err AttributeError
            end
      end
  end.

(** quantiles.pyx:304-317: closing the new cdf on the right (still reversed). *)
Definition crop_close (interval : cs) (out : plf) : res plf :=
  match out with
  | [] => Err IndexError
  | (j, g) :: out' =>
      do e <- fn_eq g (FConst 1);
      if (e : bool) then
        let j1 := CS (lower j) ORD_INF (left j) EXC in
        Ok ((match out' with (k, _) :: _ => set_lower j1 (upper k) | [] => j1 end, g) :: out')
      else
        let j1 := if cs_contains_value j (uppermost interval) then set_upper j (minus_eps (upper j)) else j in
        do k <- mk_cs (upper j1) ORD_INF INC EXC;
        Ok ((k, FConst 1) :: (j1, g) :: out')
  end.

(** quantiles.pyx:247-329 (crop). *)
Definition crop_cdf (cdf : plf) (interval : cs) : res plf :=
  match cdf, rev cdf with
  | (i0, _) :: _, (il, _) :: _ =>
      if ((uppermost interval <? upper i0) || (lower il <? lowermost interval))%Z then Err Unsatisfiability
      else
        do p <- plf_crop cdf interval;
        match p with
        | [] => Err IndexError
        | (k0, _) :: _ =>
            do v <- cdf_num p (lowermost k0);
            do q <- plf_add_fn p (FConst (- v));
            do q <- plf_simplify q;
            match q, rev q with
            | (k, f0) :: _, (_, fl) :: _ =>
                do start <- mk_cs (- ORD_INF) (lower k) EXC EXC;
                do alpha <- eval_num fl (dval (uppermost interval));
                do out <- crop_pieces alpha q f0 [(start, FConst 0)];
                do out <- crop_close interval out;
                let r := filter (fun s : cs * fn => negb (cs_isempty (fst s))) (rev out) in
                if Nat.ltb 1 (length r) then Ok r else Err AssertionError
            | _, _ => Err IndexError
            end
        end
  | _, _ => Err IndexError
  end.

(** ** Merging *)

(** An element of the lists [lower] and [upper]: a piece or a jump, with its weight. *)
Inductive knot := KFn (f : fn) | KJump.
Definition entry : Type := Z * (knot * Q).

Definition is_const (f : fn) : bool := match f with FConst _ => true | _ => false end.
(** [f.m], [f.c] of a constant or linear function. *)
Definition slope (f : fn) : Q := match f with FLin m _ => m | _ => 0 end.
Definition intercept (f : fn) : Q := match f with FLin _ c => c | FConst v => v | _ => 0 end.

(** quantiles.pyx:472-475: jump positions with accumulated weights, in order of first
    appearance. *)
Fixpoint jump_add (x : Z) (w : Q) (js : list (Z * Q)) : list (Z * Q) :=
  match js with
  | [] => [(x, w)]
  | (y, v) :: js' => if (y =? x)%Z then (y, v + w) :: js' else (y, v) :: jump_add x w js'
  end.
Definition jumps (ds : list (plf * Q)) : list (Z * Q) :=
  fold_left (fun js dw => match fst dw with [(i, _); _] => jump_add (upper i) (snd dw) js | _ => js end) ds [].

(** quantiles.pyx:479-498: the two event lists. *)
Definition pieces_of (bound : cs -> Z) (ds : list (plf * Q)) : list entry :=
  flat_map (fun dw : plf * Q =>
    if Qltb 0 (snd dw)
    then map (fun s : cs * fn => (bound (fst s), (KFn (snd s), snd dw)))
             (filter (fun s : cs * fn => negb (is_const (snd s))) (fst dw))
    else []) ds.
Definition lower_events (ds : list (plf * Q)) : list entry :=
  sort_by fst (pieces_of lower ds
               ++ map (fun j => (fst j, (KJump, snd j))) (filter (fun j => Qltb 0 (snd j)) (jumps ds))).
Definition upper_events (ds : list (plf * Q)) : list entry := sort_by fst (pieces_of upper ds).

(** [first(l, first, np.PINF)] *)
Definition first_pos (l : list entry) : Z := match l with (x, _) :: _ => x | [] => ORD_INF end.
Definition pivot_is (pivot : option Z) (x : Z) : bool := match pivot with Some p => (p =? x)%Z | None => false end.
Definition take_entry (pivot : option Z) (x other : Z) : bool :=
  match pivot with None => (x <=? other)%Z | Some p => (p =? x)%Z end.

(** A piece without effect: constant, of slope 0, or starting at -inf (ending at inf). *)
Definition no_effect (x bad : Z) (k : knot) : bool :=
  (x =? bad)%Z || match k with KFn f => Qz (slope f) | KJump => false end.

(** quantiles.pyx:511-521. *)
Fixpoint lower_loop (lo : list entry) (other : Z) (pivot : option Z) (m offset : Q) : list entry * option Z * Q * Q :=
  match lo with
  | (x, (k, w)) :: lo' =>
      if take_entry pivot x other then
        if no_effect x (- ORD_INF) k then lower_loop lo' other pivot m offset
        else match k with
             | KJump => lower_loop lo' other (Some x) m (offset + w)
             | KFn f => lower_loop lo' other (Some x) (m + slope f * w) offset
             end
      else (lo, pivot, m, offset)
  | [] => ([], pivot, m, offset)
  end.
(** quantiles.pyx:524-530. *)
Fixpoint upper_loop (up : list entry) (other : Z) (pivot : option Z) (m : Q) : list entry * option Z * Q :=
  match up with
  | (x, (k, w)) :: up' =>
      if take_entry pivot x other then
        if no_effect x ORD_INF k then upper_loop up' other pivot m
        else match k with
             | KJump => upper_loop up' other pivot m
             | KFn f => upper_loop up' other (Some x) (m - slope f * w)
             end
      else (up, pivot, m)
  | [] => ([], pivot, m)
  end.

Definition tiny : Q := 1 # 100000000.

(** quantiles.pyx:502-545: the sweep; [out] is reversed. *)
Fixpoint sweep (fuel : nat) (lo up : list entry) (m c : Q) (out : plf) : res plf :=
  match lo, up with
  | [], [] => Ok out
  | _, _ =>
      match fuel with
      | O => Err OutOfFuel
      | S fuel =>
          let '(lo', pivot, m1, offset) := lower_loop lo (first_pos up) None m 0 in
          let '(up', pivot, m_) := upper_loop up (first_pos lo') pivot m1 in
          match pivot with
          | None => sweep fuel lo' up' m c out
          | Some x =>
              let y := m * dval x + c in
              let m := if Qltb tiny (Qabs m_) then m_ else 0 in
              let c := y - m * dval x + offset in
              match out with
              | [] => Err IndexError
              | (i, f) :: out' =>
                  let out := (set_upper i x, f) :: out' in
                  if (negb (Qz c) || negb (Qz m)) && (negb (Qeq_bool m (slope f)) || negb (Qeq_bool c (intercept f)))
                  then
                    do k <- mk_cs x ORD_INF INC EXC;
                    sweep fuel lo' up' m c ((k, if Qltb tiny (Qabs m) then FLin m c else FConst c) :: out)
                  else sweep fuel lo' up' m c out
              end
          end
      end
  end.

(** quantiles.pyx:547-551: remove "approximately constant" pieces at the end. *)
Fixpoint drop_tail (out : plf) : plf :=
  match out with
  | (i, f) :: ((_ :: _) as out') =>
      if negb (Qltb tiny (Qabs (slope f))) && negb (Qz (slope f)) then drop_tail out' else out
  | _ => out
  end.

(** functions.pyx:1321-1337 (ensure_right) with the constant 1, at the lower bound of the
    last piece: unless that piece is the constant 1, it is emptied and replaced.  (The
    first alternative of the code requires a crossing point that is above the lower
    bound and not above it.) *)
Definition ensure_right_one (out : plf) : res plf :=
  match out with
  | [] => Err IndexError
  | (i, f) :: out' =>
      do x <- fn_intersection f (FConst 1);
      match x with
      | XAll => Ok out
      | _ => Ok ((CS (lower i) ORD_INF INC EXC, FConst 1) :: out')
      end
  end.

(** quantiles.pyx:443-556 (merge). *)
Definition merge_cdf (ds : list plf) (ws : list Q) : res plf :=
  if Qltb tiny (Qabs (Qsum ws - 1)) then Err ValueError
  else
    let dws := combine ds ws in
    let lo := lower_events dws in
    let up := upper_events dws in
    do out <- sweep (length lo + length up) lo up 0 0 [(RR, FConst 0)];
    do out <- ensure_right_one (drop_tail out);
    Ok (rev out).

(** numeric.py:341-357 (update): the weights are normalized([1, weight]). *)
Definition update_cdf (self d : plf) (weight : Q) : res plf :=
  if negb (Qle_bool 0 weight && Qle_bool weight 1) then Err ValueError
  else do ws <- normalized [1; weight] false false 0; merge_cdf [self; d] ws.

(** numeric.py:362-403 (_crop).  A number, or an interval with one element, turns the
    receiver itself into a Dirac impulse and returns it (create_dirac_impulse,
    numeric.py:169-177). *)
Definition crop_interval (cdf : plf) (c : cs) : res plf :=
  match cs_size c with
  | Some 1%Z => Ok (dirac (lower c))
  | _ => crop_cdf cdf c
  end.
(** numeric.py:373-383: the crops of the constituents of a real set, in order.  The first
    component is the receiver afterwards; [None] in the list is the receiver object. *)
Fixpoint crop_run (self : plf) (l : list cs) : plf * res (list (option plf)) :=
  match l with
  | [] => (self, Ok [])
  | c :: l' =>
      match cs_size c with
      | Some 1%Z => let (after, r) := crop_run (dirac (lower c)) l' in (after, do ds <- r; Ok (None :: ds))
      | _ =>
          match crop_cdf self c with
          | Err e => (self, Err e)
          | Ok p => let (after, r) := crop_run self l' in (after, do ds <- r; Ok (Some p :: ds))
          end
      end
  end.
Definition crop_set (cdf : plf) (o : nset) : res plf :=
  match o with
  | NC c => crop_interval cdf c
  | NR [] => Err ZeroDivisionError
  | NR l =>
      let (after, r) := crop_run cdf l in
      do ds <- r;
      merge_cdf (map (fun o => match o with Some p => p | None => after end) ds) (map (fun _ => 1 / Qn (length ds)) ds)
  end.
(** The receiver after [_crop], whether or not it raises. *)
Definition crop_after (cdf : plf) (o : nset) : plf :=
  match o with
  | NC c => match cs_size c with Some 1%Z => dirac (lower c) | _ => cdf end
  | NR l => fst (crop_run cdf l)
  end.

(** ** Quantiles *)

(** quantiles.pyx:369-441 (ppf).  The probabilities are rationals here, not doubles: a
    piece is given by its upper bound ([None] is +inf) and starts where the preceding
    one ends. *)
Definition ope : Q := 1 + (1 # 4503599627370496).
Definition Qmin2 (x y : Q) : Q := if Qltb y x then y else x.
(** [f(interval.upper)]; only constants have a value at infinity. *)
Definition eval_bound (f : fn) (x : Z) : res Q :=
  if isinf x then match f with FConst v => Ok v | _ => Err ArithmeticError end else eval_num f (dval x).
Definition fn_is_invertible (f : fn) : bool := match f with FLin m _ => lin_is_invertible m | _ => false end.
Fixpoint ppf_loop (cdf : plf) (y_cdf : Q) : res (list (Q * fn)) :=
  match cdf with
  | [] => Ok []
  | (i, f) :: cdf' =>
      do g <- (if fn_is_invertible f then Ok (match f with FLin m c => lin_invert m c | _ => None end)
               else if Qz (intercept f) then Ok (Some FUndef)
               else do v <- eval_bound f (lower i);
                    Ok (if Qltb y_cdf v then Some (FConst (dval (lower i))) else None));
      match g with
      | None => ppf_loop cdf' y_cdf
      | Some g =>
          do u <- (if isinf (upper i) then Ok ope else do v <- eval_num f (dval (upper i)); Ok (Qmin2 ope v));
          do v <- eval_bound f (upper i);
          do r <- ppf_loop cdf' (Qmin2 ope v);
          Ok ((u, g) :: r)
      end
  end.
Fixpoint ppf_finish (l : list (Q * fn)) : list (option Q * fn) :=
  match l with
  | [] => [(None, FUndef)]
  | [(_, g)] => [(Some ope, g); (None, FUndef)]
  | (u, g) :: l' => (Some u, g) :: ppf_finish l'
  end.
(** The value at a probability: the first piece that contains it; the first piece has no
    lower bound. *)
Fixpoint ppf_at (l : list (option Q * fn)) (lo : option Q) (y : Q) : option fn :=
  match l with
  | [] => None
  | (u, g) :: l' =>
      if match lo with None => true | Some a => Qle_bool a y end && match u with None => true | Some b => Qltb y b end
      then Some g else ppf_at l' u y
  end.
Definition ppf_eval (l : list (option Q * fn)) (y : Q) : option Q :=
  match ppf_at l None y with None => None | Some g => fn_eval g y end.
Definition ppf_of (cdf : plf) : res (list (option Q * fn)) :=
  match cdf with
  | [(i, _); (j, _)] => Ok [(Some 1, FUndef); (Some ope, FConst (dval (lower j))); (None, FUndef)]
  | _ =>
      do l <- ppf_loop cdf 0;
      let p := ppf_finish l in
      match ppf_eval p ope, ppf_eval p 1 with
      | None, Some _ => Ok p
      | _, _ => Err ValueError
      end
  end.

(** ** Moments, modes, comparison *)

(** numeric.py:170-174 (is_dirac_impulse). *)
Definition is_dirac (cdf : plf) : bool := Nat.eqb (length cdf) 2.

(** [interval.width] (intervals.pyx:1129-1134) of a bounded interval. *)
Definition width (i : cs) : Q := dval (uppermost i) - dval (lowermost i).

Definition middle {A} (l : list A) : list A := removelast (tl l).

(** numeric.py:536-576 (_moment) without value transform; order 0 of a Dirac impulse is
    computed by the loop, whose only piece has width 0. *)
Definition moment_of (cdf : plf) (order : nat) (center : Q) : res Q :=
  do pdf <- pdf_of cdf;
  match is_dirac cdf, order with
  | true, 1%nat => match gt0 pdf with c :: _ => Ok (dval (lowermost c)) | [] => Err ArithmeticError end
  | true, S (S _) => Ok 0
  | _, _ =>
      sum_res (map (fun s : cs * dens =>
        let i := fst s in
        if isinf (lower i) || isinf (upper i) then Err ArithmeticError
        else if Qeq_bool (width i) 0 then Ok 0
        else match snd s with
             | DInf => Err ArithmeticError
             | DFin v =>
                 Ok ((Qpower (dval (upper i) - center) (Z.of_nat (S order))
                      - Qpower (dval (lower i) - center) (Z.of_nat (S order))) * v / Qn (S order))
             end) (middle pdf))
  end.
Definition expectation_of (cdf : plf) : res Q := moment_of cdf 1 0.
Definition variance_of (cdf : plf) : res Q := do e <- expectation_of cdf; moment_of cdf 2 e.

(** Comparison of densities; infinity is the largest. *)
Definition dens_leb (a b : dens) : bool :=
  match a, b with
  | _, DInf => true
  | DInf, DFin _ => false
  | DFin x, DFin y => Qle_bool x y
  end.
Definition dens_eqb (a b : dens) : bool := dens_leb a b && dens_leb b a.
Fixpoint insert_dens (x : dens) (l : list dens) : list dens :=
  match l with
  | [] => [x]
  | y :: l' => if dens_leb y x then x :: l else y :: insert_dens x l'
  end.
(** numeric.py:202-228 (_k_mpe): the likelihoods are a list, not a set. *)
Definition k_mpe_of (cdf : plf) (k : option nat) : res (list (nset * dens)) :=
  do pdf <- pdf_of cdf;
  let likelihoods := filter (fun v => negb (dens_zero v)) (map snd pdf) in
  let sorted := fold_right insert_dens [] likelihoods in
  mapM (fun v =>
    do s <- rs_simplify (map fst (filter (fun s => dens_eqb (snd s) v) pdf));
    Ok (s, v)) (match k with None => sorted | Some k => firstn k sorted end).
Definition mpe_of (cdf : plf) : res (nset * dens) :=
  do l <- k_mpe_of cdf (Some 1%nat);
  match l with [] => Err TypeError | x :: _ => Ok x end.

(** quantiles.pyx:569-571: the chances of the pieces between the first and the last. *)
Definition piece_chances (cdf : plf) : res (list Q) :=
  mapM (fun s : cs * fn =>
          do a <- eval_num (snd s) (dval (upper (fst s)));
          do b <- eval_num (snd s) (dval (lower (fst s)));
          Ok (a - b)) (middle cdf).
(** quantiles.pyx:558-592 (sample), one sample: [choose] is the index drawn by
    np.random.choice, which refuses negative chances and chances that do not sum to 1 (up
    to the square root of the machine epsilon, 2^-26), and [draw i] the value drawn from
    interval [i]. *)
Definition sample_cdf (choose : nat) (draw : cs -> Z) (cdf : plf) : res Z :=
  match cdf with
  | [(i, _); _] => Ok (upper i)
  | _ =>
      do ps <- piece_chances cdf;
      if negb (forallb (fun p => Qle_bool 0 p) ps) || Qltb (1 # 67108864) (Qabs (Qsum ps - 1)) then Err ValueError
      else match nth_error (middle cdf) choose with
           | None => Err IndexError
           | Some s => Ok (draw (fst s))
           end
  end.
