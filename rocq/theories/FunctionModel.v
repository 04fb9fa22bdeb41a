(** Model of src/jpt/base/functions.pyx: constant, linear, quadratic and
    piecewise functions.

    Positions on the x-axis are doubles (ordinals, FloatLine) with their exact
    rational value [dval]; interval operations are those of IntervalModel.
    Function values and coefficients are exact rationals: floating-point
    rounding of coefficients is not modelled, and a computation whose float
    result would be infinite or NaN is marked explicitly ([None] or
    [ArithmeticError]).  Coefficients are finite.  Knot functions (Hinge, Jump,
    Impulse), Gaussian functions, parsing and printing are not modelled. *)
Require Import ZArith QArith Qabs Bool List Lia.
Require Import Verif.Base Verif.FloatLine Verif.FloatVal Verif.IntervalModel Verif.NumBase.
Import ListNotations.
Open Scope Q_scope.

(** functions.pyx:159 (Undefined), 306 (ConstantFunction), 456
    (LinearFunction), 741 (QuadraticFunction). *)
Inductive fn : Type :=
| FUndef
| FConst (v : Q)
| FLin (m c : Q)
| FQuad (a b c : Q).

(** functions.pyx:48-54 (NaN for Undefined), 327-328, 467-468, 783-784 (eval);
    [None] is NaN. *)
Definition fn_eval (f : fn) (x : Q) : option Q :=
  match f with
  | FUndef => None
  | FConst v => Some v
  | FLin m c => Some (m * x + c)
  | FQuad a b c => Some (a * x * x + b * x + c)
  end.

Definition Qz (x : Q) : bool := Qeq_bool x 0.

(** functions.pyx:134-139 (simplify: copy), 634-638 (Linear), 822-827
    (Quadratic). *)
Definition fn_simplify (f : fn) : fn :=
  match f with
  | FLin m c => if Qz m then FConst c else FLin m c
  | FQuad a b c => if Qz a then (if Qz b then FConst c else FLin b c) else FQuad a b c
  | _ => f
  end.

(** functions.pyx:83, 190-191 (Undefined), 380-390 (Constant), 583-592
    (Linear), 775-781 (Quadratic: [None] when no case matches). *)
Definition fn_add (f g : fn) : res (option fn) :=
  match f, g with
  | FUndef, _ => Ok (Some FUndef)
  | FConst a, FConst b => Ok (Some (FConst (a + b)))
  | FConst a, FLin m c => Ok (Some (FLin m (c + a)))
  | FConst a, FQuad p q r => Ok (Some (FQuad p q (r + a)))
  | FConst _, FUndef => Ok (Some FUndef)
  | FLin m c, FLin m' c' => Ok (Some (FLin (m + m') (c + c')))
  | FLin m c, FConst v => Ok (Some (FLin m (c + v)))
  | FLin _ _, _ => Err TypeError
  | FQuad a b c, FConst v => Ok (Some (FQuad a b (c + v)))
  | FQuad a b c, FLin m c' => Ok (Some (FQuad a (b + m) (c + c')))
  | FQuad a b c, FQuad a' b' c' => Ok (Some (FQuad (a + a') (b + b') (c + c')))
  | FQuad _ _ _, FUndef => Ok None
  end.

(** functions.pyx:186-188 (Undefined), 363-378 (Constant), 570-577 (Linear),
    767-773 (Quadratic: the TypeError is constructed but not raised). *)
Definition fn_mul (f g : fn) : res (option fn) :=
  match f, g with
  | FUndef, _ => Ok (Some FUndef)
  | FConst a, FConst b => Ok (Some (FConst (if Qz a || Qz b then 0 else a * b)))
  | FConst a, FLin m c => Ok (Some (FLin (m * a) (c * a)))
  | FConst a, FQuad p q r => Ok (Some (fn_simplify (FQuad (p * a) (q * a) (r * a))))
  | FConst _, FUndef => Ok (Some FUndef)
  | FLin m c, FConst v => Ok (Some (FLin (m * v) (c * v)))
  | FLin m c, FLin m' c' => Ok (Some (fn_simplify (FQuad (m * m') (m * c' + m' * c) (c * c'))))
  | FLin _ _, _ => Err TypeError
  | FQuad a b c, FConst v => Ok (Some (fn_simplify (FQuad (a * v) (b * v) (c * v))))
  | FQuad _ _ _, _ => Ok None
  end.

(** functions.pyx:85-98, 100-113 (the operators [+] and [*]): calling
    [simplify] on [None] is an AttributeError. *)
Definition lift_op (r : res (option fn)) : res fn :=
  do o <- r; match o with Some h => Ok (fn_simplify h) | None => Err AttributeError end.
Definition op_add (f g : fn) : res fn := lift_op (fn_add f g).
Definition op_mul (f g : fn) : res fn := lift_op (fn_mul f g).
(** ... with a number as the second operand. *)
Definition op_add_num (f : fn) (v : Q) : res fn := op_add f (FConst v).
Definition op_mul_num (f : fn) (v : Q) : res fn := op_mul f (FConst v).

(** functions.pyx:115-119, 353-361, 625-630, 760-764, 183-184 (the in-place
    operators store the result into the same object, which [set] only allows
    for a result of the same class; QuadraticFunction.set reads [f.a], which
    only a quadratic has). *)
Definition fn_set (f g : fn) : res fn :=
  match f, g with
  | FUndef, _ => Ok FUndef
  | FConst _, FConst v => Ok (FConst v)
  | FConst _, _ => Err TypeError
  | FLin _ _, FLin m c => Ok (FLin m c)
  | FLin _ _, _ => Err TypeError
  | FQuad _ _ _, FQuad a b c => Ok (FQuad a b c)
  | FQuad _ _ _, _ => Err AttributeError
  end.
Definition op_iadd (f g : fn) : res fn := do h <- op_add f g; fn_set f h.

(** functions.pyx:172-179 (Undefined; [any] is called with two arguments, a
    TypeError), 333-351 (Constant), 603-621 (Linear), 757-758 (Quadratic). *)
Definition fn_eq (f g : fn) : res bool :=
  match f, g with
  | FUndef, FUndef => Ok true
  | FUndef, FLin _ _ => Err TypeError
  | FUndef, _ => Ok false
  | FConst a, FConst b => Ok (Qeq_bool a b)
  | FConst a, FLin m c => Ok (Qz m && Qeq_bool a c)
  | FConst _, _ => Ok false
  | FLin m c, FLin m' c' => Ok (Qeq_bool m m' && Qeq_bool c c')
  | FLin m c, FConst v => Ok (Qz m && Qeq_bool v c)
  | FLin _ _, _ => Ok false
  | FQuad a b c, FQuad a' b' c' => Ok (Qeq_bool a a' && Qeq_bool b b' && Qeq_bool c c')
  | FQuad _ _ _, _ => Ok false
  end.

(** functions.pyx:497-502 (root); [None]: not a finite number. *)
Definition lin_root (m c : Q) : option Q := if Qz m then None else Some (- c / m).
(** functions.pyx:504-509 (invert). *)
Definition lin_invert (m c : Q) : option fn := if Qz m then None else Some (FLin (1 / m) (- c / m)).
(** functions.pyx:511-516 (hmirror). *)
Definition lin_hmirror (m c : Q) : fn := FLin (- m) (- c).
(** functions.pyx:666-671 (is_invertible). *)
Definition lin_is_invertible (m : Q) : bool := Qle_bool (1 # 10000) (Qabs m).

(** functions.pyx:640-664 (from_points). *)
Definition lin_from_points (p1 p2 : Q * Q) : res fn :=
  let (x1, y1) := p1 in
  let (x2, y2) := p2 in
  if Qeq_bool x1 x2 then Err ValueError
  else if Qeq_bool y2 y1 then Ok (FConst y2)
  else let m := (y2 - y1) / (x2 - x1) in Ok (FLin m (y1 - m * x1)).

(** functions.pyx:832-841, 848-858 (QuadraticFunction.fit and from_points);
    [None] is the case of a zero denominator, where all coefficients are
    infinite or NaN. *)
Definition pt_eq (p q : Q * Q) : bool := Qeq_bool (fst p) (fst q) && Qeq_bool (snd p) (snd q).
Definition quad_from_points (x y z : Q * Q) : res (option fn) :=
  if pt_eq x y || pt_eq y z || pt_eq x z then Err ValueError
  else
    let (x0, x1) := x in
    let (y0, y1) := y in
    let (z0, z1) := z in
    let denom := (x0 - y0) * (x0 - z0) * (y0 - z0) in
    if Qz denom then Ok None
    else Ok (Some (FQuad
      ((z0 * (y1 - x1) + y0 * (x1 - z1) + x0 * (z1 - y1)) / denom)
      ((z0 * z0 * (x1 - y1) + y0 * y0 * (z1 - x1) + x0 * x0 * (y1 - z1)) / denom)
      ((y0 * z0 * (y0 - z0) * x1 + z0 * x0 * (z0 - x0) * y1 + x0 * y0 * (x0 - y0) * z1) / denom))).

(** functions.pyx:330-331, 631-632, 819-820 (differentiate). *)
Definition fn_differentiate (f : fn) : res fn :=
  match f with
  | FUndef => Err AttributeError
  | FConst _ => Ok (FConst 0)
  | FLin m _ => Ok (FConst m)
  | FQuad a b _ => Ok (FLin (2 * a) b)
  end.

(** functions.pyx:860-861 (argvertex): the derivative is simplified first; a
    constant has no [root]. *)
Definition quad_argvertex (a b : Q) : res (option Q) :=
  match fn_simplify (FLin (2 * a) b) with
  | FLin m c => Ok (lin_root m c)
  | _ => Err AttributeError
  end.

(** functions.pyx:401-433, 521-568 (intersects, intersection) for constant and
    linear functions; the interval is given by its kind. *)
Inductive crossing : Type := XAll | XNone | XPoint (x : Q).
Definition fn_intersection (f g : fn) : res crossing :=
  match f, g with
  | FConst a, FConst b => Ok (if Qeq_bool a b then XAll else XNone)
  | FLin m c, FLin m' c' =>
      Ok (if Qeq_bool m m' then (if Qeq_bool c c' then XAll else XNone)
          else XPoint ((c - c') / (m' - m)))
  | FLin m c, FConst v | FConst v, FLin m c =>
      Ok (if Qz m then (if Qeq_bool c v then XAll else XNone) else XPoint ((c - v) / - m))
  | FQuad _ _ _, _ => Err NotImplementedError
  | FUndef, _ => Err AttributeError
  | _, _ => Err TypeError
  end.
Definition fn_intersects (f g : fn) : res bool :=
  match f, g with
  | FConst a, FConst b => Ok (Qeq_bool b a)
  | FLin m _, FLin m' _ => Ok (negb (Qeq_bool m m'))
  | FLin m _, FConst _ | FConst _, FLin m _ => Ok (negb (Qz m))
  | FQuad _ _ _, _ => Err NotImplementedError
  | FUndef, _ => Err AttributeError
  | _, _ => Err TypeError
  end.

(** functions.pyx:435-443 (Constant), 697-717 (Linear): the integral between two
    doubles.  A bound at infinity yields 0 for the zero constant and otherwise
    an infinite or NaN area ([ArithmeticError] here).  Quadratic functions and
    Undefined have no [integrate]. *)
Definition fn_integrate (f : fn) (x1 x2 : Z) : res Q :=
  match f with
  | FConst c =>
      if (x2 <? x1)%Z then Err ValueError
      else if Qz c then Ok 0
      else if isinf x1 || isinf x2 then Err ArithmeticError
      else Ok (c * (dval x2 - dval x1))
  | FLin m c =>
      if (x2 <? x1)%Z then Err ValueError
      else if (x2 =? x1)%Z then Ok 0
      else if isinf x1 || isinf x2 then Err ArithmeticError
      else Ok ((1 # 2) * m * (dval x2 * dval x2) + c * dval x2
               - ((1 # 2) * m * (dval x1 * dval x1) + c * dval x1))
  | _ => Err AttributeError
  end.

(** functions.pyx:195-196, 445-446, 719-725 (xshift); a QuadraticFunction has
    none. *)
Definition fn_xshift (f : fn) (delta : Q) : res fn :=
  match f with
  | FUndef => Ok FUndef
  | FConst v => Ok (FConst v)
  | FLin m c => Ok (FLin m (m * delta + c))
  | FQuad _ _ _ => Err AttributeError
  end.

(** functions.pyx:148-149, 448-454, 727-736 (xmirror). *)
Definition fn_xmirror (f : fn) : res fn :=
  match f with
  | FConst v => Ok (FConst v)
  | FLin m c => Ok (FLin (- m) c)
  | _ => Err NotImplementedError
  end.

(* ------------------------------------------------------------------------ *)
(** * Piecewise functions *)

(** functions.pyx:914-931: parallel lists of intervals and functions. *)
Definition plf : Type := list (cs * fn).

Definition ivs (p : plf) : list cs := map fst p.

(** functions.pyx:1066-1078 (idx_at) and 1055-1064 (at). *)
Definition piece_has (i : cs) (x : Z) : bool :=
  cs_contains_value i x
  || ((x =? - ORD_INF)%Z && (lower i =? - ORD_INF)%Z)
  || ((x =? ORD_INF)%Z && (upper i =? ORD_INF)%Z).
Fixpoint plf_at (p : plf) (x : Z) : option fn :=
  match p with
  | [] => None
  | (i, f) :: p' => if piece_has i x then Some f else plf_at p' x
  end.

(** functions.pyx:1029-1030 (eval) at a finite double; outside the domain
    [at] is None, which has no [eval]. *)
Definition plf_eval (p : plf) (x : Z) : res (option Q) :=
  match plf_at p x with
  | None => Err AttributeError
  | Some f => Ok (fn_eval f (dval x))
  end.

(** functions.pyx:1107-1110, 1139-1142 (add, mul with a constant or linear
    function): piece by piece. *)
Definition plf_map (op : fn -> res fn) (p : plf) : res plf :=
  mapM (fun s : cs * fn => do g <- op (snd s); Ok (fst s, g)) p.
Definition plf_add_fn (p : plf) (f : fn) : res plf := plf_map (fun g => op_add g f) p.
Definition plf_mul_fn (p : plf) (f : fn) : res plf := plf_map (fun g => op_mul g f) p.

(** functions.pyx:1257-1269 (stretch). *)
Definition fn_stretch (alpha : Q) (f : fn) : fn :=
  match f with
  | FConst v => FConst (v * alpha)
  | FLin m c => FLin (m * alpha) (c * alpha)
  | _ => f
  end.
Definition plf_stretch (p : plf) (alpha : Q) : plf :=
  map (fun s : cs * fn => (fst s, fn_stretch alpha (snd s))) p.

(** functions.pyx:1280-1287 (differentiate). *)
Definition plf_differentiate (p : plf) : res plf := plf_map fn_differentiate p.

(** functions.pyx:1289-1300 (integrate). *)
Fixpoint plf_integrate (p : plf) (interval : cs) : res Q :=
  match p with
  | [] => Ok 0
  | (i, f) :: p' =>
      do x <- cs_intersection interval i;
      do a <- (if cs_isempty x then Ok 0 else fn_integrate f (lower x) (upper x));
      do b <- plf_integrate p' interval;
      Ok (a + b)
  end.

(** functions.pyx:1475-1485 (crop). *)
Fixpoint plf_crop (p : plf) (interval : cs) : res plf :=
  match p with
  | [] => Ok []
  | (i, f) :: p' =>
      if cs_intersects i interval then
        do x <- cs_intersection_lr i interval (Some INC) (Some EXC);
        do r <- plf_crop p' interval;
        Ok ((x, f) :: r)
      else plf_crop p' interval
  end.

(** functions.pyx:1229-1255 (split). *)
Fixpoint plf_split (p : plf) (x : Z) : res (plf * plf) :=
  match p with
  | [] => Err ValueError
  | (i, f) :: p' =>
      if cs_contains_value i x then
        Ok ([(CS (lower i) x (left i) EXC, f)], (CS x (upper i) INC (right i), f) :: p')
      else do r <- plf_split p' x; Ok ((i, f) :: fst r, snd r)
  end.

(** functions.pyx:1009-1027 (from_points). *)
Fixpoint fp_pieces (pts : list (Z * Q)) : res plf :=
  match pts with
  | (x1, y1) :: (((x2, y2) :: _) as rest) =>
      do i <- mk_cs x1 x2 INC EXC;
      if cs_isempty i then fp_pieces rest
      else
        do f <- lin_from_points (dval x1, y1) (dval x2, y2);
        do r <- fp_pieces rest;
        Ok ((i, f) :: r)
  | _ => Ok []
  end.
Fixpoint close_last (p : plf) : res plf :=
  match p with
  | [] => Err IndexError
  | [(i, f)] =>
      Ok [(cs_ends (CS (lower i) (upper i) (left i) (if isfinite (upper i) then INC else EXC)) None (Some EXC), f)]
  | s :: p' => do r <- close_last p'; Ok (s :: r)
  end.
Definition plf_from_points (pts : list (Z * Q)) : res plf := do p <- fp_pieces pts; close_last p.

(** functions.pyx:1694-1703 (xmirror). *)
Definition plf_xmirror (p : plf) : res plf :=
  do fs <- mapM fn_xmirror (map snd p);
  Ok (combine
        (map (fun i => cs_ends i (Some (if isfinite (lower i) then INC else EXC)) (Some EXC)) (rs_xmirror (ivs p)))
        (rev fs)).

(** functions.pyx:1656-1671 (xshift).  [sub b d] is the double obtained by
    subtracting [d] from [b]. *)
Definition shift_bound (sub : Z -> Z -> Z) (b delta : Z) : Z := if isfinite b then sub b delta else b.
Definition plf_xshift (sub : Z -> Z -> Z) (p : plf) (delta : Z) : res plf :=
  mapM (fun s : cs * fn =>
          do g <- fn_xshift (snd s) (dval delta);
          let i := fst s in
          Ok (CS (shift_bound sub (lower i) delta) (shift_bound sub (upper i) delta) (left i) (right i), g)) p.

(** functions.pyx:1774-1798 (rectify).  A linear function of slope 0 on an
    unbounded interval evaluates to [0 * inf], i.e. NaN. *)
Definition fn_rectify (i : cs) (f : fn) : res fn :=
  match f with
  | FLin m c =>
      if isinf (lower i) || isinf (upper i) then (if Qz m then Ok FUndef else Err ValueError)
      else Ok (FConst ((m * dval (lowermost i) + c + (m * dval (uppermost i) + c)) * (1 # 2)))
  | FConst v => Ok (FConst v)
  | FUndef => Ok FUndef
  | FQuad _ _ _ => Err TypeError
  end.
Definition plf_rectify (p : plf) : res plf :=
  mapM (fun s : cs * fn => do g <- fn_rectify (fst s) (snd s); Ok (fst s, g)) p.

(** functions.pyx:1540-1544, 1635-1640 (sorting by the comparator, which
    raises on overlapping intervals).  Python's sort is modelled by insertion
    sort; on an ascending list both compare neighbours only. *)
Fixpoint cmp_insert (x : cs * fn) (l : plf) : res plf :=
  match l with
  | [] => Ok [x]
  | y :: l' =>
      do c <- cs_comparator (fst x) (fst y);
      if (c <? 0)%Z then Ok (x :: l) else do r <- cmp_insert x l'; Ok (y :: r)
  end.
Fixpoint cmp_sort (l : plf) : res plf :=
  match l with
  | [] => Ok []
  | x :: l' => do r <- cmp_sort l'; cmp_insert x r
  end.

(** functions.pyx:1545-1560 (the merging loop of simplify); [cur] is
    [plf[-1]]. *)
Fixpoint simp_loop (cur : option (cs * fn)) (segs : plf) : res plf :=
  match segs with
  | [] => Ok (match cur with None => [] | Some c => [c] end)
  | (i, f) :: r =>
      if cs_isempty i then simp_loop cur r
      else
        match cur with
        | None => simp_loop (Some (i, f)) r
        | Some (i_, f_) =>
            do e <- (if cs_contiguous i i_ then fn_eq f f_ else Ok false);
            if (e : bool) then simp_loop (Some (CS (lower i_) (upper i) (left i_) (right i), f_)) r
            else do t <- simp_loop (Some (i, f)) r; Ok ((i_, f_) :: t)
        end
  end.
Definition plf_simplify (p : plf) : res plf := do s <- cmp_sort p; simp_loop None s.

(** The side effect of [simplify] on an already sorted receiver: the result
    shares its interval objects, and [i_.upper = i.upper] writes to them.
    [absorbed] holds (in reverse) the receiver's pieces merged into [cur]. *)
Fixpoint simp_recv (cur : option (cs * fn)) (absorbed : plf) (segs : plf) : res plf :=
  match segs with
  | [] => Ok (match cur with None => rev absorbed | Some c => c :: rev absorbed end)
  | (i, f) :: r =>
      if cs_isempty i then simp_recv cur ((i, f) :: absorbed) r
      else
        match cur with
        | None => do t <- simp_recv (Some (i, f)) [] r; Ok (rev absorbed ++ t)
        | Some (i_, f_) =>
            do e <- (if cs_contiguous i i_ then fn_eq f f_ else Ok false);
            if (e : bool)
            then simp_recv (Some (CS (lower i_) (upper i) (left i_) (right i), f_)) ((i, f) :: absorbed) r
            else do t <- simp_recv (Some (i, f)) [] r; Ok ((i_, f_) :: rev absorbed ++ t)
        end
  end.
Definition plf_simplify_receiver (p : plf) : res plf := simp_recv None [] p.

(** functions.pyx:1184-1221 (overwrite_at); [pos] is [insert_pos]. *)
Fixpoint ow_loop (fuel : nat) (segs : plf) (interval : cs) (pos : nat) : res (plf * nat) :=
  match segs with
  | [] => Ok ([], pos)
  | (i, f) :: r =>
      match fuel with
      | O => Err OutOfFuel
      | S n =>
          do x <- cs_intersection_lr i interval (Some INC) (Some EXC);
          do d <- cs_difference i x;
          do i_ <- ns_simplify d;
          if ns_isempty i_ then ow_loop n r interval pos
          else
            match i_ with
            | NR (a :: b :: _) =>
                do t <- ow_loop n ((b, f) :: r) interval
                          (if (lowermost a <? uppermost interval)%Z then S pos else pos);
                Ok ((a, f) :: fst t, snd t)
            | NC c =>
                do t <- ow_loop n r interval
                          (if (lowermost c <? uppermost interval)%Z then S pos else pos);
                Ok ((c, f) :: fst t, snd t)
            | NR _ => ow_loop n r interval pos
            end
      end
  end.
Definition list_insert {A} (n : nat) (x : A) (l : list A) : list A := firstn n l ++ x :: skipn n l.
Definition plf_overwrite_at (p : plf) (interval : cs) (g : fn) : res plf :=
  match p with
  | [] => Ok [(interval, g)]
  | _ =>
      do t <- ow_loop (2 * length p) p interval 0;
      Ok (list_insert (snd t) (cs_boundaries interval None (Some EXC), g) (fst t))
  end.

(** intervals.pyx:434-456 (RealSet.intersections). *)
Definition same_key (a b : cs) : bool :=
  (lower a =? lower b)%Z && (upper a =? upper b)%Z && flag_eqb (left a) (left b) && flag_eqb (right a) (right b).
Fixpoint dedup (seen l : list cs) : list cs :=
  match l with
  | [] => []
  | i :: l' =>
      if cs_isempty i || existsb (fun j => same_key i j && cs_eq i j) seen then dedup seen l'
      else i :: dedup (i :: seen) l'
  end.
Definition rs_intersections (l m : list cs) : res (list cs) :=
  do r <- mapM (fun ij => cs_intersection (fst ij) (snd ij)) (list_prod l m);
  do s <- cmp_sort (map (fun i => (i, FUndef)) (dedup [] r));
  Ok (map fst s).

(** functions.pyx:1534-1538 (domain). *)
Definition plf_domain (p : plf) : res nset := rs_simplify (ivs p).

(** functions.pyx:1112-1118, 1145-1158: the part of the joint domain on which
    only one of the functions is defined.  [ContinuousSet.union] only accepts a
    ContinuousSet (intervals.pyx:1018). *)
Definition plf_undefined (p q : plf) (domain : list cs) : res nset :=
  do d1 <- plf_domain p;
  do d2 <- plf_domain q;
  do u <- match d1, d2 with
          | NC a, NC b => cs_union a b
          | NC _, NR _ => Err TypeError
          | NR l, o => rs_union l o
          end;
  match u with
  | NC c => cs_difference_ns c (NR domain)
  | NR l => rs_difference l (NR domain)
  end.

(** functions.pyx:1003-1007 (from_dict sorts by the lower bound). *)
Definition undef_plf (l : list cs) : plf := sort_by (fun s => lower (fst s)) (map (fun i => (i, FUndef)) l).

Definition at_or_undef (p : plf) (x : Z) : fn := match plf_at p x with Some f => f | None => FUndef end.

Fixpoint combine_on (op : fn -> fn -> res fn) (point : cs -> Z) (p q : plf) (domain : list cs) (result : plf) : res plf :=
  match domain with
  | [] => Ok result
  | i :: d =>
      do h <- op (at_or_undef p (point i)) (at_or_undef q (point i));
      do result' <- plf_overwrite_at result i h;
      combine_on op point p q d result'
  end.

(** functions.pyx:1119-1125: the evaluation point of the addition.  [mid a b]
    is the double [(a + b) * .5]. *)
Definition add_point (mid : Z -> Z -> Z) (i : cs) : Z :=
  if isfinite (lower i) && isfinite (upper i) then mid (lower i) (upper i)
  else if isinf (lower i) then lower i else upper i.

(** functions.pyx:1106-1135 (add) for two piecewise functions. *)
Definition plf_add (mid : Z -> Z -> Z) (p q : plf) : res plf :=
  do domain <- rs_intersections (ivs p) (ivs q);
  do undefined <- plf_undefined p q domain;
  do r <- combine_on op_add (add_point mid) p q domain (undef_plf (as_list undefined));
  plf_simplify r.

(** functions.pyx:1160-1163: the evaluation point of the multiplication. *)
Definition mul_point (i : cs) : Z := if cs_isninf i then uppermost i else lowermost i.

(** functions.pyx:1138-1174 (mul) for two piecewise functions. *)
Definition plf_mul (p q : plf) : res plf :=
  do domain <- rs_intersections (ivs p) (ivs q);
  do undefined <- plf_undefined p q domain;
  let base := if rs_isempty (as_list undefined) then [] else undef_plf (as_list undefined) in
  do r <- combine_on op_mul mul_point p q domain base;
  plf_simplify r.

(** functions.pyx:933-943 (__eq__): compares the common prefix only. *)
Fixpoint plf_eq (p q : plf) : res bool :=
  match p, q with
  | (i1, f1) :: p', (i2, f2) :: q' =>
      if negb (cs_eq i1 i2) then Ok false
      else do e <- fn_eq f1 f2; if (e : bool) then plf_eq p' q' else Ok false
  | _, _ => Ok true
  end.
