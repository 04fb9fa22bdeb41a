(** Specification vocabulary for numeric distributions. *)
Require Import ZArith QArith List.
Require Import Verif.Base Verif.FloatLine Verif.FloatVal Verif.IntervalModel Verif.IntervalSpec Verif.NumBase Verif.FunctionModel Verif.FunctionSpec.
Import ListNotations.
Open Scope Z_scope.

(** A cumulative distribution function on the doubles: defined everywhere, within
    [0, 1], never decreasing, 0 to the left of [lo] and 1 from [hi] on. *)
Record proper_cdf (p : plf) (lo hi : Z) : Prop := {
  pc_left : forall x, finite x -> x < lo -> plf_is p x 0;
  pc_right : forall x, finite x -> hi <= x -> plf_is p x 1;
  pc_range : forall x, finite x -> exists y, plf_is p x y /\ (0 <= y <= 1)%Q;
  pc_mono : forall x x' y y', finite x -> finite x' -> x <= x' -> plf_is p x y -> plf_is p x' y' -> (y <= y')%Q
}.

(** [x] is the least, the largest element. *)
Definition least (x : Z) (l : list Z) : Prop := In x l /\ forall y, In y l -> x <= y.
Definition largest (x : Z) (l : list Z) : Prop := In x l /\ forall y, In y l -> y <= x.

(** The empirical distribution: how many samples lie at or below [x], and the quantile
    that belongs to this rank (0 for the first, 1 for the last of the samples). *)
Definition count_le (data : list Z) (x : Z) : nat := length (filter (fun d => d <=? x) data).
Definition quantile (data : list Z) (x : Z) : Q := ((Qn (count_le data x) - 1) / (Qn (length data) - 1))%Q.

(** Pieces [[a, u1), [u1, u2), ..., [uk, b)] without gaps; a piece from -inf is open. *)
Fixpoint chain (a : Z) (p : plf) (b : Z) : Prop :=
  match p with
  | [] => a = b
  | (i, f) :: r => i = CS a (upper i) (if a =? - ORD_INF then EXC else INC) EXC /\ a < upper i /\ chain (upper i) r b
  end.

(** The cdf as a function of the extended reals: 0 at -inf, 1 at +inf. *)
Definition cdf_at (p : plf) (x : Z) (y : Q) : Prop :=
  (x = - ORD_INF /\ (y == 0)%Q) \/ (x = ORD_INF /\ (y == 1)%Q) \/ (finite x /\ plf_is p x y).

(** The slope of a constant or linear piece. *)
Definition steepness (f : fn) : Q := match f with FLin m _ => m | _ => 0 end.

(** A distribution which is not concentrated in a point: a cdf made of consecutive
    straight pieces, the first of them the constant 0, none of them falling, some rising
    piece containing at least two doubles. *)
Record line_cdf (p : plf) : Prop := {
  ln_chain : chain (- ORD_INF) p ORD_INF;
  ln_affine : affines p;
  ln_first : exists i r, p = (i, FConst 0) :: r /\ (2 <= length r)%nat;
  ln_proper : exists lo hi, proper_cdf p lo hi;
  ln_rise : Forall (fun s : cs * fn => (0 <= steepness (snd s))%Q) p;
  ln_spread : exists i f, In (i, f) p /\ (0 < steepness f)%Q /\ lower i + 1 < upper i
}.
(** No jump at the end of a flat piece: the cdf has the same value at both its ends. *)
Definition no_jumps (p : plf) : Prop :=
  forall i f y y', In (i, f) p -> (steepness f == 0)%Q -> cdf_at p (lower i) y -> cdf_at p (upper i) y' -> (y == y')%Q.

(** An interval given by bounds in order, as the constructor guarantees, with infinite
    bounds written as open ends. *)
Definition bounded (c : cs) : Prop :=
  lower c <= upper c /\ - ORD_INF <= lower c < ORD_INF /\ - ORD_INF < upper c <= ORD_INF
  /\ (lower c = - ORD_INF -> left c = EXC) /\ (upper c = ORD_INF -> right c = EXC).

(** Membership of a real (rational) number in an interval. *)
Definition real_mem (q : Q) (c : cs) : Prop :=
  (lower c = - ORD_INF \/ match left c with INC => (dval (lower c) <= q)%Q | EXC => (dval (lower c) < q)%Q end)
  /\ (upper c = ORD_INF \/ match right c with INC => (q <= dval (upper c))%Q | EXC => (q < dval (upper c))%Q end).

(** The ordinate at column [k] of the chord through columns [p] and [q]. *)
Definition chord (X Y : nat -> Q) (p q k : nat) : Q := (Y p + (Y q - Y p) / (X q - X p) * (X k - X p))%Q.
(** The mean squared deviation, in the columns between [a] and [b], from the bent line
    through columns [a], [s] and [b]. *)
Definition bend_error (X Y : nat -> Q) (a s b : nat) : Q :=
  (Qsum (map (fun k => let d := Y k - (if Nat.leb k s then chord X Y a s k else chord X Y s b k) in d * d) (seq (S a) (b - a - 1)))
   / Qn (b - a))%Q.

(** ** Mixtures *)

(** The value at [q] of a constant or linear function. *)
Definition height (f : fn) (q : Q) : Q :=
  (steepness f * q + match f with FLin _ c => c | FConst v => v | _ => 0 end)%Q.
(** The sum of the steps which a piecewise function makes, up to [x], where a piece ends
    and the next one begins. *)
Fixpoint steps (p : plf) (x : Z) : Q :=
  match p with
  | (i, f) :: ((j, g) :: _) as r =>
      ((if upper i <=? x then height g (dval (upper i)) - height f (dval (upper i)) else 0) + steps r x)%Q
  | _ => 0%Q
  end.
(** The slope at [x]. *)
Definition density (p : plf) (x : Z) : Q := match plf_at p x with Some f => steepness f | None => 0%Q end.
(** [sum_i w_i y_i] *)
Definition mixture (ws ys : list Q) : Q := Qsum (map (fun wy : Q * Q => fst wy * snd wy)%Q (combine ws ys)).

(** All the probability in one point. *)
Definition point_cdf (p : plf) : Prop :=
  exists x, finite x /\ p = [(CS (- ORD_INF) x EXC EXC, FConst 0); (CS x ORD_INF INC EXC, FConst 1)].
(** A cdf of at least three pieces, where the linear ones are bounded and rise. *)
Record spread_cdf (p : plf) : Prop := {
  sp_chain : chain (- ORD_INF) p ORD_INF;
  sp_affine : affines p;
  sp_len : (3 <= length p)%nat;
  sp_first : exists i r, p = (i, FConst 0) :: r;
  sp_rise : Forall (fun s : cs * fn => match snd s with FLin m _ => (0 < m)%Q /\ finite (lower (fst s)) /\ finite (upper (fst s)) | _ => True end) p;
  sp_some : exists i m c, In (i, FLin m c) p;
  sp_proper : exists lo hi, finite hi /\ proper_cdf p lo hi
}.
(** What can be merged; what merging drops: all the steps of a cdf, unless it is the
    distribution of one point. *)
Definition component (p : plf) : Prop := point_cdf p \/ spread_cdf p.
Definition lost (p : plf) (x : Z) : Q := match p with [_; _] => 0%Q | _ => steps p x end.
(** [x] is the point of a distribution in one point, or an end of a linear piece. *)
Definition finishes (p : plf) (x : Z) : Prop :=
  p = [(CS (- ORD_INF) x EXC EXC, FConst 0); (CS x ORD_INF INC EXC, FConst 1)] \/ exists i m c, In (i, FLin m c) p /\ upper i = x.
(** [x] is the last such place of the distributions with a positive weight. *)
Definition finish_of (ds : list plf) (ws : list Q) (x : Z) : Prop :=
  (exists p w, In (p, w) (combine ds ws) /\ (0 < w)%Q /\ finishes p x) /\
  forall p w y, In (p, w) (combine ds ws) -> (0 < w)%Q -> finishes p y -> y <= x.
(** Continuous cdfs and point distributions: nothing to drop. *)
Definition seamless (p : plf) : Prop := point_cdf p \/ (spread_cdf p /\ tiling p).
(** No density of the mixture lies strictly between 0 and 1e-8, nor is it 1e-8. *)
Definition grained (ds : list plf) (ws : list Q) : Prop :=
  forall x, finite x -> (mixture ws (map (fun p => density p x) ds) == 0)%Q
                        \/ (1 # 100000000 < mixture ws (map (fun p => density p x) ds))%Q.

(** ** Restrictions *)

(** The pieces of [p] that an interval cuts out are not degenerate: each linear piece that
    ends inside contributes at least two doubles, and an open lower bound does not lie
    immediately below the end of a piece. *)
Definition roomy (p : plf) (c : cs) : Prop :=
  (forall i m k, In (i, FLin m k) p -> Z.max (lower i) (lowermost c) < upper i <= uppermost c ->
     Z.max (lower i) (lowermost c) + 1 < upper i)
  /\ (forall i f, In (i, f) p -> left c = EXC -> lower c = - ORD_INF \/ lower c + 1 <> upper i).
(** [p] is continuous inside an interval: pieces which meet there agree. *)
Definition continuous_in (p : plf) (c : cs) : Prop :=
  forall pre i f j g post, p = pre ++ (i, f) :: (j, g) :: post -> lowermost c < upper i <= uppermost c ->
    exists y, fn_is f (dval (upper i)) y /\ fn_is g (dval (upper i)) y.

(** ** Quantiles *)

(** The value of a cdf at a real (rational) number. *)
Definition cdf_real (p : plf) (q y : Q) : Prop := exists i f, In (i, f) p /\ real_mem q i /\ (height f q == y)%Q.
(** [p] rises continuously to 1, which it reaches at the double [hi]. *)
Record climbs_to (p : plf) (hi : Z) : Prop := {
  ct_one : finite hi /\ plf_is p hi 1;
  ct_rising : forall i m c, In (i, FLin m c) p -> lower i < hi;
  ct_joined : forall pre i f j g post, p = pre ++ (i, f) :: (j, g) :: post -> upper i <= hi ->
    exists y, fn_is f (dval (upper i)) y /\ fn_is g (dval (upper i)) y
}.
(** No rising piece is flatter than 1e-4. *)
Definition steep_cdf (p : plf) : Prop := forall i m c, In (i, FLin m c) p -> (1 # 10000 <= m)%Q.
