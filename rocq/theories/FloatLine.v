(** The line of IEEE-754 doubles, represented by ordinals.

    A double that is not NaN is represented by the integer obtained from its
    bit pattern by the usual order isomorphism: a non-negative double is its
    64-bit pattern read as an integer, and [-x] is the negated ordinal of [x].
    Hence [0] is zero (the two zeros compare equal in every operation modelled
    here, so they are identified), the successor of a double is [k + 1], and
    the infinities are [+-ORD_INF].  Comparison of doubles is comparison of
    ordinals. *)
Require Import ZArith Bool Lia.
Open Scope Z_scope.

(** 0x7FF0000000000000, the bit pattern of [+inf]. *)
Definition ORD_INF : Z := 9218868437227405312.
(** Bit patterns of 2^53 and 2^54: [1076 * 2^52] and [1077 * 2^52]. *)
Definition ORD_53 : Z := 4845873199050653696.
Definition ORD_54 : Z := 4850376798678024192.

(** [x + 1 <> x] in double arithmetic.  For [|x| < 2^53] the sum is at least
    half a unit in the last place above [x].  In the binade of 2^53 the units
    are 2 apart, [x + 1] is a tie and goes to the even significand, so the sum
    moves exactly when the significand (= the ordinal) is odd; [-2^53] moves
    too because the spacing on its inner side is 1.  Beyond, 1 is absorbed. *)
Definition adds_one (x : Z) : bool :=
  if Z.abs x <? ORD_53 then true
  else if Z.abs x <? ORD_54 then Z.odd x || (x =? - ORD_53)
  else false.

(** [x - 1 <> x] in double arithmetic, by symmetry. *)
Definition subs_one (x : Z) : bool := adds_one (- x).

(** [np.nextafter(x, x + 1)]: one step up, unless the addition is absorbed.
    Models: src/jpt/base/constants.py:94-95 (Epsilon.__radd__) and the
    literal [np.nextafter(x, x + 1)] in src/jpt/base/intervals.pyx. *)
Definition plus_eps (x : Z) : Z := if adds_one x then x + 1 else x.

(** [np.nextafter(x, x - 1)].  Models: src/jpt/base/constants.py:97-98. *)
Definition minus_eps (x : Z) : Z := if subs_one x then x - 1 else x.

(** [np.isfinite(x)] *)
Definition isfinite (x : Z) : bool := Z.abs x <? ORD_INF.
(** [np.isinf(x)] *)
Definition isinf (x : Z) : bool := ORD_INF <=? Z.abs x.
(** [np.finfo(np.float64).min / max] *)
Definition FLT_MIN : Z := - ORD_INF + 1.
Definition FLT_MAX : Z := ORD_INF - 1.
