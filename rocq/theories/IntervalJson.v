(** Model of serialisation and sampling in src/jpt/base/intervals.pyx. *)
Require Import List String ZArith Bool.
Require Import Verif.Base Verif.FloatLine Verif.IntervalModel Verif.Json.
Import ListNotations.
Open Scope string_scope.
Open Scope Z_scope.

(** intervals.pyx:1310-1316 (ContinuousSet.to_json). *)
Definition cs_to_json (s : cs) : json Z :=
  JObj [("upper", JFlt (upper s)); ("lower", JFlt (lower s));
        ("left", JInt (flag_val (left s))); ("right", JInt (flag_val (right s)))].

(** The flag stored for an integer argument of the constructor; 0 (the default)
    becomes INC (intervals.pyx:602-603).  Other integers are not flags; the
    model rejects them (the code would store them). *)
Definition flag_of (z : Z) : res flag :=
  if z =? 0 then Ok INC else if z =? 1 then Ok INC else if z =? 2 then Ok EXC else Err ValueError.

(** intervals.pyx:1318-1325 (ContinuousSet.from_json). *)
Definition cs_from_json (d : json Z) : res cs :=
  do lo <- jget d "lower"; do lo <- as_flt lo;
  do hi <- jget d "upper"; do hi <- as_flt hi;
  do l <- jget d "left"; do l <- as_int l; do l <- flag_of l;
  do r <- jget d "right"; do r <- as_int r; do r <- flag_of r;
  mk_cs lo hi l r.

(** intervals.pyx:221-224 (RealSet.to_json): a dictionary comprehension whose
    key is the constant "intervals". *)
Definition rs_to_json (l : list cs) : json Z :=
  JObj (fold_left (fun d s => obj_set d "intervals" (cs_to_json s)) l []).

(** intervals.pyx:226-230 (RealSet.from_json). *)
Definition rs_from_json (d : json Z) : res (list cs) :=
  do js <- jget d "intervals";
  do ds <- jiter js;
  mapM cs_from_json ds.

(** intervals.pyx:729-759 (_sample): the interval handed to
    [np.random.uniform]; the generator's answer [x] is an oracle, constrained
    to that interval (NumPy may round up to the upper end). *)
Definition cs_sample_range (s : cs) : res (Z * Z) :=
  if cs_isempty s then Err IndexError
  else
    let hi := match right s with INC => upper s | EXC => minus_eps (upper s) end in
    let lo := match left s with INC => lower s | EXC => plus_eps (lower s) end in
    Ok (Z.max FLT_MIN lo, Z.min FLT_MAX hi).

(** intervals.pyx:265-292 (RealSet.sample): the generator selects position [j]
    of the weights, which are computed for the constituents of non-zero size
    only; position [j] of *all* constituents is then sampled. *)
Definition rs_sample_range (l : list cs) (j : nat) : res (Z * Z) :=
  if rs_isempty l then Err IndexError
  else
    let weights := filter (fun i => match cs_size i with Some 0 => false | _ => true end) l in
    if (j <? List.length weights)%nat then
      match nth_error l j with
      | Some c => cs_sample_range c
      | None => Err IndexError
      end
    else Err OutOfFuel.
