(** Model of the serialisation of functions, numeric types and numeric distributions
    (src/jpt/base/functions.pyx, distributions/quantile/quantiles.pyx,
    distributions/univariate/numeric.py), and of trees over numeric, symbolic and integer
    variables, for TreeJson.v. *)
Require Import String QArith ZArith Bool List Arith.
Require Import Verif.Base Verif.NumBase Verif.Json Verif.VarModel Verif.IntervalModel Verif.IntervalJson Verif.FunctionModel Verif.NumericModel.
Require Import Verif.TreeJson Verif.TreeJsonDiscrete Verif.TreeModel Verif.TreeDiscrete Verif.NumericTree Verif.MixedTree.
Import ListNotations.
Open Scope string_scope.
Open Scope list_scope.

(** ** Intervals and functions *)

(** The doubles which bound an interval are written as such; the model writes their
    ordinals (FloatLine.v), infinities included. *)
Definition bound_json (x : Z) : json num := JFlt (Some (inject_Z x)).
Definition bound_parse (j : json num) : res Z :=
  match j with JFlt (Some q) => if Pos.eqb (Qden q) 1 then Ok (Qnum q) else Err TypeError | _ => Err TypeError end.
(** intervals.pyx:1310-1316 (ContinuousSet.to_json), as in IntervalJson.v. *)
Definition interval_json (c : cs) : json num :=
  JObj [("upper", bound_json (upper c)); ("lower", bound_json (lower c)); ("left", JInt (flag_val (left c))); ("right", JInt (flag_val (right c)))].
(** intervals.pyx:1318-1325 (ContinuousSet.from_json). *)
Definition interval_parse (d : json num) : res cs :=
  do lo <- bind (jget d "lower") bound_parse;
  do hi <- bind (jget d "upper") bound_parse;
  do l <- bind (jget d "left") as_int; do l <- flag_of l;
  do r <- bind (jget d "right") as_int; do r <- flag_of r;
  mk_cs lo hi l r.

Definition coeff (q : Q) : json num := JFlt (Some q).
Definition coeff_parse (j : json num) : res Q := match j with JFlt (Some q) => Ok q | JInt z => Ok (inject_Z z) | _ => Err TypeError end.
(** functions.pyx:429-430 (Constant), 683-686 (Linear), 827-828 (Quadratic: without an
    entry "type").  Undefined has no to_json; the model writes null, which is not read. *)
Definition fn_json (f : fn) : json num :=
  match f with
  | FUndef => JNull
  | FConst v => JObj [("type", JStr "constant"); ("value", coeff v)]
  | FLin m c => JObj [("type", JStr "linear"); ("slope", coeff m); ("intercept", coeff c)]
  | FQuad a b c => JObj [("a", coeff a); ("b", coeff b); ("c", coeff c)]
  end.
(** functions.pyx:688-695 (LinearFunction.from_json). *)
Definition fn_parse (d : json num) : res fn :=
  do t <- jget d "type";
  match t with
  | JStr t =>
      if String.eqb t "linear" then do m <- bind (jget d "slope") coeff_parse; do c <- bind (jget d "intercept") coeff_parse; Ok (FLin m c)
      else if String.eqb t "constant" then do v <- bind (jget d "value") coeff_parse; Ok (FConst v)
      else Err TypeError
  | _ => Err TypeError
  end.
(** functions.pyx:1487-1491 (PiecewiseFunction.to_json). *)
Definition plf_json (p : plf) : json num :=
  JObj [("intervals", JList (map (fun s : cs * fn => interval_json (fst s)) p)); ("functions", JList (map (fun s : cs * fn => fn_json (snd s)) p))].
(** functions.pyx:1493-1498 (from_json).  The code keeps two lists; the model raises
    ValueError if they are not equally long. *)
Definition plf_parse (d : json num) : res plf :=
  do is <- bind (jget d "intervals") jiter; do is <- mapM interval_parse is;
  do fs <- bind (jget d "functions") jiter; do fs <- mapM fn_parse fs;
  if Nat.eqb (length is) (length fs) then Ok (combine is fs) else Err ValueError.

(** ** Numeric types and distributions *)

(** The type of a numeric variable: Numeric or a subclass of it, or a type with a scaler
    (numeric.py:756-768, NumericType), given by mean and scale. *)
Inductive ntype := NumType (class : string) | ScaledType (class : string) (mean scale : Q).

(** numeric.py:405-410 and 728-734 (type_to_json) with distributions/utils.py:56-58. *)
Definition ntype_to_json (t : ntype) : json num :=
  match t with
  | NumType c => JObj [("type", JStr "numeric"); ("class", JStr c)]
  | ScaledType c m s =>
      JObj [("type", JStr "scaled-numeric"); ("class", JStr c); ("scaler", JObj [("mean_", JList [coeff m]); ("scale_", JList [coeff s])])]
  end.
(** [data[key][0]] *)
Definition first_of (d : json num) (k : string) : res Q :=
  do l <- jget d k; match l with JList (x :: _) => coeff_parse x | JList [] => Err IndexError | _ => Err TypeError end.
(** numeric.py:431-433: the class the method is called on, which is Numeric in
    distribution.py:188-198; 738-744 with distributions/utils.py:63-68. *)
Definition ntype_from_json (j : json num) : res ntype :=
  do t <- bind (jget j "type") as_str;
  if String.eqb t "numeric" then Ok (NumType "Numeric")
  else if String.eqb t "scaled-numeric" then
    do c <- bind (jget j "class") as_str;
    do sc <- jget j "scaler";
    do m <- first_of sc "mean_";
    do s <- first_of sc "scale_";
    Ok (ScaledType c m s)
  else Err TypeError.
(** numeric.py:124-131 (equiv) with distributions/utils.py:60-61, 87-88, 108-111. *)
Definition ntype_equiv (a b : ntype) : bool :=
  match a, b with
  | NumType c, NumType c' => String.eqb c c'
  | ScaledType c m s, ScaledType c' m' s' => String.eqb c c' && Qeq_bool m m' && Qeq_bool s s'
  | _, _ => false
  end.

(** numeric.py:412-417 (inst_to_json) with quantiles.pyx:594-597 (to_json).  Of the
    attributes of a distribution the model has the cdf only: the class name, the
    precision, epsilon and min_samples_mars are written as fixed values and ignored when
    they are read.  A distribution without cdf is not modelled. *)
Definition ndist_to_json (p : plf) : json num :=
  JObj [("class", JStr ""); ("settings", JObj [("precision", coeff (1 # 100))]);
        ("quantile", JObj [("epsilon", coeff (1 # 100)); ("min_samples_mars", JInt 5); ("cdf", plf_json p)])].
(** numeric.py:421-429, 746-752 (from_json) with quantiles.pyx:599-604 and
    distribution.py:50-59: settings other than "precision" raise AttributeError. *)
Definition ndist_from_json (t : ntype) (j : json num) : res plf :=
  do st <- jget j "settings";
  do _ <- match st with
          | JObj es => if forallb (fun e : string * json num => String.eqb (fst e) "precision") es then Ok tt else Err AttributeError
          | _ => Err TypeError
          end;
  do q <- jget j "quantile";
  do _ <- jget q "epsilon";
  do _ <- jget q "min_samples_mars";
  do c <- jget q "cdf";
  plf_parse c.

(** quantiles.pyx:62-68, numeric.py:66-75 (__eq__). *)
Definition ndist_eqb (a b : plf) : bool := match plf_eq a b with Ok r => r | Err _ => false end.

(** ** Trees *)

(** The type of a variable; distribution.py:182-198 (Distribution.from_json) for all types. *)
Definition mtype : Type := ntype + dtype.
Definition mtype_to_json (t : mtype) : json num := match t with inl t => ntype_to_json t | inr t => type_to_json t end.
Definition mtype_from_json (j : json num) : res mtype :=
  do t <- bind (jget j "type") as_str;
  if String.eqb t "numeric" || String.eqb t "scaled-numeric" then do t <- ntype_from_json j; Ok (inl t)
  else do t <- type_from_json j; Ok (inr t).
Definition mtype_equiv (a b : mtype) : bool :=
  match a, b with inl a, inl b => ntype_equiv a b | inr a, inr b => type_equiv a b | _, _ => false end.
(** trees.py:221-241 and 254-257: intervals are written by to_json and read by
    Interval.from_json, other sets as lists.  A RealSet is never a split: in the model it
    is written as null and compared piece by piece. *)
Definition mset_json (s : vset (mixed numeric discrete)) : json num :=
  match s with
  | inl (NC c) => interval_json c
  | inl (NR _) => JNull
  | inr s => JList (map (fun x => JInt (Z.of_nat x)) s)
  end.
Definition mset_parse (k : vkind) (j : json num) : res (vset (mixed numeric discrete)) :=
  match k with
  | KNumeric => do c <- interval_parse j; Ok (inl (NC c))
  | _ => do s <- nats_parse k j; Ok (inr s)
  end.
Definition mset_same (a b : vset (mixed numeric discrete)) : bool :=
  match a, b with
  | inl (NC c), inl (NC c') => cs_eq c c'
  | inl (NR l), inl (NR l') => cs_list_eq l l'
  | inr s, inr s' => nats_same s s'
  | _, _ => false
  end.
(** [domain.from_json(data)] *)
Definition mdist_parse (t : mtype) (j : json num) : res (dist (mixed numeric discrete)) :=
  match t with
  | inl t => do p <- ndist_from_json t j; Ok (inl p)
  | inr t => do d <- inst_from_json t j; Ok (inr d)
  end.
Definition mcodec : codec (mixed numeric discrete) mtype :=
  Codec (F := mixed numeric discrete) mtype_to_json mtype_from_json mtype_equiv
    (fun t => match t with inl _ => inl (NC RR) | inr t => inr (seq 0 (n_values (dom_of t))) end)
    mset_json mset_parse mset_same
    (fun d => match d with inl p => ndist_to_json p | inr d => inst_to_json d end) mdist_parse
    (fun a b => match a, b with inl a, inl b => ndist_eqb a b | inr a, inr b => ddist_eqb a b | _, _ => false end).

(** distribution.py:176-180 (__getstate__, __setstate__), used by pickle and deepcopy: what
    was written for the instance is read as a type. *)
Definition msetstate (state : json num) : res mtype := mtype_from_json state.
