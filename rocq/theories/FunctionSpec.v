(** Specification vocabulary for C16-C20 and C64-C67: what it means for a
    function object to have a value, to be defined, to be continuous. *)
Require Import ZArith QArith List.
Require Import Verif.Base Verif.FloatLine Verif.FloatVal Verif.IntervalModel Verif.IntervalSpec Verif.FunctionModel.
Import ListNotations.
Open Scope Z_scope.

(** [f.eval(x)] is the number [y]. *)
Definition fn_is (f : fn) (x y : Q) : Prop := (exists v, fn_eval f x = Some v /\ v == y)%Q.

(** A constant or linear function. *)
Definition affine (f : fn) : Prop := match f with FConst _ | FLin _ _ => True | _ => False end.

(** [p.eval(x)] is the number [y]. *)
Definition plf_is (p : plf) (x : Z) (y : Q) : Prop := exists v, plf_eval p x = Ok (Some v) /\ (v == y)%Q.

(** The domain: some piece contains [x]. *)
Definition in_dom (p : plf) (x : Z) : Prop := rs_mem x (ivs p).

(** Pieces with moderate bounds, none of them empty, in ascending order. *)
Definition pieces (p : plf) : Prop :=
  Forall wf (ivs p) /\ Forall (fun i => exists x, cs_mem x i) (ivs p) /\ ascending (ivs p).

Definition affines (p : plf) : Prop := Forall (fun s : cs * fn => affine (snd s)) p.

(** Same domain and same values. *)
Definition same_values (p q : plf) : Prop :=
  (forall x, finite x -> in_dom p x <-> in_dom q x) /\ (forall x y, finite x -> plf_is p x y <-> plf_is q x y).

(** Pieces as the library writes them: closed on the left (or unbounded) and
    open on the right. *)
Definition halfopen (i : cs) : Prop :=
  - ORD_INF <= lower i /\ lower i <= upper i /\ upper i <= ORD_INF /\ lower i < ORD_INF /\ - ORD_INF < upper i
  /\ left i = (if lower i =? - ORD_INF then EXC else INC) /\ right i = EXC.

(** Consecutive pieces share their boundary, and the functions agree there:
    a continuous function on one interval. *)
Fixpoint tiling (p : plf) : Prop :=
  match p with
  | (i, f) :: ((j, g) :: _) as r =>
      lower i < upper i /\ upper i = lower j
      /\ (exists y, fn_is f (dval (upper i)) y /\ fn_is g (dval (upper i)) y) /\ tiling r
  | [(i, f)] => lower i < upper i
  | [] => True
  end.

(** No two neighbouring pieces could be merged. *)
Fixpoint simplified (p : plf) : Prop :=
  match p with
  | (i, f) :: (((j, g) :: _) as r) => (cs_contiguous j i = false \/ fn_eq g f = Ok false) /\ simplified r
  | _ => True
  end.

(** Strictly increasing abscissae. *)
Fixpoint increasing (pts : list (Z * Q)) : Prop :=
  match pts with
  | (x1, _) :: (((x2, _) :: _) as r) => x1 < x2 /\ increasing r
  | _ => True
  end.

(** [p] and [q] are consecutive in the list. *)
Definition consecutive {A} (p q : A) (l : list A) : Prop := exists l1 l2, l = l1 ++ p :: q :: l2.

(** The ordinate at [x] of the straight line through two points. *)
Definition interpolate (x1 : Q) (y1 : Q) (x2 : Q) (y2 : Q) (x : Q) : Q := (y1 + (y2 - y1) * ((x - x1) / (x2 - x1)))%Q.

(** The double subtraction [sub b delta] neither rounds nor overflows. *)
Definition exact_at (sub : Z -> Z -> Z) (delta b : Z) : Prop :=
  finite b -> finite (sub b delta) /\ (dval (sub b delta) == dval b - dval delta)%Q.
