(** Model of src/jpt/distributions/univariate/gaussian.py: incremental means and covariances.
    Numbers are exact rationals; vectors and matrices are functions of the component. *)
Require Import QArith Qabs List Bool Arith.
Require Import Verif.Base Verif.NumBase.
Import ListNotations.
Open Scope Q_scope.

Notation vec := (nat -> Q) (only parsing).
Notation mat := (nat -> nat -> Q) (only parsing).
(** gaussian.py:25 *)
Definition PRECISION : Q := 1 # 1000000000000000.

(** gaussian.py:27-53.  [g_dim = None]: no parameters yet (_mean and _cov are arrays without shape).
    [g_list]: _cov is a Python list of lists rather than an array.  [g_n] is [samples], which the
    base class keeps as a counter when samples are not kept. *)
Record gauss := Gauss { g_dim : option nat; g_mean : vec; g_cov : mat; g_list : bool; g_w : Q; g_wsq : Q; g_n : nat }.
Definition fresh : gauss := Gauss None (fun _ => 0) (fun _ _ => 0) false 0 0 0.

Definition zero_at (m : mat) (i : nat) : mat := fun a b => if (a =? i)%nat || (b =? i)%nat then 0 else m a b.
Definition zero_step (j : nat) (m : mat) (k : nat) : mat :=
  let m1 := if Qltb (m k k) PRECISION then zero_at m k else m in
  if Qltb (m1 j j) PRECISION then zero_at m1 j else m1.
(** gaussian.py:216-223 *)
Definition zero_small (d : nat) (m : mat) : mat := fold_left (fun m j => fold_left (zero_step j) (seq 0 d) m) (seq 0 d) m.

(** gaussian.py:185-225.  Division by zero raises (weights are Python numbers). *)
Definition update (g : gauss) (d : nat) (x : vec) (w : Q) : res gauss :=
  do ms <- match g_dim g with
    | None => Ok ((fun _ => 0 : Q), (fun _ _ => 0 : Q))
    | Some n => if g_list g then Err AttributeError else if (n =? d)%nat then Ok (g_mean g, g_cov g) else Err AssertionError
    end;
  let (om, oc) := ms : vec * mat in
  let sw := g_w g in
  let sw' := sw + w in
  let sq := g_wsq g in
  if Qeq_bool sw' 0 then Err ZeroDivisionError
  else
    let sq' := (sw * sw * sq + w * w) / (sw' * sw') in
    let dims := fun j => Qltb PRECISION (Qabs (x j - om j)) in
    let mean' := fun j => if dims j then (sw * om j + w * x j) / sw' else om j in
    let entry := fun j k =>
      if dims k || dims j then
        (oc j k * sw * (1 - sq) + sw * om j * om k - sw' * mean' j * mean' k
          + w * (if dims j then x j else om j) * (if dims k then x k else om k)) / (sw' * (1 - sq'))
      else oc j k * sw * (1 - sq) / (sw' * (1 - sq')) in
    let cov' := if Qeq_bool sq' 1 then oc else zero_small d (fun j k => if (k <=? j)%nat then entry j k else entry k j) in
    Ok (Gauss (Some d) mean' cov' false sw' sq' (S (g_n g))).

(** gaussian.py:169-178: the data with their weights. *)
Fixpoint update_all (g : gauss) (d : nat) (data : list (Q * vec)) : res gauss :=
  match data with [] => Ok g | (w, x) :: data' => do g' <- update g d x w; update_all g' d data' end.

(** gaussian.py:180-183: the weights seen so far are kept.  (Assigning None to mean and cov is
    taken to unset the parameters.) *)
Definition estimate (g : gauss) (d : nat) (data : list (Q * vec)) : res gauss :=
  update_all (Gauss None (fun _ => 0) (fun _ _ => 0) false (g_w g) (g_wsq g) (g_n g)) d data.

(** gaussian.py:227-270.  [samples] is not counted down. *)
Definition retract (g : gauss) (d : nat) (x : vec) (w : Q) : res gauss :=
  if (g_n g =? 0)%nat then Err ValueError
  else match g_dim g with
    | None => Err TypeError
    | Some n =>
        if negb (n =? d)%nat then Err AssertionError
        else
          let sw := g_w g in
          let sw' := sw - w in
          let sq := g_wsq g in
          if Qeq_bool sw' 0 then Err ZeroDivisionError
          else
            let sq' := (sw * sw * sq - w * w) / (sw' * sw') in
            let om := g_mean g in
            let oc := g_cov g in
            let mean' := fun i => (sw * om i - w * x i) / sw' in
            if Qltb sq' 1 then
              let cov' := fun j k => (oc j k * sw * (1 - sq) + sw * om j * om k - w * x j * x k - sw' * mean' j * mean' k) / (sw' * (1 - sq')) in
              Ok (Gauss (Some d) mean' cov' (g_list g) sw' sq' (g_n g))
            else Ok (Gauss (Some d) mean' (fun _ _ => 0) true sw' sq' (g_n g))
    end.

(** gaussian.py:77-109: the results are new objects, without samples. *)
Definition g_shift (a : Q) (g : gauss) : gauss := Gauss (g_dim g) (fun i => a + g_mean g i) (g_cov g) false 0 0 0.
Definition g_scale (a : Q) (g : gauss) : gauss := Gauss (g_dim g) (fun i => a * g_mean g i) (fun i j => a * a * g_cov g i j) false 0 0 0.
Definition g_add (g h : gauss) : res gauss :=
  match g_dim g, g_dim h with
  | Some n, Some m => if (n =? m)%nat then Ok (Gauss (Some n) (fun i => g_mean g i + g_mean h i) (fun i j => g_cov g i j + g_cov h i j) false 0 0 0) else Err TypeError
  | _, _ => Err ValueError
  end.

(** gaussian.py:143-167.  [rho] occurs squared only; [rho ** 2] is cov^2 / (var * var) without the
    detour over the square root.  A variance of zero gives NaN (numpy), here [None]. *)
Definition eps8 : Q := 1 # 100000000.
Definition linreg (g : gauss) : res (option (Q * Q * Q * Q)) :=
  match g_dim g with
  | Some 2%nat =>
      if (g_n g <? 2)%nat then Err ValueError
      else if g_list g then Err TypeError
      else
        let v0 := g_cov g 0%nat 0%nat in let v1 := g_cov g 1%nat 1%nat in let c := g_cov g 0%nat 1%nat in
        let rho2 := if Qltb eps8 (Qabs v0) && Qltb eps8 (Qabs v1) then c * c / (v0 * v1) else 1 in
        if Qeq_bool v0 0 then Ok None
        else
          let m := c / v0 in
          let b := g_mean g 1%nat - m * g_mean g 0%nat in
          let rss := v1 * (1 - rho2) in
          Ok (Some (m, b, rss, if Qeq_bool v1 0 then 0 else (v1 - rss) / v1))
  | _ => Err ValueError
  end.
