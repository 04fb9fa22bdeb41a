(** The statistics of weighted samples. *)
Require Import QArith Qabs List.
Require Import Verif.NumBase Verif.GaussModel.
Import ListNotations.
Open Scope Q_scope.

(** Weights and samples. *)
Definition weight (l : list (Q * vec)) : Q := Qsum (map fst l).
Definition weight_sq (l : list (Q * vec)) : Q := Qsum (map (fun s => fst s * fst s) l).
(** The weighted mean; 0 before the first sample. *)
Definition mean_of (l : list (Q * vec)) (j : nat) : Q :=
  match l with [] => 0 | _ => Qsum (map (fun s => fst s * snd s j) l) / weight l end.
Definition scatter (l : list (Q * vec)) (j k : nat) : Q := Qsum (map (fun s => fst s * (snd s j - mean_of l j) * (snd s k - mean_of l k)) l).
(** The unbiased weighted covariance, for at least two samples; 0 before. *)
Definition cov_of (l : list (Q * vec)) (j k : nat) : Q :=
  match l with [] | [_] => 0 | _ => scatter l j k / (weight l - weight_sq l / weight l) end.

(** The distribution [g] has the statistics of [l] in the first [d] components. *)
Definition describes (d : nat) (g : gauss) (l : list (Q * vec)) : Prop :=
  g_w g == weight l /\ g_wsq g == (match l with [] => 0 | _ => weight_sq l / (weight l * weight l) end) /\
  (forall j, (j < d)%nat -> g_mean g j == mean_of l j) /\ (forall j k, (j < d)%nat -> (k < d)%nat -> g_cov g j k == cov_of l j k).

(** The samples are well separated compared with the precision: each component of a sample equals
    the mean so far or differs from it by more than the precision, and each variance is 0 or not
    smaller than the precision. *)
Definition separated (d : nat) (l : list (Q * vec)) : Prop :=
  forall p w x q, l = p ++ (w, x) :: q -> 0 < w /\
    (forall j, (j < d)%nat -> x j == mean_of p j \/ PRECISION < Qabs (x j - mean_of p j)) /\
    (forall j, (j < d)%nat -> cov_of (p ++ [(w, x)]) j j == 0 \/ PRECISION <= cov_of (p ++ [(w, x)]) j j).

(** The weighted sum of squared residuals of a line. *)
Definition residuals (l : list (Q * vec)) (m b : Q) : Q :=
  Qsum (map (fun s => fst s * ((snd s 1%nat - (m * snd s 0%nat + b)) * (snd s 1%nat - (m * snd s 0%nat + b)))) l).
