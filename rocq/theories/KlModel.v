(** The divergence of numeric distributions (numeric.py). *)
Require Import ZArith QArith Qabs Bool List.
Require Import Verif.Base Verif.FloatLine Verif.NumBase Verif.IntervalModel Verif.FunctionModel Verif.NumericModel Verif.JaccardModel.
Import ListNotations.
Open Scope Z_scope.

(** numeric.py:297-310 (the queue): the lower ends of the pieces of both densities, sorted, equal
    ones merged.  The densities stored in the queue are never used. *)
Definition kl_points (p q : pdf_fn) : list Z :=
  sorted_set (map (fun s : cs * dens => lower (fst s)) p ++ map (fun s : cs * dens => lower (fst s)) q).
(** numeric.py:313-317, the body of the loop. *)
Definition kl_term (d1 d2 : plf) (ab : Z * Z) : res Q :=
  do i <- mk_cs (fst ab) (snd ab) INC INC;
  do a <- p_interval d1 i; do b <- p_interval d2 i;
  Ok (a * Qabs (a - b))%Q.
(** numeric.py:291-318 (Numeric.kl_divergence); the distributions are of the same type. *)
Definition num_kl (d1 d2 : plf) : res Q :=
  do p <- pdf_of d1; do q <- pdf_of d2;
  do terms <- mapM (kl_term d1 d2) (pairs (kl_points p q));
  Ok (fold_left Qplus terms 0%Q).
