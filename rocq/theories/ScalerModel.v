(** Model of the scaling of numeric data: src/jpt/distributions/utils.py (DataScaler,
    DataScalerProxy) and NumericType of src/jpt/distributions/univariate/numeric.py.
    Floats are the reals with infinities and NaN; operations are exact (the one simplification).
    The standard deviation needs square roots, hence the reals of the standard library here. *)
Require Import Reals List.
Require Import Verif.Base.
Import ListNotations.
Open Scope R_scope.

(** A float, or Python's None. *)
Inductive rnum := Fin (x : R) | PInf | NInf | NaN | PyNone.

Definition rsum (l : list R) : R := fold_right Rplus 0 l.
(** np.mean, np.std of a non-empty array (both are NaN for an empty one). *)
Definition rmean (l : list R) : R := rsum l / INR (length l).
Definition rvar (l : list R) : R := rmean (map (fun x => (x - rmean l) * (x - rmean l)) l).
Definition rstd (l : list R) : R := sqrt (rvar l).

(** The mean is a float (NaN possible), the scale a positive number. *)
Record scaler := Scaler { s_mean : rnum; s_scale : R }.

(** utils.py:30-33: [ifnot(1 if np.isnan(scale) else scale, 1)] *)
Definition ds_fit (l : list R) : scaler :=
  match l with
  | [] => Scaler NaN 1
  | _ => Scaler (Fin (rmean l)) (if Req_EM_T (rstd l) 0 then 1 else rstd l)
  end.

(** utils.py:43-49: (x - mean) / scale; None is not a number. *)
Definition ds_transform (s : scaler) (x : rnum) : res rnum :=
  match x with
  | PyNone => Err TypeError
  | NaN => Ok NaN
  | PInf => match s_mean s with Fin _ => Ok PInf | _ => Ok NaN end
  | NInf => match s_mean s with Fin _ => Ok NInf | _ => Ok NaN end
  | Fin x => match s_mean s with Fin m => Ok (Fin ((x - m) / s_scale s)) | _ => Ok NaN end
  end.
(** utils.py:35-41: x * scale + mean *)
Definition ds_inverse (s : scaler) (x : rnum) : res rnum :=
  match x with
  | PyNone => Err TypeError
  | NaN => Ok NaN
  | PInf => match s_mean s with Fin _ => Ok PInf | _ => Ok NaN end
  | NInf => match s_mean s with Fin _ => Ok NInf | _ => Ok NaN end
  | Fin x => match s_mean s with Fin m => Ok (Fin (x * s_scale s + m)) | _ => Ok NaN end
  end.
(** utils.py:51-54 *)
Definition ds_getitem (s : scaler) (x : rnum) : res rnum :=
  match x with PInf | NInf => Ok x | _ => ds_inverse s x end.
(** utils.py:117-124 *)
Definition proxy_getitem (s : scaler) (inverse : bool) (x : rnum) : res rnum :=
  match x with
  | PInf | NInf => Ok x
  | PyNone | NaN => Ok (Fin 0)
  | _ => if inverse then ds_inverse s x else ds_transform s x
  end.

(** utils.py:56-68: the JSON form. *)
Definition ds_to_json (s : scaler) : list rnum * list R := ([s_mean s], [s_scale s]).
Definition ds_from_json (d : list rnum * list R) : res scaler :=
  match fst d with
  | [] => Err IndexError
  | m :: _ => match snd d with [] => Err IndexError | c :: _ => Ok (Scaler m c) end
  end.

(** numeric.py:757-767: None becomes NaN; raises unless all values are finite. *)
Fixpoint finite_values (l : list rnum) : option (list R) :=
  match l with
  | [] => Some []
  | Fin x :: l' => option_map (cons x) (finite_values l')
  | _ :: _ => None
  end.
Definition numeric_type (l : list rnum) : res scaler :=
  match finite_values l with None => Err ValueError | Some xs => Ok (ds_fit xs) end.
