(** Shared vocabulary of the model: Python exceptions as values. *)
Require Import List.
Import ListNotations.

(** The exceptions that the modelled code can raise. *)
Inductive exn : Type :=
| ValueError | TypeError | KeyError | IndexError | ZeroDivisionError
| AttributeError | NotImplementedError | ArithmeticError | Unsatisfiability
| UndefinedFunctionError | AssertionError | RuntimeError
| OutOfFuel. (* not a Python exception: the model's loop bound was hit; every
                theorem about a fuelled loop shows that it does not occur *)

Inductive res (A : Type) : Type :=
| Ok (a : A)
| Err (e : exn).
Arguments Ok {A} a.
Arguments Err {A} e.

Definition bind {A B} (r : res A) (f : A -> res B) : res B :=
  match r with Ok a => f a | Err e => Err e end.

Notation "'do' x <- r ; k" := (bind r (fun x => k))
  (at level 200, x name, r at level 100, k at level 200, right associativity).

Fixpoint mapM {A B} (f : A -> res B) (l : list A) : res (list B) :=
  match l with
  | [] => Ok []
  | a :: l' => do b <- f a; do bs <- mapM f l'; Ok (b :: bs)
  end.
