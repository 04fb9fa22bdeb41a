(** Model of trees.py:1932-1981 (JPT.reverse): the leaves which match a query best. *)
Require Import String ZArith QArith Bool List Arith.
Require Import Verif.Base Verif.FloatLine Verif.NumBase Verif.VarModel Verif.IntervalModel Verif.DiscreteModel
  Verif.TreeModel Verif.TreeDiscrete Verif.NumericTree Verif.MixedTree Verif.MixedProps Verif.BindModel.
Import ListNotations.
Open Scope Q_scope.

Notation mleaf := (leaf (mixed numeric discrete)).

Section Reverse.
Variable float : Z -> Z.

(** trees.py:1947: a key is a Variable, of which the name counts, or counts itself; values
    play no role. *)
Definition mentioned (vars : list uvar) (d : list (key uvar * arg)) : bool :=
  existsb (fun ka : key uvar * arg =>
    match fst ka with
    | KName s => existsb (String.eqb s) (map u_name vars)
    | KVar v => existsb (String.eqb (u_name v)) (map u_name vars)
    | KOther => false
    end) d.

(** trees.py:1954-1959 *)
Definition everything (v : uvar) : lval :=
  match u_kind v with UNum _ _ => LReal (NC RR) | k => LSet (map Some (label_list k)) end.

(** trees.py:1966-1969: [dist.p] converts the labels to values (numeric.py:288-289,
    multinomial.py:232-235, integer.py:242-243). *)
Definition conf_of (m : vmap uvar lval) (v : uvar) (d : mdist) : res Q :=
  do y <- to_value v (match dget (vm_map m) (u_name v) with Some x => x | None => everything v end);
  match y with VSet s => d_p (mixed numeric discrete) d s | VNum _ => Err AttributeError end.
Definition leaf_confs (vars : list uvar) (m : vmap uvar lval) (l : mleaf) : res (list Q) :=
  mapM (fun vd : uvar * mdist => conf_of m (fst vd) (snd vd)) (combine vars (l_dists l)).

(** trees.py:1972-1978: Python's sort is stable, also with reverse=True. *)
Definition total (c : list Q * mleaf) : Q := Qsum (fst c).
Fixpoint insert_cand (x : list Q * mleaf) (r : list (list Q * mleaf)) : list (list Q * mleaf) :=
  match r with
  | [] => [x]
  | y :: r' => if Qle_bool (total y) (total x) then x :: r else y :: insert_cand x r'
  end.
Definition sort_cands (r : list (list Q * mleaf)) : list (list Q * mleaf) := fold_right insert_cand [] r.

(** trees.py:1932-1981.  The leaves have different numbers, so that the dictionary of the
    confidences has an entry per leaf. *)
Definition reverse (vars : list uvar) (J : mtree) (d : list (key uvar * arg)) (confidence : Q) : res (list (list Q * mleaf)) :=
  if negb (mentioned vars d) then Ok []
  else
    do m <- preprocess float vars true false (VM (vm_declare u_name vars) []) d;
    do confs <- mapM (fun l : mleaf => do c <- leaf_confs vars m l; Ok (c, l)) (leaves J);
    Ok (sort_cands (filter (fun c => forallb (Qle_bool confidence) (fst c)) confs)).
End Reverse.
