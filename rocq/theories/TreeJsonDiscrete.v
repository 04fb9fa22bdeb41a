(** Model of the serialisation of symbolic and integer types and distributions
    (src/jpt/distributions/univariate/multinomial.py, integer.py), for TreeJson.v. *)
Require Import String QArith ZArith Bool List Arith.
Require Import Verif.Base Verif.NumBase Verif.Json Verif.VarModel.
Require Import Verif.TreeModel Verif.TreeDiscrete Verif.TreeJson.
Import ListNotations.
Open Scope string_scope.
Open Scope list_scope.

(** Labels: integers or strings. *)
Inductive label := LInt (z : Z) | LStr (s : string).
Definition label_eqb (a b : label) : bool :=
  match a, b with LInt x, LInt y => Z.eqb x y | LStr x, LStr y => String.eqb x y | _, _ => false end.
Definition label_json (l : label) : json num := match l with LInt z => JInt z | LStr s => JStr s end.
Definition label_parse (j : json num) : res label := match j with JInt z => Ok (LInt z) | JStr s => Ok (LStr s) | _ => Err TypeError end.

(** The type of a symbolic or integer variable, with its class name. *)
Inductive dtype := SymType (class : string) (labels : list label) | IntType (class : string) (lo hi : Z).
(** The part of the type which inference uses (TreeDiscrete.v). *)
Definition dom_of (t : dtype) : dom :=
  match t with
  | SymType _ ls => SymDom (map (fun l => match l with LInt z => Some z | LStr _ => None end) ls)
  | IntType _ lo hi => IntDom lo hi
  end.

(** multinomial.py:645-655 (SymbolicType), integer.py:571-581 (IntegerType). *)
Fixpoint distinct (ls : list label) : bool :=
  match ls with [] => true | l :: ls' => negb (existsb (label_eqb l) ls') && distinct ls' end.
Definition symbolic_type (name : string) (ls : list label) : res dtype :=
  match ls with [] => Err ValueError | _ => if distinct ls then Ok (SymType name ls) else Err ValueError end.
Definition integer_type (name : string) (lo hi : Z) : res dtype :=
  if Z.ltb hi lo then Err ValueError else Ok (IntType name lo hi).

(** multinomial.py:483-489, integer.py:127-137 (type_to_json). *)
Definition type_to_json (t : dtype) : json num :=
  match t with
  | SymType c ls => JObj [("type", JStr "symbolic"); ("class", JStr c); ("labels", JList (map label_json ls))]
  | IntType c lo hi =>
      JObj [("type", JStr "integer"); ("class", JStr c);
            ("labels", JList (map (fun k => JInt (lo + Z.of_nat k)) (seq 0 (Z.to_nat (hi - lo + 1)))));
            ("vmin", JInt 0); ("vmax", JInt (hi - lo)); ("lmin", JInt lo); ("lmax", JInt hi)]
  end.
(** distribution.py:182-198 (Distribution.from_json) with multinomial.py:500-502 and
    integer.py:147-149 (type_from_json).  The numeric types are not modelled here. *)
Definition type_from_json (j : json num) : res dtype :=
  do t <- jget j "type";
  do t <- as_str t;
  if String.eqb t "symbolic" then
    do c <- jget j "class"; do c <- as_str c;
    do ls <- jget j "labels"; do ls <- jiter ls; do ls <- mapM label_parse ls;
    symbolic_type c ls
  else if String.eqb t "integer" then
    do c <- jget j "class"; do c <- as_str c;
    do lo <- jget j "lmin"; do lo <- as_int lo;
    do hi <- jget j "lmax"; do hi <- as_int hi;
    integer_type c lo hi
  else Err TypeError.

(** multinomial.py:135-139, integer.py:113-125 (equiv).  Values are determined by labels. *)
Fixpoint labels_eqb (a b : list label) : bool :=
  match a, b with [], [] => true | x :: a', y :: b' => label_eqb x y && labels_eqb a' b' | _, _ => false end.
Definition type_equiv (a b : dtype) : bool :=
  match a, b with
  | SymType c ls, SymType c' ls' => String.eqb c c' && labels_eqb ls ls'
  | IntType c lo hi, IntType c' lo' hi' => String.eqb c c' && Z.eqb lo lo' && Z.eqb hi hi'
  | _, _ => false
  end.

(** multinomial.py:491-496, integer.py:141-146 (inst_to_json).  The class name is written
    and never read; a distribution of this model does not know it.  Discrete distributions
    have no settings. *)
Definition inst_to_json (d : ddist) : json num :=
  JObj [("class", JStr ""); ("params", JList (map (fun p => JFlt (Some p)) (d_params d))); ("settings", JObj [])].
Definition param_parse (j : json num) : res Q := match j with JFlt (Some p) => Ok p | JInt z => Ok (inject_Z z) | _ => Err TypeError end.
(** multinomial.py:504-506, integer.py:151-153 (from_json) with multinomial.py:416-423 and
    integer.py:404-410 (set). *)
Definition inst_from_json (t : dtype) (j : json num) : res ddist :=
  do _ <- jget j "settings";
  do ps <- jget j "params"; do ps <- jiter ps;
  if Nat.eqb (n_values (dom_of t)) (length ps) then do ps <- mapM param_parse ps; Ok (DDist (dom_of t) ps)
  else Err ValueError.
(** distribution.py:176-180 (__getstate__, __setstate__), used by pickle and deepcopy: what
    was written for the instance is read as a type. *)
Definition setstate (state : json num) : res dtype := type_from_json state.

(** multinomial.py:160-165, integer.py:412-416 (__eq__); class names are not compared. *)
Definition olabel_eqb (a b : option Z) : bool :=
  match a, b with Some x, Some y => Z.eqb x y | None, None => true | _, _ => false end.
Definition dom_eqb (a b : dom) : bool :=
  match a, b with
  | SymDom ls, SymDom ls' => list_eqb olabel_eqb ls ls'
  | IntDom lo hi, IntDom lo' hi' => Z.eqb lo lo' && Z.eqb hi hi'
  | _, _ => false
  end.
Definition ddist_eqb (a b : ddist) : bool := dom_eqb (d_dom a) (d_dom b) && list_eqb Qeq_bool (d_params a) (d_params b).

(** Value sets are Python sets of integers: [list(s)] and [set(l)] (trees.py:221-270);
    their equality. *)
Definition nat_parse (j : json num) : res nat := match j with JInt z => Ok (Z.to_nat z) | _ => Err TypeError end.
Definition nats_same (a b : list nat) : bool := forallb (fun x => existsb (Nat.eqb x) b) a && forallb (fun x => existsb (Nat.eqb x) a) b.
Definition nats_parse (k : vkind) (j : json num) : res (list nat) :=
  match k with
  | KNumeric => Err TypeError
  | _ => do l <- jiter j; mapM nat_parse l
  end.

Definition dcodec : codec discrete dtype :=
  Codec (F := discrete) type_to_json type_from_json type_equiv (fun t => seq 0 (n_values (dom_of t)))
    (fun s : list nat => JList (map (fun x => JInt (Z.of_nat x)) s)) nats_parse nats_same
    inst_to_json inst_from_json ddist_eqb.
