(** Model of how a query written by a user becomes an assignment of sets of values:
    trees.py:2457-2492 (bind), 1361-1464 (_preprocess_query), 1466-1480
    (_check_variable_assignment), 1042-1064 (the head of infer) with variables.py:720-832
    (LabelAssignment, ValueAssignment) and base/utils.py:270-303.

    Doubles are ordinals (FloatLine.v).  Python objects are modelled as far as these
    functions tell them apart. *)
Require Import String ZArith QArith Bool List Arith.
Require Import Verif.Base Verif.FloatLine Verif.NumBase Verif.VarModel Verif.IntervalModel Verif.DiscreteModel
  Verif.TreeModel Verif.TreeDiscrete Verif.NumericTree Verif.MixedTree Verif.MixedProps.
Import ListNotations.
Open Scope Z_scope.

(** Integers, floats (no NaN) and strings.  Labels are compared structurally: that
    Python takes 2 and 2.0 for the same label is not modelled. *)
Inductive atom := PInt (z : Z) | PFlt (x : Z) | PStr (s : string).
Definition atom_eqb (a b : atom) : bool :=
  match a, b with
  | PInt x, PInt y => x =? y
  | PFlt x, PFlt y => x =? y
  | PStr s, PStr t => String.eqb s t
  | _, _ => false
  end.

(** A variable: an object with an identity, a name and a domain.  Numeric domains have
    the conversion of labels to values ([domain.values], the identity or a scaler, see
    ScalerModel.v) and the blur, if any is set: the interval which trees.py:1409-1437
    computes from the prior for a number is an argument of the model.  Symbolic domains
    list their labels, integer domains have bounds. *)
Inductive ukind :=
| UNum (scale : Z -> Z) (blurred : option (Z -> res cs))
| USym (labels : list atom)
| UInt (lo hi : Z).
Record uvar := UVar { u_id : nat; u_name : string; u_kind : ukind }.
Definition is_num (v : uvar) : bool := match u_kind v with UNum _ _ => true | _ => false end.

(** The objects a user assigns to a variable.  In a list, [None] stands for None and the
    ellipsis.  [GObject true] is any other hashable object, [GObject false] any other
    object. *)
Inductive arg :=
| GNone
| GAtom (a : atom)
| GList (l : list (option atom))
| GTuple
| GSet (l : list atom)
| GInterval (c : cs)
| GUnion (l : list cs)
| GObject (hashable : bool).

(** What a LabelAssignment holds: a number, a number set, a Python set; [None] in it is a
    hashable object which is no label. *)
Inductive lval := LNum (x : Z) | LReal (s : nset) | LSet (l : list (option atom)).
Inductive vval := VNum (x : Z) | VSet (s : mset).

Section Bind.
(** The float of an integer. *)
Variable float : Z -> Z.
Definition number (a : atom) : option Z := match a with PInt z => Some (float z) | PFlt x => Some x | PStr _ => None end.

(** base/utils.py:270-278 (list2interval); unpacking a list of another length and
    converting a string raise ValueError (numerals in strings are not modelled). *)
Definition bound_of (inf : Z) (i : option atom) : res Z :=
  match i with
  | None => Ok inf
  | Some a => match number a with Some x => Ok x | None => Err ValueError end
  end.
Definition list2interval (l : list (option atom)) : res cs :=
  match l with
  | [a; b] => do lo <- bound_of (- ORD_INF) a; do hi <- bound_of ORD_INF b; mk_cs lo hi INC INC
  | _ => Err ValueError
  end.
(** base/utils.py:288-303 (list2intset): [range] takes integers only. *)
Definition Zrange_to (a b : Z) : list Z := map (fun k => a + Z.of_nat k) (seq 0 (Z.to_nat (b + 1 - a))).
Definition list2intset (l : list (option atom)) : res (list atom) :=
  match l with
  | [Some (PInt a); Some (PInt b)] => Ok (map PInt (Zrange_to a b))
  | [_; _] => Err TypeError
  | _ => Err ValueError
  end.

(** trees.py:1404-1444 *)
Definition numeric_arg (singular : bool) (scale : Z -> Z) (blurred : option (Z -> res cs)) (a : arg) : res lval :=
  match a with
  | GList l => do c <- list2interval l; Ok (LReal (NC c))
  | GAtom a =>
      match number a with
      | None => Err TypeError
      | Some x =>
          if singular then Ok (LNum x)
          else match blurred with
               | Some f => do c <- f x; Ok (LReal (NC c))
               | None => do c <- mk_cs x x INC INC; Ok (LReal (NC c))
               end
      end
  | GInterval c => Ok (LReal (NC c))
  | GUnion l => do l <- mapM (fun c => mk_cs (lower c) (upper c) (left c) (right c)) l; Ok (LReal (NR l))
  | _ => Err TypeError
  end.
(** trees.py:1445-1462; [integer] is [var.integer]. *)
Definition discrete_arg (integer : bool) (a : arg) : res lval :=
  match a with
  | GList l => if integer then do s <- list2intset l; Ok (LSet (map Some s)) else Ok (LSet l)
  | GTuple => Err TypeError
  | GSet l => Ok (LSet (map Some l))
  | GAtom a => Ok (LSet [Some a])
  | GNone | GInterval _ | GUnion _ | GObject true => Ok (LSet [None])
  | GObject false => Err TypeError
  end.
Definition preprocess_arg (singular : bool) (v : uvar) (a : arg) : res lval :=
  match u_kind v with
  | UNum scale blurred => numeric_arg singular scale blurred a
  | USym _ => discrete_arg false a
  | UInt _ _ => discrete_arg true a
  end.

Definition is_label (labels : list atom) (l : option atom) : bool := match l with Some a => existsb (atom_eqb a) labels | None => false end.
(** variables.py:774-791 (LabelAssignment.__setitem__), the checks. *)
Definition label_ok (v : uvar) (x : lval) : res unit :=
  match u_kind v, x with
  | UNum _ _, LSet _ => Err TypeError
  | USym labels, LSet l => if forallb (is_label labels) l then Ok tt else Err TypeError
  | USym labels, _ => Err TypeError
  | _, _ => Ok tt
  end.

(** trees.py:1386-1464 (_preprocess_query), remove_none=True, space="labels"; [skip] is
    skip_unknown_variables, [singular] is allow_singular_values; [vars] are the variables of the tree and the keys are names or Variable
    objects.  An unknown name raises Exception (here RuntimeError). *)
Definition key_var (vars : list uvar) (k : key uvar) : option uvar :=
  match k with KVar v => Some v | KName s => dget (vm_declare u_name vars) s | KOther => None end.
Fixpoint preprocess (vars : list uvar) (skip singular : bool) (m : vmap uvar lval) (d : list (key uvar * arg)) : res (vmap uvar lval) :=
  match d with
  | [] => Ok m
  | (_, GNone) :: d => preprocess vars skip singular m d
  | (k, a) :: d =>
      match key_var vars k with
      | None => if skip then preprocess vars skip singular m d else Err RuntimeError
      | Some v =>
          do x <- preprocess_arg singular v a;
          do _ <- label_ok v x;
          preprocess vars skip singular (vm_set_var u_name m v x) d
      end
  end.
(** trees.py:2457-2492 (bind) with a dictionary. *)
Definition bind_query (vars : list uvar) (singular : bool) (d : list (key uvar * arg)) : res (vmap uvar lval) :=
  preprocess vars false singular (VM (vm_declare u_name vars) []) d.

(** numeric.py:103-121 (label2value) *)
Definition scale_interval (scale : Z -> Z) (c : cs) : res cs := mk_cs (scale (lower c)) (scale (upper c)) (left c) (right c).
(** multinomial.py:74-96 and integer.py:194-215 (label2value) of a set; integer.py:48-56, 440-453:
    the labels of an integer domain are the integers from lmin to lmax. *)
Definition label_list (k : ukind) : list atom :=
  match k with UNum _ _ => [] | USym labels => labels | UInt lo hi => map PInt (Zrange_to lo hi) end.
Definition label_value (labels : list atom) (l : option atom) : res nat :=
  match l with Some a => label2value1 atom atom_eqb labels a | None => Err ValueError end.
Definition to_value (v : uvar) (x : lval) : res vval :=
  match u_kind v, x with
  | UNum scale _, LNum x => Ok (VNum (scale x))
  | UNum scale _, LReal (NC c) => do c <- scale_interval scale c; Ok (VSet (inl (NC c)))
  | UNum scale _, LReal (NR l) => do l <- mapM (scale_interval scale) l; Ok (VSet (inl (NR l)))
  | UNum _ _, LSet _ => Err TypeError
  | k, LSet l => do s <- mapM (label_value (label_list k)) l; Ok (VSet (inr s))
  | _, _ => Err ValueError
  end.
(** variables.py:793-794 (value_assignment) with 558-574 and 819-829: the values are numbers,
    number sets and Python sets, which the checks accept. *)
Definition value_assignment (m : vmap uvar lval) : res (list (uvar * vval)) :=
  do its <- vm_items m; mapM (fun wv : uvar * lval => do y <- to_value (fst wv) (snd wv); Ok (fst wv, y)) its.

(** trees.py:1466-1480: the tree has a variable of that name and it is the same object.  The
    model names variables by their position in the tree. *)
Fixpoint position (n : nat) (vars : list uvar) (v : uvar) : option nat :=
  match vars with
  | [] => None
  | w :: vars => if String.eqb (u_name w) (u_name v) then if Nat.eqb (u_id w) (u_id v) then Some n else None else position (S n) vars v
  end.
(** A number has no method [intersection] nor [intersects]. *)
Definition in_tree (vars : list uvar) (its : list (uvar * vval)) : res (list (nat * mset)) :=
  mapM (fun wv : uvar * vval =>
    match position 0 vars (fst wv) with
    | None => Err ValueError
    | Some i => match snd wv with VSet s => Ok (i, s) | VNum _ => Err AttributeError end
    end) its.

(** trees.py:1042-1064: a dictionary as query or evidence. *)
Definition query_of (vars : list uvar) (d : list (key uvar * arg)) : res (list (nat * mset)) :=
  do m <- bind_query vars false d; do its <- value_assignment m; in_tree vars its.
(** trees.py:1011-1094 (infer) with dictionaries *)
Definition infer_dict (vars : list uvar) (J : mtree) (q e : list (key uvar * arg)) (fail : bool) : res (option Q) :=
  do q <- query_of vars q; do e <- query_of vars e; infer (F := mixed numeric discrete) J q e fail.
End Bind.
