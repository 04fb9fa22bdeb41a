(** What the objects of a query mean, independently of the model. *)
Require Import String ZArith QArith Bool List Arith.
Require Import Verif.Base Verif.FloatLine Verif.NumBase Verif.VarModel Verif.IntervalModel Verif.IntervalSpec Verif.DiscreteModel
  Verif.TreeModel Verif.TreeDiscrete Verif.NumericTree Verif.MixedTree Verif.MixedProps Verif.BindModel.
Import ListNotations.
Open Scope Z_scope.

(** A key names a variable by its name, or is the variable. *)
Definition names (k : key uvar) (v : uvar) : Prop := k = KName (u_name v) \/ k = KVar v.
(** The dictionary assigns [a] to the variable: the last entry for it which is not None. *)
Definition said (d : list (key uvar * arg)) (v : uvar) (a : arg) : Prop :=
  exists d1 k d2, d = d1 ++ (k, a) :: d2 /\ names k v /\ a <> GNone /\ forall k' a', In (k', a') d2 -> names k' v -> a' = GNone.

Section Meaning.
Variable float : Z -> Z.
(** A number is an integer or a float. *)
Definition is_number (n : atom) (x : Z) : Prop := (exists z, n = PInt z /\ x = float z) \/ n = PFlt x.

(** The numbers an object describes: itself, those between the two of a list (None: no
    bound), the members of an interval or of a union. *)
Definition describes_number (a : arg) (x : Z) : Prop :=
  match a with
  | GAtom n => is_number n x
  | GList [lo; hi] => (forall n, lo = Some n -> exists y, is_number n y /\ y <= x) /\ (forall n, hi = Some n -> exists y, is_number n y /\ x <= y)
  | GInterval c => cs_mem x c
  | GUnion l => rs_mem x l
  | _ => False
  end.
(** The labels: itself, the members of a set or list; of an integer variable, the
    integers from the first to the second of a list. *)
Definition describes_label (integer : bool) (a : arg) (l : atom) : Prop :=
  match a with
  | GAtom b => l = b
  | GSet es => In l es
  | GList es => if integer then exists i j z, es = [Some (PInt i); Some (PInt j)] /\ l = PInt z /\ i <= z <= j else In (Some l) es
  | _ => False
  end.
Definition describes (v : uvar) (a : arg) (l : atom) : Prop :=
  match u_kind v with
  | UNum _ _ => exists x, l = PFlt x /\ finite x /\ describes_number a x
  | USym _ => describes_label false a l
  | UInt _ _ => describes_label true a l
  end.

(** The object can be said of the variable: a number, a list of two bounds in order, an
    interval or union; labels of the variable. *)
Definition limit (inf : Z) (o : option atom) (x : Z) : Prop := match o with None => x = inf | Some n => is_number n x end.
Definition int_label (lo hi : Z) (l : atom) : Prop := exists z, l = PInt z /\ lo <= z <= hi.
Definition sayable (v : uvar) (a : arg) : Prop :=
  match u_kind v, a with
  | UNum _ _, GAtom n => exists x, is_number n x
  | UNum _ _, GList l => exists lo hi x y, l = [lo; hi] /\ limit (- ORD_INF) lo x /\ limit ORD_INF hi y /\ x <= y
  | UNum _ _, (GInterval _ | GUnion _) => True
  | USym labels, GAtom b => In b labels
  | USym labels, GSet es => incl es labels
  | USym labels, GList es => forall e, In e es -> exists b, e = Some b /\ In b labels
  | UInt lo hi, GAtom b => int_label lo hi b
  | UInt lo hi, GSet es => forall e, In e es -> int_label lo hi e
  | UInt lo hi, GList es => exists i j, es = [Some (PInt i); Some (PInt j)] /\ forall z, i <= z <= j -> lo <= z <= hi
  | _, _ => False
  end.

(** The bounds an object mentions. *)
Definition mentions (a : arg) (b : Z) : Prop :=
  match a with
  | GAtom n => is_number n b
  | GList l => exists n, In (Some n) l /\ is_number n b
  | GInterval c => b = lower c \/ b = upper c
  | GUnion l => exists c, In c l /\ (b = lower c \/ b = upper c)
  | _ => False
  end.
(** Scaling is done with doubles and may merge neighbours: [l] is not merged with a bound. *)
Definition told_apart (v : uvar) (a : arg) (l : atom) : Prop :=
  match u_kind v with UNum scale _ => forall x b, l = PFlt x -> mentions a b -> scale b = scale x -> b = x | _ => True end.
End Meaning.

(** The labels of the variable a set of values stands for. *)
Definition labels_of (k : ukind) (n : nat) (l : atom) : Prop :=
  match k with
  | UNum _ _ => False
  | USym labels => nth_error labels n = Some l
  | UInt lo hi => l = PInt (lo + Z.of_nat n) /\ lo + Z.of_nat n <= hi
  end.
Definition holds (v : uvar) (s : mset) (l : atom) : Prop :=
  match u_kind v with
  | UNum scale _ => exists x n, l = PFlt x /\ finite x /\ s = inl n /\ ns_mem (scale x) n
  | k => exists is n, s = inr is /\ In n is /\ labels_of k n l
  end.

(** Scalers are monotone and keep the infinities. *)
Record scale_ok (scale : Z -> Z) : Prop := {
  sc_mono : forall x y, x <= y -> scale x <= scale y;
  sc_inf : scale (- ORD_INF) = - ORD_INF /\ scale ORD_INF = ORD_INF;
  sc_fin : forall x, finite x -> finite (scale x)
}.
(** Variables with different names, numeric ones without blur. *)
Record vars_ok (vars : list uvar) : Prop := {
  vs_names : NoDup (map u_name vars);
  vs_num : forall v scale blurred, In v vars -> u_kind v = UNum scale blurred -> scale_ok scale /\ blurred = None;
  vs_sym : forall v labels, In v vars -> u_kind v = USym labels -> NoDup labels
}.
(** Keys which are Variable objects are variables of the tree; intervals have been built by
    their constructor. *)
Record dict_ok (vars : list uvar) (d : list (key uvar * arg)) : Prop := {
  dk_own : forall v a, In (KVar v, a) d -> In v vars;
  dk_cs : forall k c, In (k, GInterval c) d -> lower c <= upper c;
  dk_rs : forall k l c, In (k, GUnion l) d -> In c l -> lower c <= upper c
}.

(** The assignment means what the dictionary says: it assigns a set to exactly the
    variables which the dictionary mentions, and the set holds the labels described. *)
Definition meaning (float : Z -> Z) (vars : list uvar) (d : list (key uvar * arg)) (q : list (nat * mset)) : Prop :=
  NoDup (map fst q) /\ (forall i s, In (i, s) q -> (i < length vars)%nat) /\
  forall i v, nth_error vars i = Some v ->
    ((exists s, In (i, s) q) <-> exists a, said d v a) /\
    forall s a, In (i, s) q -> said d v a -> forall l, told_apart float v a l -> (holds v s l <-> describes float v a l).
